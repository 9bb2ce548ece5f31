(** What the storage left by the kernels with an appended result means. *)
From Coq Require Import List Arith Lia Bool Ring_theory Ring.
Import ListNotations.
From Verif Require Import Outcome Storage StorageProofs IndexExpr Eval EvalProofs Lattice LatticeSpec LatticeProofs LatticeLoop LoopIR Lower Walk
  LowerBase LoopRule Nest Visits DenseKernel DenseKernelProofs DenseValue TreeLevels SparseTree SparseKernel AppendProofs SparseProofs
  SparseNest SparseRun SparseTail SparseSlots SparseFused SparseCompute SparseStore SparsePath.
Local Open Scope nat_scope.
Local Arguments inb : simpl never.

Lemma walk_split : forall l1 l2 x1 x2 p, length x1 = length l1 ->
  walk (l1 ++ l2) p (x1 ++ x2) = match walk l1 p x1 with Some q => walk l2 q x2 | None => None end.
Proof.
  induction l1 as [|lv l1 IH]; destruct x1 as [|x x1]; simpl; intros x2 p L; try discriminate; auto.
  destruct (step lv p x); auto.
Qed.
Lemma wf_dense_tail : forall ds ls n dims k, wf_levels n ls dims k ->
  wf_levels n (ls ++ map LDense ds) (dims ++ ds) (k * fold_right Nat.mul 1 ds).
Proof.
  intros ds ls. induction ls as [|lv ls IH]; intros n dims k H; simpl in H.
  - destruct dims; [|destruct H]. subst k. simpl. revert n. induction ds as [|d ds IHd]; intros n; simpl; [lia|].
    split; auto. rewrite Nat.mul_assoc. apply IHd.
  - destruct lv, dims; try (destruct H; fail); simpl.
    + destruct H as [-> H]. split; auto.
    + destruct H as (H1 & H2 & H3 & H4 & H5 & H6 & H7). do 6 (split; auto).
Qed.

Section Value.
Context {V : Type}.
Variable R : ring_ops V.
Hypothesis HR : ring_theory (r0 R) (r1 R) (radd R) (rmul R) (rsub R) (ropp R) eq.
Add Ring Vring4 : HR.
Variable fn : nat -> V -> V.
Hypothesis fn0 : forall f, fn f (r0 R) = r0 R.
Variable T : nat -> storage V.
Variable dimf : ivar -> nat.
Variable srt : list point -> list point.
Hypothesis SRT : admissible_sort srt.
Notation payload := ((ivar -> nat) * expr V)%type.
Notation denot := (denot R T).
Variable vs : list (ivar * kind).
Variable reduce : bool.
Variable m : nat.
Notation N := (length vs).
Notation cmp := (comp_at_level vs).
Notation W := (W dimf vs).
Notation sv := (sv dimf vs).
Notation D := (sv m).
Notation kvs := (kvs dimf vs m).
Notation outer o := (rev (map fst (firstn o vs))).
Notation lpos := (lpos dimf vs m).
Notation wr := (wr R fn T dimf vs reduce m).
Notation wrs := (wrs R fn T dimf vs reduce m).
Hypothesis ML : m <= N.
Hypothesis M0 : 0 < m.
Hypothesis LAST : cmp (m - 1) = true.
Hypothesis TAIL : forall l, m <= l -> cmp l = false.
Hypothesis NDV : NoDup (map fst vs).
Notation prefix := (map fst (firstn m vs)).
Variable rho0 : ivar -> nat.
Variable e : expr V.
Variable vars2 : list ivar.
Hypothesis ND : NoDup (prefix ++ vars2).
Hypothesis SH : filter (in_res vs) vars2 = map fst (skipn m vs).
Hypothesis HD2 : m < N -> exists rest, vars2 = var_at vs m :: rest.
Hypothesis RED : reduce = false -> forall v, In v vars2 -> in_res vs v = true.
Hypothesis ACC : forall a, In a (accesses e) -> wf_access T dimf (a_tensor a) (a_vars a) /\
     forall pre post, prefix ++ vars2 = pre ++ post -> legal (rev pre) (a_vars a).
Notation tr := (tr T dimf vs m rho0 e).
Notation vis := (vis T dimf vs m rho0 e).
Notation slot := (slot R fn T dimf vs reduce m vars2).
Notation slots_of := (slots_of R fn T dimf vs reduce m vars2).
Notation result := (result R fn T dimf vs reduce m rho0 e vars2).

Lemma nd_rev : NoDup (rev vars2 ++ outer m).
Proof. rewrite <- rev_app_distr. apply NoDup_rev. auto. Qed.
Lemma nd_2 : NoDup vars2.
Proof. apply (nd2 vs m vars2 nd_rev). Qed.
Lemma pacc : forall a, In a (accesses e) -> wf_access T dimf (a_tensor a) (a_vars a) /\
     forall pre post, prefix = pre ++ post -> legal (rev pre ++ []) (a_vars a).
Proof.
  intros a Ha. destruct (ACC a Ha) as [W1 L]. split; auto. intros pre post E. rewrite app_nil_r. apply (L pre (post ++ vars2)).
  rewrite E, app_assoc. auto.
Qed.

(** *** Sums of writes *)
Definition cval (q p : nat) (v : payload) : V := if lpos q (fst v) =? p then eval R fn (denot (fst v)) (snd v) else r0 R.
Lemma wr_at : forall q l v p, p < length l -> nth p (wr q l v) (r0 R) =
  if lpos q (fst v) =? p then (if reduce then radd R (nth p l (r0 R)) (eval R fn (denot (fst v)) (snd v)) else eval R fn (denot (fst v)) (snd v))
  else nth p l (r0 R).
Proof.
  intros q l v p P. unfold SparseTail.wr. destruct (Nat.eqb_spec (lpos q (fst v)) p) as [->|NE].
  - rewrite nth_upd_nth by auto. rewrite Nat.eqb_refl. auto.
  - destruct (Nat.lt_ge_cases (lpos q (fst v)) (length l)) as [LT|GE]; [|rewrite (upd_out vs m ML M0) by auto; auto].
    rewrite nth_upd_nth by auto. destruct (Nat.eqb_spec p (lpos q (fst v))); auto. congruence.
Qed.
Lemma wr_len : forall q l v, length (wr q l v) = length l.
Proof. intros. unfold SparseTail.wr. apply upd_nth_length. Qed.
Lemma wrs_add : reduce = true -> forall q vis l p, p < length l ->
  nth p (wrs q vis l) (r0 R) = radd R (nth p l (r0 R)) (sum_list R (map (cval q p) vis)).
Proof.
  intros RT q. induction vis as [|v vs' IH]; intros l p P; cbn [SparseTail.wrs fold_left map sum_list]; [ring|].
  unfold SparseTail.wrs in IH. rewrite IH by (rewrite wr_len; auto). rewrite wr_at by auto. rewrite RT. unfold cval at 2.
  destruct (lpos q (fst v) =? p); ring.
Qed.
Lemma cval_none : forall q p l, Forall (fun v => lpos q (fst v) <> p) l -> sum_list R (map (cval q p) l) = r0 R.
Proof.
  intros q p l H. induction H as [|v l H1 H IH]; auto. cbn [map sum_list]. rewrite IH. unfold cval. apply Nat.eqb_neq in H1. rewrite H1. ring.
Qed.
Lemma wrs_once : reduce = false -> forall q vis, ForallOrdPairs (fun a b => lpos q (fst a) <> lpos q (fst b)) vis ->
  forall l p, p < length l -> nth p l (r0 R) = r0 R ->
  nth p (wrs q vis l) (r0 R) = sum_list R (map (cval q p) vis).
Proof.
  intros RF q vis FP. induction FP as [|v vs' H FP IH]; intros l p P Z; [auto|].
  cbn [SparseTail.wrs fold_left map sum_list]. unfold SparseTail.wrs in IH. unfold cval at 1.
  destruct (Nat.eqb_spec (lpos q (fst v)) p) as [E|NE].
  - assert (H' : Forall (fun w : payload => lpos q (fst w) <> p) vs').
    { eapply Forall_impl; [|exact H]. simpl. intros w X. congruence. }
    rewrite cval_none by auto. change (fold_left (wr q) vs' (wr q l v)) with (wrs q vs' (wr q l v)).
    rewrite Forall_forall in H'. rewrite (wrs_other R fn T dimf vs reduce m ML M0) by auto. rewrite wr_at by auto. rewrite E, Nat.eqb_refl, RF. ring.
  - rewrite IH; [ring|rewrite wr_len; auto|]. rewrite wr_at by auto. apply Nat.eqb_neq in NE. rewrite NE. auto.
Qed.

(** *** One slot *)
Definition tl (xs : list nat) (rho : ivar -> nat) : bool := eqx (map rho (map fst (skipn m vs))) (skipn m xs).
Lemma tail_nth : forall l, m + l < N -> nth l (map fst (skipn m vs)) 0 = var_at vs (m + l).
Proof.
  intros l L. unfold var_at. rewrite <- (firstn_skipn m vs) at 2. rewrite app_nth2; rewrite firstn_length, Nat.min_l by lia; [|lia].
  replace (m + l - m) with l by lia. change 0 with (fst (0, KDense)) at 1. apply map_nth.
Qed.
Lemma nth_skip : forall (xs : list nat) l, nth l (skipn m xs) 0 = nth (m + l) xs 0.
Proof.
  intros xs. generalize m. clear. induction xs as [|x xs IH]; intros [|m] l; simpl; auto.
  destruct l; auto.
Qed.
Lemma tl_spec : forall xs rho, length xs = N -> (tl xs rho = true <-> forall l, m <= l -> l < N -> rho (var_at vs l) = nth l xs 0).
Proof.
  intros xs rho L. unfold tl. rewrite eqx_true. split.
  - intros E l L1 L2. apply (f_equal (fun k => nth (l - m) k 0)) in E. rewrite nth_skip in E.
    rewrite (nth_indep _ 0 (rho 0)) in E by (rewrite !map_length, skipn_length; lia). rewrite map_nth, tail_nth in E by lia.
    replace (m + (l - m)) with l in E by lia. auto.
  - intros H. apply (nth_ext _ _ 0 0); [rewrite !map_length, !skipn_length; lia|]. intros l L1. rewrite !map_length, skipn_length in L1.
    rewrite nth_skip. rewrite (nth_indep _ 0 (rho 0)) by (rewrite !map_length, skipn_length; lia). rewrite map_nth, tail_nth by lia.
    apply H; lia.
Qed.

Lemma slot_sum : forall q rho1 e1 xs tau, length xs = N -> (forall l, l < N -> nth l xs 0 < W l) ->
  (forall l, m <= l -> l < N -> tau (var_at vs l) = nth l xs 0) ->
  (forall a, In a (accesses e1) -> In a (accesses e)) ->
  slot q (rho1, e1) (lpos q tau) =
  sum_over R dimf vars2 rho1 (fun rho' => if tl xs rho' then eval R fn (denot rho') e1 else r0 R).
Proof.
  intros q rho1 e1 xs tau LX B TA SUB. unfold SparseSlots.slot. cbn [fst snd].
  assert (TB : forall l, m <= l -> l < N -> tau (var_at vs l) < W l) by (intros; rewrite TA; auto).
  destruct (lpos_lt dimf vs m ML M0 TAIL q tau TB) as [P1 P2].
  assert (E : nth (lpos q tau) (wrs q (visits T dimf vars2 rho1 e1) (repeat (r0 R) ((q + 1) * D))) (r0 R) =
    sum_list R (map (cval q (lpos q tau)) (visits T dimf vars2 rho1 e1))).
  { assert (RC : reduce = true \/ reduce = false) by (destruct reduce; auto). destruct RC as [RB|RB].
    - rewrite wrs_add by (auto; rewrite repeat_length; auto). rewrite nth_repeat. ring.
    - apply wrs_once; auto; [|rewrite repeat_length; auto|apply nth_repeat].
      assert (Y := visits_distinct T dimf vars2 rho1 e1 nd_2).
      assert (RG : forall v, In v (visits T dimf vars2 rho1 e1) -> forall l, m <= l -> l < N -> fst v (var_at vs l) < W l).
      { intros v Hv l L1 L2. apply (visits_range T dimf vs m ML M0 _ _ _ _ nd_2 Hv). apply (tail_in fn (fun _ => r0 R) (fun _ => 0) 0 vs m ML M0 vars2 SH HD2); auto. }
      induction Y as [|v w H Y IH]; constructor.
      + apply Forall_forall. intros b Hb E. rewrite Forall_forall in H. destruct (H b Hb) as (i & Hi & NE). apply NE.
        apply lpos_inj in E; auto; [|apply RG; simpl; auto|apply RG; simpl; auto].
        destruct E as [_ E].
        assert (F : In i (filter (in_res vs) vars2)) by (apply filter_In; auto). rewrite SH in F.
        apply In_nth with (d := 0) in F. destruct F as (j & J & EJ). rewrite map_length, skipn_length in J.
        rewrite <- EJ, tail_nth by lia. apply E; lia.
      + apply IH. intros b Hb. apply RG. simpl. auto. }
  rewrite E. unfold cval.
  rewrite (visits_sum R fn T dimf HR fn0 vars2 (outer m) rho1 e1 (fun rho => lpos q rho =? lpos q tau)).
  - apply (sum_over_range R dimf vars2 []); [|apply nd_2|intros v Hv []]. intros rho' _ RG.
    assert (EQ : (lpos q rho' =? lpos q tau) = tl xs rho'); [|rewrite EQ; auto].
    apply eq_true_iff_eq. rewrite Nat.eqb_eq, tl_spec by auto. split.
    + intros Q. apply lpos_inj in Q; auto.
      * destruct Q as [_ Q]. intros l L1 L2. rewrite Q, TA; auto.
      * intros l L1 L2. apply RG. apply (tail_in fn (fun _ => r0 R) (fun _ => 0) 0 vs m ML M0 vars2 SH HD2); auto.
    + intros Q. unfold SparseTail.lpos. apply pp_ext. intros j J. rewrite Q, TA by lia. auto.
  - intros a Ha. destruct (ACC a (SUB a Ha)) as [W1 L]. split; auto. intros pre post EP.
    specialize (L (prefix ++ pre) post). rewrite rev_app_distr in L. apply L. rewrite EP, app_assoc. auto.
  - apply nd_rev.
Qed.

(** *** Levels *)
Lemma ends : ends_comp (firstn m vs).
Proof. assert (Y := rs_ends vs m ML M0 LAST 0 M0). auto. Qed.
Lemma pre_leaves : leaves kvs [tr] = vis.
Proof. apply (leaves_build T dimf (firstn m vs) rho0 e). right. apply ends. Qed.
Lemma pre_at : forall l, l < m -> var_at (firstn m vs) l = var_at vs l.
Proof.
  intros l L. unfold var_at. rewrite <- (firstn_skipn m vs) at 2. rewrite app_nth1; auto. rewrite firstn_length. lia.
Qed.
Lemma walk_tail : forall xs tau q k, length xs = N -> (forall l, m <= l -> l < N -> nth l xs 0 < W l) ->
  (forall l, m <= l -> l < N -> tau (var_at vs l) = nth l xs 0) -> k <= N - m ->
  walk (map (fun l => LDense (W l)) (seq m (N - m))) q (firstn k (skipn m xs)) = Some (pp dimf vs m q tau k).
Proof.
  intros xs tau q k LX B TA. induction k as [|k IH]; intros K; [auto|].
  assert (LK : length (firstn k (skipn m xs)) = k) by (rewrite firstn_length, skipn_length; lia).
  assert (E : firstn (S k) (skipn m xs) = firstn k (skipn m xs) ++ [nth (m + k) xs 0]).
  { rewrite <- nth_skip. assert (KL : k < length (skipn m xs)) by (rewrite skipn_length; lia).
    revert KL. generalize (skipn m xs). clear. induction k; intros [|x l] KL; simpl in *; try lia; auto. f_equal. apply IHk. lia. }
  rewrite E, (walk_snoc _ _ _ _ (LDense (W (m + k)))); [rewrite IH by lia|].
  - cbn [step pp]. assert (X : (nth (m + k) xs 0 <? W (m + k)) = true) by (apply Nat.ltb_lt; apply B; lia).
    rewrite X. rewrite TA by lia. auto.
  - rewrite LK. rewrite nth_error_map. rewrite (nth_error_nth' _ 0) by (rewrite seq_length; lia). rewrite seq_nth by lia. auto.
Qed.

(** Where a coordinate is stored. *)
Lemma result_locate : forall xs tau, length xs = N -> (forall l, l < N -> nth l xs 0 < W l) ->
  (forall l, m <= l -> l < N -> tau (var_at vs l) = nth l xs 0) ->
  match path T (firstn m vs) rho0 e (firstn m xs) with
  | Some v => exists q, locate (st_levels result) 0 xs = Some (lpos q tau) /\ nth_error vis q = Some v
  | None => locate (st_levels result) 0 xs = None
  end.
Proof.
  intros xs tau LX B TA. cbn [SparseStore.result st_levels].
  assert (KL := kvs_len dimf vs m ML M0).
  assert (LL : length (levels kvs [tr]) = m).
  { assert (X := wf_length _ _ _ _ (levels_wf kvs [tr] (Forall_cons _ (tr_good T dimf vs m rho0 e) (Forall_nil _)))).
    rewrite map_length in X. lia. }
  assert (WS : locate (levels kvs [tr] ++ map (fun l => LDense (W l)) (seq m (N - m))) 0 xs =
    match walk (levels kvs [tr]) 0 (firstn m xs) with
    | Some q => walk (map (fun l => LDense (W l)) (seq m (N - m))) q (skipn m xs) | None => None end).
  { rewrite locate_walk by (rewrite app_length, map_length, seq_length; lia).
    rewrite <- (firstn_skipn m xs) at 1. apply walk_split. rewrite firstn_length; lia. }
  rewrite WS. clear WS.
  assert (LW := levels_walk kvs [tr] 0 tr (firstn m xs) (Forall_cons _ (tr_good T dimf vs m rho0 e) (Forall_nil _)) eq_refl ltac:(rewrite firstn_length; lia)).
  assert (LB := look_build T dimf (firstn m vs) rho0 e (firstn m xs) (or_intror ends) ltac:(rewrite !firstn_length; lia)).
  change (look (ks_of dimf (firstn m vs)) (build T dimf (firstn m vs) rho0 e) (firstn m xs)) with (look kvs tr (firstn m xs)) in LB.
  rewrite LB in LW.
  - destruct (walk (levels kvs [tr]) 0 (firstn m xs)) as [q|].
    + destruct LW as (v & V1 & V2). rewrite V2. exists q. rewrite pre_leaves in V1. split; auto.
      assert (WT := walk_tail xs tau q (N - m) LX ltac:(intros; apply B; lia) TA (le_n _)).
      rewrite firstn_all2 in WT by (rewrite skipn_length; lia). exact WT.
    + rewrite LW. auto.
  - intros l L. rewrite firstn_length, Nat.min_l in L by lia. rewrite pre_at by auto.
    assert (X : nth l (firstn m xs) 0 = nth l xs 0).
    { rewrite <- (firstn_skipn m xs) at 2. rewrite app_nth1; auto. rewrite firstn_length. lia. }
    rewrite X. apply B. lia.
Qed.

Lemma slots_at : forall q v tau, nth_error vis q = Some v -> (forall l, m <= l -> l < N -> tau (var_at vs l) < W l) ->
  nth (lpos q tau) (slots_of vis) (r0 R) = slot q v (lpos q tau).
Proof.
  intros q v tau NE TB. destruct (lpos_lt dimf vs m ML M0 TAIL q tau TB) as [P1 P2].
  assert (QL : q < length vis) by (apply nth_error_Some; congruence).
  assert (D0 : D <> 0) by (intros Z; rewrite Z in *; lia).
  assert (QD : (q + 1) * D <= length vis * D) by (apply Nat.mul_le_mono_r; lia).
  unfold SparseSlots.slots_of.
  set (f := fun p => match nth_error vis (p / D) with Some v => slot (p / D) v p | None => r0 R end).
  rewrite (nth_indep (map f (seq 0 (length vis * D))) (r0 R) (f 0)) by (rewrite map_length, seq_length; lia). rewrite map_nth.
  rewrite seq_nth by lia. cbn [Nat.add]. unfold f.
  assert (PQ : lpos q tau / D = q).
  { symmetry. apply Nat.div_unique with (r := lpos q tau - q * D); lia. }
  rewrite PQ, NE. auto.
Qed.

Lemma split_tail : map fst vs = prefix ++ map fst (skipn m vs).
Proof. rewrite <- map_app, firstn_skipn. auto. Qed.

Theorem result_value : forall xs, length xs = N -> (forall l, l < N -> nth l xs 0 < W l) ->
  value_at (r0 R) result xs =
  sum_over R dimf (prefix ++ vars2) rho0
    (fun rho' => if eqx (map rho' (map fst vs)) xs then eval R fn (denot rho') e else r0 R).
Proof.
  intros xs LX B.
  transitivity (sum_over R dimf (prefix ++ vars2) rho0
    (fun rho' => if eqx (map rho' prefix) (firstn m xs) && tl xs rho' then eval R fn (denot rho') e else r0 R)).
  2:{ apply (sum_over_ext R dimf _ []); auto. intros rho' _. rewrite split_tail, map_app.
    rewrite <- (firstn_skipn m xs) at 3. rewrite eqx_app; auto. rewrite !map_length, !firstn_length. lia. }
  rewrite (path_sum R HR fn fn0 T dimf (firstn m vs) vars2 [] rho0 e (firstn m xs) (tl xs)).
  - set (tau := fun i => match index_of i vs with Some l => nth l xs 0 | None => 0 end).
    assert (TA : forall l, m <= l -> l < N -> tau (var_at vs l) = nth l xs 0).
    { intros l L1 L2. unfold tau. rewrite (idx_at vs NDV l) by auto. auto. }
    assert (RL := result_locate xs tau LX B TA). unfold value_at.
    destruct (path T (firstn m vs) rho0 e (firstn m xs)) as [[rho1 e1]|] eqn:P.
    + destruct RL as (q & -> & NE). cbn [SparseStore.result st_vals].
      rewrite (slots_at q (rho1, e1)) by (auto; intros; rewrite TA by auto; auto).
      apply slot_sum; auto. rewrite (path_zero T dimf (firstn m vs) [] rho0 e (firstn m xs)) in P.
      * destruct (zero _ e) eqn:ZE; [|discriminate]. inversion P; subst. intros a Ha. apply (zero_accesses _ _ _ ZE a Ha).
      * apply pacc.
      * rewrite app_nil_r. apply NoDup_rev. apply nodup_app_l in ND. auto.
      * rewrite !firstn_length. lia.
    + rewrite RL. auto.
  - intros a Ha. destruct (pacc a Ha). auto.
  - rewrite app_nil_r. apply NoDup_rev. auto.
  - rewrite !firstn_length. lia.
  - intros l L. rewrite firstn_length, Nat.min_l in L by lia. rewrite pre_at by auto.
    assert (X : nth l (firstn m xs) 0 = nth l xs 0).
    { rewrite <- (firstn_skipn m xs) at 2. rewrite app_nth1; auto. rewrite firstn_length. lia. }
    rewrite X. apply B. lia.
Qed.

(** *** Which coordinates are stored *)
Theorem result_stores : forall xs, length xs = N -> (forall l, l < N -> nth l xs 0 < W l) ->
  (locate (st_levels result) 0 xs <> None <->
   zero (pmiss T prefix (bind_all (firstn m vs) rho0 (firstn m xs))) e <> None).
Proof.
  intros xs LX B.
  set (tau := fun i => match index_of i vs with Some l => nth l xs 0 | None => 0 end).
  assert (TA : forall l, m <= l -> l < N -> tau (var_at vs l) = nth l xs 0).
  { intros l L1 L2. unfold tau. rewrite (idx_at vs NDV l) by auto. auto. }
  assert (RL := result_locate xs tau LX B TA).
  rewrite (path_zero T dimf (firstn m vs) [] rho0 e (firstn m xs)) in RL.
  - destruct (zero _ e) as [e1|].
    + destruct RL as (q & -> & _). split; congruence.
    + rewrite RL. tauto.
  - apply pacc.
  - rewrite app_nil_r. apply NoDup_rev. apply nodup_app_l in ND. auto.
  - rewrite !firstn_length. lia.
Qed.

(** *** The storage is well formed *)
Lemma sv_prod : forall d l, d = N - l -> m <= l -> l <= N -> fold_right Nat.mul 1 (map W (seq l d)) = sv l.
Proof.
  induction d; intros l E L1 L2.
  - assert (l = N) by lia. subst l. rewrite sv_end. auto.
  - cbn [seq map fold_right]. rewrite IHd by lia. rewrite (sv_step dimf vs l) by lia. rewrite TAIL by auto. auto.
Qed.
Theorem result_wf : wf_storage (map dimf (map fst vs)) result.
Proof.
  unfold wf_storage. cbn [SparseStore.result st_levels st_vals].
  assert (G : Forall (good kvs) [tr]) by (constructor; [apply tr_good|constructor]).
  assert (X := levels_wf kvs [tr] G). rewrite pre_leaves in X.
  assert (Y := wf_dense_tail (map W (seq m (N - m))) _ _ _ _ X). rewrite sv_prod in Y by lia.
  rewrite map_map in Y. unfold SparseSlots.slots_of. rewrite map_length, seq_length.
  assert (E : map snd kvs ++ map W (seq m (N - m)) = map dimf (map fst vs)); [|rewrite <- E; exact Y].
  rewrite split_tail, map_app. f_equal.
  - unfold SparseProofs.kvs, ks_of. rewrite !map_map. auto.
  - apply (nth_ext _ _ 0 0).
    + rewrite !map_length, seq_length, skipn_length. lia.
    + intros k K. rewrite map_length, seq_length in K.
      rewrite (nth_indep _ 0 (W 0)) by (rewrite map_length, seq_length; lia). rewrite map_nth, seq_nth by lia.
      rewrite (nth_indep _ 0 (dimf 0)) by (rewrite !map_length, skipn_length; lia). rewrite map_nth, tail_nth by lia. auto.
Qed.

(** *** Nothing stays unwritten when no compressed operand is under the dense levels *)
Lemma no_inserts : NoDup (accesses e) -> (forall a, In a (accesses e) -> NoDup (map fst (a_vars a))) ->
  sparse_dense_inserts srt vs (prefix ++ vars2) e || reduce = false ->
  forall i a l, In i vars2 -> In a (accesses e) -> find_level i a = Some l -> level_kind a l = KDense.
Proof.
  intros LIN NDA ZR i a l Hi Ha F. apply orb_false_iff in ZR. destruct ZR as [SI RF].
  destruct (level_kind a l) eqn:K; auto. exfalso.
  assert (LS : loopsem i e (makeLattice srt i e)) by (apply loopsem_of_sem, sem_build; auto).
  assert (TOP : In (Lev a l) (lat_iters (makeLattice srt i e))).
  { assert (HD : In (hd pt0 (makeLattice srt i e)) (makeLattice srt i e)).
    { assert (NE := loop_nonempty i e _ LS). destruct (makeLattice srt i e); [congruence|]. simpl; auto. }
    apply (region_comp _ _ _ _ _ (ls_wf _ _ _ LS _ HD) K).
    apply (top_region i e _ LS). apply reg_all; auto. }
  rewrite <- not_true_iff_false in SI. apply SI. apply existsb_exists. exists i. split; [apply in_app_iff; auto|].
  apply andb_true_intro. split; [|apply existsb_exists; exists (Lev a l); auto].
  assert (X : In i (filter (in_res vs) vars2)) by (apply filter_In; auto). rewrite SH in X.
  apply In_nth with (d := 0) in X. destruct X as (j & J & EJ). rewrite map_length, skipn_length in J.
  rewrite tail_nth in EJ by lia. rewrite <- EJ, (idx_at vs NDV) by lia. rewrite TAIL by lia. auto.
Qed.
End Value.
