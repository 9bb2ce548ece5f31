(** The values of an appended result, position by position of its last
    compressed level. *)
From Coq Require Import List Arith Lia Bool.
Import ListNotations.
From Verif Require Import Outcome Storage StorageProofs IndexExpr Eval Lattice LatticeSpec LatticeLoop LoopIR Lower Walk
  LowerBase LoopRule Nest Visits DenseKernel DenseKernelProofs TreeLevels SparseTree SparseKernel AppendProofs SparseProofs
  SparseNest SparseRun SparseTail.
Local Open Scope nat_scope.
Local Arguments inb : simpl never.

(** Nests with the same code around the same loops are the same. *)
Lemma lower_hooks_ext : forall (V : Type) srt dimf (H H' : @hooks V) vars bound e,
  (forall b i, In i vars -> hk_pre H b i = hk_pre H' b i /\ hk_enter H b i = hk_enter H' b i /\
     hk_exit H b i = hk_exit H' b i /\ hk_post H b i = hk_post H' b i) ->
  (forall e, hk_leaf H e = hk_leaf H' e) ->
  lower srt dimf H vars bound e = lower srt dimf H' vars bound e.
Proof.
  intros V srt dimf H H' vars. induction vars as [|i vars IH]; intros bound e E L; [apply L|].
  cbn [lower]. unfold lower_forall. destruct (E bound i) as (-> & -> & -> & ->); [simpl; auto|].
  rewrite (loop_code_ext srt dimf i bound e _ (lower srt dimf H vars (i :: bound)) (lower srt dimf H' vars (i :: bound))); auto.
  intros e'. apply IH; auto. intros b j J. apply E. simpl. auto.
Qed.

Section Slots.
Context {V : Type}.
Variable R : ring_ops V.
Variable fn : nat -> V -> V.
Variable T : nat -> storage V.
Variable junkV : nat -> V.
Variable junkI : nat -> nat.
Variable dimf : ivar -> nat.
Variable srt : list point -> list point.
Hypothesis SRT : admissible_sort srt.
Notation exec := (exec R fn T junkV junkI).
Notation ieval := (ieval T).
Notation payload := ((ivar -> nat) * expr V)%type.
Variable n tres : nat.
Variable vs : list (ivar * kind).
Variable reduce zinit : bool.
Variable m : nat.
Notation N := (length vs).
Notation cmp := (comp_at_level vs).
Notation W := (W dimf vs).
Notation sv := (sv dimf vs).
Notation D := (sv m).
Notation lpos := (lpos dimf vs m).
Notation wr := (wr R fn T dimf vs reduce m).
Notation wrs := (wrs R fn T dimf vs reduce m).
Notation outer o := (rev (map fst (firstn o vs))).
Hypothesis ML : m <= N.
Hypothesis M0 : 0 < m.
Hypothesis TAIL : forall l, m <= l -> cmp l = false.
Hypothesis NDV : NoDup (map fst vs).
Hypothesis DW : forall l, l < N -> cmp l = false -> nth_error (st_levels (T tres)) l = Some (LDense (W l)).

(** *** Writes *)
Lemma upd_out : forall A (l : list A) k v, length l <= k -> upd_nth l k v = l.
Proof. induction l; destruct k; simpl; intros; auto; try lia. f_equal. apply IHl. lia. Qed.

Lemma wr_local : forall q v l l' p, p < length l -> p < length l' -> nth p l (r0 R) = nth p l' (r0 R) ->
  nth p (wr q l v) (r0 R) = nth p (wr q l' v) (r0 R).
Proof.
  intros q v l l' p P P' E. unfold SparseTail.wr. set (x := lpos q (fst v)).
  destruct (Nat.eq_dec x p) as [->|NE].
  - rewrite !nth_upd_nth by auto. rewrite Nat.eqb_refl, E. auto.
  - assert (U : forall (l : list V) y, nth p (upd_nth l x y) (r0 R) = nth p l (r0 R)).
    { intros k y. destruct (Nat.lt_ge_cases x (length k)) as [LT|GE]; [|rewrite upd_out by auto; auto].
      rewrite nth_upd_nth by auto. destruct (p =? x) eqn:X; auto. apply Nat.eqb_eq in X. congruence. }
    rewrite !U. auto.
Qed.
Lemma wrs_local : forall q vis l l' p, p < length l -> p < length l' -> nth p l (r0 R) = nth p l' (r0 R) ->
  nth p (wrs q vis l) (r0 R) = nth p (wrs q vis l') (r0 R).
Proof.
  induction vis as [|v vis IH]; intros l l' p P P' E; auto.
  cbn [SparseTail.wrs fold_left]. apply IH.
  - unfold SparseTail.wr. rewrite upd_nth_length. auto.
  - unfold SparseTail.wr. rewrite upd_nth_length. auto.
  - apply wr_local; auto.
Qed.
Lemma wrs_other : forall q vis l p, (forall v, In v vis -> lpos q (fst v) <> p) ->
  nth p (wrs q vis l) (r0 R) = nth p l (r0 R).
Proof.
  induction vis as [|v vis IH]; intros l p H; auto.
  cbn [SparseTail.wrs fold_left]. unfold SparseTail.wrs in IH. rewrite IH by (intros; apply H; simpl; auto).
  unfold SparseTail.wr. assert (NE := H v (or_introl eq_refl)). set (x := lpos q (fst v)) in *.
  destruct (Nat.lt_ge_cases x (length l)) as [LT|GE]; [|rewrite upd_out by auto; auto].
  rewrite nth_upd_nth by auto. destruct (p =? x) eqn:X; auto. apply Nat.eqb_eq in X. congruence.
Qed.
Lemma wrs_set : forall q vis l l' p, reduce = false -> p < length l -> p < length l' ->
  (exists v, In v vis /\ lpos q (fst v) = p) -> nth p (wrs q vis l) (r0 R) = nth p (wrs q vis l') (r0 R).
Proof.
  induction vis as [|v vis IH]; intros l l' p RF P P' (w & HW & EW); [destruct HW|].
  cbn [SparseTail.wrs fold_left].
  assert (LL : length (wr q l v) = length l /\ length (wr q l' v) = length l').
  { unfold SparseTail.wr. rewrite !upd_nth_length. auto. }
  destruct (Nat.eq_dec (lpos q (fst v)) p) as [E|NE].
  - apply wrs_local; try lia. unfold SparseTail.wr. rewrite E, RF, !nth_upd_nth by auto. rewrite Nat.eqb_refl. auto.
  - destruct HW as [->|HW]; [congruence|]. apply IH; auto; try lia. eauto.
Qed.

(** *** Visits *)
Lemma visits_ext : forall vars rho e v, In v (visits T dimf vars rho e) -> forall j, ~ In j vars -> fst v j = rho j.
Proof.
  induction vars as [|i vars IH]; intros rho e v H j J; simpl in H.
  - destruct H as [<-|[]]. auto.
  - apply in_flat_map in H. destruct H as (c & _ & H). destruct (restrict i (stored T rho i c) e) as [e'|]; [|destruct H].
    rewrite (IH _ _ _ H j) by (intros X; apply J; simpl; auto). apply upd_neq. intros ->. apply J. simpl. auto.
Qed.
Lemma visits_range : forall vars rho e v, NoDup vars -> In v (visits T dimf vars rho e) ->
  forall i, In i vars -> fst v i < dimf i.
Proof.
  induction vars as [|i vars IH]; intros rho e v ND H j J; [destruct J|]. simpl in H. inversion ND; subst.
  apply in_flat_map in H. destruct H as (c & HC & H). apply in_seq in HC.
  destruct (restrict i (stored T rho i c) e) as [e'|]; [|destruct H].
  destruct J as [<-|J]; [|eapply IH; eauto]. rewrite (visits_ext _ _ _ _ H) by auto. rewrite upd_eq. lia.
Qed.

(** *** Operands *)
Variable vars2 : list ivar.
Hypothesis ND2 : NoDup (rev vars2 ++ outer m).
Hypothesis SH : filter (in_res vs) vars2 = map fst (skipn m vs).
Hypothesis HD2 : m < N -> exists rest, vars2 = var_at vs m :: rest.
Hypothesis RED : reduce = false -> forall v, In v vars2 -> in_res vs v = true.

Definition EOK (e : expr V) : Prop :=
  NoDup (accesses e) /\
  (forall a, In a (accesses e) -> wf_access T dimf (a_tensor a) (a_vars a) /\
     (forall pre post, vars2 = pre ++ post -> legal (rev pre ++ outer m) (a_vars a)) /\
     covers (rev vars2 ++ outer m) (a_vars a)) /\
  (zinit || reduce = false -> forall i a l, In i vars2 -> In a (accesses e) -> find_level i a = Some l ->
     level_kind a l = KDense).
Lemma EOKR : forall i z e e', EOK e -> restrict i z e = Some e' -> EOK e'.
Proof.
  intros i z e e' (E1 & E2 & E3) RS. assert (Z := zero_accesses _ _ _ RS). split; [|split].
  - eapply zero_linear; eauto.
  - intros a Ha. apply E2, Z. auto.
  - intros X j a l J Ha F. eapply E3; eauto. apply Z. auto.
Qed.

Lemma nd2 : NoDup vars2.
Proof. apply nodup_app_l in ND2. apply NoDup_rev in ND2. rewrite rev_involutive in ND2. auto. Qed.
Lemma tail_in : forall l, m <= l -> l < N -> In (var_at vs l) vars2.
Proof.
  intros l L1 L2. assert (X : In (var_at vs l) (filter (in_res vs) vars2)).
  { rewrite SH. unfold var_at. apply in_map. replace l with (m + (l - m)) by lia.
    rewrite <- (firstn_skipn m vs) at 1. rewrite app_nth2; rewrite firstn_length, Nat.min_l by lia; [|lia].
    apply nth_In. rewrite skipn_length. lia. }
  apply filter_In in X. tauto.
Qed.
Lemma slot_range : forall q rho e v, In v (visits T dimf vars2 rho e) ->
  q * D <= lpos q (fst v) /\ lpos q (fst v) < (q + 1) * D.
Proof.
  intros q rho e v H. apply (lpos_lt dimf vs m ML M0 TAIL). intros l L1 L2.
  apply (visits_range _ _ _ _ nd2 H). apply tail_in; auto.
Qed.

(** Without reduction and without compressed operands under the loops of the
    dense levels, every position is written. *)
Lemma full_visits : forall vars e, (forall i a l, In i vars -> In a (accesses e) -> find_level i a = Some l -> level_kind a l = KDense) ->
  forall rho tau, (forall i, In i vars -> tau i < dimf i) -> NoDup vars ->
  exists v, In v (visits T dimf vars rho e) /\ forall i, In i vars -> fst v i = tau i.
Proof.
  induction vars as [|i vars IH]; intros e NC rho tau H ND.
  - exists (rho, e). split; [simpl; auto|]. intros i [].
  - inversion ND; subst. destruct (IH e) with (rho := upd rho i (tau i)) (tau := tau) as (v & V1 & V2); auto.
    { intros j a l J. apply NC. simpl; auto. }
    { intros j J. apply H. simpl; auto. }
    exists v. split.
    + cbn [visits]. apply in_flat_map. exists (tau i). split; [apply in_seq; split; [lia|apply H; simpl; auto]|].
      assert (RS : restrict i (stored T rho i (tau i)) e = Some e).
      { apply zero_nothing'. intros a Ha. unfold absent, compressed. destruct (find_level i a) as [l|] eqn:F; auto.
        rewrite (NC i a l); auto. simpl; auto. }
      rewrite RS. auto.
    + intros j [<-|J]; auto. rewrite (visits_ext _ _ _ _ V1) by auto. apply upd_eq.
Qed.
Lemma slot_full : forall q rho e p, EOK e -> zinit || reduce = false -> q * D <= p -> p < (q + 1) * D ->
  exists v, In v (visits T dimf vars2 rho e) /\ lpos q (fst v) = p.
Proof.
  intros q rho e p (E1 & E2 & E3) ZR P1 P2.
  destruct (lpos_surj dimf vs m ML M0 TAIL NDV p (q + 1) P2) as (q' & tau & Q & B & ->).
  assert (QQ : q' = q).
  { destruct (lpos_lt dimf vs m ML M0 TAIL q' tau B) as [A1 A2]. destruct (Nat.eq_dec q' q); auto. assert (q' + 1 <= q) by lia.
    assert ((q' + 1) * D <= q * D) by (apply Nat.mul_le_mono_r; auto). lia. }
  rewrite QQ in *. apply orb_false_iff in ZR. destruct ZR as [Z1 Z2].
  destruct (full_visits vars2 e) with (rho := rho) (tau := tau) as (v & V1 & V2).
  - apply E3. rewrite Z1, Z2. auto.
  - intros i I. specialize (RED Z2 i I). assert (F : In i (filter (in_res vs) vars2)) by (apply filter_In; auto).
    rewrite SH in F. apply in_map_iff in F. destruct F as (x & EX & F). apply In_nth with (d := (0, KDense)) in F.
    destruct F as (j & J & EJ). rewrite skipn_length in J.
    assert (VI : var_at vs (m + j) = i).
    { unfold var_at. rewrite <- EX, <- EJ. f_equal. rewrite <- (firstn_skipn m vs) at 1.
      rewrite app_nth2; rewrite firstn_length, Nat.min_l by lia; [|lia]. f_equal. lia. }
    rewrite <- VI. apply B; lia.
  - apply nd2.
  - exists v. split; auto. unfold SparseTail.lpos. apply pp_ext. intros j J. apply V2. apply tail_in; lia.
Qed.

(** *** Slots *)
Lemma D_end : m = N -> D = 1.
Proof. intros ->. apply sv_end. Qed.
(** The value at position [p] of the [k]-th block, computed from zeros. *)
Definition slot (k : nat) (v : payload) (p : nat) : V :=
  nth p (wrs k (visits T dimf vars2 (fst v) (snd v)) (repeat (r0 R) ((k + 1) * D))) (r0 R).
Definition stored_vals (gl : list payload) (l : list V) : Prop :=
  length gl * D <= length l /\
  forall k v p, nth_error gl k = Some v -> k * D <= p -> p < (k + 1) * D -> nth p l (r0 R) = slot k v p.

Lemma stored_snoc : forall gl l l1 rho e, stored_vals gl l -> EOK e ->
  (forall p, p < length gl * D -> nth p l1 (r0 R) = nth p l (r0 R)) ->
  (length gl + 1) * D <= length l1 ->
  (forall p, length gl * D <= p -> p < (length gl + 1) * D -> nth p l1 (r0 R) = r0 R) \/ zinit || reduce = false \/
    (m = N /\ reduce = false) ->
  stored_vals (gl ++ [(rho, e)]) (wrs (length gl) (visits T dimf vars2 rho e) l1).
Proof.
  intros gl l l1 rho e [S1 S2] OK AG LN ZR. split.
  - rewrite app_length, wrs_length. simpl. auto.
  - intros k v p NE P1 P2.
    assert (KL : k < length (gl ++ [(rho, e)])) by (apply nth_error_Some; congruence). rewrite app_length in KL. simpl in KL.
    destruct (Nat.eq_dec k (length gl)) as [->|NK].
    + rewrite nth_error_app2, Nat.sub_diag in NE by auto. inversion NE; subst v. unfold slot. cbn [fst snd].
      destruct ZR as [ZR|[E|[MN RF]]].
      * apply wrs_local; [lia|rewrite repeat_length; lia|]. rewrite nth_repeat. auto.
      * destruct (slot_full (length gl) rho e p OK E P1 P2) as (v & V1 & V2).
        apply orb_false_iff in E. apply wrs_set; [tauto|lia|rewrite repeat_length; lia|eauto].
      * assert (V2 : vars2 = []).
        { destruct vars2 as [|v w] eqn:E2; auto. assert (X := RED RF v (or_introl eq_refl)). exfalso.
          revert SH. rewrite MN, skipn_all. simpl. rewrite X. discriminate. }
        rewrite V2. apply wrs_set; [auto|lia|rewrite repeat_length; lia|]. exists (rho, e). split; [simpl; auto|].
        unfold SparseTail.lpos. rewrite MN, Nat.sub_diag. simpl. rewrite (D_end MN) in *. lia.
    + rewrite nth_error_app1 in NE by lia.
      assert (KD : (k + 1) * D <= length gl * D) by (apply Nat.mul_le_mono_r; lia).
      rewrite wrs_other.
      * rewrite AG by lia. apply S2; auto.
      * intros v' HV E. destruct (slot_range (length gl) _ _ _ HV). lia.
Qed.
Lemma stored_ext : forall gl l l', length gl * D <= length l' ->
  (forall p, p < length gl * D -> nth p l' (r0 R) = nth p l (r0 R)) -> stored_vals gl l -> stored_vals gl l'.
Proof.
  intros gl l l' L E [S1 S2]. split; auto. intros k v p NE P1 P2. rewrite E; auto.
  assert (KL : k < length gl) by (apply nth_error_Some; congruence).
  assert (KD : (k + 1) * D <= length gl * D) by (apply Nat.mul_le_mono_r; lia). lia.
Qed.

(** The values, as a list. *)
Definition slots_of (gl : list payload) : list V :=
  map (fun p => match nth_error gl (p / D) with Some v => slot (p / D) v p | None => r0 R end) (seq 0 (length gl * D)).
Lemma stored_slots : forall gl l, stored_vals gl l -> firstn (length gl * D) l = slots_of gl.
Proof.
  intros gl l [S1 S2]. apply (nth_ext _ _ (r0 R) (r0 R)).
  - unfold slots_of. rewrite firstn_length, map_length, seq_length. lia.
  - intros p P. rewrite firstn_length in P.
    assert (E1 : nth p (firstn (length gl * D) l) (r0 R) = nth p l (r0 R)).
    { rewrite <- (firstn_skipn (length gl * D) l) at 2. rewrite app_nth1; auto. rewrite firstn_length. auto. }
    rewrite E1. unfold slots_of.
    set (f := fun p => match nth_error gl (p / D) with Some v => slot (p / D) v p | None => r0 R end).
    rewrite (nth_indep (map f (seq 0 (length gl * D))) (r0 R) (f 0)) by (rewrite map_length, seq_length; lia). rewrite map_nth.
    rewrite seq_nth by lia. simpl. unfold f.
    assert (D0 : D <> 0) by (intros Z; rewrite Z in P; lia).
    assert (PD : p / D < length gl) by (apply Nat.div_lt_upper_bound; lia).
    destruct (nth_error gl (p / D)) as [v|] eqn:NE; [|apply nth_error_None in NE; lia].
    assert (DM := Nat.div_mod p D D0). assert (MB := Nat.mod_upper_bound p D D0).
    apply S2; auto; lia.
Qed.

(** *** The kernel that assembles and computes *)
Definition VA (gl : list payload) (st : state V) : Prop :=
  env st v_cap = Some (length (vbuf st n)) /\ 1 <= length (vbuf st n) /\ stored_vals gl (vbuf st n).
Definition VE (gl : list payload) (st : state V) : Prop :=
  VA gl st /\ (m = N -> length gl < length (vbuf st n) /\ (reduce = true -> nth (length gl) (vbuf st n) (r0 R) = r0 R)).
Definition fleaf (e : expr V) : stmt V :=
  lower srt dimf (sparse_hooks R n tres vs reduce zinit true true) vars2 (outer m) e.

Lemma VAF : forall gl st st', vbuf st' n = vbuf st n -> env st' v_cap = env st v_cap -> VA gl st -> VA gl st'.
Proof. unfold VA. intros gl st st' -> ->. auto. Qed.
Lemma VEF : forall gl st st', vbuf st' n = vbuf st n -> env st' v_cap = env st v_cap -> VE gl st -> VE gl st'.
Proof. unfold VE, VA. intros gl st st' -> ->. auto. Qed.

Lemma leaf_last : leaf_level vs (m - 1) = (m =? N).
Proof. unfold leaf_level. replace (S (m - 1)) with m by lia. auto. Qed.

Lemma ENTERV : forall gl st, VA gl st -> env st (VRes (m - 1)) = Some (length gl) ->
  exists st', exec (if leaf_level vs (m - 1) then vals_enter R n vs reduce true true else Skip) st st' /\
    touch (eq v_cap) none (eq n) st st' /\ VE gl st'.
Proof.
  intros gl st (A1 & A2 & A3) E. rewrite leaf_last. destruct (Nat.eqb_spec m N) as [MN|MN].
  - assert (D1 := D_end MN). assert (A3' := A3). destruct A3' as [A4 A5]. rewrite D1, Nat.mul_1_r in A4.
    unfold vals_enter. rewrite <- MN.
    destruct (double_v_ok R fn T junkV junkI n v_cap (IVar (VRes (m - 1))) st (length (vbuf st n)) (length gl))
      as (s1 & x & X1 & T1 & B1 & C1 & P1); auto; [lia|].
    assert (AG : forall p, p < length gl * D -> nth p (vbuf s1 n) (r0 R) = nth p (vbuf st n) (r0 R)).
    { intros p P. rewrite B1, app_nth1 by lia. auto. }
    destruct reduce eqn:RB.
    + exists (setV s1 n (upd_nth (vbuf s1 n) (length gl) (r0 R))). split; [|split].
      * econstructor; [exact X1|]. econstructor; [|reflexivity|auto].
        cbn [LoopIR.ieval]. rewrite (proj1 T1) by (intros X; discriminate X). auto.
      * eapply touch_trans; [exact T1|]. apply touch_setV. auto.
      * split; [split; [|split]|].
        -- simpl. rewrite Nat.eqb_refl, upd_nth_length. auto.
        -- simpl. rewrite Nat.eqb_refl, upd_nth_length. lia.
        -- cbn [setV vbuf]. rewrite Nat.eqb_refl. eapply stored_ext; [| |exact A3].
           ++ rewrite upd_nth_length. lia.
           ++ intros p P. rewrite nth_upd_nth by auto. destruct (p =? length gl) eqn:X; [|auto].
              apply Nat.eqb_eq in X. lia.
        -- intros _. cbn [setV vbuf]. rewrite Nat.eqb_refl, upd_nth_length. split; auto. intros _.
           rewrite nth_upd_nth by auto. rewrite Nat.eqb_refl. auto.
    + exists s1. split; [econstructor; [exact X1|constructor]|]. split; auto. split; [split; [|split]|]; auto; try lia.
      * eapply stored_ext; [|exact AG|exact A3]. lia.
      * intros _. split; auto. intros X; congruence.
  - exists st. split; [constructor|]. split; [apply touch_refl|]. split; [split; auto|]. intros; lia.
Qed.

Lemma tail_swap : forall e s0 s1 s2 asm, m < N ->
  exec (hk_pre (sparse_hooks R n tres vs reduce zinit asm true) (outer m) (var_at vs m)) s0 s1 ->
  exec (lower srt dimf (tail_hooks R n tres vs reduce zinit asm m) vars2 (outer m) e) s1 s2 ->
  exec (lower srt dimf (sparse_hooks R n tres vs reduce zinit asm true) vars2 (outer m) e) s0 s2.
Proof.
  intros e s0 s1 s2 asm MN X1 X2. assert (ND := nd2). destruct (HD2 MN) as (rest & E). rewrite E in ND, X2 |- *. cbn [lower] in *. unfold lower_forall in *.
  rewrite (loop_code_ext srt dimf (var_at vs m) (outer m) e _ (lower srt dimf (tail_hooks R n tres vs reduce zinit asm m) rest (var_at vs m :: outer m))
    (lower srt dimf (sparse_hooks R n tres vs reduce zinit asm true) rest (var_at vs m :: outer m))) in X2.
  - apply exec_seq_inv in X2. destruct X2 as (s3 & X3 & X4). cbn [tail_hooks hk_pre] in X3. rewrite Nat.eqb_refl in X3.
    inversion X3; subst. eapply block_cons; [exact X1|]. exact X4.
  - intros e'. apply lower_hooks_ext; auto. intros b i I. split; auto. cbn [tail_hooks hk_pre].
    destruct (Nat.eqb_spec i (var_at vs m)) as [EI|NI]; auto. exfalso.
    rewrite EI in I. inversion ND. contradiction.
Qed.
Lemma tail_same : forall e asm, m = N ->
  lower srt dimf (tail_hooks R n tres vs reduce zinit asm m) vars2 (outer m) e =
  lower srt dimf (sparse_hooks R n tres vs reduce zinit asm true) vars2 (outer m) e.
Proof.
  intros e asm MN. apply lower_hooks_ext; auto. intros b i I. split; auto. cbn [tail_hooks hk_pre].
  destruct (Nat.eqb_spec i (var_at vs m)) as [EI|NI]; auto. cbn [sparse_hooks hk_pre]. unfold at_level.
  destruct (index_of i vs) as [l|] eqn:IX; auto. exfalso.
  assert (F : In i (filter (in_res vs) vars2)) by (apply filter_In; split; auto; eapply idx_in; eauto).
  rewrite SH, MN, skipn_all in F. destruct F.
Qed.

Lemma tail_leaf : forall (vf : var -> Prop) nf bf (st st' : state V), touch (tail_vars m) nf bf st st' -> (forall v, leaf_vars m v -> vf v) ->
  touch vf nf bf st st'.
Proof.
  intros vf nf bf st st' H F. eapply touch_weak; [| | |exact H]; auto. intros v [X|(l & L & ->)]; apply F.
  - left. auto.
  - right. left. eauto.
Qed.

Lemma stride_m : forall st, ieval st (fst (stride_from tres vs m (N - m))) = Some D.
Proof. intros. rewrite (stride_val T dimf tres vs m ML M0 DW) by lia. auto. Qed.
Lemma stride_none : forall k l, m <= l -> snd (stride_from tres vs l k) = None.
Proof. induction k; intros l L; simpl; auto. rewrite TAIL by auto. apply IHk. lia. Qed.

Lemma LEAF : forall gl rho e st, cmp (m - 1) = true -> EOK e -> VE gl st -> env st (VRes (m - 1)) = Some (length gl) ->
  posok T dimf (outer m) rho (accesses e) st ->
  exists st', exec (fleaf e) st st' /\ agree (outer m) st st' /\ touch (leaf_vars m) none (eq n) st st' /\
    VA (gl ++ [(rho, e)]) st'.
Proof.
  intros gl rho e st LAST OK ((A1 & A2 & A3) & VE2) E PO. unfold fleaf. assert (OK' := OK). destruct OK' as (K1 & K2 & K3).
  destruct (Nat.eq_dec m N) as [MN|MN].
  - destruct (VE2 MN) as [L1 L2]. rewrite <- tail_same by auto.
    assert (D1 := D_end MN).
    destruct (tail_ok R fn T junkV junkI dimf srt SRT n tres vs reduce zinit true m ML M0 TAIL NDV DW vars2 rho e (length gl) st)
      as (s1 & X1 & AG & T1 & B1); auto; [lia|].
    exists s1. split; auto. split; auto. split; [eapply tail_leaf; eauto|]. split; [|split].
    + rewrite (proj1 T1); [|intros [X|(l & _ & X)]; discriminate]. rewrite B1, wrs_length. auto.
    + rewrite B1, wrs_length. auto.
    + rewrite B1. eapply stored_snoc; eauto; [lia|]. destruct reduce; [left|auto]. rewrite D1.
      intros p P1 P2. replace p with (length gl) by lia. auto.
  - assert (MN' : m < N) by lia. assert (A3' := A3). destruct A3' as [A4 A5].
    set (need := IMul (IAdd (parent_pos VRes m) (ICst 1)) (fst (stride_from tres vs m (N - m)))).
    assert (PPE : parent_pos VRes m = IVar (VRes (m - 1))) by (destruct m; [lia|simpl; do 2 f_equal; lia]).
    assert (EVN : ieval st need = Some ((length gl + 1) * D)).
    { unfold need. rewrite PPE. cbn [LoopIR.ieval]. rewrite E, stride_m. auto. }
    destruct (atleast_v_ok R fn T junkV junkI n v_cap need st (length (vbuf st n)) ((length gl + 1) * D))
      as (s1 & x & X1 & T1 & B1 & C1 & P1); auto; [discriminate|].
    assert (E1 : forall s, touch (fun v => v = v_cap \/ v = v_new \/ v = v_p) none (eq n) st s ->
      env s (VRes (m - 1)) = Some (length gl) /\ posok T dimf (outer m) rho (accesses e) s /\ agree (outer m) st s).
    { intros s (Tv & _). assert (AG : agree (outer m) st s).
      { apply same_ctl_agree. intros v Hv. apply Tv. intros [->|[->| ->]]; discriminate. }
      split; [rewrite Tv; [auto|intros [X|[X|X]]; discriminate]|]. split; auto. eapply posok_agree; eauto. }
    assert (PRE : exists s2, exec (hk_pre (sparse_hooks R n tres vs reduce zinit true true) (outer m) (var_at vs m)) st s2 /\
       touch (fun v => v = v_cap \/ v = v_new \/ v = v_p) none (eq n) st s2 /\
       env s2 v_cap = Some (length (vbuf s2 n)) /\ (length gl + 1) * D < length (vbuf s2 n) /\
       (forall p, p < length gl * D -> nth p (vbuf s2 n) (r0 R) = nth p (vbuf st n) (r0 R)) /\
       ((forall p, length gl * D <= p -> p < (length gl + 1) * D -> nth p (vbuf s2 n) (r0 R) = r0 R) \/ zinit || reduce = false)).
    { cbn [sparse_hooks hk_pre]. unfold at_level. rewrite (idx_at vs NDV m) by auto. unfold res_pre. rewrite TAIL by auto.
      assert (AP : app_parent vs m = true) by (destruct m; [lia|simpl in *; rewrite Nat.sub_0_r in LAST; auto]).
      rewrite AP, stride_none by auto. assert (MZ : (m =? 0) = false) by (apply Nat.eqb_neq; lia). rewrite MZ. cbn [negb andb].
      assert (T1' : touch (fun v => v = v_cap \/ v = v_new \/ v = v_p) none (eq n) st s1).
      { eapply touch_weak; [| | |exact T1]; auto. intros v [->| ->]; auto. }
      destruct (zinit || reduce) eqn:ZR.
      - destruct (E1 s1 T1') as (E2 & _).
        destruct (zero_values_ok R fn T junkV junkI n (IMul (parent_pos VRes m) (fst (stride_from tres vs m (N - m)))) need s1
           (length gl * D) ((length gl + 1) * D)) as (s2 & X2 & T2 & L2 & Q2).
        + rewrite PPE. cbn [LoopIR.ieval]. rewrite E2, stride_m. auto.
        + unfold need. rewrite PPE. cbn [pure]. apply (stride_pure tres vs).
        + unfold need. rewrite PPE. cbn [occurs]. destruct (stride_pure tres vs (N - m) m) as [_ H]. intros [[X|X]|X]; [discriminate|auto|].
          eapply H; eauto.
        + unfold need. rewrite PPE. cbn [LoopIR.ieval]. rewrite E2, stride_m. auto.
        + apply Nat.mul_le_mono_r. lia.
        + lia.
        + exists s2. split; [|split; [|split; [|split; [|split]]]].
          * econstructor; [constructor|]. econstructor; [exact X1|]. exact X2.
          * eapply touch_trans; [exact T1'|]. eapply touch_weak; [| | |exact T2]; auto. 
          * rewrite (proj1 T2) by (intros X; discriminate X). rewrite L2. auto.
          * lia.
          * intros p P. rewrite Q2. destruct (length gl * D <=? p) eqn:X; [apply Nat.leb_le in X; lia|]. simpl.
            rewrite B1, app_nth1 by lia. auto.
          * left. intros p P3 P4. rewrite Q2. apply Nat.leb_le in P3. apply Nat.ltb_lt in P4. rewrite P3, P4. auto.
      - exists s1. split; [|split; [|split; [|split; [|split]]]]; auto.
        + econstructor; [constructor|]. econstructor; [exact X1|]. constructor.
        + intros p P. rewrite B1, app_nth1 by lia. auto. }
    destruct PRE as (s2 & X2 & T2 & C2 & L2 & Q2 & Z2). destruct (E1 s2 T2) as (E2 & PO2 & AG2).
    destruct (tail_ok R fn T junkV junkI dimf srt SRT n tres vs reduce zinit true m ML M0 TAIL NDV DW vars2 rho e (length gl) s2)
      as (s3 & X3 & AG3 & T3 & B3); auto; [lia|].
    exists s3. split; [eapply tail_swap; eauto|]. split; [eapply agree_trans; eauto|]. split; [|split; [|split]].
    + eapply touch_trans; [|eapply tail_leaf; eauto]. eapply touch_weak; [| | |exact T2]; auto.
      intros v [->|[->| ->]]; right; right; eexists; (split; [|reflexivity]); lia.
    + rewrite (proj1 T3); [|intros [X|(l & _ & X)]; discriminate]. rewrite B3, wrs_length. auto.
    + rewrite B3, wrs_length. lia.
    + rewrite B3. eapply stored_snoc; eauto; [lia|]. tauto.
Qed.
End Slots.
