(** The kernels with an appended result against their specification. *)
From Coq Require Import List Arith Lia Bool Ring_theory.
Import ListNotations.
From Verif Require Import Outcome Storage StorageProofs IndexExpr Eval EvalProofs Lattice LatticeSpec LatticeProofs LatticeLoop LoopIR Lower Walk
  LowerBase LoopRule Nest Visits KernelSpec DenseKernel DenseKernelProofs DenseValue TreeLevels SparseTree SparseKernel AppendProofs SparseProofs
  SparseNest SparseRun SparseTail SparseSlots SparseFused SparseCompute SparseStore SparsePath SparseValue SparseSpec.
Local Open Scope nat_scope.
Local Arguments inb : simpl never.

(** Only the index of the operands decides what is visited. *)
Section Levels.
Context {V : Type}.
Variables T T' : nat -> storage V.
Hypothesis SAME : forall t, st_levels (T' t) = st_levels (T t).
Variable dimf : ivar -> nat.
Lemma restrict_levels : forall i rho c (e : expr V), restrict i (LoopRule.stored T' rho i c) e = restrict i (LoopRule.stored T rho i c) e.
Proof.
  intros. apply zero_ext. intros a Ha. unfold absent, LoopRule.stored, apos. rewrite SAME. auto.
Qed.
Lemma visits_levels : forall vars rho (e : expr V), visits T' dimf vars rho e = visits T dimf vars rho e.
Proof.
  induction vars as [|i vars IH]; intros rho e; auto. simpl. apply flat_map_ext. intros c. rewrite restrict_levels.
  destruct (restrict _ _ _); auto.
Qed.
Lemma build_levels : forall rs rho (e : expr V), build T' dimf rs rho e = build T dimf rs rho e.
Proof.
  induction rs as [|[i k] rs IH]; intros rho e; auto. simpl. f_equal. apply flat_map_ext. intros c. unfold kid. rewrite restrict_levels.
  destruct (restrict _ _ _); auto. rewrite IH. auto.
Qed.
End Levels.

Lemma zero_nonzero : forall V (z : access -> bool) (s : access -> bool) (e : expr V), (forall a, In a (accesses e) -> s a = negb (z a)) ->
  (zero z e <> None <-> may_be_nonzero s e = true).
Proof.
  intros V z s e. induction e; simpl; intros H.
  - split; auto. discriminate.
  - rewrite (H a) by auto. destruct (z a); simpl; split; congruence.
  - rewrite <- IHe by auto. destruct (zero z e); simpl; split; congruence.
  - rewrite <- IHe by auto. destruct (zero z e); simpl; split; congruence.
  - rewrite orb_true_iff, <- IHe1, <- IHe2 by (intros; apply H; apply in_app_iff; auto).
    destruct (zero z e1), (zero z e2); split; intros X; try (left; discriminate); try (right; discriminate); try discriminate; intuition congruence.
  - rewrite orb_true_iff, <- IHe1, <- IHe2 by (intros; apply H; apply in_app_iff; auto).
    destruct (zero z e1), (zero z e2); split; intros X; try (left; discriminate); try (right; discriminate); try discriminate; intuition congruence.
  - rewrite andb_true_iff, <- IHe1, <- IHe2 by (intros; apply H; apply in_app_iff; auto).
    destruct (zero z e1), (zero z e2); split; intros X; try (split; discriminate); try discriminate; intuition congruence.
Qed.

Lemma point_at : forall lhs xs, NoDup lhs -> length xs = length lhs -> forall l, l < length lhs ->
  point_of lhs xs (nth l lhs 0) = nth l xs 0.
Proof.
  induction lhs as [|v lhs IH]; intros xs ND LX l L; [simpl in L; lia|]. destruct xs as [|x xs]; [discriminate|]. inversion ND; subst.
  simpl point_of. unfold assign_var. destruct l.
  - simpl. rewrite Nat.eqb_refl. auto.
  - simpl. destruct (Nat.eqb_spec (nth l lhs 0) v) as [E|NE].
    + exfalso. apply H1. rewrite <- E. apply nth_In. simpl in L. lia.
    + apply IH; auto; simpl in *; lia.
Qed.
Lemma walk_firstn : forall cs ls p, walk (firstn (length cs) ls) p cs = walk ls p cs.
Proof. induction cs as [|c cs IH]; intros ls p; auto. destruct ls; simpl; auto. destruct (step l p c); auto. Qed.
Lemma locate_apos : forall V (T : nat -> storage V) dim a rho l, wf_access T dim (a_tensor a) (a_vars a) -> l < length (a_vars a) ->
  locate (firstn (S l) (st_levels (T (a_tensor a)))) 0 (firstn (S l) (coords_of rho (a_vars a))) =
  apos T rho (a_tensor a) (a_vars a) (S l).
Proof.
  intros V T dim a rho l Wa L. unfold apos, coords_of. rewrite !firstn_map.
  assert (LL : length (st_levels (T (a_tensor a))) = length (a_vars a)).
  { destruct Wa as (W1 & _). apply (f_equal (@length _)) in W1. rewrite !map_length in W1. auto. }
  rewrite locate_walk by (rewrite !map_length, !firstn_length; lia).
  set (cs := map rho (map fst (firstn (S l) (a_vars a)))).
  assert (LC : length cs = S l) by (unfold cs; rewrite !map_length, firstn_length; lia).
  rewrite <- LC at 1. apply walk_firstn.
Qed.
Lemma present_stores : forall V (T : nat -> storage V) dim loops rho a,
  stored_as T dim (a_tensor a) (a_vars a) ->
  (forall l, l < length (a_vars a) -> In (fst (nth l (a_vars a) (0, KDense))) loops) ->
  (forall v, In v loops -> rho v < dim v) ->
  present T loops rho a = stores T rho a.
Proof.
  intros V T dim loops rho a W C B.
  assert (WA : wf_access T dim (a_tensor a) (a_vars a)) by exact W.
  assert (S1 : stores T rho a = match apos T rho (a_tensor a) (a_vars a) (length (a_vars a)) with Some _ => true | None => false end).
  { assert (M := missing_apos T dim rho a WA). unfold missing in M. unfold stores, coords_of.
    destruct (locate _ _ _), (apos _ _ _ _ _); auto; discriminate. }
  rewrite S1. unfold present.
  assert (P : forall l, l <= length (a_vars a) ->
    forallb (fun l => match nth l (a_vars a) (0, KDense) with
    | (v, KComp) => negb (existsb (Nat.eqb v) loops) ||
        match locate (firstn (S l) (st_levels (T (a_tensor a)))) 0 (firstn (S l) (coords_of rho (a_vars a))) with
        | Some _ => true | None => false end
    | (_, KDense) => true end) (seq 0 l) =
    match apos T rho (a_tensor a) (a_vars a) l with Some _ => true | None => false end).
  { induction l; intros L; [reflexivity|]. rewrite seq_S, forallb_app, IHl by lia. cbn [plus forallb]. rewrite andb_true_r.
    destruct (wf_level_get T dim (a_tensor a) (a_vars a) l WA ltac:(lia)) as (lv & NE & KE & OK).
    assert (AS := apos_S T dim rho _ _ l lv WA ltac:(lia) NE).
    assert (IN := C l ltac:(lia)). assert (BD := B _ IN).
    rewrite (locate_apos V T dim a rho l WA) by lia.
    destruct (apos T rho (a_tensor a) (a_vars a) l) as [q|] eqn:AP.
    - cbn [andb]. destruct (nth l (a_vars a) (0, KDense)) as [v k] eqn:NV. unfold kind_at in KE. rewrite NV in KE. cbn [fst snd] in *.
      destruct k.
      + destruct lv as [d|]; [|discriminate]. specialize (OK rho q AP). simpl in OK. rewrite AS. cbn [step]. unfold var_at in *. rewrite NV in *. cbn [fst] in *.
        subst d. apply Nat.ltb_lt in BD. rewrite BD. auto.
      + assert (EX : existsb (Nat.eqb v) loops = true) by (apply existsb_exists; exists v; split; auto; apply Nat.eqb_refl).
        rewrite EX. auto.
    - rewrite AS. auto. }
  apply P. auto.
Qed.

Section Top.
Context {V : Type}.
Variable R : ring_ops V.
Hypothesis HR : is_ring R.
Variable fn : nat -> V -> V.
Hypothesis fn0 : forall f, fn f (r0 R) = r0 R.
Variable T : nat -> storage V.
Variable junkV : nat -> V.
Variable junkI : nat -> nat.
Variable dim : ivar -> nat.
Variable srt : list point -> list point.
Hypothesis SRT : admissible_sort srt.
Variable n tres : nat.
Variable vp : list (ivar * kind).
Variable i : ivar.
Variable vt : list (ivar * kind).
Variable loops : list ivar.
Variable reduce : bool.
Variable alloc allocv : nat.
Hypothesis AL : 1 <= alloc.
Hypothesis ALV : 1 <= allocv.
Variable e : expr V.
Hypothesis SUP : supported T dim (map fst vp ++ i :: loops) e.
Hypothesis APP : appended T dim tres vp i vt loops reduce.
Definition vs : list (ivar * kind) := vp ++ (i, KComp) :: vt.
Definition m : nat := S (length vp).

Lemma vs_len : length vs = length vp + S (length vt).
Proof. unfold vs. rewrite app_length. auto. Qed.
Lemma lhs_eq : map fst vs = map fst vp ++ i :: map fst vt.
Proof. unfold vs. rewrite map_app. auto. Qed.
Lemma first_m : firstn m vs = vp ++ [(i, KComp)].
Proof.
  unfold m, vs. rewrite firstn_app, firstn_all2 by lia. replace (S (length vp) - length vp) with 1 by lia. auto.
Qed.
Lemma skip_m : skipn m vs = vt.
Proof.
  unfold m, vs. rewrite skipn_app, skipn_all2 by lia. replace (S (length vp) - length vp) with 1 by lia. auto.
Qed.
Lemma pre_eq : map fst (firstn m vs) = map fst vp ++ [i].
Proof. rewrite first_m, map_app. auto. Qed.
Lemma vars_eq : map fst (firstn m vs) ++ loops = map fst vp ++ i :: loops.
Proof. rewrite pre_eq, <- app_assoc. auto. Qed.
Lemma ML : m <= length vs.
Proof. rewrite vs_len. unfold m. lia. Qed.
Lemma M0 : 0 < m.
Proof. unfold m. lia. Qed.
Lemma LAST : comp_at_level vs (m - 1) = true.
Proof.
  unfold comp_at_level, m, vs. replace (S (length vp) - 1) with (length vp) by lia. rewrite nth_error_app2, Nat.sub_diag by auto. auto.
Qed.
Lemma TAIL : forall l, m <= l -> comp_at_level vs l = false.
Proof.
  intros l L. unfold comp_at_level, vs. unfold m in L. rewrite nth_error_app2 by lia.
  destruct (l - length vp) as [|k] eqn:E; [lia|]. simpl. destruct (nth_error vt k) as [[v kd]|] eqn:N; auto.
  apply nth_error_In in N. apply (app_inner _ _ _ _ _ _ _ _ APP) in N. simpl in N. rewrite N. auto.
Qed.
Lemma NDV : NoDup (map fst vs).
Proof. rewrite lhs_eq. apply (app_vars _ _ _ _ _ _ _ _ APP). Qed.
Lemma DW : forall l, l < length vs -> comp_at_level vs l = false ->
  nth_error (st_levels (T tres)) l = Some (LDense (W dim vs l)).
Proof.
  intros l L C. unfold comp_at_level in C. destruct (nth_error vs l) as [[v k]|] eqn:N.
  - destruct k; [|discriminate]. rewrite (app_widths _ _ _ _ _ _ _ _ APP l v) by exact N.
    unfold W, var_at. rewrite (nth_error_nth _ _ _ N). auto.
  - apply nth_error_None in N. lia.
Qed.
Lemma NDL : NoDup (map fst (firstn m vs) ++ loops).
Proof. rewrite vars_eq. apply SUP. Qed.
Lemma ND2 : NoDup (rev loops ++ rev (map fst (firstn m vs))).
Proof. rewrite <- rev_app_distr. apply NoDup_rev, NDL. Qed.
Lemma in_res_iff : forall v, in_res vs v = true <-> In v (map fst vs).
Proof.
  intros v. unfold in_res. destruct (index_of v vs) as [l|] eqn:IX.
  - destruct (index_of_nth _ _ _ IX) as [LT VA]. split; auto. intros _. rewrite <- VA. unfold var_at. apply in_map, nth_In. auto.
  - split; [discriminate|]. intros H. exfalso. apply In_nth with (d := 0) in H. destruct H as (k & K & E). rewrite map_length in K.
    apply (index_of_none _ _ k IX K). unfold var_at. rewrite <- E. change 0 with (fst (0, KDense)) at 2. rewrite map_nth. auto.
Qed.
Lemma loops_res : forall v, In v loops -> (In v (map fst vs) <-> In v (map fst vt)).
Proof.
  intros v H. rewrite lhs_eq, in_app_iff. simpl. split; auto. intros [X|[X|X]]; auto; exfalso.
  - assert (ND := NDL). rewrite vars_eq in ND. apply in_split in H. destruct H as (a & b & E). rewrite E in ND.
    change (map fst vp ++ i :: a ++ v :: b) with (map fst vp ++ (i :: a) ++ v :: b) in ND. rewrite app_assoc in ND.
    apply NoDup_remove_2 in ND. apply ND. rewrite !in_app_iff. auto.
  - assert (ND := NDL). rewrite vars_eq in ND. apply NoDup_remove_2 in ND. apply ND. apply in_app_iff. subst. auto.
Qed.
Lemma SH : filter (in_res vs) loops = map fst (skipn m vs).
Proof.
  rewrite skip_m. rewrite <- (app_order _ _ _ _ _ _ _ _ APP). apply filter_ext_in. intros v H.
  apply eq_true_iff_eq. rewrite in_res_iff, (loops_res v H), existsb_exists. split.
  - intros X. exists v. split; auto. apply Nat.eqb_refl.
  - intros (x & X & E). apply Nat.eqb_eq in E. subst. auto.
Qed.
Lemma HD2 : m < length vs -> exists rest, loops = var_at vs m :: rest.
Proof.
  intros L. assert (F := app_first _ _ _ _ _ _ _ _ APP). rewrite vs_len in L. unfold m in L.
  unfold var_at, vs, m. rewrite app_nth2 by lia. replace (S (length vp) - length vp) with 1 by lia.
  destruct vt as [|[v k] r]; [simpl in L; lia|]. exact F.
Qed.
Lemma RED : reduce = false -> forall v, In v loops -> in_res vs v = true.
Proof.
  intros RF v H. apply in_res_iff. rewrite lhs_eq, in_app_iff. simpl. right. right.
  apply (app_assign _ _ _ _ _ _ _ _ APP RF v H).
Qed.
Lemma acc3 : forall a, In a (accesses e) -> wf_access T dim (a_tensor a) (a_vars a) /\
     (forall pre post, map fst (firstn m vs) ++ loops = pre ++ post -> legal (rev pre) (a_vars a)) /\
     covers (map fst (firstn m vs) ++ loops) (a_vars a).
Proof.
  rewrite vars_eq. intros a Ha. apply (acc' T dim _ e (sup_vars _ _ _ _ SUP) (sup_operands _ _ _ _ SUP) a Ha).
Qed.
Lemma ACC : forall a, In a (accesses e) -> wf_access T dim (a_tensor a) (a_vars a) /\
     forall pre post, map fst (firstn m vs) ++ loops = pre ++ post -> legal (rev pre) (a_vars a).
Proof. intros a Ha. destruct (acc3 a Ha) as (A & B & _). auto. Qed.
Lemma PACC : forall a, In a (accesses e) -> wf_access T dim (a_tensor a) (a_vars a) /\
     forall pre post, map fst (firstn m vs) = pre ++ post -> legal (rev pre) (a_vars a).
Proof.
  intros a Ha. destruct (ACC a Ha) as [A B]. split; auto. intros pre post E. apply (B pre (post ++ loops)). rewrite E, app_assoc. auto.
Qed.
Definition zi : bool := sparse_dense_inserts srt vs (map fst vp ++ i :: loops) e.
Lemma OK : EOK T dim vs reduce zi m loops e.
Proof.
  split; [apply SUP|]. split.
  - intros a Ha. destruct (acc3 a Ha) as (A & B & C). split; auto. split.
    + intros pre post E. specialize (B (map fst (firstn m vs) ++ pre) post). rewrite rev_app_distr in B. apply B. rewrite E, app_assoc. auto.
    + intros l L. rewrite <- rev_app_distr. apply -> in_rev. apply C. auto.
  - unfold zi. rewrite <- vars_eq. apply (no_inserts srt SRT vs reduce m ML M0 TAIL NDV e loops SH HD2 RED (sup_linear _ _ _ _ SUP)).
    intros a Ha. apply (sup_operands _ _ _ _ SUP a Ha).
Qed.

Notation result := (result R fn T dim vs reduce m origin e loops).
Notation gT := (gT T dim vs m origin e).
Notation visd := (vis T dim vs m origin e).

Lemma fused_top : forall st, exists st',
  exec R fn T junkV junkI (sparse_kernel R srt dim n tres vs alloc allocv reduce (map fst vp ++ i :: loops) e) st st' /\
  final vs m gT st' /\ length visd * sv dim vs m <= length (vbuf st' n) /\
  unpack_result (formats dim vs) n st' = result.
Proof.
  intros st.
  destruct (fused_run R fn T junkV junkI dim srt SRT n tres vs alloc allocv reduce zi m ML M0 LAST TAIL NDV DW AL ALV origin e
    (sup_linear _ _ _ _ SUP) PACC loops ND2 SH HD2 RED OK st) as (st' & X & F & S).
  exists st'. split; [|split; [auto|split; [apply S|]]].
  - unfold sparse_kernel. unfold zi in X. rewrite vars_eq in X. exact X.
  - apply (unpack_ok R fn T dim n vs alloc allocv reduce m ML M0 LAST TAIL AL ALV origin e loops HD2 st' F S).
Qed.
Lemma assemble_top : forall st, exists st',
  exec R fn T junkV junkI (sparse_assemble R srt dim n tres vs alloc allocv reduce (map fst vp ++ [i]) e) st st' /\
  final vs m gT st' /\ length (vbuf st' n) = length visd * sv dim vs m.
Proof.
  intros st.
  destruct (assemble_run R fn T junkV junkI dim srt SRT n tres vs alloc allocv reduce false m ML M0 LAST TAIL NDV DW AL ALV origin e
    (sup_linear _ _ _ _ SUP) PACC st) as (st' & X & F & L).
  exists st'. split; auto. unfold sparse_assemble. rewrite pre_eq in X. exact X.
Qed.
Lemma compute_top : forall st, final vs m gT st -> length visd * sv dim vs m <= length (vbuf st n) -> exists st',
  exec R fn T junkV junkI (sparse_compute R srt dim n tres vs alloc allocv reduce (map fst vp ++ i :: loops) e) st st' /\
  final vs m gT st' /\ length visd * sv dim vs m <= length (vbuf st' n) /\
  unpack_result (formats dim vs) n st' = result.
Proof.
  intros st F0 L0.
  destruct (compute_run R fn T junkV junkI dim srt SRT n tres vs alloc allocv reduce zi m ML M0 LAST TAIL NDV DW AL ALV origin e
    (sup_linear _ _ _ _ SUP) PACC loops ND2 SH HD2 RED OK st F0 L0) as (st' & X & F & S).
  exists st'. split; [|split; [auto|split; [apply S|]]].
  - unfold sparse_compute. unfold zi in X. rewrite vars_eq in X. exact X.
  - apply (unpack_ok R fn T dim n vs alloc allocv reduce m ML M0 LAST TAIL AL ALV origin e loops HD2 st' F S).
Qed.

(** *** The result meets the specification *)
Lemma bounds : forall xs, in_bounds dim (map fst vs) xs -> length xs = length vs /\ forall l, l < length vs -> nth l xs 0 < W dim vs l.
Proof.
  intros xs [L B]. rewrite map_length in *. split; auto. intros l H. specialize (B l H).
  rewrite (nth_indep (map fst vs) 0 (fst (0, KDense))) in B by (rewrite map_length; auto). rewrite map_nth in B. exact B.
Qed.
Lemma level_kinds : forall (L : Type) ks (ts : list (tree L)), map level_format (levels ks ts) = map fst ks.
Proof. intros L ks. induction ks as [|[[|] w] ks IH]; intros ts; simpl; auto; rewrite IH; auto. Qed.
Lemma present_pmiss : forall xs a, in_bounds dim (map fst vs) xs -> In a (accesses e) ->
  present T (map fst vp ++ [i]) (point_of (map fst vs) xs) a =
  negb (pmiss T (map fst (firstn m vs)) (bind_all (firstn m vs) origin (firstn m xs)) a).
Proof.
  intros xs a IB Ha. destruct (bounds xs IB) as [LX _]. destruct (ACC a Ha) as [Wa LG]. unfold present, pmiss. rewrite <- pre_eq.
  assert (X : forall l, l < length (a_vars a) ->
    match nth l (a_vars a) (0, KDense) with
    | (v, KComp) => negb (existsb (Nat.eqb v) (map fst (firstn m vs))) ||
        match locate (firstn (S l) (st_levels (T (a_tensor a)))) 0 (firstn (S l) (coords_of (point_of (map fst vs) xs) (a_vars a))) with
        | Some _ => true | None => false end
    | (_, KDense) => true
    end = negb (lmiss T (map fst (firstn m vs)) (bind_all (firstn m vs) origin (firstn m xs)) a l)).
  { intros l L. unfold lmiss, var_at, kind_at. destruct (nth l (a_vars a) (0, KDense)) as [v k] eqn:NV. cbn [fst snd].
    destruct k; [rewrite andb_false_r; auto|]. rewrite andb_true_r.
    assert (EI : existsb (Nat.eqb v) (map fst (firstn m vs)) = inb v (map fst (firstn m vs))).
    { apply eq_true_iff_eq. rewrite existsb_exists, inb_In. split.
      - intros (x & H1 & H2). apply Nat.eqb_eq in H2. subst. auto.
      - intros H. exists v. rewrite Nat.eqb_refl. auto. }
    rewrite EI. destruct (inb v (map fst (firstn m vs))) eqn:I; auto. cbn [negb orb andb].
    rewrite (locate_apos V T dim a _ l Wa L).
    assert (EA : apos T (point_of (map fst vs) xs) (a_tensor a) (a_vars a) (S l) =
      apos T (bind_all (firstn m vs) origin (firstn m xs)) (a_tensor a) (a_vars a) (S l)).
    { apply apos_ext. intros o O1 O2.
      assert (IN : In (var_at (a_vars a) o) (map fst (firstn m vs))).
      { apply inb_In in I. destruct (Nat.eq_dec o l) as [->|NE].
        - unfold var_at. rewrite NV. auto.
        - specialize (LG (map fst (firstn m vs)) loops eq_refl). apply in_rev. apply (LG o l); [lia|auto| |apply -> in_rev; unfold var_at; rewrite NV; auto].
          right. unfold kind_at. rewrite NV. auto. }
      apply In_nth with (d := 0) in IN. destruct IN as (k & K & EK). rewrite map_length, firstn_length, Nat.min_l in K by apply ML.
      assert (MLx := ML).
      assert (EK1 : nth k (map fst (firstn m vs)) 0 = var_at (firstn m vs) k).
      { unfold var_at. change 0 with (fst (0, KDense)) at 1. apply map_nth. }
      rewrite EK1 in EK. rewrite <- EK. rewrite (bind_at T dim).
      + rewrite (pre_at vs m ML M0 loops HD2 k K). unfold var_at.
        assert (E2 : fst (nth k vs (0, KDense)) = nth k (map fst vs) 0).
        { change 0 with (fst (0, KDense)) at 2. rewrite map_nth. auto. }
        rewrite E2, point_at; [|apply NDV|rewrite map_length; auto|rewrite map_length; lia].
        rewrite <- (firstn_skipn m xs) at 1. rewrite app_nth1; auto. rewrite firstn_length. lia.
      + assert (ND := NDL). apply nodup_app_l in ND. auto.
      + rewrite !firstn_length. lia.
      + rewrite firstn_length. lia. }
    rewrite EA. destruct (apos T (bind_all (firstn m vs) origin (firstn m xs)) (a_tensor a) (a_vars a) (S l)); reflexivity. }
  assert (Y : forall ls, (forall l, In l ls -> l < length (a_vars a)) ->
    forallb (fun l => match nth l (a_vars a) (0, KDense) with
      | (v, KComp) => negb (existsb (Nat.eqb v) (map fst (firstn m vs))) ||
        match locate (firstn (S l) (st_levels (T (a_tensor a)))) 0 (firstn (S l) (coords_of (point_of (map fst vs) xs) (a_vars a))) with
        | Some _ => true | None => false end
      | (_, KDense) => true end) ls =
    negb (existsb (lmiss T (map fst (firstn m vs)) (bind_all (firstn m vs) origin (firstn m xs)) a) ls)).
  { induction ls as [|l ls IH]; intros H; auto. cbn [forallb existsb]. rewrite X by (apply H; simpl; auto).
    rewrite IH by (intros; apply H; simpl; auto). rewrite negb_orb. auto. }
  apply Y. intros l L. apply in_seq in L. lia.
Qed.

Theorem result_computes : computes R fn T dim vp i vt loops e result.
Proof.
  constructor.
  - cbn [SparseStore.result st_levels]. rewrite map_app, level_kinds. fold vs.
    rewrite <- (firstn_skipn m vs) at 3. rewrite map_app. f_equal.
    + unfold kvs, ks_of. rewrite map_map. auto.
    + rewrite map_map. cbn [level_format].
      assert (E1 : forall A (l : list A), map (fun _ => KDense) l = repeat KDense (length l)) by (induction l; simpl; congruence).
      assert (E2 : forall l : list (ivar * kind), (forall v, In v l -> snd v = KDense) -> map snd l = repeat KDense (length l)).
      { induction l as [|x l IH]; intros H; auto. simpl. rewrite H, IH; simpl; auto. intros. apply H. simpl. auto. }
      rewrite E1, E2, seq_length, skipn_length by (rewrite skip_m; apply (app_inner _ _ _ _ _ _ _ _ APP)). auto.
  - rewrite <- lhs_eq. apply (result_wf R fn T dim vs reduce m ML M0 LAST TAIL origin e loops HD2).
  - rewrite <- lhs_eq. intros xs IB. destruct (bounds xs IB) as [LX B].
    rewrite (result_value R HR fn fn0 T dim vs reduce m ML M0 LAST TAIL NDV origin e loops NDL SH HD2 RED ACC xs LX B).
    rewrite vars_eq. unfold reduction. change (sum_vars R dim) with (sum_over R dim).
    apply (sum_over_ext R dim _ []); [|intros v Hv []]. intros rho' _. unfold eqx.
    destruct (list_eq_dec Nat.eq_dec (map rho' (map fst vs)) xs); auto.
  - rewrite <- lhs_eq. intros xs IB. destruct (bounds xs IB) as [LX B].
    rewrite (result_stores R fn T dim vs reduce m ML M0 LAST NDV origin e loops NDL HD2 ACC xs LX B).
    apply zero_nonzero. intros a Ha. apply present_pmiss; auto.
Qed.
End Top.
