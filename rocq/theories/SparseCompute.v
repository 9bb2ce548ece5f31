(** The kernel that only computes the values of a result whose index exists. *)
From Coq Require Import List Arith Lia Bool.
Import ListNotations.
From Verif Require Import Outcome Storage StorageProofs IndexExpr Eval Lattice LatticeSpec LatticeLoop LoopIR Lower Walk
  LowerBase LoopRule Nest Visits DenseKernel DenseKernelProofs TreeLevels SparseTree SparseKernel AppendProofs SparseProofs
  SparseNest SparseRun SparseTail SparseSlots SparseFused.
Local Open Scope nat_scope.
Local Arguments inb : simpl never.

Section Compute.
Context {V : Type}.
Variable R : ring_ops V.
Variable fn : nat -> V -> V.
Variable T : nat -> storage V.
Variable junkV : nat -> V.
Variable junkI : nat -> nat.
Variable dimf : ivar -> nat.
Variable srt : list point -> list point.
Hypothesis SRT : admissible_sort srt.
Notation exec := (exec R fn T junkV junkI).
Notation ieval := (ieval T).
Notation payload := ((ivar -> nat) * expr V)%type.
Variable n tres : nat.
Variable vs : list (ivar * kind).
Variable alloc allocv : nat.
Variable reduce zinit : bool.
Variable m : nat.
Notation N := (length vs).
Notation cmp := (comp_at_level vs).
Notation W := (W dimf vs).
Notation sv := (sv dimf vs).
Notation D := (sv m).
Notation outer o := (rev (map fst (firstn o vs))).
Notation rs_at o := (skipn o (firstn m vs)).
Hypothesis ML : m <= N.
Hypothesis M0 : 0 < m.
Hypothesis LAST : cmp (m - 1) = true.
Hypothesis TAIL : forall l, m <= l -> cmp l = false.
Hypothesis NDV : NoDup (map fst vs).
Hypothesis DW : forall l, l < N -> cmp l = false -> nth_error (st_levels (T tres)) l = Some (LDense (W l)).
Variable vars2 : list ivar.
Hypothesis ND2 : NoDup (rev vars2 ++ outer m).
Hypothesis SH : filter (in_res vs) vars2 = map fst (skipn m vs).
Hypothesis HD2 : m < N -> exists rest, vars2 = var_at vs m :: rest.
Hypothesis RED : reduce = false -> forall v, In v vars2 -> in_res vs v = true.
Notation stored_vals := (stored_vals R fn T dimf vs reduce m vars2).
Notation EOK := (EOK T dimf vs reduce zinit m vars2).
Notation visits := (visits T dimf).
Notation visits_to := (visits_to T dimf).

Variable LV : nat.                     (* size of the values *)
Variable IB : iname -> list nat.       (* the index *)

(** The values of [gl] are there, the counter of the last compressed level is
    [q], and what has to be zero above is. *)
Definition cV (q : nat) (gl : list payload) (st : state V) : Prop :=
  env st (VRes (m - 1)) = Some q /\ stored_vals gl (vbuf st n) /\ LV <= length (vbuf st n) /\ (forall a, ibuf st a = IB a) /\
  (m < N -> zinit || reduce = true -> forall p, length gl * D <= p -> p < LV -> nth p (vbuf st n) (r0 R) = r0 R).
Definition cE (gl : list payload) (st : state V) : Prop :=
  cV (length gl) gl st /\ (m = N -> reduce = true -> nth (length gl) (vbuf st n) (r0 R) = r0 R).

Lemma cV_frame : forall q gl st st', env st' (VRes (m - 1)) = env st (VRes (m - 1)) -> vbuf st' n = vbuf st n -> (forall a, ibuf st' a = ibuf st a) ->
  cV q gl st -> cV q gl st'.
Proof. unfold cV. intros q gl st st' -> -> I (A1 & A2 & A3 & A4 & A5). repeat (split; auto). intros a. rewrite I. auto. Qed.
Lemma cE_frame : forall gl st st', env st' (VRes (m - 1)) = env st (VRes (m - 1)) -> vbuf st' n = vbuf st n -> (forall a, ibuf st' a = ibuf st a) ->
  cE gl st -> cE gl st'.
Proof. intros gl st st' E1 E2 E3 [A B]. split; [eapply cV_frame; eauto|]. rewrite E2. auto. Qed.

Definition cA (g : list payload) (vars bound : list ivar) (rho : ivar -> nat) (e : expr V) (st : state V) : Prop :=
  exists o, o <= m /\ bound = outer o /\ vars = map fst (rs_at o) /\ EOK e /\
    (length g + length (visits vars rho e)) * D <= LV /\ (if o =? m then cE g st else cV (length g) g st).
Definition cI (g : list payload) (vars bound : list ivar) (rho : ivar -> nat) (e : expr V) (i : ivar) (c : nat) (st : state V) : Prop :=
  exists o, o < m /\ bound = outer o /\ i = var_at vs o /\ vars = map fst (rs_at (S o)) /\ EOK e /\
    (length g + length (visits (i :: vars) rho e)) * D <= LV /\
    cV (length (g ++ visits_to vars rho e i c)) (g ++ visits_to vars rho e i c) st.
Definition cB (g : list payload) (vars bound : list ivar) (rho : ivar -> nat) (e : expr V) (st : state V) : Prop :=
  exists o, o <= m /\ bound = outer o /\
    cV (if o =? m then length g else length (g ++ visits vars rho e)) (g ++ visits vars rho e) st.

Notation hooks := (sparse_hooks R n tres vs reduce zinit false true).
Definition cleaf (e : expr V) : stmt V := lower srt dimf hooks vars2 (outer m) e.
Definition chooks : @Lower.hooks V := Hooks (hk_pre hooks) (hk_enter hooks) (hk_exit hooks) (hk_post hooks) cleaf.

Lemma visits_to_le : forall vars rho e i c d, c <= d -> length (visits_to vars rho e i c) <= length (visits_to vars rho e i d).
Proof.
  intros vars rho e i c d H. induction H; auto. rewrite visits_to_S, app_length. lia.
Qed.
Lemma rs_next : forall o, o < m -> map fst (rs_at o) = var_at vs o :: map fst (rs_at (S o)).
Proof. intros o O. rewrite (rs_step vs m ML M0 o O). auto. Qed.
Lemma not_last : forall l, l < m - 1 -> last_appender vs l = false.
Proof.
  intros l L. unfold last_appender. apply andb_false_iff. right. apply negb_false_iff, existsb_exists.
  exists (m - 1). split; auto. apply in_seq. lia.
Qed.
Lemma is_last : last_appender vs (m - 1) = true.
Proof.
  unfold last_appender. rewrite LAST. simpl. apply negb_true_iff. destruct (existsb _ _) eqn:E; auto.
  apply existsb_exists in E. destruct E as (l & L & C). apply in_seq in L. rewrite TAIL in C by lia. discriminate.
Qed.

Lemma c_leaf : forall gl rho e st, EOK e -> cE gl st -> (length gl + 1) * D <= LV -> posok T dimf (outer m) rho (accesses e) st ->
  exists st', exec (cleaf e) st st' /\ agree (outer m) st st' /\ cV (length gl) (gl ++ [(rho, e)]) st'.
Proof.
  intros gl rho e st OK ((A1 & A2 & A3 & A4 & A5) & ZE) CAP PO. assert (OK' := OK). destruct OK' as (K1 & K2 & K3).
  destruct (tail_ok R fn T junkV junkI dimf srt SRT n tres vs reduce zinit false m ML M0 TAIL NDV DW vars2 rho e (length gl) st)
      as (s1 & X1 & AG & T1 & B1); auto; [lia|].
  exists s1. split; [|split; auto; split; [|split; [|split; [|split]]]].
  - destruct (Nat.eq_dec m N) as [MN|MN].
    + unfold cleaf. rewrite <- (tail_same R dimf srt n tres vs reduce zinit m vars2 SH) by auto. exact X1.
    + apply (tail_swap R fn T junkV junkI dimf srt n tres vs reduce zinit m vars2 ND2 SH HD2 RED e st st s1 false); [lia| |exact X1].
      cbn [sparse_hooks hk_pre]. unfold at_level. destruct (index_of _ _); constructor.
  - rewrite (proj1 T1); auto. intros [X|(l & L & X)]; [discriminate|inversion X; lia].
  - rewrite B1. eapply stored_snoc; eauto; [lia|].
    destruct (Nat.eq_dec m N) as [MN|MN].
    + destruct reduce eqn:RB; [|auto]. left. rewrite (D_end dimf vs m ML M0 TAIL vars2 ND2 SH HD2 MN). intros p P1 P2. replace p with (length gl) by lia. auto.
    + destruct (zinit || reduce) eqn:ZR; [|auto]. left. intros p P1 P2. apply A5; auto; lia.
  - rewrite B1, wrs_length. auto.
  - intros a. rewrite (proj1 (proj2 T1)) by (intros []). auto.
  - intros MN ZR p P1 P2. rewrite B1. rewrite app_length in P1. simpl in P1.
    rewrite (wrs_other R fn T dimf vs reduce m ML M0).
    + apply A5; auto. lia.
    + intros v HV E. destruct (slot_range fn T junkV junkI dimf n vs m ML M0 TAIL vars2 ND2 SH HD2 (length gl) rho e v HV). lia.
Qed.

Lemma cA_ctl : forall g vars bound rho e st st', ctl st st' -> cA g vars bound rho e st -> cA g vars bound rho e st'.
Proof.
  intros g vars bound rho e st st' (F1 & F2 & F3) (o & H1 & H2 & H3 & H4 & H5 & H6). exists o.
  repeat (split; [solve [auto]|]). destruct (o =? m); [eapply cE_frame|eapply cV_frame]; [| | |exact H6| | | |exact H6]; try (intros; rewrite F1; auto; fail); try (rewrite F2; auto; fail); apply F3; auto.
Qed.
Lemma cI_ctl : forall g vars bound rho e i c st st', ctl st st' -> cI g vars bound rho e i c st -> cI g vars bound rho e i c st'.
Proof.
  intros g vars bound rho e i c st st' (F1 & F2 & F3) (o & H1 & H2 & H3 & H4 & H5 & H6 & H7). exists o.
  repeat (split; [solve [auto]|]). eapply cV_frame; [| | |exact H7]; [apply F3; auto|rewrite F2; auto|intros; rewrite F1; auto].
Qed.
Lemma c_pre : forall g i vars bound rho e st, cA g (i :: vars) bound rho e st -> idxok dimf bound rho st -> ~ In i bound ->
  exists st', exec (hk_pre chooks bound i) st st' /\ same_ctl st st' /\ cI g vars bound rho e i 0 st'.
Proof.
  intros g i vars bound rho e st (o & H1 & H2 & H3 & H4 & H5 & H6) IX NI.
  assert (O : o < m).
  { destruct (Nat.eq_dec o m) as [->|]; [|lia]. rewrite (rs_end vs m ML M0) in H3. discriminate. }
  assert (X : (o =? m) = false) by (apply Nat.eqb_neq; lia). rewrite X in H6.
  exists st. split; [|split; [intros v _; auto|]].
  - cbn. unfold at_level. destruct (index_of i vs); constructor.
  - rewrite rs_next in H3 by auto. inversion H3. exists o. repeat (split; [solve [auto]|]). split; [congruence|].
    cbn [Visits.visits_to seq flat_map]. unfold Visits.visits_to. simpl flat_map. rewrite app_nil_r. auto.
Qed.
Lemma c_post : forall g i vars bound rho e st, cI g vars bound rho e i (dimf i) st -> idxok dimf bound rho st ->
  exists st', exec (hk_post chooks bound i) st st' /\ same_ctl st st' /\ cB g (i :: vars) bound rho e st'.
Proof.
  intros g i vars bound rho e st (o & H1 & H2 & H3 & H4 & H5 & H6 & H7) IX.
  exists st. split; [|split; [intros v _; auto|]].
  - cbn. unfold at_level. destruct (index_of i vs); constructor.
  - exists o. split; [lia|]. split; auto. assert (X : (o =? m) = false) by (apply Nat.eqb_neq; lia). rewrite X. exact H7.
Qed.
Lemma c_skip : forall g i vars bound rho e c st, ~ In i bound -> c < dimf i -> restrict i (stored T rho i c) e = None ->
  cI g vars bound rho e i c st -> cI g vars bound rho e i (S c) st.
Proof.
  intros g i vars bound rho e c st NI C RS (o & H1 & H2 & H3 & H4 & H5 & H6 & H7). exists o. repeat (split; [solve [auto]|]).
  rewrite visits_to_S. unfold visit_step. rewrite RS, app_nil_r. auto.
Qed.
Lemma c_step : forall g i vars bound rho e c e' st, ~ In i bound -> c < dimf i -> restrict i (stored T rho i c) e = Some e' ->
  cI g vars bound rho e i c st -> idxok dimf (i :: bound) (upd rho i c) st ->
  exists st' g', exec (hk_enter chooks bound i) st st' /\ same_ctl st st' /\ cA g' vars (i :: bound) (upd rho i c) e' st' /\
    forall st1, idxok dimf (i :: bound) (upd rho i c) st1 -> cB g' vars (i :: bound) (upd rho i c) e' st1 ->
      exists st2, exec (hk_exit chooks bound i) st1 st2 /\ same_ctl st1 st2 /\ cI g vars bound rho e i (S c) st2.
Proof.
  intros g i vars bound rho e c e' st NI C RS (o & H1 & H2 & H3 & H4 & H5 & H6 & H7) IX.
  set (g' := g ++ visits_to vars rho e i c) in *.
  assert (IXO : index_of i vs = Some o) by (rewrite H3; apply idx_at; auto; lia).
  assert (GV : g ++ visits_to vars rho e i (S c) = g' ++ visits vars (upd rho i c) e').
  { rewrite visits_to_S. unfold visit_step. rewrite RS. unfold g'. apply app_assoc. }
  assert (CAP : (length g' + length (visits vars (upd rho i c) e')) * D <= LV).
  { eapply Nat.le_trans; [|exact H6]. apply Nat.mul_le_mono_r. rewrite <- app_length, <- GV, app_length.
    change (visits (i :: vars) rho e) with (visits_to vars rho e i (dimf i)).
    assert (Y := visits_to_le vars rho e i (S c) (dimf i) C). lia. }
  assert (OUT : i :: bound = outer (S o)) by (rewrite H2, H3; symmetry; apply outer_S; lia).
  assert (OK' : EOK e') by (eapply EOKR; eauto).
  assert (EN : exists st', exec (hk_enter chooks bound i) st st' /\ same_ctl st st' /\ (if S o =? m then cE g' st' else cV (length g') g' st')).
  { cbn [chooks hk_enter sparse_hooks]. unfold at_level. rewrite IXO. unfold res_enter.
    destruct (Nat.eqb_spec (S o) m) as [SO|SO].
    - assert (CO : cmp o = true) by (replace o with (m - 1) by lia; auto). rewrite CO. unfold leaf_level.
      destruct (Nat.eqb_spec (S o) N) as [SN|SN].
      + unfold vals_enter. destruct reduce eqn:RB.
        * destruct H7 as (B1 & B2 & B3 & B4 & B5).
          assert (D1 : D = 1) by (apply (D_end dimf vs m ML M0 TAIL vars2 ND2 SH HD2); lia).
          assert (VN : vars = []) by (rewrite H4, SO, (rs_end vs m ML M0); auto). rewrite VN in CAP. simpl length in CAP.
          exists (setV st n (upd_nth (vbuf st n) (length g') (r0 R))). split; [|split; [intros v _; auto|]].
          -- econstructor; [constructor|]. econstructor; [|reflexivity|lia]. replace (N - 1) with (m - 1) by lia. cbn [LoopIR.ieval]. auto.
          -- split; [split; [|split; [|split; [|split]]]|]; cbn [setV vbuf env ibuf]; rewrite ?Nat.eqb_refl, ?upd_nth_length; auto; try lia.
             ++ eapply (stored_ext R fn T dimf vs reduce m ML M0 vars2 HD2); [| |exact B2]; rewrite ?upd_nth_length; [lia|].
                intros p P. rewrite nth_upd_nth by lia. destruct (Nat.eqb_spec p (length g')); [|auto]. lia.
             ++ intros _ _. rewrite nth_upd_nth by lia. rewrite Nat.eqb_refl. auto.
        * exists st. split; [econstructor; constructor|]. split; [intros v _; auto|]. split; auto. intros _ X. congruence.
      + exists st. split; [constructor|]. split; [intros v _; auto|]. split; auto. intros X. lia.
    - assert (X : exists st', exec (if cmp o then if leaf_level vs o then vals_enter R n vs reduce false true else Skip
        else if false || negb (existsb cmp (seq (S o) (N - S o))) then decl_locate (i :: bound) VRes tres o vs else Skip) st st' /\ st' = st).
      { exists st. split; auto. destruct (cmp o).
        - assert (Y : leaf_level vs o = false) by (apply Nat.eqb_neq; lia). rewrite Y. constructor.
        - assert (Y : existsb cmp (seq (S o) (N - S o)) = true).
          { apply existsb_exists. exists (m - 1). split; auto. apply in_seq. lia. }
          rewrite Y. constructor. }
      destruct X as (st' & X1 & ->). exists st. split; auto. split; [intros v _; auto|auto]. }
  destruct EN as (st' & X1 & X2 & X3). exists st', g'. split; auto. split; auto. split.
  - exists (S o). repeat (split; [solve [auto]|]). auto.
  - intros st1 IX1 (o' & B1 & B2 & B3).
    assert (OO : o' = S o) by (apply (outer_inj vs m ML M0); try lia; congruence). subst o'.
    rewrite <- GV in B3. cbn [chooks hk_exit sparse_hooks]. unfold at_level. rewrite IXO. unfold res_exit. cbn [orb].
    destruct (Nat.eqb_spec (S o) m) as [SO|SO].
    + replace o with (m - 1) in * by lia. rewrite LAST, is_last. replace (S (m - 1)) with m by lia. rewrite TAIL by lia.
      assert (VN : vars = []) by (rewrite H4; replace (S (m - 1)) with m by lia; rewrite (rs_end vs m ML M0); auto).
      exists (setv st1 (VRes (m - 1)) (length g' + 1)). destruct B3 as (E1 & E2). split; [|split].
      * econstructor; [constructor|]. constructor. cbn [LoopIR.ieval]. rewrite E1. auto.
      * intros v CT. apply setv_neq. intros ->. discriminate.
      * exists (m - 1). repeat (split; [solve [auto]|]). split; [|exact E2]. rewrite setv_eq. f_equal.
        rewrite GV, VN, app_length. auto.
    + exists st1. split; [|split; [intros v _; auto|]].
      * rewrite not_last by lia. destruct (cmp o); constructor.
      * exists o. repeat (split; [solve [auto]|]). auto.
Qed.
Lemma c_leaf' : forall g bound rho e st, cA g [] bound rho e st -> posok T dimf bound rho (accesses e) st ->
  exists st', exec (hk_leaf chooks e) st st' /\ agree bound st st' /\ cB g [] bound rho e st'.
Proof.
  intros g bound rho e st (o & H1 & H2 & H3 & H4 & H5 & H6) PO.
  assert (O : o = m).
  { destruct (Nat.eq_dec o m) as [|NE]; auto. rewrite rs_next in H3 by lia. discriminate. }
  subst o bound. rewrite Nat.eqb_refl in H6. destruct (c_leaf g rho e st) as (st' & X1 & X2 & X3); auto.
  exists st'. split; auto. split; auto. exists m. rewrite Nat.eqb_refl. auto.
Qed.

Notation prefix := (map fst (firstn m vs)).
Lemma compute_nest : forall rho e st, NoDup (accesses e) ->
  (forall a, In a (accesses e) -> wf_access T dimf (a_tensor a) (a_vars a) /\
     forall pre post, prefix = pre ++ post -> legal (rev pre) (a_vars a)) -> EOK e ->
  length (visits prefix rho e) * D <= LV -> posok T dimf [] rho (accesses e) st -> cV 0 [] st ->
  exists st', exec (lower srt dimf hooks (prefix ++ vars2) [] e) st st' /\ stored_vals (visits prefix rho e) (vbuf st' n) /\
    LV <= length (vbuf st' n) /\ (forall a, ibuf st' a = IB a).
Proof.
  intros rho e st ND ACC OK CAP PO C0. rewrite lower_app, app_nil_r.
  destruct (nest_ok R fn T junkV junkI dimf srt SRT chooks (list payload) cA cB cI cA_ctl cI_ctl c_pre c_post c_skip c_step
    c_leaf' prefix [] rho e [] st) as (st' & X1 & _ & (o & B1 & B2 & B3)); auto.
  - rewrite app_nil_r. apply NoDup_rev. rewrite <- (firstn_skipn m vs) in NDV. rewrite map_app in NDV.
    eapply nodup_app_l; eauto.
  - intros a Ha. destruct (ACC a Ha) as [A1 A2]. split; auto. intros pre post E. rewrite app_nil_r. eauto.
  - exists 0. assert (Z : (0 =? m) = false) by (apply Nat.eqb_neq; lia). rewrite Z. repeat (split; auto; try lia).
  - exists st'. split; auto. destruct B3 as (_ & Q1 & Q2 & Q3 & _). auto.
Qed.
End Compute.
