From Coq Require Import List Arith Lia Bool Ring_theory Ring.
Import ListNotations.
From Verif Require Import Outcome Storage StorageProofs IndexExpr Eval EvalProofs Lattice LatticeSpec LatticeLoop
  LoopIR Lower Walk LowerBase LoopRule Nest Visits DenseKernel.

Local Arguments inb : simpl never.

Section LowerExpr.
Context {V : Type}.
Variable R : ring_ops V.
Variable fn : nat -> V -> V.
Variable T : nat -> storage V.
Variable dimf : ivar -> nat.

Definition covers (vars : list ivar) (vs : list (ivar * kind)) : Prop :=
  forall l, l < length vs -> In (var_at vs l) vars.

Lemma covers_depth : forall bound vs, covers bound vs -> depth bound vs = length vs.
Proof.
  intros. apply Nat.le_antisymm; [apply depth_le|]. apply depth_ge; auto.
  intros m M. apply inb_In, H. auto.
Qed.

Lemma loc_ok : forall rho pv t vs (st : state V) bound, covers bound vs ->
  posok1 T (depth bound vs) rho pv t vs st ->
  exists q, apos T rho t vs (length vs) = Some q /\ ieval T st (value_loc pv vs) = Some q.
Proof.
  intros rho pv t vs st bound C P. rewrite (covers_depth _ _ C) in P. apply ieval_parent. auto.
Qed.

Lemma lower_expr_ok : forall bound rho e st,
  posok T dimf bound rho (accesses e) st ->
  (forall a, In a (accesses e) -> wf_access T dimf (a_tensor a) (a_vars a) /\ covers bound (a_vars a)) ->
  veval R fn T st (lower_expr e) = Some (eval R fn (denot R T rho) e).
Proof.
  intros bound rho e st [IX P]. revert P. induction e; simpl; intros P ACC; auto.
  - destruct (ACC a (or_introl eq_refl)) as [W C].
    destruct (loc_ok rho (VPos a) (a_tensor a) (a_vars a) st bound C) as (q & A & E); [apply P; auto|].
    rewrite E. rewrite (denot_pos R T dimf rho a W), A.
    apply nth_error_nth'. destruct W as (K & W & _). unfold apos in A. rewrite firstn_all in A.
    eapply wf_vals_at; [exact W| |  |exact A]; [lia|].
    rewrite !map_length. rewrite <- (map_length kind_of), K, map_length. auto.
  - rewrite IHe; auto.
  - rewrite IHe; auto.
  - rewrite IHe1, IHe2; auto; intros; try (apply P; apply in_app_iff; auto); apply ACC, in_app_iff; auto.
  - rewrite IHe1, IHe2; auto; intros; try (apply P; apply in_app_iff; auto); apply ACC, in_app_iff; auto.
  - rewrite IHe1, IHe2; auto; intros; try (apply P; apply in_app_iff; auto); apply ACC, in_app_iff; auto.
Qed.
End LowerExpr.

Section Trace.
Context {V : Type}.
Variable R : ring_ops V.
Variable fn : nat -> V -> V.
Variable T : nat -> storage V.
Variable junkV : nat -> V.
Variable junkI : nat -> nat.
Variable dimf : ivar -> nat.
Variable srt : list point -> list point.
Hypothesis SRT : admissible_sort srt.
Notation exec := (exec R fn T junkV junkI).

(** What the innermost statement may rely on: the loop variables hold the
    coordinates and the position variables of every operand hold the positions
    of these coordinates in the operand. *)
Definition at_visit (vars : list ivar) (rho : ivar -> nat) (e : expr V) (st : state V) : Prop :=
  (forall i, In i vars -> env st (VIdx i) = Some (rho i) /\ rho i < dimf i) /\
  (forall a l, In a (accesses e) -> l < length (a_vars a) ->
     exists q, walk (st_levels (T (a_tensor a))) 0 (map rho (map fst (firstn (S l) (a_vars a)))) = Some q /\
               env st (VPos a l) = Some q).

Variable leaf : expr V -> stmt V.
Variable Log : list ((ivar -> nat) * expr V) -> state V -> Prop.
Variable order : list ivar.
Hypothesis LogCtl : forall l st st', ctl st st' -> Log l st -> Log l st'.
Hypothesis Leaf : forall l rho e st, Log l st -> at_visit order rho e st ->
  exists st', exec (leaf e) st st' /\ same_ctl st st' /\ Log (l ++ [(rho, e)]) st'.

Definition trace_hooks : @hooks V :=
  Hooks (fun _ _ => Skip) (fun _ _ => Skip) (fun _ _ => Skip) (fun _ _ => Skip) leaf.

Lemma same_ctl_refl : forall st : state V, same_ctl st st.
Proof. intros st v; auto. Qed.

Theorem trace_ok : forall e rho0 st,
  NoDup order -> NoDup (accesses e) ->
  (forall a, In a (accesses e) -> wf_access T dimf (a_tensor a) (a_vars a) /\
     (forall pre post, order = pre ++ post -> legal (rev pre) (a_vars a)) /\ covers order (a_vars a)) ->
  Log [] st ->
  exists st', exec (lower srt dimf trace_hooks order [] e) st st' /\ Log (visits T dimf order rho0 e) st'.
Proof.
  intros e rho0 st ND LIN ACC L0.
  set (A := fun (g : list ((ivar -> nat) * expr V)) (vars bound : list ivar) (rho : ivar -> nat) (e : expr V) st =>
     Log g st /\ rev vars ++ bound = rev order /\ forall a, In a (accesses e) -> covers order (a_vars a)).
  set (B := fun (g : list ((ivar -> nat) * expr V)) (vars bound : list ivar) (rho : ivar -> nat) (e : expr V) st =>
     Log (g ++ visits T dimf vars rho e) st).
  set (I := fun (g : list ((ivar -> nat) * expr V)) (vars bound : list ivar) (rho : ivar -> nat) (e : expr V) (i : ivar) c st =>
     Log (g ++ visits_to T dimf vars rho e i c) st /\ rev (i :: vars) ++ bound = rev order /\
     forall a, In a (accesses e) -> covers order (a_vars a)).
  destruct (nest_ok R fn T junkV junkI dimf srt SRT trace_hooks _ A B I) with
    (vars := order) (bound := @nil ivar) (rho := rho0) (e := e) (g := @nil ((ivar -> nat) * expr V)) (st := st)
    as (st' & X & _ & PB).
  - intros g vars bound rho e0 s s' C (H1 & H2). split; auto. eapply LogCtl; eauto.
  - intros g vars bound rho e0 i c s s' C (H1 & H2). split; auto. eapply LogCtl; eauto.
  - intros g i vars bound rho e0 s (H1 & H2) _ _. exists s. split; [constructor|]. split; [apply same_ctl_refl|].
    split; auto. unfold visits_to. simpl. rewrite app_nil_r. auto.
  - intros g i vars bound rho e0 s (H1 & H2) _. exists s. split; [constructor|]. split; [apply same_ctl_refl|].
    exact H1.
  - intros g i vars bound rho e0 c s NI C RS (H1 & H2). split; auto.
    rewrite visits_to_S. unfold visit_step. rewrite RS, app_nil_r. auto.
  - intros g i vars bound rho e0 c e' s NI C RS (H1 & H2 & H3) IX.
    exists s, (g ++ visits_to T dimf vars rho e0 i c). split; [constructor|]. split; [apply same_ctl_refl|]. split.
    + split; auto. split.
      * simpl rev in H2. rewrite <- app_assoc in H2. auto.
      * intros a Ha. apply H3. eapply zero_accesses; eauto.
    + intros s1 _ HB. exists s1. split; [constructor|]. split; [apply same_ctl_refl|]. split; auto.
      rewrite visits_to_S. unfold visit_step. rewrite RS, app_assoc. auto.
  - intros g bound rho e0 s (H1 & H2 & H3) [IX PO]. simpl in H2. subst bound.
    destruct (Leaf g rho e0 s H1) as (s' & X & S & L).
    { split.
      - intros i Hi. apply IX. apply -> in_rev. auto.
      - intros a l Ha Hl. apply (PO a Ha). rewrite covers_depth; auto.
        intros m Hm. apply -> in_rev. apply (H3 a Ha); auto. }
    exists s'. split; auto. split; auto. apply same_ctl_agree; auto.
  - rewrite app_nil_r. apply NoDup_rev. auto.
  - auto.
  - intros a Ha. destruct (ACC a Ha) as (W & LG & _). split; auto.
    intros. rewrite app_nil_r. eauto.
  - split.
    + intros j [].
    + intros a Ha l Hl. exfalso. revert Hl. unfold depth. destruct (a_vars a) as [|[v k] t]; simpl; lia.
  - split; auto. split; [apply app_nil_r|]. intros a Ha. apply (ACC a Ha).
  - exists st'. split; auto.
Qed.
End Trace.

Section Dense.
Context {V : Type}.
Variable R : ring_ops V.
Variable fn : nat -> V -> V.
Variable T : nat -> storage V.
Variable junkV : nat -> V.
Variable junkI : nat -> nat.
Variable dimf : ivar -> nat.
Variable srt : list point -> list point.
Hypothesis SRT : admissible_sort srt.
Notation exec := (exec R fn T junkV junkI).

Variable n tres : nat.
Variable vs : list (ivar * kind).
Variable reduce : bool.
Hypothesis WR : wf_access T dimf tres vs.
Hypothesis DR : forall l, l < length vs -> kind_at vs l = KDense.
Notation size := (length (st_vals (T tres))).

Definition rpos (rho : ivar -> nat) : nat :=
  match apos T rho tres vs (length vs) with Some p => p | None => 0 end.

Definition write (l : list V) (v : (ivar -> nat) * expr V) : list V :=
  let p := rpos (fst v) in
  let x := eval R fn (denot R T (fst v)) (snd v) in
  upd_nth l p (if reduce then radd R (nth p l (r0 R)) x else x).
Definition run (vis : list ((ivar -> nat) * expr V)) (l : list V) : list V := fold_left write vis l.

Lemma run_length : forall vis l, length (run vis l) = length l.
Proof. induction vis; simpl; intros; auto. unfold run in *. simpl. rewrite IHvis. apply upd_nth_length. Qed.
Lemma run_app : forall v1 v2 l, run (v1 ++ v2) l = run v2 (run v1 l).
Proof. intros. apply fold_left_app. Qed.

Lemma legal_dense : forall bound, legal bound vs.
Proof. intros bound l1 l2 L1 L2 [K|K]; rewrite DR in K by lia; discriminate. Qed.

Definition frame (g st : state V) : Prop :=
  ibuf st = ibuf g /\ (forall m, m <> n -> vbuf st m = vbuf g m) /\ (forall k, env st (VLoc k) = env g (VLoc k)).

Definition ready (bound : list ivar) (rho : ivar -> nat) (st : state V) : Prop :=
  posok1 T (depth bound vs) rho VRes tres vs st.

Lemma ready_ctl : forall bound rho st st', ctl st st' -> ready bound rho st -> ready bound rho st'.
Proof.
  intros bound rho st st' (_ & _ & C) P l Hl. destruct (P l Hl) as (q & A & E). exists q. split; auto.
  rewrite C; auto.
Qed.
Lemma frame_ctl : forall g st st', ctl st st' -> frame g st -> frame g st'.
Proof.
  intros g st st' (C1 & C2 & C3) (F1 & F2 & F3). split; [congruence|]. split.
  - intros. rewrite C2. auto.
  - intros. rewrite C3; auto.
Qed.

Notation G := (state V * list V)%type.
Definition cov (vars bound : list ivar) (e : expr V) : Prop :=
  covers (rev vars ++ bound) vs /\
  forall a, In a (accesses e) -> wf_access T dimf (a_tensor a) (a_vars a) /\ covers (rev vars ++ bound) (a_vars a).

Theorem dense_nest : forall e vars rho0 st vals,
  NoDup vars -> NoDup (accesses e) ->
  (forall a, In a (accesses e) -> wf_access T dimf (a_tensor a) (a_vars a) /\
     (forall pre post, vars = pre ++ post -> legal (rev pre) (a_vars a)) /\ covers vars (a_vars a)) ->
  covers vars vs -> vbuf st n = vals -> length vals = size ->
  exists st', exec (lower srt dimf (dense_hooks n tres vs reduce) vars [] e) st st' /\
    frame st st' /\ vbuf st' n = run (visits T dimf vars rho0 e) vals.
Proof.
  intros e0 vars0 rho0 st0 vals0 ND LIN ACC CV VB LV.
  set (A := fun (g : G) (vars bound : list ivar) (rho : ivar -> nat) (e : expr V) st =>
     frame (fst g) st /\ vbuf st n = snd g /\ length (snd g) = size /\ ready bound rho st /\ cov vars bound e).
  set (B := fun (g : G) (vars bound : list ivar) (rho : ivar -> nat) (e : expr V) st =>
     frame (fst g) st /\ vbuf st n = run (visits T dimf vars rho e) (snd g) /\ ready bound rho st).
  set (I := fun (g : G) (vars bound : list ivar) (rho : ivar -> nat) (e : expr V) i c st =>
     frame (fst g) st /\ vbuf st n = run (visits_to T dimf vars rho e i c) (snd g) /\ length (snd g) = size /\
     ready bound rho st /\ cov (i :: vars) bound e).
  assert (COVS : forall i vars bound e, cov (i :: vars) bound e -> cov vars (i :: bound) e).
  { intros i vars bound e [C1 C2]. unfold cov in *. simpl rev in *. rewrite <- app_assoc in *. auto. }
  destruct (nest_ok R fn T junkV junkI dimf srt SRT (dense_hooks n tres vs reduce) _ A B I) with
    (vars := vars0) (bound := @nil ivar) (rho := rho0) (e := e0) (g := (st0, vals0)) (st := st0)
    as (st' & X & _ & PB).
  - intros g vars bound rho e s s' C (H1 & H2 & H3 & H4 & H5). split; [eapply frame_ctl; eauto|].
    split; [destruct C as (_ & -> & _); auto|]. split; auto. split; auto. eapply ready_ctl; eauto.
  - intros g vars bound rho e i c s s' C (H1 & H2 & H3 & H4 & H5). split; [eapply frame_ctl; eauto|].
    split; [destruct C as (_ & -> & _); auto|]. split; auto. split; auto. eapply ready_ctl; eauto.
  - intros g i vars bound rho e s (H1 & H2 & H3 & H4 & H5) _ _. exists s.
    split; [constructor|]. split; [apply same_ctl_refl|]. split; auto.
  - intros g i vars bound rho e s (H1 & H2 & H3 & H4 & H5) _. exists s.
    split; [constructor|]. split; [apply same_ctl_refl|]. split; auto.
  - intros g i vars bound rho e c s NI C RS (H1 & H2 & H3 & H4 & H5). split; auto. split; auto.
    rewrite visits_to_S. unfold visit_step. rewrite RS, app_nil_r. auto.
  - intros g i vars bound rho e c e' s NI C RS (H1 & H2 & H3 & H4 & H5) IX.
    assert (CV' : cov vars (i :: bound) e').
    { apply COVS in H5. destruct H5 as [C1 C2]. split; auto. intros a Ha. apply C2. eapply zero_accesses; eauto. }
    assert (EXT : forall l, l < depth bound vs -> forall q,
       apos T rho tres vs (S l) = Some q <-> apos T (upd rho i c) tres vs (S l) = Some q).
    { intros l Hl q. rewrite (apos_ext T (upd rho i c) rho); [tauto|]. intros m M1 M2. apply upd_neq. intros E.
      apply NI. rewrite <- E. apply inb_In, depth_bound. lia. }
    assert (EN : exists s', exec (ins_enter tres vs bound i) s s' /\ 
       only_var (fun v => exists m, depth bound vs <= m < length vs /\ v = VRes m) s s' /\
       ready (i :: bound) (upd rho i c) s').
    { unfold ins_enter. destruct (index_of i vs) as [l|] eqn:IO.
      - destruct (index_of_nth _ _ _ IO) as [LT VA].
        apply (decl_locate_ok R fn T junkV junkI dimf i bound (upd rho i c) VRes tres vs l s WR); auto.
        + split; [intros l1 l2 E; inversion E; auto|intros; discriminate].
        + apply legal_dense.
        + apply legal_dense.
        + intros m Hm. destruct (H4 m Hm) as (q & A1 & E1). exists q. split; auto. apply EXT; auto.
      - exists s. split; [constructor|]. split; [repeat split; auto|].
        unfold ready. rewrite depth_cons_none by auto.
        intros m Hm. destruct (H4 m Hm) as (q & A1 & E1). exists q. split; auto. apply EXT; auto. }
    destruct EN as (s' & XE & (O1 & O2 & O3) & RD).
    exists s', (fst g, run (visits_to T dimf vars rho e i c) (snd g)).
    split; [exact XE|]. split.
    { intros v Hv. apply O3. intros (m & _ & ->). discriminate. }
    split.
    + split; [|split; [|split; [|split]]]; auto.
      * destruct H1 as (F1 & F2 & F3). split; [simpl; congruence|]. split.
        -- intros m Hm. simpl. rewrite O2. auto.
        -- intros k. rewrite O3; auto. intros (m & _ & E). discriminate.
      * simpl. rewrite O2. auto.
      * simpl. rewrite run_length. auto.
    + intros s1 IX1 (F & VB1 & RD1). exists s1. split; [constructor|]. split; [apply same_ctl_refl|].
      split; auto. split; [|split; [|split]]; auto.
      * rewrite visits_to_S. unfold visit_step. rewrite RS, run_app. auto.
      * intros m Hm. destruct (RD1 m) as (q & A1 & E1).
        { eapply Nat.lt_le_trans; [exact Hm|]. apply depth_mono. simpl; auto. }
        exists q. split; auto. apply EXT; auto.
  - intros g bound rho e s (H1 & H2 & H3 & H4 & [C1 C2]) PO. simpl in C1, C2.
    assert (EV : veval R fn T s (lower_expr e) = Some (eval R fn (denot R T rho) e)).
    { apply (lower_expr_ok R fn T dimf bound); auto. }
    destruct (loc_ok T rho VRes tres vs s bound C1 H4) as (q & A1 & E1).
    assert (QL : q < size).
    { destruct WR as (K & W & _). unfold apos in A1. rewrite firstn_all in A1.
      eapply wf_vals_at; [exact W| |  |exact A1]; [lia|].
      rewrite !map_length. rewrite <- (map_length kind_of), K, map_length. auto. }
    assert (RP : rpos rho = q) by (unfold rpos; rewrite A1; auto).
    exists (setV s n (upd_nth (vbuf s n) q
              (if reduce then radd R (nth q (vbuf s n) (r0 R)) (eval R fn (denot R T rho) e)
               else eval R fn (denot R T rho) e))). split; [|split].
    + unfold dense_hooks, store_leaf; simpl. constructor; auto; [|rewrite H2, H3; auto].
      destruct reduce; auto. simpl. rewrite E1, EV.
      rewrite (nth_error_nth' (vbuf s n) (r0 R)); [auto|]. rewrite H2, H3. auto.
    + apply same_ctl_agree. intros v Hv. auto.
    + split; [|split]; auto.
      * destruct H1 as (F1 & F2 & F3). split; auto. split; auto.
        intros m Hm. simpl. destruct (m =? n) eqn:E; [apply Nat.eqb_eq in E; contradiction|auto].
      * simpl. rewrite Nat.eqb_refl. unfold write. simpl. rewrite RP, H2. auto.
  - rewrite app_nil_r. apply NoDup_rev. auto.
  - auto.
  - intros a Ha. destruct (ACC a Ha) as (W & LG & _). split; auto.
    intros. rewrite app_nil_r. eauto.
  - split.
    + intros j [].
    + intros a Ha l Hl. exfalso. revert Hl. unfold depth. destruct (a_vars a) as [|[v k] t]; simpl; lia.
  - assert (RV : forall x, covers vars0 x -> covers (rev vars0 ++ []) x).
    { intros x Cx l Hl. rewrite app_nil_r. apply -> in_rev. auto. }
    split; [|split; [|split; [|split]]]; auto.
    + split; auto.
    + intros l Hl. exfalso. revert Hl. unfold depth. destruct vs as [|[v k] t]; simpl; lia.
    + split; [apply RV; auto|]. intros a Ha. destruct (ACC a Ha) as (W & LG & Ca). auto.
  - destruct PB as (F & VBF & _). exists st'. auto.
Qed.
End Dense.
