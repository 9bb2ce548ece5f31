(** The parallelize command with atomic updates. *)
From Coq Require Import List Arith Lia Bool Ring_theory Ring Permutation Relations.
Import ListNotations.
From Verif Require Import IndexExpr Eval Notation NotationSpec NotationProofs NotationRun Transform TransformSpec PromoteProofs PromoteSem.
From Verif Require Import Parallel ParallelSpec ParallelExec ParallelProofs ParallelTop.
Local Open Scope nat_scope.

Section P.
Context {V : Type}.
Variable tmp : tensor -> tensor.
Notation stmt := (nstmt V).
Hypothesis tmp_inj : forall A B, tmp A = tmp B -> A = B.
Notation prom := (prom false true tmp).

Lemma subst_scoped : forall A vs t (s : stmt), res s = A -> lhs s = vs -> ~ In A (temps s) -> scoped_temps s -> scoped_temps (subst_lhs (A, vs) t s).
Proof.
  clear tmp_inj. intros A vs t. induction s as [t' vs' op e|an i b IH|c IHc p IHp]; intros HA HV N S; cbn [subst_lhs res lhs temps scoped_temps] in *.
  - destruct (acc_eqb (t', vs') (A, vs)); cbn; auto.
  - auto.
  - assert (Nc : ~ In A (temps c)). { intros J. apply N. right. apply in_app_iff. auto. }
    assert (P : subst_lhs (A, vs) t p = p). { apply (subst_id tmp). intros J. apply N. cbn in J |- *. rewrite in_app_iff. tauto. }
    rewrite P. destruct (subst_facts tmp A vs t c HA HV Nc) as (_ & -> & -> & _). intuition.
Qed.

Lemma prom_clean : forall (s : stmt), NoDup (res s :: temps s) -> (forall A, ~ In (tmp A) (tensors s)) -> scoped_temps s ->
  forall hd idx, NoDup (res s :: temps (prom hd idx s)) /\ scoped_temps (prom hd idx s) /\ op_of (prom hd idx s) = op_of s.
Proof.
  induction s as [t' vs' op e|an i b IH|c IHc p IHp]; intros ND TF SC hd idx; cbn [PromoteProofs.prom res temps rhs_reads op_of] in *; auto.
  - destruct (IH ND TF SC (hd || cond true idx b) (i :: idx)) as (I1 & I2 & I3).
    destruct (negb hd && cond true idx b) eqn:E; [|cbn [temps scoped_temps op_of]; auto].
    apply andb_true_iff in E as [Eh Ec]. destruct hd; [discriminate|]. rewrite Ec in *. cbn [orb] in *.
    inversion ND as [|? ? NA ND']; subst. inversion I1 as [|? ? NA' ND'']; subst.
    destruct (prom_names tmp (fun _ v => v) (fun _ => 0) false true b ND) with (hd := true) (idx := i :: idx) as (N1 & N2 & N3).
    { intros A J. apply (TF A). unfold tensors. cbn in J |- *. rewrite in_app_iff. tauto. }
    cbn [own] in N1, N2. set (b' := prom true (i :: idx) b) in *.
    assert (Rb : res b' = res b) by apply prom_res. assert (Lb : lhs b' = lhs b) by apply prom_lhs.
    destruct (subst_facts tmp (res b) (lhs b) (tmp (res b)) b' Rb Lb NA') as (S1 & S2 & S3 & S4).
    assert (tA : tmp (res b) <> res b). { intro Q. apply (TF (res b)). rewrite Q. left. auto. }
    assert (tt : ~ In (tmp (res b)) (temps b')).
    { intro J. apply N2 in J as [J|J]; [apply (TF (res b)); right; apply in_app_iff; auto|]. apply in_map_iff in J as (B & Q & J). apply tmp_inj in Q. subst B. auto. }
    assert (tr : ~ In (tmp (res b)) (rhs_reads b')).
    { intro J. apply N1 in J as [J|J]; [apply (TF (res b)); right; apply in_app_iff; auto|]. apply in_map_iff in J as (B & Q & J). apply tmp_inj in Q. subst B. auto. }
    cbn [temps res scoped_temps rhs_reads reads op_of]. rewrite S1, S2, S3, app_nil_r. split; [|split; [split; [|split; [|split]]|]].
    + constructor; [cbn [In]; intuition|]. constructor; auto.
    + intros t [<-|[]]. auto.
    + intros t J [Q|[]]. subst t. auto.
    + exact I.
    + apply subst_scoped; auto.
    + unfold opx. cbn. auto.
  - inversion ND as [|? ? N1 ND1]; subst. inversion ND1 as [|? ? N2 ND2]; subst. rewrite in_app_iff in N2. cbn [In] in N1. rewrite in_app_iff in N1.
    destruct (nodup_app _ _ ND2) as (NDp0 & NDc0 & DJ).
    assert (NDp : NoDup (res p :: temps p)) by (constructor; tauto).
    assert (NDc : NoDup (res c :: temps c)) by (constructor; tauto).
    cbn [scoped_temps] in SC. destruct SC as (Sa & Sb & Sc & Sp).
    assert (TFc : forall A, ~ In (tmp A) (tensors c)).
    { intros A J. apply (TF A). unfold tensors in *. cbn in J |- *. rewrite !in_app_iff in *. tauto. }
    assert (TFp : forall A, ~ In (tmp A) (tensors p)).
    { intros A J. apply (TF A). unfold tensors in *. cbn in J |- *. rewrite !in_app_iff in *. tauto. }
    destruct (IHc NDc TFc Sc hd idx) as (C1 & C2 & C3). destruct (IHp NDp TFp Sp false idx) as (P1 & P2 & P3).
    destruct (prom_names tmp (fun _ v => v) (fun _ => 0) false true c NDc) with (hd := hd) (idx := idx) as (NC1 & NC2 & _).
    { intros A J. apply (TFc A). unfold tensors. cbn in J |- *. rewrite in_app_iff. tauto. }
    destruct (prom_names tmp (fun _ v => v) (fun _ => 0) false true p NDp) with (hd := false) (idx := idx) as (NP1 & NP2 & _).
    { intros A J. apply (TFp A). unfold tensors. cbn in J |- *. rewrite in_app_iff. tauto. }
    set (c' := prom hd idx c) in *. set (p' := prom false idx p) in *.
    assert (Rp : res p' = res p) by apply prom_res. assert (Rc : res c' = res c) by apply prom_res.
    assert (OWN : forall B, In B (own hd c) -> In B (res c :: temps c)). { intros B. destruct hd; cbn; auto. }
    inversion C1 as [|? ? C1a C1b]; subst. inversion P1 as [|? ? P1a P1b]; subst.
    assert (F : forall A u, In u (res c :: res p :: temps p ++ temps c) \/ In u (rhs_reads p) \/ In u (rhs_reads c) -> tmp A <> u).
    { intros A u J Q. apply (TF A). rewrite Q. unfold tensors. cbn in J |- *. rewrite !in_app_iff in *. tauto. }
    assert (DISJ : forall B, In B (res p :: temps p) -> In B (res c :: temps c) -> False).
    { intros B [<-|J] [Q|K]; [apply N1; auto|tauto|subst B; tauto|eauto]. }
    cbn [temps scoped_temps op_of]. rewrite Rp. split; [|split; [split; [|split; [|split]]|]]; auto.
    + constructor; [|constructor].
      * cbn [In]. rewrite in_app_iff. intros [Q|[J|J]]; [tauto| |auto].
        apply NP2 in J as [J|J]; [tauto|]. apply in_map_iff in J as (B & Q & J). apply (F B (res c)); cbn; auto.
      * rewrite in_app_iff. intros [J|J]; [auto|]. apply NC2 in J as [J|J]; [tauto|]. apply in_map_iff in J as (B & Q & J). apply (F B (res p)); cbn; auto.
      * clear - C1b P1b NP2 NC2 DJ F DISJ OWN tmp_inj. 
        assert (D : forall u, In u (temps p') -> In u (temps c') -> False).
        { intros u J K. apply NP2 in J. apply NC2 in K.
          assert (Z : forall u, In u (temps p) \/ In u (temps c) -> In u (res c :: res p :: temps p ++ temps c)).
          { intros v Q. cbn. rewrite in_app_iff. tauto. }
          destruct J as [J|J], K as [K|K]; [eauto|apply in_map_iff in K as (B & Q & K)|apply in_map_iff in J as (B & Q & J)|].
          - apply (F B u); auto.
          - apply (F B u); auto.
          - apply in_map_iff in K as (B & Q & K). apply in_map_iff in J as (B' & Q' & J). rewrite <- Q' in Q. apply tmp_inj in Q. subst B'. eauto. }
        clear - C1b P1b D. induction (temps p') as [|u l IH]; cbn; auto. inversion P1b; subst. constructor.
        { rewrite in_app_iff. intros [J|J]; auto. apply (D u); auto. left; auto. }
        apply IH; auto. intros v J K. apply (D v); auto. right; auto.
    + intros t J K. apply NP1 in K. destruct J as [<-|J].
      * destruct K as [K|K]; [apply (Sa (res p)); cbn; auto|]. apply in_map_iff in K as (B & Q & K). apply (F B (res p)); cbn; auto.
      * apply NC2 in J. destruct J as [J|J], K as [K|K].
        -- apply (Sa t); cbn; auto.
        -- apply in_map_iff in K as (B & Q & K). apply (F B t); auto. left. cbn. rewrite in_app_iff. auto.
        -- apply in_map_iff in J as (B & Q & J). apply (F B t); auto.
        -- apply in_map_iff in J as (B & Q & J). apply in_map_iff in K as (B' & Q' & K). rewrite <- Q' in Q. apply tmp_inj in Q. subst B'. eauto.
    + intros t J K. apply NP2 in J. apply NC1 in K. destruct J as [J|J], K as [K|K].
      * apply (Sb t); auto.
      * apply in_map_iff in K as (B & Q & K). apply (F B t); auto. left. cbn. rewrite in_app_iff. auto.
      * apply in_map_iff in J as (B & Q & J). apply (F B t); auto.
      * apply in_map_iff in J as (B & Q & J). apply in_map_iff in K as (B' & Q' & K). rewrite <- Q' in Q. apply tmp_inj in Q. subst B'. eauto.
Qed.

Lemma prom_spine : forall (s : stmt) hd idx v, In v (spine (prom hd idx s)) -> In v (spine s).
Proof.
  clear tmp_inj. induction s as [t' vs' op e|an i b IH|c IHc p IHp]; intros hd idx v; cbn [PromoteProofs.prom spine]; eauto.
  destruct (negb hd && cond true idx b); cbn [spine]; [intros []|]. intros [->|J]; [left; auto|right; eauto].
Qed.
Lemma shadow_weak : forall (s : stmt) a b, (forall v, In v b -> In v a) -> no_shadow a s -> no_shadow b s.
Proof.
  clear. induction s; intros a b I H; cbn in *; auto.
  - destruct H. split; auto. eapply IHs; [|eauto]. intros v [->|J]; cbn; auto.
  - destruct H. eauto.
Qed.

Variable R : ring_ops V.
Hypothesis RT : ring_theory (r0 R) (r1 R) (radd R) (rmul R) (rsub R) (ropp R) eq.
Variable fn : nat -> V -> V.
Variable dv : V -> V -> V.
Variable dim : ivar -> nat.
Notation run := (run R fn dv dim).
Variable loop_ok : stmt -> bool.
Variable w : tensor.
Notation parallelize_at := (parallelize_at loop_ok w tmp).

Lemma atomics_at : forall unit i (s s' : stmt) red bs ws, unit <> not_parallel ->
  parallelize_at unit atomics red i s = POk s' ->
  good tmp s -> scoped_temps s -> no_shadow bs s -> serial s ->
  (In i (spine s) -> lhs s <> [] \/ ~ In (res s) ws) ->
  (forall p, In p (producers s) -> In i (spine p) -> lhs p <> []) ->
  safe 0 ws s' /\ res s' = res s /\ forall r T, eqT (run s' r T) (run s r T).
Proof.
  intros unit i s. induction s as [t vs op e|an j b IH|c IHc p IHp]; intros s' red bs ws U H G SC SH SE W PW; cbn [Parallel.parallelize_at] in H.
  - inversion H; subst. split; [cbn; auto|]. split; auto. intros; apply eqT_refl.
  - destruct (good_forall tmp fn dim _ _ _ G) as (ND & TF & NO & OP & OPN & Gb). cbn [scoped_temps no_shadow serial spine lhs res producers] in *.
    destruct SH as [SH1 SH2]. destruct SE as [SE1 SE2].
    destruct (Nat.eqb_spec j i) as [->|Ne].
    + unfold parallelize_loop in H. change (Nat.eqb atomics no_races) with false in H. change (Nat.eqb atomics temporary) with false in H.
      change (Nat.eqb atomics atomics) with true in H. cbn [andb] in H. destruct (negb (loop_ok (NForall an i b))); inversion H; subst; clear H.
      assert (SH0 : no_shadow [] b). { eapply shadow_weak; [|exact SH2]. intros v []. }
      rewrite promote_prom by auto.
      destruct (prom_clean b ND TF SC false []) as (C1 & C2 & C3).
      destruct (prom_names tmp (fun _ v => v) (fun _ => 0) false true b ND) with (hd := false) (idx := @nil ivar) as (N1 & N2 & _).
      { intros A J. apply (TF A). unfold tensors. cbn in J |- *. rewrite in_app_iff. tauto. }
      assert (RP : runs_parallel (annotate unit atomics an) = true).
      { unfold runs_parallel. cbn. destruct (Nat.eqb_spec unit not_parallel); [congruence|]. auto. }
      assert (DP : depth_in (annotate unit atomics an) 0 = 1).
      { unfold depth_in. cbn. destruct (Nat.eqb_spec unit not_parallel); [congruence|]. auto. }
      cbn [safe res]. rewrite RP, DP, prom_res. split; [|split; auto].
      * unfold loop_safe. rewrite prom_res, prom_lhs, C3. split; auto. split; auto. split.
        { unfold not_own_operand. rewrite prom_res. intros J. apply N1 in J as [J|J]; [auto|].
          apply in_map_iff in J as (B & Q & J). apply (TF B). rewrite Q. left. auto. }
        destruct OP as [OP|OP]; [right; exists RSum; split; auto; split; auto; apply W; left; auto|].
        left. split; auto. intros J. apply prom_spine in J. revert J. eapply shadow_spine; [exact SH2|]. left; auto.
      * intros r T. change (run (NForall (annotate unit atomics an) i (prom false [] b)) r T) with (run (NForall an i (prom false [] b)) r T). apply forall_cong. intros r0 T0. apply prom_ok; auto. intros _ Q. discriminate.
    + destruct (parallelize_at unit atomics red i b) as [| |b'] eqn:E; inversion H; subst.
      destruct (IH b' red (j :: bs) ws) as (S & RS & Q); auto.
      { intros J. apply W. right. auto. }
      cbn [safe res]. assert (NP : runs_parallel an = false) by (unfold runs_parallel; rewrite SE1; auto).
      rewrite NP. assert (DP : depth_in an 0 = 0) by (unfold depth_in; rewrite SE1; auto). rewrite DP.
      split; auto. split; auto. intros r T. apply forall_cong. auto.
  - destruct (good_where tmp fn dim _ _ G) as (Gc & Gp & NE). cbn [scoped_temps no_shadow serial spine lhs res producers] in *.
    destruct SH as [SHc SHp]. destruct SE as [SEc SEp]. destruct SC as (_ & _ & SCc & SCp).
    destruct (parallelize_at unit atomics red i p) as [| |p'] eqn:Ep; try discriminate.
    destruct (parallelize_at unit atomics red i c) as [| |c'] eqn:Ec; inversion H; subst.
    destruct (IHp p' red bs (res p :: ws)) as (Sp & Rp & Qp); auto.
    { intros J. left. apply PW; auto. left. auto. }
    { intros q J K. apply PW; auto. right. apply in_app_iff. auto. }
    destruct (IHc c' red bs ws) as (Sc & Rc & Qc); auto.
    { intros q J K. apply PW; auto. right. apply in_app_iff. auto. }
    cbn [safe res]. rewrite Rp. change (depth_producer 0) with 0. split; auto. split; auto.
    intros r T. cbn [NotationSpec.run]. rewrite Rp. apply set_ext; auto. eapply eqT_trans; [apply Qc|]. apply run_ext; auto.
Qed.
End P.
