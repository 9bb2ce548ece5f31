(** The parallelize command with a temporary for the reduction. *)
From Coq Require Import List Arith Lia Bool Ring_theory Ring Permutation Relations.
Import ListNotations.
From Verif Require Import IndexExpr Eval Notation NotationSpec NotationProofs NotationRun NotationConc Transform TransformSpec PromoteProofs PromoteSem.
From Verif Require Import Parallel ParallelSpec ParallelExec ParallelProofs ParallelTop ParallelAtomic.
Local Open Scope nat_scope.

Section P.
Context {V : Type}.
Notation stmt := (nstmt V).

Lemma add_new_not : forall vs seen out v, In v seen -> In v (snd (add_new (seen, out) vs)) -> In v out.
Proof.
  induction vs as [|u vs IH]; intros seen out v I H; [exact H|]. unfold add_new in H. cbn [fold_left] in H.
  fold (add_new (u :: seen, out ++ [u]) vs) (add_new (seen, out) vs) in H. destruct (mem_spec u seen) as [J|J].
  - apply (IH seen out v); auto.
  - apply IH in H; [|right; auto]. apply in_app_iff in H. destruct H as [H|[->|[]]]; tauto.
Qed.
Lemma reduced_not_lhs : forall vs (e : nexpr V) i, mem i (assignment_reduction_vars vs e) = true -> ~ In i vs.
Proof.
  intros vs e i H I. unfold assignment_reduction_vars in H. apply mem_In in H. apply add_new_not in H; [destruct H|auto].
Qed.
Lemma reduced_plain : forall i (b : stmt), temps b = [] ->
  reduced_by i b = [] \/ (reduced_by i b = [(res b, lhs b, op_of b)] /\ ~ In i (lhs b)).
Proof.
  intros i. induction b as [t vs op e|an j b IH|c IHc p IHp]; intros N; cbn [reduced_by temps res lhs op_of] in *; auto; [|discriminate].
  destruct (mem i (assignment_reduction_vars vs e)) eqn:E; auto. right. split; auto. eapply reduced_not_lhs; eauto.
Qed.
(** The body with the temporary. *)
Lemma replace_facts : forall w i (b : stmt), temps b = [] ->
  let b' := replace_lhs (res b, lhs b) w [i] b in
  res b' = w /\ temps b' = [] /\ rhs_reads b' = rhs_reads b /\ op_of b' = op_of b /\ lhs b' = [i] /\ spine b' = spine b /\
  scoped_temps b' /\ (serial b -> serial b').
Proof.
  intros w i. induction b as [t vs op e|an j b IH|c IHc p IHp]; intros N; cbn [replace_lhs temps res lhs] in *; [| |discriminate].
  - rewrite acc_eqb_refl. cbn. repeat split; auto.
  - destruct (IH N) as (A & B & C & D & E & F & G & H). cbn. rewrite F. repeat split; auto; tauto.
Qed.

Variable R : ring_ops V.
Hypothesis RT : ring_theory (r0 R) (r1 R) (radd R) (rmul R) (rsub R) (ropp R) eq.
Variable fn : nat -> V -> V.
Variable dv : V -> V -> V.
Variable dim : ivar -> nat.
Add Ring Rr9 : RT.
Notation run := (run R fn dv dim).
Notation ups := (ups R fn dv dim).
Notation "0r" := (r0 R). Notation "a +r b" := (radd R a b) (at level 50, left associativity).

Lemma replace_ups : forall w i (b : stmt), temps b = [] -> ~ In i (spine b) -> (forall v, In v (lhs b) -> ~ In v (spine b)) ->
  forall r T x, ups (replace_lhs (res b, lhs b) w [i] b) r T x = if list_eqb x [r i] then ups b r T (map r (lhs b)) else [].
Proof.
  intros w i. induction b as [t vs op e|an j b IH|c IHc p IHp]; intros N NI NV r T x; cbn [replace_lhs temps res lhs spine] in *; [| |discriminate].
  - rewrite acc_eqb_refl. cbn. rewrite list_eqb_refl. auto.
  - cbn [NotationRun.ups]. assert (G : forall c, ups (replace_lhs (res b, lhs b) w [i] b) (ext r j c) T x =
        if list_eqb x [r i] then ups b (ext r j c) T (map r (lhs b)) else []).
    { intros c. rewrite IH; auto. 2:{ intros J. apply NI. right; auto. } 2:{ intros v Iv J. apply (NV v Iv). right; auto. }
      rewrite ext_other by (intros ->; apply NI; left; auto). destruct (list_eqb x [r i]); auto. f_equal. apply map_ext_in.
      intros v Iv. apply ext_other. intros ->. apply (NV j Iv). left; auto. }
    destruct (list_eqb x [r i]).
    + rewrite !flat_map_concat_map. f_equal. apply map_ext_in. auto.
    + apply flat_map_nil. auto.
Qed.

Lemma temporary_run : forall an an1 an2 i (b : stmt) w r T, temps b = [] -> ~ In i (spine b) -> ~ In i (lhs b) ->
  (forall v, In v (lhs b) -> ~ In v (spine b)) -> op_of b = Some RSum -> not_own_operand b -> w <> res b -> ~ In w (rhs_reads b) ->
  eqT (run (NWhere (NForall an2 i (NAssign (res b) (lhs b) (Some RSum) (NAcc w [i]))) (NForall an1 i (replace_lhs (res b, lhs b) w [i] b))) r T)
      (run (NForall an i b) r T).
Proof.
  intros an an1 an2 i b w r T NT NI NL NV OP NO Nw Rw. unfold not_own_operand in NO.
  destruct (replace_facts w i b NT) as (F1 & F2 & F3 & F4 & F5 & F6 & _).
  set (b' := replace_lhs (res b, lhs b) w [i] b) in *. set (A := res b) in *. set (vs := lhs b) in *.
  set (p0 := NForall an1 i b'). set (c0 := NForall an2 i (NAssign A vs (Some RSum) (NAcc w [i]))).
  assert (Rp : res p0 = w) by exact F1.
  assert (VE : forall c, map (ext r i c) vs = map r vs). { intros c. apply map_ext_in. intros v Iv. apply ext_other. intros ->. auto. }
  set (T1 := run p0 r (clear R w T)).
  assert (W1 : forall c, c < dim i -> T1 w [c] = sumv R (ups b (ext r i c) T (map r vs))).
  { intros c Hc. unfold T1. transitivity (run p0 r (clear R w T) (res p0) [c]); [rewrite Rp; auto|].
    rewrite run_ups; [|rewrite Rp; unfold p0; cbn [rhs_reads temps]; rewrite ?F2, ?F3; auto..].
    rewrite Rp. rewrite (apply_sum R RT). 2:{ intros u Iu. apply ups_op in Iu. cbn [p0 op_of] in Iu. congruence. }
    unfold clear at 1, set_tensor. rewrite Nat.eqb_refl.
    assert (E : ups p0 r (clear R w T) [c] = ups b (ext r i c) T (map r vs)).
    { rewrite (ups_off R fn dv dim w p0 r _ T).
      2:{ unfold p0. cbn [rhs_reads]. rewrite F3. auto. }
      2:{ intros t0 x0 Q. unfold clear, set_tensor. destruct (Nat.eqb_spec t0 w); congruence. }
      unfold p0. cbn [NotationRun.ups].
      assert (G : forall l, NoDup l -> flat_map (fun c0 => ups b' (ext r i c0) T [c]) l =
                  if in_dec Nat.eq_dec c l then ups b (ext r i c) T (map r vs) else []).
      { induction l as [|k l IH]; intros ND; cbn [flat_map]; auto. apply NoDup_cons_iff in ND as [N1 N2]. rewrite IH by auto.
        unfold b', A, vs. rewrite (replace_ups w i b) by auto. fold vs. rewrite ext_same, VE.
        destruct (list_eqb_spec [c] [k]) as [E|E].
        - injection E as E. subst k. destruct (in_dec Nat.eq_dec c l); [tauto|]. rewrite app_nil_r.
          destruct (in_dec Nat.eq_dec c (c :: l)) as [|K]; auto. exfalso. apply K. left. auto.
        - cbn [app]. destruct (in_dec Nat.eq_dec c l) as [I|I], (in_dec Nat.eq_dec c (k :: l)) as [J|J]; auto.
          + exfalso. apply J. right. auto.
          + destruct J as [J|J]; [congruence|tauto]. }
      rewrite G by apply seq_NoDup. destruct (in_dec Nat.eq_dec c (seq 0 (dim i))) as [|K]; auto. exfalso. apply K. apply in_seq. lia. }
    rewrite E. ring. }
  assert (Fp : forall t0 x0, t0 <> w -> T1 t0 x0 = T t0 x0).
  { intros t0 x0 Q. unfold T1. rewrite frame by congruence. unfold clear, set_tensor. destruct (Nat.eqb_spec t0 w); congruence. }
  intros t0 x0. set (RH := run (NForall an i b) r T).
  change (set_tensor (run c0 r (run p0 r (clear R (res p0) T))) (res p0) (T (res p0)) t0 x0 = RH t0 x0). rewrite Rp. fold T1.
  destruct (Nat.eq_dec t0 w) as [->|Nt].
  { unfold set_tensor. rewrite Nat.eqb_refl. unfold RH. rewrite frame; auto. }
  unfold set_tensor. destruct (Nat.eqb_spec t0 w) as [|_]; [congruence|].
  destruct (Nat.eq_dec t0 A) as [->|NA].
  2:{ rewrite frame by auto. rewrite Fp by auto. unfold RH. rewrite frame; auto. }
  change (run c0 r T1 (res c0) x0 = RH A x0). rewrite run_ups; [|cbn; intuition congruence..]. change (res c0) with A. rewrite Fp by auto.
  unfold RH. change (run (NForall an i b) r T A x0) with (run (NForall an i b) r T (res (NForall an i b)) x0).
  rewrite run_ups; [|auto|cbn [temps]; rewrite NT; cbn; auto]. change (res (NForall an i b)) with A.
  rewrite !(apply_sum R RT).
  2:{ intros u Iu. apply ups_op in Iu. cbn [op_of] in Iu. congruence. }
  2:{ intros u Iu. apply ups_op in Iu. cbn [c0 op_of] in Iu. congruence. }
  f_equal. unfold c0. cbn [NotationRun.ups]. rewrite !(sumv_forall R RT). apply sum_ext. intros c Hc. rewrite VE.
  destruct (list_eqb_spec x0 (map r vs)) as [->|Nx].
  - cbn [NotationSpec.neval map]. rewrite ext_same, W1 by auto. unfold sumv at 1. cbn. ring.
  - rewrite (ups_miss R fn dv dim b); auto. fold vs. rewrite VE. auto.
Qed.

Variable loop_ok : stmt -> bool.
Variable w : tensor.
Variable tmp : tensor -> tensor.
Notation parallelize_at := (parallelize_at loop_ok w tmp).
Lemma at_none : forall unit race red i (s s' : stmt) bs, In i bs -> no_shadow bs s -> parallelize_at unit race red i s = POk s' -> s' = s.
Proof.
  clear. intros unit race red i. induction s as [t vs op e|an j b IH|c IHc p IHp]; intros s' bs I N H; cbn [Parallel.parallelize_at no_shadow] in *.
  - inversion H; auto.
  - destruct N as [N1 N2]. destruct (Nat.eqb_spec j i) as [->|Ne]; [tauto|].
    destruct (parallelize_at unit race red i b) as [| |b'] eqn:E; inversion H; subst.
    rewrite (IH b' (j :: bs)); auto. right; auto.
  - destruct N as [N1 N2]. destruct (parallelize_at unit race red i p) as [| |p'] eqn:Ep; try discriminate.
    destruct (parallelize_at unit race red i c) as [| |c'] eqn:Ec; inversion H; subst.
    rewrite (IHc c' bs), (IHp p' bs); auto.
Qed.
Definition summed_inside (b : stmt) : Prop :=
  temps b = [] /\ op_of b = Some RSum /\ forall v, In v (lhs b) -> ~ In v (spine b).
Lemma temporary_at : forall unit i (s s' : stmt) red sc ps cs ws, parallelize_at unit temporary red i s = POk s' ->
  (red = false -> ~ In i (reduction_vars sc ps cs s)) -> ~ In i ps ->
  (red = true -> forall b, In b (bodies i s) -> summed_inside b) ->
  fit s -> no_shadow sc s -> serial s -> ~ In w (tensors s) ->
  safe 0 ws s' /\ res s' = res s /\ forall r T, eqT (run s' r T) (run s r T).
Proof.
  intros unit i. induction s as [t vs op e|an j b IH|c IHc p IHp]; intros s' red sc ps cs ws H NR NP SB F SH SE FW; cbn [Parallel.parallelize_at] in H.
  - inversion H; subst. split; [cbn; auto|]. split; auto. intros; apply eqT_refl.
  - destruct (fit_forall _ _ _ F) as [Fb U]. cbn [reduction_vars no_shadow serial bodies] in *. destruct SH as [SH1 SH2]. destruct SE as [SE1 SE2].
    destruct (Nat.eqb_spec j i) as [->|Ne].
    + assert (SP : ~ In i (spine b)). { eapply shadow_spine; eauto. left; auto. }
      unfold parallelize_loop in H. change (Nat.eqb temporary no_races) with false in H. change (Nat.eqb temporary temporary) with true in H.
      change (Nat.eqb temporary atomics) with false in H. cbn [andb] in H. destruct (negb (loop_ok (NForall an i b))); [discriminate|].
      destruct Fb as (ND & (NO & PR) & SC & LU).
      destruct red.
      * destruct (SB eq_refl b) as (NT & OP & NV); [left; auto|].
        destruct (reduced_plain i b NT) as [E|[E NL]]; rewrite E in H; inversion H; subst; clear H.
        rewrite OP. assert (w <> res b /\ ~ In w (rhs_reads b)) as [Wr Wd].
        { unfold tensors in FW. cbn in FW. rewrite in_app_iff in FW. split; intro; apply FW; auto. }
        destruct (replace_facts w i b NT) as (F1 & F2 & F3 & F4 & F5 & F6 & F7 & F8).
        split; [|split; auto].
        -- cbn [safe]. split; [|unfold runs_parallel; cbn; auto].
           unfold depth_in. cbn [an_race annotate]. change (Nat.eqb temporary atomics) with false. rewrite andb_false_r.
           destruct (runs_parallel (annotate unit temporary an)); [|apply serial_safe; auto].
           unfold loop_safe, not_own_operand. rewrite F1, F2, F3, F5, F6. repeat split; auto.
           ++ constructor; auto. constructor.
           ++ left. split; auto. left. auto.
        -- intros r T. apply temporary_run; auto.
      * inversion H; subst; clear H. split; [|split; auto].
        -- cbn [safe]. unfold depth_in. cbn [an_race annotate]. change (Nat.eqb temporary atomics) with false. rewrite andb_false_r.
           destruct (runs_parallel (annotate unit temporary an)); [|apply serial_safe; auto].
           split; auto. split; auto. split; auto. left. split; auto.
           eapply (not_reduced b (sc ++ [i]) ps cs); eauto. apply in_app_iff. right. left. auto.
        -- intros r T. apply eqT_refl.
    + destruct (parallelize_at unit temporary red i b) as [| |b'] eqn:E; inversion H; subst.
      destruct (IH b' red (sc ++ [j]) ps cs ws) as (S & RS & Q); auto.
      { eapply shadow_weak; [|exact SH2]. intros v I. apply in_app_iff in I. cbn in *. tauto. }
      cbn [safe res]. assert (NPa : runs_parallel an = false) by (unfold runs_parallel; rewrite SE1; auto).
      rewrite NPa. assert (DP : depth_in an 0 = 0) by (unfold depth_in; rewrite SE1; auto). rewrite DP.
      split; auto. split; auto. intros r T. apply forall_cong. auto.
  - destruct (fit_where _ _ F) as [Fc Fp]. cbn [reduction_vars no_shadow serial bodies] in *. destruct SH as [SHc SHp]. destruct SE as [SEc SEp].
    destruct (parallelize_at unit temporary red i p) as [| |p'] eqn:Ep; try discriminate.
    destruct (parallelize_at unit temporary red i c) as [| |c'] eqn:Ec; inversion H; subst.
    assert (FWc : ~ In w (tensors c)). { intros J. apply FW. unfold tensors in *. cbn in *. rewrite !in_app_iff in *. tauto. }
    assert (FWp : ~ In w (tensors p)). { intros J. apply FW. unfold tensors in *. cbn in *. rewrite !in_app_iff in *. tauto. }
    destruct (IHc c' red sc ps sc ws) as (Sc & Rc & Qc); auto.
    { intros Q J. apply (NR Q). apply in_app_iff. auto. }
    { intros Q b J. apply SB; auto. apply in_app_iff. auto. }
    assert (safe 0 (res p :: ws) p' /\ res p' = res p /\ forall r T, eqT (run p' r T) (run p r T)) as (Sp & Rp & Qp).
    { destruct (in_dec Nat.eq_dec i sc) as [I|N].
      - rewrite (at_none unit temporary red i p p' sc); auto. split; [apply serial_safe; auto|]. split; auto. intros; apply eqT_refl.
      - apply (IHp p' red sc sc cs); auto.
        + intros Q J. apply (NR Q). apply in_app_iff. auto.
        + intros Q b J. apply SB; auto. apply in_app_iff. auto. }
    cbn [safe res]. rewrite Rp. change (depth_producer 0) with 0. split; auto. split; auto.
    intros r T. cbn [NotationSpec.run]. rewrite Rp. apply set_ext; auto. eapply eqT_trans; [apply Qc|]. apply run_ext; auto.
Qed.
End P.
