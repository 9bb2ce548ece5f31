(** Statements with parallel loops; the commands without synchronization. *)
From Coq Require Import List Arith Lia Bool Ring_theory Ring Permutation Relations.
Import ListNotations.
From Verif Require Import IndexExpr Eval Notation NotationSpec NotationProofs NotationRun TransformSpec Parallel ParallelSpec ParallelExec ParallelProofs.
Local Open Scope nat_scope.

Section P.
Context {V : Type}.
Variable R : ring_ops V.
Variable fn : nat -> V -> V.
Variable dv : V -> V -> V.
Variable dim : ivar -> nat.
Notation run := (run R fn dv dim).
Notation stmt := (nstmt V).
Notation store := (@store V).
Notation eqT := (@eqT V).
Notation prun := (prun R fn dv dim).
Notation prun_loop := (prun_loop R fn dv dim).
Notation thread := (@thread V).

(** ** Runs end *)
Lemma thread_runs : forall P td (M L : store) g (before after : list thread), exists M' L' g',
  clos_refl_trans _ (step R P) (M, before ++ {| private := L; registers := g; todo := td |} :: after)
                               (M', before ++ {| private := L'; registers := g'; todo := [] |} :: after).
Proof.
  intros P. induction td as [|a td IH]; intros M L g before after.
  - exists M, L, g. apply rt_refl.
  - destruct (act R P a M L g) as [[M1 L1] g1] eqn:E. destruct (IH M1 L1 g1 before after) as (M' & L' & g' & H).
    exists M', L', g'. eapply rt_trans; [apply rt_step; constructor; eauto|auto].
Qed.
Lemma threads_run : forall P (ths before : list thread) (M : store), finished before -> exists M' ths',
  clos_refl_trans _ (step R P) (M, before ++ ths) (M', ths') /\ finished ths'.
Proof.
  intros P. induction ths as [|[L g td] ths IH]; intros before M F.
  - exists M, (before ++ []). split; [apply rt_refl|]. rewrite app_nil_r. auto.
  - destruct (thread_runs P td M L g before ths) as (M1 & L1 & g1 & H1).
    destruct (IH (before ++ [{| private := L1; registers := g1; todo := [] |}]) M1) as (M2 & ths2 & H2 & F2).
    { intros th I. apply in_app_iff in I. destruct I as [I|[<-|[]]]; auto. }
    rewrite <- app_assoc in H2. exists M2, ths2. split; auto. eapply rt_trans; eauto.
Qed.
Lemma prun_ex : forall s d ws r T, exists T', prun d ws s r T T'.
Proof.
  induction s as [t vs op e|an i b IH|c IHc p IHp]; intros d ws r T.
  - eexists. apply prun_assign.
  - destruct (runs_parallel an) eqn:E.
    + destruct (threads_run (temps b) (start (dim i) (fun _ => T) (fun c => actions R fn dv dim (depth_in an d) ws b (ext r i c))) [] T) as (T' & ths & H & F).
      { intros th []. }
      exists T'. eapply prun_parallel; eauto.
    + assert (G : forall cs T, exists T', prun_loop (depth_in an d) ws b i r cs T T').
      { induction cs as [|c cs IHc]; intros T0; [eexists; constructor|].
        destruct (IH (depth_in an d) ws (ext r i c) T0) as [T1 H1]. destruct (IHc T1) as [T2 H2]. exists T2. econstructor; eauto. }
      destruct (G (seq 0 (dim i)) T) as [T' H]. exists T'. apply prun_serial; auto.
  - destruct (IHp (depth_producer d) (res p :: ws) r (clear R (res p) T)) as [T1 H1]. destruct (IHc d ws r T1) as [T2 H2].
    eexists. eapply prun_where; eauto.
Qed.

Hypothesis RT : ring_theory (r0 R) (r1 R) (radd R) (rmul R) (rsub R) (ropp R) eq.

(** ** Statements that cannot race *)
Definition loop_safe (d : nat) (ws : list tensor) (i : ivar) (b : stmt) : Prop :=
  NoDup (res b :: temps b) /\ scoped_temps b /\ not_own_operand b /\
  ((In i (lhs b) /\ ~ In i (spine b)) \/
   (exists o, op_of b = Some o /\ 0 < d /\ (lhs b <> [] \/ ~ In (res b) ws))).
Fixpoint safe (d : nat) (ws : list tensor) (s : stmt) : Prop :=
  match s with
  | NAssign _ _ _ _ => True
  | NForall an i b => if runs_parallel an then loop_safe (depth_in an d) ws i b else safe (depth_in an d) ws b
  | NWhere c p => safe (depth_producer d) (res p :: ws) p /\ safe d ws c
  end.
Lemma prun_ok : forall s d ws r T T' T0, safe d ws s -> prun d ws s r T T' -> eqT T T0 -> eqT T' (run s r T0).
Proof.
  induction s as [t vs op e|an i b IH|c IHc p IHp]; intros d ws r T T' T0 S H E; cbn [safe] in S.
  - inversion H; subst. apply run_ext; auto.
  - inversion H as [|? ? ? ? ? ? ? ? Q HL|? ? ? ? ? ? ? ? L ths Q HS F|]; subst; rewrite Q in S.
    + clear H. cbn [NotationSpec.run]. revert T T' T0 E HL. induction (seq 0 (dim i)) as [|c cs IHl]; intros T T' T0 E HL; inversion HL; subst; cbn; auto.
      eapply IHl; eauto.
    + clear H. destruct S as (ND & SC & NO & [[IL IS]|(o & OP & DP & WS)]).
      * apply In_nth_error in IL as [k IL].
        apply eqT_trans with (run (NForall an i b) r T); [|apply run_ext; auto].
        eapply loop_free; eauto.
      * apply eqT_trans with (run (NForall an i b) r T); [|apply run_ext; auto].
        eapply (loop_atomic R RT fn dv dim o); eauto.
  - inversion H; subst. destruct S as [Sp Sc]. cbn [NotationSpec.run].
    apply set_ext; [|intros; apply E]. eapply IHc; eauto. eapply IHp; eauto. apply set_ext; auto.
Qed.
Lemma safe_serial : forall (s' s : stmt) r T, safe 0 [] s' -> (forall T t x, run s' r T t x = run s r T t x) ->
  as_serial R fn dv dim s' s r T.
Proof.
  intros s' s r T S E. split; [|apply prun_ex]. intros T' H t x. rewrite <- E. eapply prun_ok; eauto. apply eqT_refl.
Qed.
Lemma serial_safe : forall (s : stmt) d ws, serial s -> safe d ws s.
Proof.
  clear RT. induction s as [t vs op e|an i b IH|c IHc p IHp]; intros d ws S; cbn in *; auto.
  - destruct S as [E S]. unfold runs_parallel. rewrite E. cbn. auto.
  - destruct S. auto.
Qed.

(** ** No races *)
Lemma add_new_mono : forall vs acc v, In v (snd acc) -> In v (snd (add_new acc vs)).
Proof.
  clear. unfold add_new. induction vs as [|x l IHl]; intros [s o] v H; cbn in *; auto. destruct (mem x s); apply IHl; auto. cbn. apply in_app_iff; auto.
Qed.
Lemma add_new_in : forall vs seen out v, In v vs -> ~ In v seen -> In v (snd (add_new (seen, out) vs)).
Proof.
  clear. induction vs as [|u vs IH]; intros seen out v I N; [destruct I|]. unfold add_new. cbn [fold_left]. fold (add_new (u :: seen, out ++ [u]) vs) (add_new (seen, out) vs).
  destruct (mem_spec u seen) as [J|J].
  - apply IH; auto. destruct I as [->|I]; tauto.
  - destruct (Nat.eq_dec u v) as [->|Ne].
    + apply add_new_mono. cbn. apply in_app_iff. right. left. auto.
    + apply IH; [destruct I; tauto|]. intros [E|E]; auto.
Qed.
Lemma add_new_out : forall vs seen out v, In v (fst (add_new (seen, out) vs)) -> In v seen \/ In v (snd (add_new (seen, out) vs)).
Proof.
  clear. induction vs as [|u vs IH]; intros seen out v; [cbn; auto|]. unfold add_new. cbn [fold_left]. fold (add_new (u :: seen, out ++ [u]) vs) (add_new (seen, out) vs).
  destruct (mem u seen); [apply IH|]. intros H. apply IH in H as [[->|H]|H]; auto. right. apply add_new_mono. cbn. apply in_app_iff. right. left. auto.
Qed.
Lemma vars_access : forall (e : nexpr V) i, In i (vars e) -> In i (access_vars e).
Proof.
  clear. induction e; cbn; intros k I; auto; rewrite ?in_app_iff in *; try (intuition auto; fail).
  apply in_remove in I. apply IHe. tauto.
Qed.
Lemma not_reduced : forall (s : stmt) sc ps cs i, ~ In i ps -> In i sc -> In i (svars s) \/ In i cs -> ~ In i (spine s) ->
  ~ In i (reduction_vars sc ps cs s) -> In i (lhs s).
Proof.
  clear. induction s as [t vs op e|an j b IH|c IHc p IHp]; intros sc ps cs i NP IS U SP NR; cbn [reduction_vars svars spine lhs] in *.
  - destruct (in_dec Nat.eq_dec i vs) as [I|N]; auto. exfalso. apply NR. rewrite in_app_iff in U.
    assert (NS : ~ In i (vs ++ ps)) by (rewrite in_app_iff; tauto).
    destruct U as [[U|U]|U]; [tauto| |].
    + apply add_new_mono. apply add_new_in; auto. apply vars_access. auto.
    + destruct (add_new (vs ++ ps, []) (access_vars e)) as [seen out] eqn:E.
      assert (G := add_new_out (access_vars e) (vs ++ ps) [] i). rewrite E in *. cbn [fst snd] in *.
      destruct (in_dec Nat.eq_dec i seen) as [J|J].
      * apply add_new_mono. cbn. destruct (G J); tauto.
      * apply add_new_in; auto.
  - apply (IH (sc ++ [j]) ps cs i); auto.
    + apply in_app_iff; auto.
    + destruct U as [U|U]; auto. apply in_remove in U. tauto.
    + intros H. apply SP. right. auto.
  - rewrite in_app_iff in NR. apply (IHc sc ps sc i); auto.
Qed.

(** What the statements need, for all their parts. *)
Definition fit (s : stmt) : Prop := distinct_results s /\ every not_own_operand s /\ scoped_temps s /\ loops_used s.
Lemma fit_forall : forall an i (b : stmt), fit (NForall an i b) -> fit b /\ In i (svars b).
Proof.
  clear. intros an i b (ND & (NO & PR) & SC & [US LU]). repeat split; auto.
Qed.
Lemma fit_where : forall c (p : stmt), fit (NWhere c p) -> fit c /\ fit p.
Proof.
  clear. intros c p (ND & (NO & PR) & (S1 & S2 & Sc & Sp) & LU & LP). unfold distinct_results, not_own_operand in *.
  cbn [res temps rhs_reads producers] in *. inversion ND as [|? ? N1 ND1]; subst. inversion ND1 as [|? ? N2 ND2]; subst.
  apply nodup_app in ND2 as (A & B & C). cbn [In] in N1. rewrite in_app_iff in N1, N2, NO.
  split; (split; [constructor; tauto|]); (split; [|split; auto]); (split; [unfold not_own_operand|intros q I; apply PR; cbn [In]; rewrite in_app_iff; auto]).
  - tauto.
  - apply PR. left. auto.
Qed.
(** The loops over variables of the left-hand side. *)
Fixpoint free_loops (s : stmt) : Prop :=
  match s with
  | NAssign _ _ _ _ => True
  | NForall an i b => (runs_parallel an = true -> In i (lhs b) /\ ~ In i (spine b)) /\ free_loops b
  | NWhere c p => free_loops c /\ free_loops p
  end.
Lemma free_safe : forall (s : stmt) d ws, fit s -> free_loops s -> safe d ws s.
Proof.
  clear. induction s as [t vs op e|an i b IH|c IHc p IHp]; intros d ws F L; cbn [safe free_loops] in *; auto.
  - apply fit_forall in F as [F _]. destruct (runs_parallel an); [|apply IH; tauto].
    destruct F as (ND & (NO & _) & SC & _). split; auto. split; auto. split; auto. left. tauto.
  - apply fit_where in F as [Fc Fp]. split; [apply IHp|apply IHc]; tauto.
Qed.
Lemma serial_free_loops : forall (s : stmt), serial s -> free_loops s.
Proof.
  clear. induction s as [t vs op e|an i b IH|c IHc p IHp]; cbn; auto; [|tauto].
  intros [E S]. split; auto. unfold runs_parallel. rewrite E. discriminate.
Qed.
(** Statements that differ in annotations only. *)
Fixpoint bare (s : stmt) : stmt :=
  match s with
  | NAssign _ _ _ _ => s
  | NForall _ i b => NForall no_annot i (bare b)
  | NWhere c p => NWhere (bare c) (bare p)
  end.
Lemma bare_res : forall s : stmt, res (bare s) = res s. Proof. clear. induction s; cbn; auto. Qed.
Lemma bare_temps : forall s : stmt, temps (bare s) = temps s.
Proof. clear. induction s; cbn; auto. rewrite bare_res, IHs1, IHs2. auto. Qed.
Lemma bare_lhs : forall s : stmt, lhs (bare s) = lhs s. Proof. clear. induction s; cbn; auto. Qed.
Lemma bare_spine : forall s : stmt, spine (bare s) = spine s. Proof. clear. induction s; cbn; congruence. Qed.
Lemma bare_reads : forall s : stmt, rhs_reads (bare s) = rhs_reads s. Proof. clear. induction s; cbn; congruence. Qed.
Lemma bare_svars : forall s : stmt, svars (bare s) = svars s. Proof. clear. induction s; cbn; congruence. Qed.
Lemma bare_shadow : forall (s : stmt) bs, no_shadow bs (bare s) <-> no_shadow bs s.
Proof. clear. induction s; intros bs; cbn; [tauto| |]. { rewrite IHs. tauto. } rewrite IHs1, IHs2. tauto. Qed.
Lemma bare_used : forall s : stmt, loops_used (bare s) <-> loops_used s.
Proof. clear. induction s; cbn; [tauto| |]. { rewrite IHs, bare_svars. tauto. } tauto. Qed.
Lemma bare_scoped : forall s : stmt, scoped_temps (bare s) <-> scoped_temps s.
Proof. clear. induction s; cbn; [tauto|auto|]. rewrite !bare_res, !bare_temps, !bare_reads. tauto. Qed.
Lemma bare_producers : forall s : stmt, producers (bare s) = map bare (producers s).
Proof. clear. induction s; cbn; auto. rewrite map_app. congruence. Qed.
Lemma bare_run : forall (s : stmt) r T, run (bare s) r T = run s r T.
Proof.
  clear. induction s as [t vs op e|an i b IH|c IHc p IHp]; intros r T; cbn [bare NotationSpec.run]; auto.
  - revert T. induction (seq 0 (dim i)) as [|c cs IHl]; cbn; intros T; auto. rewrite IH. auto.
  - rewrite bare_res, IHp, IHc. auto.
Qed.
Lemma bare_reduction : forall (s : stmt) sc ps cs, reduction_vars sc ps cs (bare s) = reduction_vars sc ps cs s.
Proof. clear. induction s; intros; cbn; auto. rewrite IHs1, IHs2. auto. Qed.
Lemma fit_bare : forall s : stmt, fit (bare s) <-> fit s.
Proof.
  clear. intros s. unfold fit, distinct_results, every, not_own_operand. rewrite bare_res, bare_temps, bare_reads, bare_scoped, bare_used, bare_producers.
  assert (G : (forall p : stmt, In p (map bare (producers s)) -> ~ In (res p) (rhs_reads p)) <-> (forall p, In p (producers s) -> ~ In (res p) (rhs_reads p))).
  { split; intros H p I.
    - specialize (H (bare p)). rewrite bare_res, bare_reads in H. apply H. apply in_map. auto.
    - apply in_map_iff in I as (q & <- & I). rewrite bare_res, bare_reads. auto. }
  tauto.
Qed.

Variable loop_ok : stmt -> bool.
Variable w : tensor.
Variable tmp : tensor -> tensor.
Notation parallelize := (parallelize loop_ok w tmp).
Notation parallelize_at := (parallelize_at loop_ok w tmp).
Lemma no_races_loop : forall unit an i (b s' : stmt) red, parallelize_loop loop_ok w tmp unit no_races red an i b = POk s' ->
  red = false /\ s' = NForall (annotate unit no_races an) i b.
Proof.
  clear. intros unit an i b s' red H. unfold parallelize_loop in H. cbn in H. destruct red; [discriminate|].
  destruct (negb (loop_ok (NForall an i b))); [discriminate|]. inversion H. auto.
Qed.
Lemma no_races_at : forall unit i (s s' : stmt) red sc ps cs, parallelize_at unit no_races red i s = POk s' ->
  (red = false -> ~ In i (reduction_vars sc ps cs s)) -> ~ In i ps ->
  fit s -> no_shadow sc s -> free_loops s ->
  bare s' = bare s /\ free_loops s'.
Proof.
  clear. intros unit i. induction s as [t vs op e|an j b IH|c IHc p IHp]; intros s' red sc ps cs H NR NP F SH FL; cbn [Parallel.parallelize_at] in H.
  - inversion H; subst. auto.
  - apply fit_forall in F as [Fb U]. cbn [reduction_vars no_shadow free_loops] in *. destruct SH as [SH1 SH2]. destruct FL as [FL1 FL2].
    destruct (Nat.eqb_spec j i) as [->|Ne].
    + apply no_races_loop in H as [-> ->]. cbn [bare free_loops]. split; auto. split; auto. intros _.
      assert (SP : ~ In i (spine b)).
      { clear - SH2. assert (G : forall (s : stmt) idx, no_shadow idx s -> forall v, In v idx -> ~ In v (spine s)).
        { clear. induction s as [t' vs' op e|an i b IH|c IHc p IHp]; intros idx N v I; cbn [spine no_shadow] in *; auto.
          - destruct N as [Ni N]. intros [->|J]; [auto|]. eapply IH; eauto. right; auto.
          - destruct N. eauto. }
        eapply G; eauto. left; auto. }
      split; auto. eapply (not_reduced b (sc ++ [i]) ps cs); eauto. apply in_app_iff. right. left. auto.
    + destruct (parallelize_at unit no_races red i b) as [| |b'] eqn:E; inversion H; subst.
      destruct (IH b' red (sc ++ [j]) ps cs) as [B FB]; auto.
      { clear - SH2. assert (G : forall (s : stmt) a b, (forall v, In v b -> In v a) -> no_shadow a s -> no_shadow b s).
        { clear. induction s; intros a b I H; cbn in *; auto.
          - destruct H. split; auto. eapply IHs; [|eauto]. intros v [->|J]; cbn; auto.
          - destruct H. eauto. }
        eapply G; [|eauto]. intros v I. apply in_app_iff in I. cbn in *. tauto. }
      cbn [bare free_loops]. rewrite B. split; auto. split; auto. intros Q.
      rewrite <- bare_lhs, <- (bare_spine b'), B, bare_lhs, bare_spine. auto.
  - destruct (fit_where _ _ F) as [Fc Fp]. cbn [reduction_vars no_shadow free_loops] in *. destruct SH as [SHc SHp]. destruct FL as [FLc FLp].
    destruct (parallelize_at unit no_races red i p) as [| |p'] eqn:Ep; try discriminate.
    destruct (parallelize_at unit no_races red i c) as [| |c'] eqn:Ec; inversion H; subst.
    assert (Rc : red = false -> ~ In i (reduction_vars sc ps sc c)). { intros Q J. apply (NR Q). apply in_app_iff. auto. }
    destruct (IHc c' red sc ps sc) as [Bc FLc']; auto.
    destruct (in_dec Nat.eq_dec i sc) as [I|N].
    + (* no loop over i below *)
      assert (G : forall (s s' : stmt) bs, In i bs -> no_shadow bs s -> parallelize_at unit no_races red i s = POk s' -> s' = s).
      { clear. induction s as [t vs op e|an j b IH|c IHc p IHp]; intros s' bs I N H; cbn [Parallel.parallelize_at no_shadow] in *.
        - inversion H; auto.
        - destruct N as [N1 N2]. destruct (Nat.eqb_spec j i) as [->|Ne]; [tauto|].
          destruct (parallelize_at unit no_races red i b) as [| |b'] eqn:E; inversion H; subst.
          rewrite (IH b' (j :: bs)); auto. right; auto.
        - destruct N as [N1 N2]. destruct (parallelize_at unit no_races red i p) as [| |p'] eqn:Ep; try discriminate.
          destruct (parallelize_at unit no_races red i c) as [| |c'] eqn:Ec; inversion H; subst.
          rewrite (IHc c' bs), (IHp p' bs); auto. }
      rewrite (G p p' sc); auto. cbn [bare free_loops]. rewrite Bc. auto.
    + destruct (IHp p' red sc sc cs) as [Bp FLp']; auto.
      { intros Q J. apply (NR Q). apply in_app_iff. auto. }
      cbn [bare free_loops]. rewrite Bc, Bp. auto.
Qed.
Notation parallelize_all := (parallelize_all loop_ok w tmp).
Lemma no_races_all : forall cmds (s s' : stmt), parallelize_all cmds s = POk s' -> fit s -> no_shadow [] s -> free_loops s ->
  bare s' = bare s /\ free_loops s'.
Proof.
  clear. induction cmds as [|[unit i] cmds IH]; intros s s' H F SH FL; cbn in H.
  - inversion H; subst. auto.
  - destruct (parallelize unit no_races i s) as [| |s1] eqn:E; try discriminate.
    unfold Parallel.parallelize in E.
    destruct (no_races_at unit i s s1 (mem i (getReductionVars s)) [] [] [] E) as [B FL1]; auto.
    { intros Q. unfold getReductionVars in Q. destruct (mem_spec i (reduction_vars [] [] [] s)); auto; discriminate. }
    destruct (IH s1 s') as [B' FL']; auto.
    { apply fit_bare. rewrite B. apply fit_bare. auto. }
    { apply bare_shadow. rewrite B. apply bare_shadow. auto. }
    split; auto. congruence.
Qed.
Theorem no_races_ok : forall cmds (s s' : stmt) r T, parallelize_all cmds s = POk s' -> fit s -> no_shadow [] s -> serial s ->
  as_serial R fn dv dim s' s r T.
Proof.
  clear - RT. intros cmds s s' r T H F SH S. destruct (no_races_all cmds s s' H F SH) as [B FL]. { apply serial_free_loops; auto. }
  apply safe_serial.
  - apply free_safe; auto. apply fit_bare. rewrite B. apply fit_bare. auto.
  - intros T0 t x. rewrite <- (bare_run s'), B, bare_run. auto.
Qed.
Theorem outer_ok : forall (s : stmt) r T, fit s -> no_shadow [] s -> serial s -> as_serial R fn dv dim (parallelizeOuterLoop loop_ok w tmp s) s r T.
Proof.
  clear - RT. intros s r T F SH S. unfold parallelizeOuterLoop. destruct (outer_loop s) as [i|].
  - destruct (parallelize cpu_thread no_races i s) as [| |s'] eqn:E; try (apply safe_serial; auto; apply serial_safe; auto).
    apply (no_races_ok [(cpu_thread, i)]); auto. cbn. rewrite E. auto.
  - apply safe_serial; auto. apply serial_safe; auto.
Qed.
End P.
