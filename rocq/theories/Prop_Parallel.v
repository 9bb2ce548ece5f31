(** C53: parallel loops compute what the serial loops compute. *)
From Coq Require Import List Arith Lia Bool Ring_theory ZArith Relations.
Import ListNotations.
From Verif Require Import IndexExpr Eval Notation NotationSpec NotationProofs NotationRun Transform TransformSpec.
From Verif Require Import Parallel ParallelSpec ParallelExec ParallelProofs ParallelTop PromoteSem ParallelAtomic ParallelTemp ParallelSched.
Local Open Scope nat_scope.

Definition Zops : ring_ops Z := mkOps Z 0%Z 1%Z Z.add Z.mul Z.sub Z.opp.
Notation all_ok := (fun _ => true).

(** Loops parallelized without synchronization, any number of them: if the commands are
    accepted, every interleaving gives the serial result. *)
Theorem C53_no_races : forall (V : Type) (R : ring_ops V) fn dv dim, is_ring R ->
  forall loop_ok w tmp commands (s s' : nstmt V),
  distinct_results s -> every not_own_operand s -> scoped_temps s -> loops_used s -> no_shadow [] s -> serial s ->
  parallelize_all loop_ok w tmp commands s = POk s' ->
  forall r T, as_serial R fn dv dim s' s r T.
Proof.
  intros V R fn dv dim RT loop_ok w tmp commands s s' D N SC U SH SE H r T.
  apply (no_races_ok R fn dv dim RT loop_ok w tmp commands); auto. split; auto.
Qed.
Print Assumptions C53_no_races.

(** The loop that is parallelized when no schedule is given. *)
Theorem C53_outer_loop : forall (V : Type) (R : ring_ops V) fn dv dim, is_ring R ->
  forall loop_ok w tmp (s : nstmt V),
  distinct_results s -> every not_own_operand s -> scoped_temps s -> loops_used s -> no_shadow [] s -> serial s ->
  forall r T, as_serial R fn dv dim (parallelizeOuterLoop loop_ok w tmp s) s r T.
Proof.
  intros V R fn dv dim RT loop_ok w tmp s D N SC U SH SE r T. apply (outer_ok R fn dv dim RT loop_ok w tmp); auto. split; auto.
Qed.
Print Assumptions C53_outer_loop.

(** A reduction loop with atomic updates. *)
Theorem C53_atomics : forall (V : Type) (R : ring_ops V) fn dv dim, is_ring R ->
  forall loop_ok w tmp unit i (s s' : nstmt V), unit <> not_parallel ->
  distinct_results s -> every (fun q => sums_or_assigns q /\ not_own_operand q) s -> scoped_temps s -> no_shadow [] s -> serial s ->
  fresh_for tmp s ->
  (forall p, In p (producers s) -> In i (spine p) -> lhs p <> []) ->
  parallelize loop_ok w tmp unit atomics i s = POk s' ->
  forall r T, as_serial R fn dv dim s' s r T.
Proof.
  intros V R fn dv dim RT loop_ok w tmp unit i s s' U D E SC SH SE [TI TF] PW H r T.
  destruct (atomics_at tmp TI R RT fn dv dim loop_ok w unit i s s' _ [] [] U H) as (S & _ & Q); auto. { split; auto. }
  apply safe_serial; auto. intros; apply Q.
Qed.
Print Assumptions C53_atomics.

(** A reduction loop with a temporary that holds one partial sum per iteration. *)
Theorem C53_temporary : forall (V : Type) (R : ring_ops V) fn dv dim, is_ring R ->
  forall loop_ok w tmp unit i (s s' : nstmt V),
  distinct_results s -> every not_own_operand s -> scoped_temps s -> loops_used s -> no_shadow [] s -> serial s ->
  ~ In w (tensors s) ->
  (In i (getReductionVars s) -> forall b, In b (bodies i s) ->
     temps b = [] /\ op_of b = Some RSum /\ forall v, In v (lhs b) -> ~ In v (spine b)) ->
  parallelize loop_ok w tmp unit temporary i s = POk s' ->
  forall r T, as_serial R fn dv dim s' s r T.
Proof.
  intros V R fn dv dim RT loop_ok w tmp unit i s s' D N SC U SH SE FW B H r T.
  destruct (temporary_at R RT fn dv dim loop_ok w tmp unit i s s' _ [] [] [] [] H) as (S & _ & Q); auto.
  { intros E. destruct (mem_spec i (getReductionVars s)); auto; discriminate. }
  { intros E b I. apply B; auto. destruct (mem_spec i (getReductionVars s)); auto; discriminate. }
  { split; auto. }
  apply safe_serial; auto. intros; apply Q.
Qed.
Print Assumptions C53_temporary.

(** ** Examples *)
(** y(i) += B(i,j)*x(j); a += B(i,j); A(i,j) = t(j), t(j) += B(i,k)*C(k,j). *)
Definition spmv : nstmt Z := foralls [0; 1] (NAssign 0 [0] (Some RSum) (NMul (NAcc 1 [0; 1]) (NAcc 2 [1]))).
Definition total_sum : nstmt Z := foralls [0; 1] (NAssign 0 [] (Some RSum) (NAcc 1 [0; 1])).
Definition rowwise : nstmt Z :=
  NForall no_annot 0 (NWhere (NForall no_annot 1 (NAssign 0 [0; 1] None (NAcc 9 [1])))
                             (foralls [2; 1] (NAssign 9 [1] (Some RSum) (NMul (NAcc 1 [0; 2]) (NAcc 2 [2; 1]))))).
Ltac conds := unfold distinct_results, every, not_own_operand, sums_or_assigns, fresh_for, tensors; cbn -[Nat.add];
  repeat match goal with
  | |- _ /\ _ => split
  | |- NoDup _ => repeat constructor; cbn; intuition lia
  | |- forall p, ?x = p \/ _ -> _ => intros p [<-|HH]; [cbn|revert p HH]
  | |- forall p, False -> _ => intros p []
  end; try (cbn; intuition lia).
Example C53_no_races_example : forall s, In s [spmv; rowwise] ->
  distinct_results s /\ every not_own_operand s /\ scoped_temps s /\ loops_used s /\ no_shadow [] s /\ serial s /\
  parallelize_all all_ok 20 (fun A => 10 + A) [(cpu_thread, 0)] s =
    POk (match s with NForall an i b => NForall (annotate cpu_thread no_races an) i b | _ => s end) /\
  parallelizeOuterLoop all_ok 20 (fun A => 10 + A) s <> s.
Proof.
  intros s [<-|[<-|[]]]; (split; [conds|split; [conds|split; [conds|split; [conds|split; [conds|split; [conds|split; [reflexivity|vm_compute; discriminate]]]]]]]).
Qed.
(** The reduction loop of the product is refused. *)
Example C53_refused_example : parallelize all_ok 20 (fun A => 10 + A) cpu_thread no_races 1 spmv = PRefused.
Proof. reflexivity. Qed.
Example C53_atomics_example :
  distinct_results total_sum /\ every (fun q => sums_or_assigns q /\ not_own_operand q) total_sum /\ scoped_temps total_sum /\
  no_shadow [] total_sum /\ serial total_sum /\ fresh_for (fun A => 10 + A) total_sum /\
  (forall p, In p (producers total_sum) -> In 0 (spine p) -> lhs p <> []) /\
  parallelize all_ok 20 (fun A => 10 + A) cpu_thread atomics 0 total_sum =
    POk (NForall (annotate cpu_thread atomics no_annot) 0
           (NWhere (NAssign 0 [] (Some RSum) (NAcc 10 []))
                   (NForall no_annot 1 (NAssign 10 [] (Some RSum) (NAcc 1 [0; 1]))))).
Proof.
  split; [conds|]. split; [conds|]. split; [conds|]. split; [conds|]. split; [conds|].
  split; [split; [intros; lia|intros A; unfold tensors; cbn; intuition lia]|]. split; [intros p []|reflexivity].
Qed.
Example C53_temporary_example :
  distinct_results total_sum /\ every not_own_operand total_sum /\ scoped_temps total_sum /\ loops_used total_sum /\
  no_shadow [] total_sum /\ serial total_sum /\ ~ In 20 (tensors total_sum) /\ In 0 (getReductionVars total_sum) /\
  (forall b, In b (bodies 0 total_sum) -> temps b = [] /\ op_of b = Some RSum /\ forall v, In v (lhs b) -> ~ In v (spine b)) /\
  parallelize all_ok 20 (fun A => 10 + A) cpu_thread temporary 0 total_sum =
    POk (NWhere (NForall (annotate cpu_reduction parallel_reduction no_annot) 0 (NAssign 0 [] (Some RSum) (NAcc 20 [0])))
                (NForall (annotate cpu_thread temporary no_annot) 0 (NForall no_annot 1 (NAssign 20 [0] (Some RSum) (NAcc 1 [0; 1]))))).
Proof.
  split; [conds|]. split; [conds|]. split; [conds|]. split; [conds|]. split; [conds|]. split; [conds|]. split; [conds|].
  split; [vm_compute; auto|]. split; [|reflexivity]. intros b [<-|[]]. cbn. split; auto.
Qed.

(** ** Findings *)
Definition dims2 : ivar -> nat := fun _ => 2.
Notation runZ := (run Zops (fun _ v => v) Z.add dims2).
Notation prunZ := (prun Zops (fun _ v => v) Z.add dims2).
(** Atomics do not cover a scalar that is the temporary of a where statement:
    a = t where forall(i) t += b(i), with the loop over i parallelized, can lose updates. *)
Theorem C53_scalar_temporary_refuted : exists (s s' : nstmt Z) T T',
  distinct_results s /\ every (fun q => sums_or_assigns q /\ not_own_operand q) s /\ scoped_temps s /\ no_shadow [] s /\ serial s /\
  fresh_for (fun A => 10 + A) s /\
  parallelize all_ok 20 (fun A => 10 + A) cpu_thread atomics 0 s = POk s' /\
  prunZ 0 [] s' (fun _ => 0) T T' /\ T' 0 [] <> runZ s (fun _ => 0) T 0 [].
Proof.
  set (b := NAssign 9 [] (Some RSum) (NAcc 1 [0]) : nstmt Z).
  exists (NWhere (NAssign 0 [] None (NAcc 9 [])) (NForall no_annot 0 b)).
  eexists. exists (fun _ _ => 1%Z). eexists.
  split; [conds|]. split; [conds; intros v []|]. split; [conds|]. split; [conds|]. split; [conds|]. split; [split; [intros; lia|intros A; unfold tensors; cbn; intuition lia]|].
  split; [reflexivity|]. split.
  - eapply prun_where.
    + apply (sched_prun _ _ _ _ _ _ _ _ _ _ _ _ [0; 1; 0; 0; 1; 1]); reflexivity.
    + apply prun_assign.
  - vm_compute. discriminate.
Qed.
Print Assumptions C53_scalar_temporary_refuted.

(** The temporary of a reduction into a tensor whose coordinates are computed inside the
    loop: forall(i) forall(j) y(j) += B(i,j) becomes a loop over i that reads j. *)
Theorem C53_temporary_vector_refuted : exists (s s' : nstmt Z) T,
  distinct_results s /\ every not_own_operand s /\ scoped_temps s /\ loops_used s /\ no_shadow [] s /\ serial s /\ ~ In 20 (tensors s) /\
  parallelize all_ok 20 (fun A => 10 + A) cpu_thread temporary 0 s = POk s' /\
  In 1 (svars s') /\ ~ In 1 (svars s) /\
  forall T', prunZ 0 [] s' (fun _ => 0) T T' -> T' 0 [1] <> runZ s (fun _ => 0) T 0 [1].
Proof.
  set (s := foralls [0; 1] (NAssign 0 [1] (Some RSum) (NAcc 1 [0; 1])) : nstmt Z).
  exists s. eexists. exists (fun _ _ => 1%Z).
  split; [conds|]. split; [conds|]. split; [conds|]. split; [conds|]. split; [conds|]. split; [conds|]. split; [conds|].
  split; [reflexivity|]. split; [vm_compute; auto|]. split; [cbn; tauto|].
  intros T' H. match type of H with prunZ _ _ ?s' _ _ _ => assert (S : safe 0 [] s') end.
  { cbn. split; [|auto]. split; [conds|]. split; [conds|]. split; [conds|]. left. conds. }
  rewrite (prun_ok Zops (fun _ v => v) Z.add dims2 InitialRing.Zth _ 0 [] _ _ _ _ S H (eqT_refl _) 0 [1]).
  vm_compute. discriminate.
Qed.
Print Assumptions C53_temporary_vector_refuted.

(** A loop that reads its own result, y(i) += B(i,j)*y(j), is parallelized without
    synchronization: one iteration may read what another writes. *)
Theorem C53_own_operand_refuted : exists (s s' : nstmt Z) T T',
  distinct_results s /\ scoped_temps s /\ loops_used s /\ no_shadow [] s /\ serial s /\
  parallelizeOuterLoop all_ok 20 (fun A => 10 + A) s = s' /\
  prunZ 0 [] s' (fun _ => 0) T T' /\ T' 0 [1] <> runZ s (fun _ => 0) T 0 [1].
Proof.
  set (b := NForall no_annot 1 (NAssign 0 [0] (Some RSum) (NMul (NAcc 1 [0; 1]) (NAcc 0 [1]))) : nstmt Z).
  exists (NForall no_annot 0 b). eexists. exists (fun _ _ => 1%Z). eexists.
  split; [conds|]. split; [conds|]. split; [conds|]. split; [conds|]. split; [conds|]. split; [reflexivity|]. split.
  - apply (sched_prun _ _ _ _ _ _ _ _ _ _ _ _ [1; 1; 1; 1; 1; 1; 1; 1; 0; 0; 0; 0; 0; 0; 0; 0]); vm_compute; reflexivity.
  - vm_compute. discriminate.
Qed.
Print Assumptions C53_own_operand_refuted.

(** A loop variable that the loop does not use is no reduction variable:
    forall(i) a += b is parallelized without synchronization. *)
Theorem C53_unused_variable_refuted : exists (s s' : nstmt Z) T T',
  distinct_results s /\ every not_own_operand s /\ scoped_temps s /\ no_shadow [] s /\ serial s /\
  parallelizeOuterLoop all_ok 20 (fun A => 10 + A) s = s' /\
  prunZ 0 [] s' (fun _ => 0) T T' /\ T' 0 [] <> runZ s (fun _ => 0) T 0 [].
Proof.
  set (b := NAssign 0 [] (Some RSum) (NAcc 1 []) : nstmt Z).
  exists (NForall no_annot 0 b). eexists. exists (fun _ _ => 1%Z). eexists.
  split; [conds|]. split; [conds|]. split; [conds|]. split; [conds|]. split; [conds|]. split; [reflexivity|]. split.
  - apply (sched_prun _ _ _ _ _ _ _ _ _ _ _ _ [0; 1; 0; 0; 1; 1]); vm_compute; reflexivity.
  - vm_compute. discriminate.
Qed.
Print Assumptions C53_unused_variable_refuted.
