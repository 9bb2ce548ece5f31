(** C22: removing operands known to be zero from statements. *)
From Coq Require Import List Arith Lia Bool Ring_theory ZArith.
Import ListNotations.
From Verif Require Import IndexExpr Eval Notation NotationSpec NotationProofs NotationRun ZeroStmt ZeroStmtSpec ZeroStmtProofs.
Local Open Scope nat_scope.

Definition Zops : ring_ops Z := mkOps Z 0%Z 1%Z Z.add Z.mul Z.sub Z.opp.

(** What is assumed of a statement [s] and a set [z] of accesses: results and
    temporaries are distinct, no statement reads its own result, temporaries
    stay inside their where statements, the accesses of [z] are not to results
    or temporaries, reductions inside expressions are sums, and denominators
    contain neither accesses of [z] nor temporaries. *)
Definition zeroable {V} (z : accesses_set) (s : nstmt V) : Prop :=
  NoDup (res s :: temps s) /\ ~ In (res s) (rhs_reads s) /\ scoped s /\
  (forall u, In u (stmt_uses s) -> In u z -> ~ In (fst u) (res s :: temps s)) /\
  plain_stmt (fun u => In u z \/ In (fst u) (temps s)) s.

(** If some statement is left, it computes what the given one does, with any
    assignment operators and any nesting of loops and where statements. *)
Theorem C22_zero_stmt : forall (V : Type) (R : ring_ops V) fn dv dim, is_ring R ->
  (forall f, fn f (r0 R) = r0 R) -> (forall b, dv (r0 R) b = r0 R) ->
  forall z (s s' : nstmt V) r T, zeroable z s ->
  (forall u, In u (stmt_uses s) -> In u z -> known_zero R T r s u) ->
  zero_stmt z s = Some s' ->
  forall t x, run R fn dv dim s' r T t x = run R fn dv dim s r T t x.
Proof.
  intros V R fn dv dim RT FN DV z s s' r T (ND & RD & SC & ZO & PL) KZ E.
  unfold zero_stmt in E. destruct (zero_stmt_from z [] s) as [o zv'] eqn:F. cbn in E. subst o.
  apply (zero_from_ok R RT fn dv dim FN DV z s [] (Some s') zv' F); auto.
  - eapply plain_stmt_mono; [|exact PL]. cbn. tauto.
  - split; auto. intros u _ [].
Qed.
Print Assumptions C22_zero_stmt.

(** If nothing is left, the statement does nothing to a result that it adds to,
    nor, with any operator, to a result that is zero. *)
Theorem C22_zero_nothing : forall (V : Type) (R : ring_ops V) fn dv dim, is_ring R ->
  (forall f, fn f (r0 R) = r0 R) -> (forall b, dv (r0 R) b = r0 R) ->
  forall z (s : nstmt V) r T, zeroable z s ->
  (forall u, In u (stmt_uses s) -> In u z -> known_zero R T r s u) ->
  zero_stmt z s = None ->
  (op_of s = Some RSum \/ forall x, T (res s) x = r0 R) ->
  forall t x, run R fn dv dim s r T t x = T t x.
Proof.
  intros V R fn dv dim RT FN DV z s r T (ND & RD & SC & ZO & PL) KZ E OP t x.
  unfold zero_stmt in E. destruct (zero_stmt_from z [] s) as [o zv'] eqn:F. cbn in E. subst o.
  assert (G : forall x u, In u (ups R fn dv dim s r T x) -> snd u = r0 R).
  { apply (zero_from_ok R RT fn dv dim FN DV z s [] None zv' F); auto.
    - eapply plain_stmt_mono; [|exact PL]. cbn. tauto.
    - split; auto. intros u _ []. }
  destruct (Nat.eq_dec t (res s)) as [->|N]; [|apply frame; auto].
  rewrite run_ups by (auto; inversion ND; auto).
  destruct OP as [OP|Z0].
  - apply apply_zero_sum; auto. intros u I. split; eauto. rewrite <- OP. eapply ups_op; eauto.
  - rewrite Z0. apply apply_zero; eauto.
Qed.
Print Assumptions C22_zero_nothing.

(** *** The hypotheses are met *)
(** forall i (where (A(i) += w(i) * D(i) + c(i) - e(i), w(i) += forall j B(i,j) * d(j))):
    B's row i is empty, c(i) is absent. *)
Definition ex_s : nstmt Z :=
  NForall no_annot 0 (NWhere (NAssign 0 [0] (Some RSum) (NSub (NAdd (NMul (NAcc 9 [0]) (NAcc 1 [0])) (NAcc 2 [0])) (NAcc 3 [0])))
    (NForall no_annot 1 (NAssign 9 [0] (Some RSum) (NMul (NAcc 4 [0; 1]) (NAcc 5 [1]))))).
Example C22_example_result : zero_stmt [(4, [0; 1]); (2, [0])] ex_s =
  Some (NForall no_annot 0 (NAssign 0 [0] (Some RSum) (NNeg (NAcc 3 [0])))).
Proof. reflexivity. Qed.
Example C22_example_result2 : zero_stmt [(1, [0])] ex_s =
  Some (NForall no_annot 0 (NWhere (NAssign 0 [0] (Some RSum) (NSub (NAcc 2 [0]) (NAcc 3 [0])))
    (NForall no_annot 1 (NAssign 9 [0] (Some RSum) (NMul (NAcc 4 [0; 1]) (NAcc 5 [1])))))).
Proof. reflexivity. Qed.
Example C22_example_nothing : zero_stmt [(4, [0; 1]); (2, [0]); (3, [0])] ex_s = None.
Proof. reflexivity. Qed.
Example C22_example_hyps : zeroable [(4, [0; 1]); (2, [0]); (3, [0])] ex_s.
Proof.
  unfold zeroable. cbn. split; [repeat constructor; cbn; lia|]. split; [lia|]. split; [|split; [|repeat split]].
  - split; [intros t []|]. split; [intuition discriminate|]. auto.
  - intros u [<-|[<-|[<-|[<-|[<-|[<-|[]]]]]]]; cbn; intuition discriminate.
Qed.
Definition ex_T : @store Z := fun t x => match t with 4 | 2 | 3 => 0%Z | _ => 7%Z end.
Example C22_example_zero : forall r u, In u [(4, [0; 1]); (2, [0]); (3, [0])] -> known_zero Zops ex_T r ex_s u.
Proof. intros r u [<-|[<-|[<-|[]]]] r' _; reflexivity. Qed.

(** *** Limits *)
Definition r1v : val := fun _ => 1.
(** A product reduction by zero is removed, though it clears the result. *)
Theorem C22_product_refuted : exists (z : accesses_set) (s : nstmt Z) r T,
  zeroable z s /\ (forall u, In u (stmt_uses s) -> In u z -> known_zero Zops T r s u) /\
  zero_stmt z s = None /\ run Zops (fun _ v => v) Z.div (fun _ => 2) s r T (res s) [1] <> T (res s) [1].
Proof.
  exists [(1, [0])], (NAssign 0 [0] (Some RProd) (NAcc 1 [0])), r1v, (fun t _ => if t =? 0 then 5%Z else 0%Z).
  split; [|split; [|split]].
  - unfold zeroable. cbn. split; [repeat constructor; cbn; intuition discriminate|]. repeat split; auto; try (intuition discriminate). intros u [<-|[]]; cbn; intuition discriminate.
  - intros u [<-|[]] _ r' _. reflexivity.
  - reflexivity.
  - vm_compute. discriminate.
Qed.
Print Assumptions C22_product_refuted.
(** A division by a zero operand is removed: its value is taken to be zero
    whatever division by zero yields (with floating point: infinity). *)
Theorem C22_division_refuted : exists (z : accesses_set) (s : nstmt Z) r T dv,
  (forall b, dv 0%Z b = 0%Z) /\
  (forall u, In u (stmt_uses s) -> In u z -> known_zero Zops T r s u) /\
  zero_stmt z s = None /\ run Zops (fun _ v => v) dv (fun _ => 2) s r T (res s) [1] <> T (res s) [1] /\ T (res s) [1] = 0%Z.
Proof.
  exists [(1, [0])], (NAssign 0 [0] (Some RSum) (NDiv (NAcc 2 [0]) (NAcc 1 [0]))), r1v, (fun t _ => if t =? 2 then 5%Z else 0%Z),
    (fun a b => if Z.eqb b 0 then (a * 1000)%Z else Z.div a b).
  split; [intros; destruct (Z.eqb b 0); reflexivity|]. split; [|split; [|split]].
  - intros u [<-|[<-|[]]] I r' _; [|reflexivity]. destruct I as [I|[]]. discriminate.
  - reflexivity.
  - vm_compute. discriminate.
  - reflexivity.
Qed.
Print Assumptions C22_division_refuted.
(** A product over an empty range is 1, also of an operand that is zero. *)
Theorem C22_empty_product_refuted : exists (z : accesses_set) (s : nstmt Z) r T dim,
  (forall u, In u (stmt_uses s) -> In u z -> known_zero Zops T r s u) /\
  zero_stmt z s = None /\ run Zops (fun _ v => v) Z.div dim s r T (res s) [] <> T (res s) [] /\ T (res s) [] = 0%Z.
Proof.
  exists [(1, [0])], (NAssign 0 [] (Some RSum) (NRed RProd 0 (NAcc 1 [0]))), r1v, (fun _ _ => 0%Z), (fun _ => 0).
  split; [|split; [|split]].
  - intros u [<-|[]] _ r' _. reflexivity.
  - reflexivity.
  - vm_compute. discriminate.
  - reflexivity.
Qed.
Print Assumptions C22_empty_product_refuted.
