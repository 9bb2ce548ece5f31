(** C79: equality of expressions and statements. *)
From Coq Require Import String List Bool Arith ZArith.
From Verif Require Import NotationEq NotationEqSpec NotationEqProofs.
Import ListNotations.
Local Open Scope nat_scope.

(** Expressions that are found equal have the same value at all coordinates, whatever the values
    of tensors and the meaning of operators and functions: a tensor that is assigned an equal
    expression need not be compiled again. *)
Theorem C79_value : forall a b, equals a b = Some true ->
  forall V (I : interpretation V) rho, value V I rho a = value V I rho b.
Proof. intros a b E V I rho. apply value_alike, equals_alike, E. Qed.
Print Assumptions C79_value.

(** Expressions are found equal exactly if they are the same but for the names of calls and the
    positions and order of declared properties. *)
Theorem C79_decides : forall a b, pointers a -> pointers b ->
  exists r, equals a b = Some r /\ (r = true <-> alike a b).
Proof.
  intros a b P Q. pose proof (equals_none a b P Q) as N. destruct (equals a b) as [r|] eqn:E; [|contradiction].
  exists r. split; auto. split.
  - intros ->. apply equals_alike, E.
  - intros A. apply alike_equals in A; auto. congruence.
Qed.
Print Assumptions C79_decides.

(** Without pointers too, those that are found equal are so. *)
Theorem C79_sound : forall a b, equals a b = Some true -> alike a b.
Proof. exact equals_alike. Qed.
Print Assumptions C79_sound.

(** Statements likewise *)
Theorem C79_statements : forall a b,
  (equals_stmt a b = Some true -> alike_stmt a b) /\
  (pointers_stmt a -> pointers_stmt b -> exists r, equals_stmt a b = Some r /\ (r = true <-> alike_stmt a b)).
Proof.
  intros a b. split; [apply equals_stmt_alike|]. intros P Q.
  pose proof (equals_stmt_none a b P Q) as N. destruct (equals_stmt a b) as [r|] eqn:E; [|contradiction].
  exists r. split; auto. split.
  - intros ->. apply equals_stmt_alike, E.
  - intros A. apply alike_stmt_equals in A; auto. congruence.
Qed.
Print Assumptions C79_statements.

(** So every expression is equal to itself, if its functions are pointers. *)
Theorem C79_reflexive : forall a, pointers a -> equals a a = Some true.
Proof.
  assert (R : forall xs, Forall (fun a => pointers a -> alike a a) xs -> Forall pointers xs -> Forall2 alike xs xs).
  { induction 1; intros P; inversion P; subst; constructor; auto. }
  intros a P. apply alike_equals; auto. revert P. induction a using expr_ind'; intros P; inversion P; subst.
  all: try (constructor; auto; fail).
  match goal with F : is_pointer f |- _ => destruct F as [k ->] end.
  constructor; auto. intros p I. exists p. split; auto. destruct p; constructor.
Qed.
Print Assumptions C79_reflexive.

(** *** Findings *)
(** The comparison of an expression that calls a function object, such as a lambda, with itself
    reads through a null pointer: so does assigning the expression to the same tensor twice. *)
Theorem C79_object_refuted : forall n ps d f xs al ds,
  equals (ECall n ps d (Object f) xs al ds) (ECall n ps d (Object f) xs al ds) = None.
Proof.
  intros. rewrite equals_call. rewrite Nat.eqb_refl.
  replace (forallb (fun p => existsb (property_equals p) ps) ps) with true.
  - rewrite (proj2 (nats_spec d d) eq_refl). reflexivity.
  - symmetry. apply properties_spec. intros p I. exists p. split; auto. destruct p; constructor.
Qed.
Print Assumptions C79_object_refuted.

(** A call of a function that is zero where its first argument is, and one of a function that is
    zero where its second is: equal.  Equality is not symmetric: a call that declares an
    annihilator at two positions, and one that declares it at one position and is commutative. *)
Definition zero : literal := Lit 0 [0; 0; 0; 0].
Definition x : expr := EAcc (Access 1 [0] [] [] false).
Definition y : expr := EAcc (Access 2 [0] [] [] false).
Definition call (ps : list property) : expr := ECall "f" ps [0; 1] (Pointer 7) [x; y] (Union (Region 0) (Region 1)) [].
Theorem C79_positions_refuted : equals (call [Annihilator zero [0]]) (call [Annihilator zero [1]]) = Some true.
Proof. reflexivity. Qed.
Print Assumptions C79_positions_refuted.
Theorem C79_symmetric_refuted :
  let a := call [Annihilator zero [0]; Annihilator zero [1]] in let b := call [Annihilator zero [0]; Commutative []] in
  equals a b = Some true /\ equals b a = Some false.
Proof. split; reflexivity. Qed.
Print Assumptions C79_symmetric_refuted.

(** Loops with different merge strategies are equal, and so are assemble statements with
    different results. *)
Theorem C79_schedule_refuted : forall v s m m' p r u q q', pointers_stmt s -> pointers_stmt q -> alike_stmt s s -> alike_stmt q q ->
  equals_stmt (SForall v s m p r u) (SForall v s m' p r u) = Some true /\
  equals_stmt (SAssemble q s q') (SAssemble q s []) = Some true.
Proof.
  intros v s m m' p r u q q' P Q A B. split; apply alike_stmt_equals; constructor; auto.
Qed.
Print Assumptions C79_schedule_refuted.

(** The hypotheses are met: a windowed product, summed; another window is another expression. *)
Definition sum (lo : Z) : expr := EReduce (EAdd EUndef EUndef) 1 (EMul (EAcc (Access 1 [0; 1] [(1, (lo, 8%Z, 1%Z))] [] false)) (call [Commutative []])).
Example C79_case : pointers (sum 2) /\ equals (sum 2) (sum 2) = Some true /\ equals (sum 2) (sum 3) = Some false /\ ~ alike (sum 2) (sum 3).
Proof.
  assert (P : forall lo, pointers (sum lo)) by (intros lo; repeat constructor; eexists; reflexivity).
  split; auto. split; [reflexivity|]. split; [reflexivity|]. intros A. apply alike_equals in A; auto. discriminate.
Qed.
