(** What a kernel is supposed to compute, stated without reference to merge
    lattices, lowering or loops. *)
From Coq Require Import List Arith Bool.
Import ListNotations.
From Verif Require Import Storage IndexExpr Eval.

(** A coordinate assignment with one variable changed. *)
Definition assign_var (rho : ivar -> nat) (i : ivar) (c : nat) : ivar -> nat :=
  fun j => if j =? i then c else rho j.

(** All assignments of the variables below their dimensions: the first variable
    is the slowest, every variable counts up. *)
Section Assignments.
Variable dim : ivar -> nat.
Fixpoint assignments (vars : list ivar) (rho : ivar -> nat) : list (ivar -> nat) :=
  match vars with
  | [] => [rho]
  | i :: vs => flat_map (fun c => assignments vs (assign_var rho i c)) (seq 0 (dim i))
  end.
End Assignments.

Definition origin : ivar -> nat := fun _ => 0.

(** Coordinates at which an access reads its tensor. *)
Definition coords_of (rho : ivar -> nat) (vs : list (ivar * kind)) : list nat := map rho (map fst vs).

(** The value of an operand: what its tensor stores there, zero if nothing. *)
Definition operand_value {V} (R : ring_ops V) (T : nat -> storage V) (rho : ivar -> nat) (a : access) : V :=
  value_at (r0 R) (T (a_tensor a)) (coords_of rho (a_vars a)).

(** The tensor of the access stores a component at the assigned coordinate. *)
Definition stores {V} (T : nat -> storage V) (rho : ivar -> nat) (a : access) : bool :=
  match locate (st_levels (T (a_tensor a))) 0 (coords_of rho (a_vars a)) with Some _ => true | None => false end.

(** The expression may be nonzero, judging only by which operands store a
    component: additions need one side, multiplications need both. *)
Fixpoint may_be_nonzero {V} (st : access -> bool) (e : expr V) : bool :=
  match e with
  | ELit _ => true
  | EAcc a => st a
  | ENeg e | EFun _ e => may_be_nonzero st e
  | EAdd e1 e2 | ESub e1 e2 => may_be_nonzero st e1 || may_be_nonzero st e2
  | EMul e1 e2 => may_be_nonzero st e1 && may_be_nonzero st e2
  end.

(** Sums. *)
Section Sums.
Context {V : Type}.
Variable R : ring_ops V.
Variable dim : ivar -> nat.
Fixpoint sum_below (n : nat) (f : nat -> V) : V :=
  match n with 0 => r0 R | S n => radd R (sum_below n f) (f n) end.
Fixpoint sum_vars (vars : list ivar) (rho : ivar -> nat) (f : (ivar -> nat) -> V) : V :=
  match vars with
  | [] => f rho
  | i :: vs => sum_below (dim i) (fun c => sum_vars vs (assign_var rho i c) f)
  end.
End Sums.

(** Value of the result at coordinate [xs] of [lhs(xs) += e]: the sum over all
    assignments that map the left-hand side's variables to [xs]. *)
Definition reduction {V} (R : ring_ops V) (fn : nat -> V -> V) (T : nat -> storage V)
    (dim : ivar -> nat) (vars lhs : list ivar) (e : expr V) (xs : list nat) : V :=
  sum_vars R dim vars origin
    (fun rho => if list_eq_dec Nat.eq_dec (map rho lhs) xs then eval R fn (operand_value R T rho) e else r0 R).

(** Coordinates within the dimensions. *)
Definition in_bounds (dim : ivar -> nat) (lhs : list ivar) (xs : list nat) : Prop :=
  length xs = length lhs /\ forall l, l < length lhs -> nth l xs 0 < dim (nth l lhs 0).

(** The formats of the storage are those of the access, the storage is well
    formed for the dimensions of the variables, and no variable is repeated. *)
Definition level_format (lv : level) : kind := match lv with LDense _ => KDense | LComp _ _ => KComp end.
Definition stored_as {V} (T : nat -> storage V) (dim : ivar -> nat) (t : nat) (vs : list (ivar * kind)) : Prop :=
  map level_format (st_levels (T t)) = map snd vs /\
  wf_storage (map dim (map fst vs)) (T t) /\
  NoDup (map fst vs).

(** The loop order binds the variables of the access and follows its storage
    order wherever a compressed level is involved. *)
Definition precedes (vars : list ivar) (x y : ivar) : Prop :=
  exists p q r, vars = p ++ x :: q ++ y :: r.
Definition order_fits (vars : list ivar) (vs : list (ivar * kind)) : Prop :=
  (forall l, l < length vs -> In (fst (nth l vs (0, KDense))) vars) /\
  (forall l1 l2, l1 < l2 -> l2 < length vs ->
     snd (nth l1 vs (0, KDense)) = KComp \/ snd (nth l2 vs (0, KDense)) = KComp ->
     precedes vars (fst (nth l1 vs (0, KDense))) (fst (nth l2 vs (0, KDense)))).

(** A statement is in the fragment covered by the kernel theorems. *)
Record supported {V} (T : nat -> storage V) (dim : ivar -> nat) (vars : list ivar) (e : expr V) : Prop := {
  sup_vars : NoDup vars;
  sup_linear : NoDup (accesses e);
  sup_operands : forall a, In a (accesses e) ->
    stored_as T dim (a_tensor a) (a_vars a) /\ order_fits vars (a_vars a) }.
