(** Meaning of index expressions over an arbitrary ring (the specification
    side of zeroing and lowering).  Floating-point rounding is not modelled. *)
From Coq Require Import List Bool Ring_theory.
Import ListNotations.
From Verif Require Import IndexExpr.

(** A commutative ring with equality [eq]. *)
Record ring_ops (V : Type) := mkOps {
  r0 : V; r1 : V; radd : V -> V -> V; rmul : V -> V -> V; rsub : V -> V -> V; ropp : V -> V }.
Arguments r0 {V} _. Arguments r1 {V} _. Arguments radd {V} _ _ _.
Arguments rmul {V} _ _ _. Arguments rsub {V} _ _ _. Arguments ropp {V} _ _.

Definition is_ring {V} (R : ring_ops V) : Prop :=
  ring_theory (r0 R) (r1 R) (radd R) (rmul R) (rsub R) (ropp R) eq.

Section Eval.
Context {V : Type}.
Variable R : ring_ops V.
Variable fn : nat -> V -> V.      (* meaning of the zero-preserving unary nodes *)

(** Value of an expression, given the values of its accesses. *)
Fixpoint eval (env : access -> V) (e : expr V) : V :=
  match e with
  | ELit v => v
  | EAcc a => env a
  | ENeg e => ropp R (eval env e)
  | EFun f e => fn f (eval env e)
  | EAdd e1 e2 => radd R (eval env e1) (eval env e2)
  | ESub e1 e2 => rsub R (eval env e1) (eval env e2)
  | EMul e1 e2 => rmul R (eval env e1) (eval env e2)
  end.

(** Value of a possibly undefined expression: the undefined expression is zero. *)
Definition oeval (env : access -> V) (o : option (expr V)) : V :=
  match o with Some e => eval env e | None => r0 R end.
End Eval.
