(** Specification for hoisting sub-expressions. *)
From Coq Require Import List Arith Bool.
Import ListNotations.
From Verif Require Import Notation NotationSpec.
Local Open Scope nat_scope.

Section Spec.
Context {V : Type}.
Notation expr := (nexpr V).
(** [marks same p x]: the sub-expressions of [x] (which sits at path [p]) that
    [same] marks are [e]. *)
Fixpoint marks (same : list nat -> bool) (e : expr) (p : list nat) (x : expr) : Prop :=
  if same p then x = e else
  match x with
  | NLit _ | NAcc _ _ => True
  | NNeg a | NFun _ a | NRed _ _ a => marks same e (0 :: p) a
  | NAdd a b | NSub a b | NMul a b | NDiv a b => marks same e (0 :: p) a /\ marks same e (1 :: p) b
  end.
(** Some sub-expression is marked. *)
Fixpoint marked (same : list nat -> bool) (p : list nat) (x : expr) : Prop :=
  same p = true \/
  match x with
  | NLit _ | NAcc _ _ => False
  | NNeg a | NFun _ a | NRed _ _ a => marked same (0 :: p) a
  | NAdd a b | NSub a b | NMul a b | NDiv a b => marked same (0 :: p) a \/ marked same (1 :: p) b
  end.
(** The index variables used outside the marked sub-expressions. *)
Fixpoint rest_vars (same : list nat -> bool) (p : list nat) (x : expr) : list ivar :=
  if same p then [] else
  match x with
  | NLit _ => []
  | NAcc _ vs => vs
  | NNeg a | NFun _ a | NRed _ _ a => rest_vars same (0 :: p) a
  | NAdd a b | NSub a b | NMul a b | NDiv a b => rest_vars same (0 :: p) a ++ rest_vars same (1 :: p) b
  end.
(** One sub-expression is marked, and it is a factor of the (possibly negated)
    product [x]. *)
Fixpoint factor (same : list nat -> bool) (p : list nat) (x : expr) : Prop :=
  same p = true \/
  match x with
  | NNeg a => factor same (0 :: p) a
  | NMul a b => (factor same (0 :: p) a /\ ~ marked same (1 :: p) b) \/ (~ marked same (0 :: p) a /\ factor same (1 :: p) b)
  | _ => False
  end.
(** The path of the right-hand side of the assignment inside [n] loops. *)
Definition rhs_path (n : nat) : list nat := repeat 0 (S n).
End Spec.
