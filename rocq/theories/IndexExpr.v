(** Index expressions and zeroing.
    Models the scalar-valued fragment of index notation that reaches merge
    lattice construction and lowering:
    /repo/include/taco/index_notation/index_notation_nodes.h (AccessNode,
    LiteralNode, NegNode, SqrtNode, CastNode, AddNode, SubNode, MulNode).
    Not modelled here: Div, Call, CallIntrinsic, IndexVar expressions. *)
From Coq Require Import List Arith Lia Bool.
Import ListNotations.
From Verif Require Import Storage.

(** An index variable (IndexVar, compared by identity). *)
Definition ivar := nat.

(** An access [T(i,j,..)].  [a_tensor] identifies the tensor variable,
    [a_vars] lists for each storage level the index variable of that level and
    the level's format.  Two accesses are equal iff they have the same tensor
    and the same index variables: /repo/src/index_notation/index_notation.cpp
    1083-1121 (operator== and operator< on Access; windows and index sets are
    not modelled). *)
Record access := Acc { a_tensor : nat; a_vars : list (ivar * kind) }.

Definition kind_eq_dec : forall x y : kind, {x = y} + {x <> y}.
Proof. decide equality. Defined.

Definition access_eq_dec : forall x y : access, {x = y} + {x <> y}.
Proof.
  decide equality; [|apply Nat.eq_dec].
  apply list_eq_dec. decide equality; [apply kind_eq_dec | apply Nat.eq_dec].
Defined.

Definition access_eqb (x y : access) : bool := if access_eq_dec x y then true else false.

Section Expr.
Context {V : Type}.

(** index_notation_nodes.h: LiteralNode, AccessNode, NegNode, the zero
    preserving unary nodes SqrtNode and CastNode (EFun, told apart by a
    number), AddNode, SubNode, MulNode. *)
Inductive expr : Type :=
| ELit (v : V)
| EAcc (a : access)
| ENeg (e : expr)
| EFun (f : nat) (e : expr)
| EAdd (e1 e2 : expr)
| ESub (e1 e2 : expr)
| EMul (e1 e2 : expr).

(** The accesses of an expression, in order, with repetitions. *)
Fixpoint accesses (e : expr) : list access :=
  match e with
  | ELit _ => []
  | EAcc a => [a]
  | ENeg e | EFun _ e => accesses e
  | EAdd e1 e2 | ESub e1 e2 | EMul e1 e2 => accesses e1 ++ accesses e2
  end.

(** /repo/src/index_notation/index_notation.cpp 3772-4086, struct Zero:
    rewrite with the accesses in [z] replaced by zero; [None] is the undefined
    expression, i.e. an expression that is known to be zero. *)
Fixpoint zero (z : access -> bool) (e : expr) : option expr :=
  match e with
  | ELit v => Some (ELit v)
  | EAcc a => if z a then None else Some (EAcc a)
  | ENeg e => option_map ENeg (zero z e)
  | EFun f e => option_map (EFun f) (zero z e)
  | EAdd e1 e2 =>
      match zero z e1, zero z e2 with
      | Some a, Some b => Some (EAdd a b)
      | Some a, None => Some a
      | None, Some b => Some b
      | None, None => None
      end
  | ESub e1 e2 =>
      match zero z e1, zero z e2 with
      | Some a, Some b => Some (ESub a b)
      | Some a, None => Some a
      | None, Some b => Some (ENeg b)
      | None, None => None
      end
  | EMul e1 e2 =>
      match zero z e1, zero z e2 with
      | Some a, Some b => Some (EMul a b)
      | _, _ => None
      end
  end.

End Expr.
Arguments expr V : clear implicits.
