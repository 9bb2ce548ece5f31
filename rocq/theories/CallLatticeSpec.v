(** Specification vocabulary for calls in loops. *)
From Coq Require Import List Arith Bool.
Import ListNotations.
From Verif Require Import Storage IndexExpr Lattice LatticeSpec Eval CallLattice.

Section Spec.
Context {F V : Type}.

(** The operands of an expression, with repetitions. *)
Fixpoint operands (e : cexpr F V) : list access :=
  match e with
  | CLit _ => []
  | CAcc a => [a]
  | CNeg e => operands e
  | CAdd e1 e2 | CSub e1 e2 | CMul e1 e2 => operands e1 ++ operands e2
  | CCall _ args => flat_map operands args
  end.

Variable R : ring_ops V.
(** The value of each function. *)
Variable value : F -> list V -> V.

(** The value of an expression, given the values of its operands; the undefined
    expression stands for zero. *)
Fixpoint ceval (env : access -> V) (e : cexpr F V) : V :=
  match e with
  | CLit v => v
  | CAcc a => env a
  | CNeg e => ropp R (ceval env e)
  | CAdd e1 e2 => radd R (ceval env e1) (ceval env e2)
  | CSub e1 e2 => rsub R (ceval env e1) (ceval env e2)
  | CMul e1 e2 => rmul R (ceval env e1) (ceval env e2)
  | CCall f args => value f (map (ceval env) args)
  end.

Definition oceval (env : access -> V) (o : option (cexpr F V)) : V :=
  match o with Some e => ceval env e | None => r0 R end.

Variable declared : F -> list (option V) -> list (list nat).

(** [vals] can be the values of arguments of which the literals are [lits]. *)
Definition fits (lits : list (option V)) (vals : list V) : Prop :=
  Forall2 (fun l v => match l with Some x => v = x | None => True end) lits vals.

(** What a function declares is true: it is zero when all arguments of a declared
    set are. *)
Definition true_declarations : Prop := forall f lits vals S,
  In S (declared f lits) -> fits lits vals ->
  (forall k, In k S -> nth k vals (r0 R) = r0 R) -> value f vals = r0 R.

(** The declared sets are not empty and mention each argument at most once. *)
Definition tidy_declarations : Prop := forall f lits,
  NoDup (concat (declared f lits)) /\
  (forall S, In S (declared f lits) -> S <> [] /\ forall k, In k S -> k < length lits).

(** [needed i here e]: with the operands absent that do not store the coordinate
    ([here]), nothing says that the expression is zero.  A call is only known to be
    zero if all arguments of one of its declared sets are. *)
Fixpoint needed (i : ivar) (here : access -> bool) (e : cexpr F V) : bool :=
  match e with
  | CLit _ => true
  | CAcc a => negb (absent i here a)
  | CNeg e => needed i here e
  | CAdd e1 e2 | CSub e1 e2 => needed i here e1 || needed i here e2
  | CMul e1 e2 => needed i here e1 && needed i here e2
  | CCall f args =>
      forallb (fun S => existsb (fun k => nth k (map (needed i here) args) false) S)
              (declared f (map literal args))
  end.
End Spec.
