(** What is expected of making a statement concrete with a schedule. *)
From Coq Require Import List Arith.
Import ListNotations.
From Verif Require Accept AcceptSpec.
From Verif Require Import Notation NotationSpec.

(** The variables of the reductions that cover the whole expression, outermost first. *)
Fixpoint covering {V} (e : nexpr V) : list ivar := match e with NRed _ i e => i :: covering e | _ => [] end.
Fixpoint uncovered {V} (e : nexpr V) : nexpr V := match e with NRed _ _ e => uncovered e | _ => e end.

(** The variables of an expression's accesses, whether they are bound or not. *)
Fixpoint access_vars {V} (e : nexpr V) : list ivar :=
  match e with
  | NLit _ => []
  | NAcc _ vs => vs
  | NNeg e | NFun _ e | NRed _ _ e => access_vars e
  | NAdd a b | NSub a b | NMul a b | NDiv a b => access_vars a ++ access_vars b
  end.

(** No variable of the list was made by a relation; none was replaced by others. *)
Definition underived (rels : list Accept.rel) (l : list ivar) : Prop := forall v, In v l -> ~ AcceptSpec.derived rels v.
Definition untouched (rels : list Accept.rel) (l : list ivar) : Prop :=
  forall v r, In v l -> In r rels -> ~ In v (Accept.parents r).
(** Every relation makes variables from one variable: splits, divides and bounds, no fuses. *)
Definition one_parent (rels : list Accept.rel) : Prop := forall r, In r rels -> exists p, Accept.parents r = [p].

(** The loops around the first statement that is not a loop, and that statement. *)
Fixpoint outer_loops {V} (s : nstmt V) : list ivar := match s with NForall _ i s => i :: outer_loops s | _ => [] end.
Fixpoint body {V} (s : nstmt V) : nstmt V := match s with NForall _ _ s => body s | _ => s end.
