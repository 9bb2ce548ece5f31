(** When the test in front of an unrolled or vectorized loop covers all variables. *)
From Coq Require Import List Arith.
From Verif Require Import Schedule.
Import ListNotations.

(** The variables whose value is fixed by the loops [outer]. *)
Inductive known (rels : list rel) (outer : list var) : var -> Prop :=
| known_loop : forall v, In v outer -> known rels outer v
| known_derived : forall r v, In r rels -> In v (parents r) ->
    (forall c, In c (children r) -> known rels outer c) -> known rels outer v.

(** Every original variable is split, divided or fused at most once below the loops
    [outer]: each variable derived from it has a loop of its own or is fixed. *)
Definition one_level (rels : list rel) (roots outer order : list var) : Prop :=
  forall r u c, In r rels -> In u roots -> In u (parents r) -> In c (children r) ->
    In c order \/ known rels outer c.

(** The loop over [c] is below all others and counts in steps of one: what is
    multiplied in a split or divide is fixed, or is [c] itself; what is fused with
    another variable and not fixed has an original variable as the inner one. *)
Definition unit_steps (rels : list rel) (roots outer : list var) (c : var) : Prop :=
  forall r, In r rels ->
    match r with
    | Split _ o i _ | Divide _ o i _ => known rels outer o \/ (o = c /\ known rels outer i)
    | Fuse _ b d => known rels outer d \/ In b roots
    | _ => True
    end.
Definition no_fuse (rels : list rel) : Prop := forall a b c, ~ In (Fuse a b c) rels.

(** The inner one of two fused variables starts at 0 and its range is not empty. *)
Definition fusable (B : bounds) (rels : list rel) : Prop :=
  forall a b c, In (Fuse a b c) rels -> lo B b = 0 /\ 0 < hi B b.
