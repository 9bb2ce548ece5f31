(** The level of an access that holds a variable, and the deepest level of
    several. *)

From Coq Require Import List Arith.
From Verif Require Import PosLevel.
Import ListNotations.

(** A format of as many levels as the access has variables, each mode stored
    once; each variable used once. *)
Definition proper (a : access) : Prop :=
  NoDup (vars a) /\ NoDup (ordering a) /\
  length (ordering a) = length (vars a) /\ length (dense a) = length (vars a) /\
  forall m, In m (ordering a) -> m < length (vars a).

(** Level [l] stores the mode that variable [v] indexes. *)
Definition level_of (a : access) (v : var) (l : nat) : Prop :=
  exists m, nth_error (ordering a) l = Some m /\ nth_error (vars a) m = Some v.

(** The bottom level of those the variables [vs] index. *)
Definition bottom (a : access) (vs : list var) (l : nat) : Prop :=
  (exists v, In v vs /\ level_of a v l) /\
  forall v k, In v vs -> level_of a v k -> k <= l.

(** The modes are stored in the order in which they are written. *)
Definition natural (a : access) : Prop := ordering a = seq 0 (length (vars a)).
