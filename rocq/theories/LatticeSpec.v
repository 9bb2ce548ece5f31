(** Specification vocabulary for merge lattices: which coordinates an
    expression needs, independent of how lattices are built. *)
From Coq Require Import List Arith Bool Permutation Sorted.
Import ListNotations.
From Verif Require Import Storage IndexExpr Lattice.

(** [compressed i a]: the level of [a] that index variable [i] ranges over
    stores only some coordinates. *)
Definition compressed (i : ivar) (a : access) : bool :=
  match find_level i a with
  | Some l => match level_kind a l with KComp => true | KDense => false end
  | None => false
  end.

(** At one coordinate of [i], [here a] says that compressed operand [a] stores
    the coordinate.  [absent i here a]: operand [a] is zero there. *)
Definition absent (i : ivar) (here : access -> bool) (a : access) : bool :=
  compressed i a && negb (here a).

(** The part of the expression left when the absent operands are zero; [None]
    if the whole expression is zero. *)
Definition restrict {V} (i : ivar) (here : access -> bool) (e : expr V) : option (expr V) :=
  zero (absent i here) e.

(** A merge point applies at a coordinate when all its sparse operands store
    the coordinate. *)
Definition applies (here : access -> bool) (p : point) : bool :=
  forallb (fun it => match it with Dim => true | Lev a _ => here a end) (p_iters p).

(** The sorts std::sort may perform with the comparator on point sizes. *)
Definition admissible_sort (srt : list point -> list point) : Prop :=
  forall l, Permutation l (srt l) /\
            StronglySorted (fun p q => psize q <= psize p) (srt l).
