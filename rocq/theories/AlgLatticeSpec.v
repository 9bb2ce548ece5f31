(** Specification vocabulary for functions with an iteration algebra. *)
From Coq Require Import List Arith Bool Permutation Sorted.
Import ListNotations.
From Verif Require Import Checks ChecksSpec.
From Verif Require Import Storage IndexExpr Lattice AlgLattice.

(** The sorts std::sort may perform with the comparator on point sizes. *)
Definition admissible_osort (srt : list opoint -> list opoint) : Prop :=
  forall l, Permutation l (srt l) /\ StronglySorted (fun p q => opsize q <= opsize p) (srt l).

(** [i] is the variable of the last level of the access. *)
Definition innermost (i : ivar) (a : access) : Prop :=
  exists l, find_level i a = Some l /\ S l = length (a_vars a).
Definition dense_at (i : ivar) (a : access) : bool :=
  match find_level i a with
  | Some l => match level_kind a l with KDense => true | KComp => false end
  | None => false
  end.

(** At a coordinate: the value of an argument, and the arguments that count as
    present.  Code that has to leave a region out ([explicit]) compares values
    with zero. *)
Section At.
Context {V : Type} (v0 : V) (nonzero : V -> bool) (here : access -> bool) (cur : access -> V).
Definition value (a : access) : V := if here a then cur a else v0.
Definition present (explicit : bool) (a : access) : bool :=
  here a && (if explicit then nonzero (cur a) else true).

(** The points of the iteration space where exactly the arguments [m] are
    present. *)
Definition in_space (m : access -> bool) (x : alg access) : Prop := inside (fun a => m a = true) x.

(** What [f(args)] is where exactly the arguments [m] are present. *)
Definition present_args (m : access -> bool) (args : list access) : list nat :=
  map fst (filter (fun ka => m (snd ka)) (combine (seq 0 (length args)) args)).
Definition applied (f : func) (m : access -> bool) (args : list access) : V :=
  match find_def f (present_args m args) with
  | Some g => g (map value (filter m args))
  | None => f_default f (map value args)
  end.
End At.

(** Algebras, with complements only of arguments, for which the presence of
    arguments decides every part:
    - [everywhere]: the part holds coordinates no argument has to be present at;
    - [settled]: if some argument of the part is present then the part is not
      skipped over;
    - [clean]: the operands of unions are settled. *)
Fixpoint everywhere (x : alg access) : bool :=
  match x with
  | Region _ => false
  | Complement _ => true
  | Intersect x y => everywhere x && everywhere y
  | Union x y => everywhere x || everywhere y
  end.
Fixpoint settled (x : alg access) : bool :=
  match x with
  | Region _ | Complement _ => true
  | Intersect x y => everywhere x && everywhere y
  | Union x y => everywhere x || everywhere y || (settled x && settled y)
  end.
Fixpoint clean (x : alg access) : bool :=
  match x with
  | Region _ | Complement _ => true
  | Intersect x y => clean x && clean y
  | Union x y => clean x && clean y && settled x && settled y
  end.

(** The situation at a coordinate in the loop over [i]: the algebra has every
    argument once, or is that of a function without algebra and properties
    whose arguments differ, [i] is the innermost variable of the arguments, [here] are
    the arguments that store the coordinate (arguments that are dense at [i]
    store all) and [live] those that store it or a later one. *)
Record situation (i : ivar) (x : alg access) (args : list access) (live here : access -> bool) : Prop := {
  sit_linear : NoDup (regions x) \/ exists a l, NoDup (a :: l) /\ x = constructDefaultAlgebra a l;
  sit_args : incl args (regions x);
  sit_innermost : forall a, In a (regions x) -> innermost i a;
  sit_dense : forall a, In a (regions x) -> dense_at i a = true -> here a = true;
  sit_live : forall a, In a (regions x) -> here a = true -> live a = true }.

(** A loop visits the coordinates its iterators are at, and all coordinates
    if one of them is the dimension. *)
Definition visits (here : access -> bool) (lp : opoint) : Prop :=
  exists it, In it (p_iters (o_pt lp)) /\ match it with Dim => True | Lev a _ => here a = true end.

(** Does an algebra contain complements, once they are at the arguments? *)
Fixpoint has_complement (x : alg access) : bool :=
  match x with
  | Region _ => false
  | Complement _ => true
  | Intersect x y | Union x y => has_complement x || has_complement y
  end.
