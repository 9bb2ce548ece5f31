(** What merging position iterators means, in terms of the stored entries only. *)
From Coq Require Import ZArith List Lia Bool Sorting.Sorted.
From Verif Require Import Outcome CSearch CSearchProofs Eval MergeLoop.
Import ListNotations.
Local Open Scope Z_scope.

Section MergeSpec.
Context {V : Type}.
Variable R : ring_ops V.

(** The positions p, ..., e-1. *)
Definition positions (p e : Z) : list Z :=
  map (fun k => p + Z.of_nat k) (seq 0 (Z.to_nat (e - p))).

(** The positions of the iterator's segment that store coordinate [c]. *)
Definition stored_at (c : Z) (k : @cursor V) : list Z :=
  filter (fun i => at_ (it_crd (fst k)) i =? c) (positions (snd k) (it_end (fst k))).

(** The sum of the values at the given positions. *)
Definition total (vals : list V) (ps : list Z) : V :=
  fold_left (radd R) (map (fun i => nth (Z.to_nat i) vals (r0 R)) ps) (r0 R).

(** What there is at coordinate [c]: nothing, the sum of all values stored
    there, or the range of all positions that store it. *)
Definition at_coord (c : Z) (k : @cursor V) : option (@seen V) :=
  match stored_at c k with
  | [] => None
  | i :: t => Some (if it_leaf (fst k) then Value (total (it_vals (fst k)) (i :: t))
                    else Range i (last (i :: t) 0 + 1))
  end.

Definition has (c : Z) (k : @cursor V) : Prop := stored_at c k <> [].

(** The segment from the current position is stored: within the arrays and
    sorted, strictly so if the level is unique. *)
Definition stored_segment (k : @cursor V) : Prop :=
  let '(it, p) := k in
  0 <= p <= it_end it /\ it_end it <= Z.of_nat (length (it_crd it)) /\
  (it_leaf it = true -> it_end it <= Z.of_nat (length (it_vals it))) /\
  (if it_unique it then strict_on (it_crd it) p (it_end it)
   else weak_on (it_crd it) p (it_end it)).

(** The visits for the coordinates [cs]. *)
Definition visits_of (cases : list (option (@seen V)) -> bool) (ks : list (@cursor V))
  (cs : list Z) : list (Z * list (option seen)) :=
  flat_map (fun c => let l := map (at_coord c) ks in if cases l then [(c, l)] else []) cs.

(** Every operand has the coordinate. *)
Definition all_seen (l : list (option (@seen V))) : bool :=
  forallb (fun o => match o with Some _ => true | None => false end) l.

(** What a compressed level without duplicates offers to taco_gallop: the bound
    is the end, and one more entry of the array can be read. *)
Definition gallops (k : @cursor V) : Prop :=
  it_unique (fst k) = true /\ it_bound (fst k) = it_end (fst k) /\
  it_end (fst k) < Z.of_nat (length (it_crd (fst k))).

(** The points of the lattice of a disjunction of [n] operands, in the order of
    their loops: a loop over some of the operands comes after a loop whose end
    means that any given other operand is exhausted (or one of its own), and in
    the end every operand has its own loop. *)
Definition disjunction (n : nat) (pts : list (list nat)) : Prop :=
  (forall pt, In pt pts -> pt <> [] /\ NoDup pt /\ forall k, In k pt -> (k < n)%nat) /\
  (forall k, (k < n)%nat -> In [k] pts) /\
  (forall before pt after k, pts = before ++ pt :: after -> (k < n)%nat -> ~ In k pt ->
     exists q, In q before /\ In k q /\ forall j, In j q -> j = k \/ In j pt).

Definition nowhere : @cursor V := (It true true [] [] 0 0, 0).

(** The coordinates stored at position [i] of a coordinate tensor. *)
Definition tuple (crds : list (list Z)) (i : Z) : list Z := map (fun crd => at_ crd i) crds.

Fixpoint lexlt (a b : list Z) : Prop :=
  match a, b with
  | x :: a, y :: b => x < y \/ x = y /\ lexlt a b
  | _, _ => False
  end.

Definition tuple_eqb (a b : list Z) : bool := if list_eq_dec Z.eq_dec a b then true else false.

(** The stored tuples are sorted lexicographically; equal neighbours only if
    duplicates are allowed. *)
Definition lex_sorted (uniq : bool) (crds : list (list Z)) (lo hi : Z) : Prop :=
  forall i j, lo <= i -> i < j -> j < hi ->
    lexlt (tuple crds i) (tuple crds j) \/ uniq = false /\ tuple crds i = tuple crds j.

End MergeSpec.
