(** What a loop over a split coordinate of sparse operands shall visit. *)
From Coq Require Import ZArith List Bool.
From Verif Require Import Outcome Tile.
Import ListNotations.
Local Open Scope Z_scope.

(** Where a segment stores a coordinate. *)
Definition position_of (c : Z) (k : level) : option Z :=
  find (fun p => at_ (l_crd k) p =? c) (zrange (l_begin k) (l_end k)).
(** All coordinates from [a] to [b], one after the other; those are visited for which
    the expression has a case. *)
Definition visits (ks : list level) (cases : list (option Z) -> bool) (a b : Z) : list seen :=
  flat_map (fun c => let l := map (position_of c) ks in if cases l then [(c, l)] else []) (zrange a b).

(** A stored segment of coordinates below [n]: in order, and with at least one more
    entry behind it in the array. *)
Definition stored (n : Z) (k : level) : Prop :=
  0 <= l_begin k <= l_end k /\ l_end k < Z.of_nat (length (l_crd k)) /\
  (forall p q, l_begin k <= p -> p < q -> q < l_end k -> at_ (l_crd k) p < at_ (l_crd k) q) /\
  (forall p, l_begin k <= p < l_end k -> 0 <= at_ (l_crd k) p < n).
(** That entry is no smaller than [m]. *)
Definition followed_by (m : Z) (k : level) : Prop := m <= at_ (l_crd k) (l_end k).

(** The operands are multiplied: one loop, over all of them, and a case only where all
    have a component. *)
Definition everywhere (l : list (option Z)) : Prop := forall o, In o l -> o <> None.
Definition somewhere (l : list (option Z)) : Prop := exists o, In o l /\ o <> None.
Definition product (ks : list level) (pts : list (list nat)) (cases : list (option Z) -> bool) : Prop :=
  ks <> [] /\ pts = [seq 0 (length ks)] /\ (forall l, cases l = true -> everywhere l).
(** The operands are added: loops over subsets of them.  The loop over some of
    them comes after one whose end means that a given other operand, or one of
    its own, is exhausted; and a case only where some operand has a component. *)
Definition addition (ks : list level) (pts : list (list nat)) (cases : list (option Z) -> bool) : Prop :=
  let n := length ks in
  (forall pt, In pt pts -> pt <> [] /\ forall k, In k pt -> (k < n)%nat) /\
  (forall k, (k < n)%nat -> In [k] pts) /\
  (forall before pt after k, pts = before ++ pt :: after -> (k < n)%nat -> ~ In k pt ->
     exists q, In q before /\ In k q /\ forall j, In j q -> j = k \/ In j pt) /\
  (forall l, cases l = true -> somewhere l).

(** Each factor divides the one before it. *)
Fixpoint nested (fs : list Z) : Prop :=
  match fs with
  | [] => True
  | f :: r => 0 < f /\ match r with [] => True | g :: _ => (g | f) end /\ nested r
  end.
(** The end of the last tile. *)
Definition tiled_end (n f : Z) : Z := (n + (f - 1)) / f * f.
