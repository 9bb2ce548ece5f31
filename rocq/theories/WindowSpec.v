(** What windows and index sets select. *)
From Coq Require Import List ZArith Bool.
From Verif Require Import Outcome.
Import ListNotations.
Open Scope Z_scope.

(** The positions b, b+1, ..., e-1. *)
Definition positions (b e : Z) : list Z := map (fun n => b + Z.of_nat n) (seq 0 (Z.to_nat (e - b))).

(** The stored coordinates of a segment that are lo, lo+stride, ... below hi, with the
    number of their place in this sequence. *)
Definition selected (crd : list Z) (b e lo hi stride : Z) : list (Z * Z) :=
  map (fun p => (p, (at_ crd p - lo) / stride))
    (filter (fun p => (lo <=? at_ crd p) && (at_ crd p <? hi) && ((at_ crd p - lo) mod stride =? 0))
            (positions b e)).

(** The stored coordinates of a segment that are in a set, with their place in it. *)
Definition selected_by_set (A : list Z) (bA eA : Z) (set : list Z) : list (Z * Z) :=
  flat_map (fun p => map (fun k => (p, k))
                         (filter (fun k => at_ set k =? at_ A p) (positions 0 (Z.of_nat (length set)))))
           (positions bA eA).
