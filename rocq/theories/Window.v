(** Iteration over windows, strides and index sets of a compressed mode.
    src/lower/lowerer_impl_imperative.cpp *)
From Coq Require Import List ZArith Bool.
From Verif Require Import Outcome CSearch.
Import ListNotations.
Open Scope Z_scope.

(** ** Windows *)

(** The loop [for (p = start; p < end; p++)] of [lowerForallPosition] (1298-1400) over a
    windowed compressed level, run serially: [strideBoundsGuard] (4062-4080, emitted if
    the stride is not 1; with stride 1 it never fires),
    [projectWindowedPositionToCanonicalSpace] (4083-4085) and
    [upperBoundGuardForWindowPosition] (4054-4059), which breaks.  C's division and
    remainder truncate.  Result: position and coordinate of each iteration that reaches
    the body.  A single windowed operand in a merge loop runs the same statements
    ([resolveCoordinate], 1748-1780, with the position incremented before [continue]).
    [n] is the number of positions left. *)
Fixpoint window_loop (n : nat) (crd : list Z) (lo hi stride p : Z) : outcome (list (Z * Z)) :=
  match n with
  | O => Val []
  | S n =>
    do c <- rd crd p;
    if negb (Z.rem (c - lo) stride =? 0) then window_loop n crd lo hi stride (p + 1)
    else
      let i := Z.quot (c - lo) stride in
      if i >=? Z.quot (hi - lo) stride then Val []
      else do r <- window_loop n crd lo hi stride (p + 1); Val ((p, i) :: r)
  end.
(** Lines 1363-1376: the loop starts where [searchForStartOfWindowPosition] (4026-4037)
    says. *)
Definition window_serial (crd : list Z) (b e lo hi stride : Z) : outcome (list (Z * Z)) :=
  do p <- taco_binarySearchAfter crd b e lo;
  window_loop (Z.to_nat (e - p)) crd lo hi stride p.

(** A loop parallelised over threads has no [break]; its end is searched instead
    (1371-1378, [searchForEndOfWindowPosition] 4040-4051).  The iterations are
    independent; here in the order of their positions. *)
Fixpoint strided_loop (n : nat) (crd : list Z) (lo stride p : Z) : outcome (list (Z * Z)) :=
  match n with
  | O => Val []
  | S n =>
    do c <- rd crd p;
    do r <- strided_loop n crd lo stride (p + 1);
    if negb (Z.rem (c - lo) stride =? 0) then Val r else Val ((p, Z.quot (c - lo) stride) :: r)
  end.
Definition window_parallel (crd : list Z) (b e lo hi stride : Z) : outcome (list (Z * Z)) :=
  do p <- taco_binarySearchAfter crd b e lo;
  do q <- taco_binarySearchAfter crd b e hi;
  strided_loop (Z.to_nat (q - p)) crd lo stride p.

(** A dense windowed mode is located at [i * stride + lo]:
    [projectCanonicalSpaceToWindowedPosition] (4088-4090), for [i] in
    [0, (hi - lo) / stride) (the dimension of the window, 331-346, and
    [Access::getWindowSize], index_notation.cpp:1072-1076). *)
Definition window_locate (lo stride i : Z) : Z := i * stride + lo.
Definition window_size (lo hi stride : Z) : Z := Z.quot (hi - lo) stride.

(** ** Index sets *)

(** The merge loop for an operand with an index set, [lowerMergePoint] 1646-1735, when
    they are the only iterators: A is the operand's level, B the set's.  On a match both
    coordinates become B's position, and both positions are advanced
    ([codeToIncIteratorVars]); otherwise both gallop to the larger coordinate. *)
Fixpoint indexset_loop (fuel : nat) (A : list Z) (pA eA : Z) (B : list Z) (pB eB : Z) : outcome (list (Z * Z)) :=
  match fuel with
  | O => NoFuel
  | S fuel =>
    if (pA <? eA) && (pB <? eB) then
      do a <- rd A pA;
      do b <- rd B pB;
      let m := Z.max a b in
      if (a =? m) && (b =? m) then
        do r <- indexset_loop fuel A (pA + 1) eA B (pB + 1) eB; Val ((pA, pB) :: r)
      else
        do pA' <- taco_gallop A pA eA m;
        do pB' <- taco_gallop B pB eB m;
        indexset_loop fuel A pA' eA B pB' eB
    else Val []
  end.
Definition indexset_merge (A : list Z) (bA eA : Z) (B : list Z) : outcome (list (Z * Z)) :=
  let eB := Z.of_nat (length B) in
  indexset_loop (S (Z.to_nat (eA - bA) + Z.to_nat eB)) A bA eA B 0 eB.

(** The coordinates of the packed index set: src/tensor.cpp:500-514 inserts the listed
    coordinates into a compressed vector and packs it, which sorts them and drops
    repetitions. *)
Fixpoint insert_crd (x : Z) (l : list Z) : list Z :=
  match l with
  | [] => [x]
  | y :: r => if x <? y then x :: l else if x =? y then l else y :: insert_crd x r
  end.
Definition indexset_crd (set : list Z) : list Z := fold_right insert_crd [] set.
