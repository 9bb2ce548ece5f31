(** Loops over a split coordinate of sparse operands: within each tile the operands
    are merged from a position found by binary search until one is exhausted or the
    tile ends.
    src/lower/lowerer_impl_imperative.cpp:1583-1740, 3477-3599, 3617-3684, 3843-3867
    (lowerMergeLattice with a dimension iterator that is no merger) *)
From Coq Require Import ZArith List Bool.
From Verif Require Import Outcome CSearch.
Import ListNotations.
Local Open Scope Z_scope.

(** A segment [begin, end) of a compressed level without duplicates. *)
Record level := Lev { l_crd : list Z; l_begin : Z; l_end : Z }.
Definition no_level : level := Lev [] 0 0.
Definition lev (ks : list level) (k : nat) : level := nth k ks no_level.

(** The positions of the operands' iterators, by operand. *)
Definition posns := nat -> Z.

(** The outer variables of the splits around the loop with their factors, outermost
    first.  Start of the tile: SplitRelNode::computeRelativeBound,
    provenance_graph.cpp:167-201, along the splits; the coordinate starts at 0. *)
Definition tile_start (outs : list (Z * Z)) : Z := fold_left (fun b of => b + fst of * snd of) outs 0.
(** The loop's variable from the coordinate: SplitRelNode::recoverChild
    (provenance_graph.cpp:252-262, the inner variable) along the derivation path,
    codeToRecoverDerivedIndexVar 3601-3615. *)
Definition recover_inner (outs : list (Z * Z)) (i : Z) : Z := fold_left (fun v of => v - fst of * snd of) outs i.

(** [taco_binarySearchAfter(crd, begin, end, start)] for every operand, 3491-3516. *)
Fixpoint search_all (ks : list level) (start : Z) : outcome (list Z) :=
  match ks with
  | [] => Val []
  | k :: r => do p <- taco_binarySearchAfter (l_crd k) (l_begin k) (l_end k) start;
              do ps <- search_all r start; Val (p :: ps)
  end.

(** codeToLoadCoordinatesFromPosIterators, 3686-3735: the coordinates of the
    operands [pt], whatever their positions. *)
Fixpoint load (ks : list level) (ps : posns) (pt : list nat) : outcome (list (nat * Z)) :=
  match pt with
  | [] => Val []
  | k :: r => do c <- rd (l_crd (lev ks k)) (ps k); do cs <- load ks ps r; Val ((k, c) :: cs)
  end.
(** resolveCoordinate, 1741-1808 (two-finger merge): the least coordinate. *)
Definition resolve (cs : list (nat * Z)) : Z :=
  match cs with [] => 0 | c :: r => fold_left Z.min (map snd r) (snd c) end.
(** compareToResolvedCoordinate, lowerer_impl_imperative.h:429-443: whether operand [k]
    is at the coordinate. *)
Definition here (cs : list (nat * Z)) (i : Z) (k : nat) : bool :=
  existsb (fun kc => (fst kc =? k)%nat && (snd kc =? i)) cs.

(** A visit: the coordinate and, for each operand at it, its position. *)
Definition seen := (Z * list (option Z))%type.

(** The loop of one point of the lattice (lowerMergePoint 1625-1739), over the
    operands [pt].  [inner]: the loop's variable from the coordinate; [g]: its end.
    [cases]: which sets of operands have a case in the loop's body.  The coordinate is
    resolved again at the end of each iteration (3672-3680), and the variable is
    only computed there, before the next test. *)
Fixpoint point_loop (fuel : nat) (ks : list level) (inner : Z -> Z) (g : Z) (pt : list nat)
  (cases : list (option Z) -> bool) (ps : posns) (i : Z) : outcome (posns * Z * list seen) :=
  match fuel with
  | O => NoFuel
  | S fuel =>
      if forallb (fun k => ps k <? l_end (lev ks k)) pt && (inner i <? g) then
        do cs <- load ks ps pt;
        let i := resolve cs in
        let found := map (fun k => if here cs i k then Some (ps k) else None) (seq 0 (length ks)) in
        let ps' := fun k => if here cs i k then ps k + 1 else ps k in
        do cs' <- load ks ps' pt;
        do (ps'', i'', vs) <- point_loop fuel ks inner g pt cases ps' (resolve cs');
        Val (ps'', i'', (if cases found then [(i, found)] else []) ++ vs)
      else Val (ps, i, [])
  end.
(** More than the number of iterations a loop can make. *)
Definition fuel_of (ks : list level) : nat :=
  S (fold_right (fun k n => (Z.to_nat (l_end k - l_begin k) + n)%nat) O ks).
Fixpoint point_loops (ks : list level) (inner : Z -> Z) (g : Z) (pts : list (list nat))
  (cases : list (option Z) -> bool) (ps : posns) (i : Z) : outcome (list seen) :=
  match pts with
  | [] => Val []
  | pt :: r => do (ps', i', vs) <- point_loop (fuel_of ks) ks inner g pt cases ps i;
               do vs' <- point_loops ks inner g r cases ps' i'; Val (vs ++ vs')
  end.

(** The operands of the first point are initialized, then the coordinate
    (codeToInitializeIteratorVars 3586-3599; 3562-3580), then come the loops. *)
Definition merge_from (ks : list level) (start : list Z) (inner : Z -> Z) (g : Z) (pts : list (list nat))
  (cases : list (option Z) -> bool) : outcome (list seen) :=
  let ps := fun k => nth k start 0 in
  do cs <- load ks ps (hd [] pts);
  point_loops ks inner g pts cases ps (resolve cs).

Definition tile (ks : list level) (outs : list (Z * Z)) (g : Z) (pts : list (list nat))
  (cases : list (option Z) -> bool) : outcome (list seen) :=
  do start <- search_all ks (tile_start outs);
  merge_from ks start (recover_inner outs) g pts cases.

Fixpoint for_each {A} (xs : list Z) (f : Z -> outcome (list A)) : outcome (list A) :=
  match xs with
  | [] => Val []
  | x :: r => do a <- f x; do b <- for_each r f; Val (a ++ b)
  end.
Definition zrange (a b : Z) : list Z := map (fun k => a + Z.of_nat k) (seq 0 (Z.to_nat (b - a))).

(** [split(i, i0, i1, f)], [split(i1, i2, i3, g)] and so on, loops in that order:
    SplitRelNode::deriveIterBounds, provenance_graph.cpp:203-226; the loops over the outer
    variables are over their dimension (merge_lattice.cpp:1012-1017). *)
Fixpoint tiles (ks : list level) (pts : list (list nat)) (cases : list (option Z) -> bool)
  (extent : Z) (fs : list Z) (outs : list (Z * Z)) : outcome (list seen) :=
  match fs with
  | [] => tile ks outs extent pts cases
  | f :: r => for_each (zrange 0 ((extent + (f - 1)) / f)) (fun o => tiles ks pts cases f r (outs ++ [(o, f)]))
  end.

(** [split(i, i0, i1, f)] with the loops reordered to [i1], [i0]: the inner variable
    does not limit the coordinates (provenance_graph.cpp:189-192), so there is no
    search (3496, 3513-3515), and the outer variable is the coordinate minus the inner one
    (242-251). *)
Definition reordered (ks : list level) (pts : list (list nat)) (cases : list (option Z) -> bool)
  (extent f : Z) : outcome (list seen) :=
  for_each (zrange 0 f) (fun i1 =>
    merge_from ks (map l_begin ks) (fun i => i - i1) ((extent + (f - 1)) / f) pts cases).
