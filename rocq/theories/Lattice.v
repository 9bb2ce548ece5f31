(** Model of merge lattice construction, /repo/src/lower/merge_lattice.cpp.
    Merge points carry iterators and locators.  Result iterators are dropped
    (they do not influence construction), and so are the omit flags: without
    Call and Complement nodes every point is a producer, so
    correctPointTypes* and the omit handling of removeDuplicatedTensorRegions
    are identities.  Iterators are over index variables that no scheduling
    relation derives, and without windows or index sets. *)
From Coq Require Import List Arith Lia Bool Permutation Sorted.
Import ListNotations.
From Verif Require Import Storage IndexExpr.

(** /repo/include/taco/lower/iterator.h: the iterators that occur while
    building the lattice of one index variable: its dimension (mode) iterator,
    or the iterator of level [l] of an access. *)
Inductive iter := Dim | Lev (a : access) (l : nat).

Definition iter_eq_dec : forall x y : iter, {x = y} + {x <> y}.
Proof. decide equality; [apply Nat.eq_dec | apply access_eq_dec]. Defined.

Definition iter_eqb (x y : iter) : bool := if iter_eq_dec x y then true else false.
Definition mem (x : iter) (l : list iter) : bool := existsb (iter_eqb x) l.

Definition level_kind (a : access) (l : nat) : kind := snd (nth l (a_vars a) (0, KDense)).

(** Capabilities: /repo/src/lower/iterator.cpp with mode_format_dense.cpp
    (full, hasLocate, no coordinate or position iteration) and
    mode_format_compressed.cpp (not full, position iteration, no locate).
    Dimension iterators are full and cannot locate (iterator.cpp isFull 119-126,
    hasLocate). All of them are ordered and unique. *)
Definition is_dim (it : iter) : bool := match it with Dim => true | _ => false end.
Definition is_full (it : iter) : bool :=
  match it with
  | Dim => true
  | Lev a l => match level_kind a l with KDense => true | KComp => false end
  end.
Definition has_locate (it : iter) : bool :=
  match it with
  | Dim => false
  | Lev a l => match level_kind a l with KDense => true | KComp => false end
  end.

(** Position of [i] among the index variables of an access
    (merge_lattice.cpp 50-75, getIterator, without derived variables). *)
Fixpoint index_of (i : ivar) (l : list (ivar * kind)) : option nat :=
  match l with
  | [] => None
  | (j, _) :: t => if j =? i then Some 0 else option_map S (index_of i t)
  end.
Definition find_level (i : ivar) (a : access) : option nat := index_of i (a_vars a).

(** merge_lattice.cpp 1241-1263: MergePoint and its constructor, which removes
    duplicates (util::removeDuplicates keeps first occurrences). *)
Record point := Pt { p_iters : list iter; p_locs : list iter }.

Fixpoint dedup (seen l : list iter) : list iter :=
  match l with
  | [] => []
  | x :: t => if mem x seen then dedup seen t else x :: dedup (x :: seen) t
  end.
Definition mkPoint (its locs : list iter) : point := Pt (dedup [] its) (dedup [] locs).

(** merge_lattice.cpp 1333-1339, tensorRegion (a std::set: only membership is
    used below). *)
Definition region (p : point) : list iter :=
  filter (fun it => negb (is_dim it)) (p_iters p) ++ p_locs p.

Definition subset (a b : list iter) : bool := forallb (fun x => mem x b) a.
Definition same_set (a b : list iter) : bool := subset a b && subset b a.

(** The key of pointSort (merge_lattice.cpp 541-547, 628-634). *)
Definition psize (p : point) : nat := length (p_iters p) + length (p_locs p).

(** merge_lattice.cpp 1274-1297, rangers. *)
Definition rangers (p : point) : list iter :=
  if existsb (fun it => negb (is_full it)) (p_iters p)
  then filter (fun it => negb (is_full it)) (p_iters p) else p_iters p.

(** merge_lattice.cpp 1299-1331, mergers.  The last rule of the function (drop
    dimension iterators that are not full) cannot fire: dimension iterators are
    full. *)
Definition mergers (p : point) : list iter :=
  if existsb is_full (p_iters p) then filter is_full (p_iters p) else p_iters p.

(** merge_lattice.cpp 714-742, intersectPoints. *)
Definition dedupDims (l : list iter) : list iter :=
  (* 845-863, deduplicateDimensionIterators *)
  (fix go (found : bool) (l : list iter) : list iter :=
     match l with
     | [] => []
     | it :: t => if is_dim it then (if found then go found t else it :: go true t)
                  else it :: go found t
     end) false l.

Definition intersectPoints (left right : point) (locateLeft : bool) : point :=
  let side := p_iters (if locateLeft then left else right) in
  let iterators := filter (fun it => negb (has_locate it)) side in
  let locators := filter has_locate side in
  let iterators := filter (fun it => negb (is_dim it)) iterators in
  let iterators := if locateLeft then iterators ++ p_iters right
                   else p_iters left ++ iterators in
  let locators := if locateLeft then locators ++ p_locs left ++ p_locs right
                  else p_locs left ++ locators ++ p_locs right in
  mkPoint (dedupDims iterators) locators.

(** merge_lattice.cpp 750-762, unionPoints. *)
Definition unionPoints (left right : point) : point :=
  mkPoint (dedupDims (p_iters left ++ p_iters right)) (p_locs left ++ p_locs right).

Definition pt0 : point := Pt [] [].
Definition lat_iters (l : list point) : list iter := p_iters (hd pt0 l).
Definition lat_locs (l : list point) : list iter := p_locs (hd pt0 l).

(** merge_lattice.cpp 764-794, locateFromLeft. *)
Definition locateFromLeft (left right : list point) : bool :=
  if existsb is_dim (lat_iters right) then false
  else if existsb is_dim (lat_iters left) then true
  else if existsb (fun it => is_full it && has_locate it) (lat_iters right) then false
  else if existsb (fun it => is_full it && has_locate it) (lat_iters left) then true
  else length (filter has_locate (lat_iters right)) <? length (filter has_locate (lat_iters left)).

(** merge_lattice.cpp 565-586 and 651-672, the hasIntersection test. *)
Definition hasIntersection (aroot broot : list iter) (a b : point) : bool :=
  forallb (fun it => mem it (region b) || negb (mem it broot)) (region a) &&
  forallb (fun it => mem it (region a) || negb (mem it aroot)) (region b).

(** merge_lattice.cpp 934-961, removeDuplicatedTensorRegions, and 1051-1066,
    removePointsWithIdenticalIterators: keep the first point of each class. *)
Fixpoint keep_first (same : point -> point -> bool) (seen l : list point) : list point :=
  match l with
  | [] => []
  | p :: t => if existsb (same p) seen then keep_first same seen t
              else p :: keep_first same (p :: seen) t
  end.
Definition removeDuplicatedTensorRegions (l : list point) : list point :=
  keep_first (fun p q => same_set (region p) (region q)) [] l.
Definition removePointsWithIdenticalIterators (l : list point) : list point :=
  keep_first (fun p q => same_set (p_iters p) (p_iters q)) [] l.

(** merge_lattice.cpp 815-843, moveLocateSubsetIteratorsToLocateSet. *)
Definition moveLocateSubset (l : list point) : list point :=
  match filter is_full (lat_iters l) with
  | [] => l
  | firstFull :: _ =>
      let mv it := has_locate it && negb (iter_eqb it firstFull) in
      map (fun p => mkPoint (filter (fun it => negb (mv it)) (p_iters p))
                            (p_locs p ++ filter mv (p_iters p))) l
  end.

Section WithSort.
(** std::sort with pointSort: some permutation that is sorted by decreasing
    [psize].  The order of equal elements is unspecified, so the sort is a
    parameter. *)
Variable srt : list point -> list point.

Definition pairs (l r : list point) : list (point * point) :=
  flat_map (fun a => map (fun b => (a, b)) r) l.

(** merge_lattice.cpp 538-617, intersectLattices. *)
Definition intersectLattices (left right : list point) : list point :=
  let locateLeft := locateFromLeft left right in
  let sa := srt left in
  let sb := srt right in
  let aroot := region (hd pt0 sa) in
  let broot := region (hd pt0 sb) in
  let points := map (fun ab => intersectPoints (fst ab) (snd ab) locateLeft)
                    (filter (fun ab => hasIntersection aroot broot (fst ab) (snd ab)) (pairs sa sb)) in
  removeDuplicatedTensorRegions (srt points).

(** merge_lattice.cpp 623-706, unionLattices
    (insertDimensionIteratorIfNotOrdered is the identity: all iterators are
    ordered). *)
Definition unionLattices (left right : list point) : list point :=
  let sa := srt left in
  let sb := srt right in
  let aroot := region (hd pt0 sa) in
  let broot := region (hd pt0 sb) in
  let points := map (fun ab => unionPoints (fst ab) (snd ab))
                    (filter (fun ab => hasIntersection aroot broot (fst ab) (snd ab)) (pairs sa sb)) in
  moveLocateSubset (removeDuplicatedTensorRegions (srt (points ++ left ++ right))).

(** merge_lattice.cpp 131-159: empty operands. *)
Definition intersectNode (a b : list point) : list point :=
  match a, b with
  | _ :: _, _ :: _ => intersectLattices a b
  | _, _ => []
  end.
Definition unionNode (a b : list point) : list point :=
  match a, b with
  | _ :: _, _ :: _ => unionLattices a b
  | _ :: _, [] => a
  | [], _ => b
  end.

(** merge_lattice.cpp 87-89, modeIterationLattice. *)
Definition modeIterationLattice : list point := [mkPoint [Dim] []].

(** merge_lattice.cpp 188-259, visit(AccessNode).  The cache seenMergePoints
    returns the point computed before for an equal access, which is the one
    computed here again. *)
Definition accessLattice (i : ivar) (a : access) : list point :=
  match find_level i a with
  | None => modeIterationLattice
  | Some l =>
      match level_kind a l with
      | KDense => [mkPoint [Dim] [Lev a l]]
      | KComp => [mkPoint [Lev a l] []]
      end
  end.

(** merge_lattice.cpp 260-297: the builder on expressions. *)
Fixpoint buildLattice {V} (i : ivar) (e : expr V) : list point :=
  match e with
  | ELit _ => modeIterationLattice
  | EAcc a => accessLattice i a
  | ENeg e => buildLattice i e
  | EFun _ e => buildLattice i e
  | EAdd e1 e2 => unionNode (buildLattice i e1) (buildLattice i e2)
  | ESub e1 e2 => unionNode (buildLattice i e1) (buildLattice i e2)
  | EMul e1 e2 => intersectNode (buildLattice i e1) (buildLattice i e2)
  end.

(** merge_lattice.cpp 1029-1049, removePointsThatLackFullIterators. *)
Definition removePointsThatLackFullIterators (l : list point) : list point :=
  let full := filter is_full (lat_iters l) in
  filter (fun p => subset full (p_iters p)) l.

(** merge_lattice.cpp 1208-1211, getLoopLattice. *)
Definition getLoopLattice (l : list point) : list point :=
  removePointsWithIdenticalIterators (removePointsThatLackFullIterators l).

(** merge_lattice.cpp 1003-1027, MergeLattice::make. *)
Definition makeLattice {V} (i : ivar) (e : expr V) : list point :=
  getLoopLattice (buildLattice i e).

End WithSort.

(** merge_lattice.cpp 1075-1091, subLattice. *)
Definition subLattice (l : list point) (lp : point) : list point :=
  filter (fun lq => subset (p_iters lq) (p_iters lp)) l.

(** merge_lattice.cpp 1109-1124, exhausted. *)
Definition exhausted (l : list point) (p : point) : list iter :=
  filter (fun it => negb (mem it (region p)))
         (filter (fun it => negb (is_dim it)) (lat_iters l ++ lat_locs l)).

(** /repo/src/lower/lowerer_impl_imperative.cpp 3003-3011,
    getExhaustedAccesses: the accesses of the exhausted iterators. *)
Definition exhaustedAccess (l : list point) (p : point) (a : access) : bool :=
  existsb (fun it => match it with Lev b _ => access_eqb a b | Dim => false end) (exhausted l p).

(** merge_lattice.cpp 1131-1160, exact. *)
Definition exact (l : list point) : bool :=
  existsb (fun p => forallb is_full (p_iters p)) l ||
  let singles := flat_map (fun p => match p_iters p with [it] => [it] | _ => [] end) l in
  subset (lat_iters l) singles.

(** A concrete admissible sort (insertion sort, stable), used in examples. *)
Fixpoint insert_pt (p : point) (l : list point) : list point :=
  match l with
  | [] => [p]
  | q :: t => if psize q <? psize p then p :: l else q :: insert_pt p t
  end.
Definition isort (l : list point) : list point := fold_right insert_pt [] (rev l).
