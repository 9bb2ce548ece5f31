(** Model of the while loop that is generated for one point of a merge lattice
    over position iterators, for both merge strategies and for levels that may
    store a coordinate several times:
    /repo/src/lower/lowerer_impl_imperative.cpp [lowerMergePoint] 1626-1738 with
    [resolveCoordinate] 1741-1808, [lowerForallBody] 2126-2135,
    [reduceDuplicateCoordinates] 3420-3468, [codeToIncIteratorVars] 3617-3673,
    [codeToLoadCoordinatesFromPosIterators] 3675-3722 and
    [checkThatNoneAreExhausted] 3843-3867.
    Left out: windows, strides and index sets (Window.v), dimension and locate
    iterators (Lower.v), and everything the body does (it only records what it
    sees).  C ints are unbounded [Z]. *)
From Coq Require Import ZArith List Lia Bool.
From Verif Require Import Outcome CSearch Eval.
Import ListNotations.
Local Open Scope Z_scope.

Section MergeLoop.
Context {V : Type}.
Variable R : ring_ops V.

(** include/taco/lower/iterator.h, a position iterator: [it_unique] is
    isUnique(), [it_leaf] is isLeaf(), [it_crd] and [it_vals] are the level's
    coordinate array and the tensor's value array, [it_end] is the value of
    getEndVar() and [it_bound] is posBounds(parentPos)[1], which
    codeToIncIteratorVars passes to taco_gallop (3648-3654).  For a compressed
    level below a unique parent both are pos[parentPos + 1]; for a singleton
    level below a parent with duplicates the end is the end of the parent's run
    (3519-3529) and the bound is parentPos + 1 (mode_format_singleton.cpp
    73-76). *)
Record iter := It {
  it_unique : bool; it_leaf : bool;
  it_crd : list Z; it_vals : list V;
  it_end : Z; it_bound : Z }.

(** MergeStrategy, include/taco/ir_tags.h 38-40. *)
Inductive strategy := TwoFinger | Gallop.

(** What the loop body sees of an operand whose coordinate is the resolved one:
    the positions whose children it iterates over, or, at a leaf, its value. *)
Inductive seen := Range (b e : Z) | Value (v : V).

(** One iterator with the current value of its iterator variable. *)
Definition cursor := (iter * Z)%type.

Definition mapM {A B} (f : A -> outcome B) : list A -> outcome (list B) :=
  fix go l := match l with
              | [] => Val []
              | x :: t => do y <- f x; do ys <- go t; Val (y :: ys)
              end.

(** 3675-3722 and 1745-1747: the coordinate at the current position. *)
Definition load_coord (k : cursor) : outcome Z := rd (it_crd (fst k)) (snd k).

(** 1794-1801: Min or Max of the mergers' coordinates. *)
Definition resolve (st : strategy) (cs : list Z) : Z :=
  match cs with
  | [] => 0
  | c :: cs => fold_left (match st with TwoFinger => Z.min | Gallop => Z.max end) cs c
  end.

(** 3453-3466: [while (segend < end && crd[segend] == coordinate)
    { reducedVal += vals[segend]; segend += 1; }]; the values are only loaded at
    a leaf. *)
Fixpoint dedup_loop (fuel : nat) (it : iter) (c segend : Z) (acc : V) : outcome (Z * V) :=
  match fuel with
  | O => NoFuel
  | S fuel =>
      if segend <? it_end it then
        do x <- rd (it_crd it) segend;
        if x =? c then
          do v <- (if it_leaf it then rd (it_vals it) segend else Val (r0 R));
          dedup_loop fuel it c (segend + 1) (radd R acc v)
        else Val (segend, acc)
      else Val (segend, acc)
  end.

(** 3420-3468 for one iterator: the new value of the iterator variable, the
    value of the segend variable and the reduced value.  A unique iterator has
    no de-duplication loop (1720-1724).  At a leaf segend is the iterator
    variable itself. *)
Definition dedup (always : bool) (c : Z) (k : cursor) : outcome (Z * Z * V) :=
  let '(it, p) := k in
  if it_unique it then Val (p, p + 1, r0 R)
  else
    do v0 <- (if always && it_leaf it then rd (it_vals it) p else Val (r0 R));
    let s0 := if always then p + 1 else p in
    do r <- dedup_loop (S (Z.to_nat (it_end it - p))) it c s0 v0;
    let '(s, v) := r in
    Val (if it_leaf it then s else p, s, v).

(** What the body sees of one operand: nothing unless its coordinate is the
    resolved one (the cases of 1849-1877 compare them); at a leaf its value, or
    the reduced value; above a leaf the positions of the children
    (3511-3529). *)
Definition look (c : Z) (x : (cursor * Z) * (Z * Z * V)) : outcome (option seen) :=
  let '((it, p), ck, (_, segend, red)) := x in
  if ck =? c then
    if it_leaf it then
      if it_unique it then do v <- rd (it_vals it) p; Val (Some (Value v))
      else Val (Some (Value red))
    else Val (Some (Range p segend))
  else Val None.

(** 3617-3673: the next value of one iterator variable.  [p] is its value after
    the body, [n1] says whether there is only one iterator. *)
Definition advance (st : strategy) (n1 : bool) (c : Z) (it : iter) (p ck segend : Z)
  : outcome Z :=
  if it_unique it then
    if n1 then Val (p + 1)
    else match st with
         | Gallop => taco_gallop (it_crd it) p (it_bound it) c
         | TwoFinger => Val (p + (if ck =? c then 1 else 0))
         end
  else if it_leaf it then Val p else Val segend.

(** The body of the loop (1731-1737).  [cases] says for which operands that are
    seen one of the cases of [lowerMergeCases] 1810-1880 applies.  With the
    gallop strategy and more than one iterator the body of the case increments
    every iterator variable (2126-2133). *)
Definition iteration (st : strategy) (cases : list (option seen) -> bool)
  (ks : list cursor) : outcome (list (Z * list (option seen)) * list cursor) :=
  let n1 := Nat.eqb (length ks) 1 in
  do cs <- mapM load_coord ks;
  let c := resolve st cs in
  do ds <- mapM (dedup n1 c) ks;
  do sees <- mapM (look c) (combine (combine ks cs) ds);
  let hit := cases sees in
  let step := match st with
              | Gallop => if negb n1 && hit then 1 else 0
              | TwoFinger => 0
              end in
  do ps <- mapM (fun x : (cursor * Z) * (Z * Z * V) =>
                   let '((it, _), ck, (p, segend, _)) := x in
                   advance st n1 c it (p + step) ck segend)
                (combine (combine ks cs) ds);
  Val (if hit then [(c, sees)] else [], combine (map fst ks) ps).

(** 3855-3866: the loop runs while every iterator is before its end. *)
Definition none_exhausted (ks : list cursor) : bool :=
  forallb (fun k : cursor => snd k <? it_end (fst k)) ks.

Fixpoint merge_point (fuel : nat) (st : strategy) (cases : list (option seen) -> bool)
  (ks : list cursor) : outcome (list (Z * list (option seen)) * list cursor) :=
  match fuel with
  | O => NoFuel
  | S fuel =>
      if none_exhausted ks then
        do r <- iteration st cases ks;
        let '(v1, ks1) := r in
        do r <- merge_point fuel st cases ks1;
        let '(v2, ks2) := r in
        Val (v1 ++ v2, ks2)
      else Val ([], ks)
  end.

(** The cursors of the iterators of one lattice point, given by their indices. *)
Definition pick (ks : list cursor) (pt : list nat) : list cursor :=
  map (fun k => nth k ks (It true true [] [] 0 0, 0)) pt.

(** All cursors after the loop of one point. *)
Definition put (ks : list cursor) (pt : list nat) (ks' : list cursor) : list cursor :=
  map (fun k => match find (fun x : nat * cursor => Nat.eqb (fst x) k) (combine pt ks') with
                | Some x => snd x
                | None => nth k ks (It true true [] [] 0 0, 0)
                end) (seq 0 (length ks)).

(** [lowerMergeLattice] 1606-1615: one loop for each point of the lattice, over
    the iterators of that point, each starting where the previous one stopped.
    Every visit is recorded together with its point. *)
Fixpoint merge_lattice (fuel : nat) (pts : list (list nat)) (ks : list cursor)
  : outcome (list (list nat * (Z * list (option seen)))) :=
  match pts with
  | [] => Val []
  | pt :: pts =>
      do r <- merge_point fuel TwoFinger (fun _ => true) (pick ks pt);
      let '(v, ks') := r in
      do vs <- merge_lattice fuel pts (put ks pt ks');
      Val (map (fun x => (pt, x)) v ++ vs)
  end.

(** The loops over the levels of one coordinate (COO) tensor, format.cpp 408-431:
    a compressed level with duplicates followed by singleton levels, all with
    duplicates except possibly the last ([uniq]).  Each level is the only iterator
    of its loop.  The loop of a level runs over the positions of the run of its
    parent (codeToInitializeIteratorVar 3519-3529 with
    mode_format_singleton.cpp 73-76: from the parent's position to its segend).
    The innermost body records the coordinates and the value. *)
Fixpoint coo_walk (fuel : nat) (uniq : bool) (crds : list (list Z)) (vals : list V) (lo hi : Z)
  : outcome (list (list Z * V)) :=
  match crds with
  | [] => Val []
  | crd :: rest =>
      let leaf := match rest with [] => true | _ => false end in
      do r <- merge_point fuel TwoFinger (fun _ => true)
                [(It (uniq && leaf) leaf crd vals hi (lo + 1), lo)];
      do ls <- mapM (fun x : Z * list (option seen) =>
                  match x with
                  | (c, [Some (Value v)]) => Val [([c], v)]
                  | (c, [Some (Range b e)]) =>
                      do l <- coo_walk fuel uniq rest vals b e;
                      Val (map (fun y => (c :: fst y, snd y)) l)
                  | _ => Oob
                  end) (fst r);
      Val (concat ls)
  end.

End MergeLoop.
