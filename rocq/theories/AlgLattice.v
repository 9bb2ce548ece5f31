(** Model of the merge lattices of functions with an iteration algebra
    (Func / CallNode): /repo/src/lower/merge_lattice.cpp with the omit flags
    that Lattice.v leaves out, and the loops and cases generated from them,
    /repo/src/lower/lowerer_impl_imperative.cpp 1583-1625, 1810-2068, 2919-2936.

    Modelled is the loop over an index variable [i] whose body is one assignment
    [r(..i..) = f(args)] where the arguments are accesses that have [i] as last
    level variable, compressed or dense; [i] is not derived by a scheduling
    relation.  Not modelled: arguments that are expressions, functions with
    Annihilator or Identity properties, result iterators, and loops that are
    not innermost. *)
From Coq Require Import List Arith Bool.
Import ListNotations.
From Verif Require Import Checks.
From Verif Require Import Storage IndexExpr Lattice.

(** include/taco/lower/merge_lattice.h: a MergePoint with its omit flag. *)
Record opoint := OPt { o_pt : point; o_omit : bool }.
Definition oregion (p : opoint) : list iter := region (o_pt p).
Definition opsize (p : opoint) : nat := psize (o_pt p).
Definition opt0 : opoint := OPt pt0 false.

(** merge_lattice.cpp 714-742 and 750-762: the flags of combined points. *)
Definition ointersect (l r : opoint) (locateLeft : bool) : opoint :=
  OPt (intersectPoints (o_pt l) (o_pt r) locateLeft) (o_omit l || o_omit r).
Definition ounion (l r : opoint) : opoint :=
  OPt (unionPoints (o_pt l) (o_pt r)) (o_omit l && o_omit r).

(** merge_lattice.cpp 880-888, flipPoints. *)
Definition flipPoints (l : list opoint) : list opoint :=
  map (fun p => OPt (o_pt p) (negb (o_omit p))) l.

(** merge_lattice.cpp 890-901: is [r] among the producer (omitter) regions. *)
Definition has_region (omitters : bool) (l : list opoint) (r : list iter) : bool :=
  existsb (fun p => Bool.eqb (o_omit p) omitters && same_set (oregion p) r) l.

(** merge_lattice.cpp 903-921, correctPointTypes. *)
Definition correctPointTypes (left right : list opoint) (preserveOmit : bool)
    (points : list opoint) : list opoint :=
  map (fun p => if has_region preserveOmit left (oregion p) && has_region preserveOmit right (oregion p)
                then OPt (o_pt p) preserveOmit else p) points.

(** merge_lattice.cpp 934-961, removeDuplicatedTensorRegions. *)
Fixpoint okeep_first (same : opoint -> opoint -> bool) (seen l : list opoint) : list opoint :=
  match l with
  | [] => []
  | p :: t => if existsb (same p) seen then okeep_first same seen t
              else p :: okeep_first same (p :: seen) t
  end.
Definition oremoveDuplicated (preserveOmitters : bool) (l : list opoint) : list opoint :=
  map (fun p => if has_region false l (oregion p) && has_region true l (oregion p)
                then OPt (o_pt p) preserveOmitters else p)
      (okeep_first (fun p q => same_set (oregion p) (oregion q)) [] l).

(** merge_lattice.cpp 815-843, moveLocateSubsetIteratorsToLocateSet. *)
Definition omoveLocateSubset (l : list opoint) : list opoint :=
  match filter is_full (p_iters (o_pt (hd opt0 l))) with
  | [] => l
  | firstFull :: _ =>
      let mv it := has_locate it && negb (iter_eqb it firstFull) in
      map (fun p => OPt (mkPoint (filter (fun it => negb (mv it)) (p_iters (o_pt p)))
                                 (p_locs (o_pt p) ++ filter mv (p_iters (o_pt p)))) (o_omit p)) l
  end.

Definition opairs (l r : list opoint) : list (opoint * opoint) :=
  flat_map (fun a => map (fun b => (a, b)) r) l.

Section WithSort.
(** std::sort with pointSort, unspecified on ties, as in Lattice.v. *)
Variable srt : list opoint -> list opoint.

(** merge_lattice.cpp 538-617, intersectLattices. *)
Definition ointersectLattices (left right : list opoint) : list opoint :=
  let locateLeft := locateFromLeft (map o_pt left) (map o_pt right) in
  let sa := srt left in
  let sb := srt right in
  let aroot := oregion (hd opt0 sa) in
  let broot := oregion (hd opt0 sb) in
  let points := map (fun ab => ointersect (fst ab) (snd ab) locateLeft)
                    (filter (fun ab => hasIntersection aroot broot (o_pt (fst ab)) (o_pt (snd ab)))
                            (opairs sa sb)) in
  oremoveDuplicated true (correctPointTypes left right false (srt points)).

(** merge_lattice.cpp 623-706, unionLattices. *)
Definition ounionLattices (left right : list opoint) : list opoint :=
  let sa := srt left in
  let sb := srt right in
  let aroot := oregion (hd opt0 sa) in
  let broot := oregion (hd opt0 sb) in
  let points := map (fun ab => ounion (fst ab) (snd ab))
                    (filter (fun ab => hasIntersection aroot broot (o_pt (fst ab)) (o_pt (snd ab)))
                            (opairs sa sb)) in
  omoveLocateSubset
    (oremoveDuplicated false (correctPointTypes left right true (srt (points ++ left ++ right)))).

(** merge_lattice.cpp 130-157: empty operands. *)
Definition ointersectNode (a b : list opoint) : list opoint :=
  match a, b with
  | _ :: _, _ :: _ => ointersectLattices a b
  | _, _ => []
  end.
Definition ounionNode (a b : list opoint) : list opoint :=
  match a, b with
  | _ :: _, _ :: _ => ounionLattices a b
  | _ :: _, [] => a
  | [], _ => b
  end.

(** merge_lattice.cpp 188-259: an access is produced where it is stored. *)
Definition oaccessLattice (i : ivar) (a : access) : list opoint :=
  map (fun p => OPt p false) (accessLattice i a).

(** merge_lattice.cpp 515-532, includeDimensionIterator. *)
Definition includeDimensionIterator (l : list opoint) : list opoint :=
  map (fun p => if existsb is_dim (p_iters (o_pt p)) then p
                else OPt (mkPoint (p_iters (o_pt p) ++ [Dim]) (p_locs (o_pt p))) (o_omit p)) l.

(** merge_lattice.cpp 98-124, visit(ComplementNode) of the region of an access.
    includeMissingProducerPoints (487-513) is left out: it adds the missing
    non-empty subregions of the first point, and the region of an access has at
    most one iterator. *)
Definition complementLattice (i : ivar) (a : access) : list opoint :=
  let points := includeDimensionIterator (flipPoints (oaccessLattice i a)) in
  let isDimPoint p := match p_locs (o_pt p), p_iters (o_pt p) with [], [Dim] => true | _, _ => false end in
  if existsb isDimPoint points then points
  else points ++ [OPt (mkPoint [Dim] []) false].

(** merge_lattice.cpp 43-48, 88-157: the builder on iteration algebras.
    Complements of anything but a region fail the assertion of line 99; the
    constructor of CallNode has applied De Morgan's rules
    (index_notation_nodes.cpp 45). *)
Fixpoint buildAlg (i : ivar) (x : alg access) : list opoint :=
  match x with
  | Region a => oaccessLattice i a
  | Complement (Region a) => complementLattice i a
  | Complement _ => []
  | Intersect x y => ointersectNode (buildAlg i x) (buildAlg i y)
  | Union x y => ounionNode (buildAlg i x) (buildAlg i y)
  end.
End WithSort.

(** merge_lattice.cpp 1029-1066 and 1208-1211, getLoopLattice. *)
Definition ogetLoopLattice (l : list opoint) : list opoint :=
  let full := filter is_full (p_iters (o_pt (hd opt0 l))) in
  okeep_first (fun p q => same_set (p_iters (o_pt p)) (p_iters (o_pt q))) []
              (filter (fun p => subset full (p_iters (o_pt p))) l).

(** merge_lattice.cpp 1068-1073, needExplicitZeroChecks.  [keep]: there are
    regions to keep, which is so when the function has region definitions
    (CallNode, 295-310). *)
Definition needExplicitZeroChecks (keep : bool) (l : list opoint) : bool := existsb o_omit l || keep.

(** iterator.cpp 103-105, isLeaf: the last level of the access. *)
Definition is_leaf (it : iter) : bool :=
  match it with Dim => false | Lev a l => S l =? length (a_vars a) end.

(** merge_lattice.cpp 1162-1169, anyModeIteratorIsLeaf. *)
Definition anyModeIteratorIsLeaf (l : list opoint) : bool :=
  match l with
  | [] => false
  | p :: _ => existsb is_leaf (p_iters (o_pt p) ++ p_locs (o_pt p))
  end.

(** merge_lattice.cpp 1003-1027, MergeLattice::make. *)
Definition makeAlg (keep : bool) (l : list opoint) : list opoint :=
  if anyModeIteratorIsLeaf l && needExplicitZeroChecks keep l then l else ogetLoopLattice l.

(** merge_lattice.cpp 1075-1091, subLattice; it forgets the regions to keep. *)
Definition osubLattice (l : list opoint) (lp : opoint) : list opoint :=
  filter (fun lq => subset (p_iters (o_pt lq)) (p_iters (o_pt lp))) l.

(** merge_lattice.cpp 1109-1124, exhausted, and
    lowerer_impl_imperative.cpp 3003-3011, getExhaustedAccesses. *)
Definition oexhaustedAccess (l : list opoint) (p : opoint) (a : access) : bool :=
  exhaustedAccess (map o_pt l) (o_pt p) a.

(** merge_lattice.cpp 1131-1160, exact. *)
Definition oexact (l : list opoint) : bool := negb (existsb o_omit l) && exact (map o_pt l).

(** merge_lattice.cpp 1171-1202, retrieveRegionIteratorsToOmit.  Regions are
    std::sets; the region lists have no repetitions. *)
Definition iteratorsToOmit (l : list opoint) (p : opoint) : list iter :=
  (if o_omit p then oregion p else []) ++
  flat_map (fun q => if (length (oregion p) <? length (oregion q)) && o_omit q
                     then filter (fun it => negb (mem it (oregion p))) (oregion q) else []) l.

(** ** Calls *)
(** index_notation_nodes.h 296-337: the arguments of a CallNode, a literal zero
    where zeroing replaced one, and the arguments that count as defined. *)
Record call := Call { c_args : list (option access); c_defined : list nat }.

(** index_notation_nodes.h 328-336, definedIndices. *)
Definition makeCall (args : list access) : call := Call (map Some args) (seq 0 (length args)).

(** index_notation.cpp 3906-3960, Zero::visit(CallNode) without properties.  A
    literal is rewritten to itself and counts as defined (3795-3797). *)
Definition zeroArg (z : access -> bool) (o : option access) : bool :=
  match o with Some a => z a | None => false end.
Definition zeroCall (z : access -> bool) (c : call) : call :=
  if existsb (zeroArg z) (c_args c)
  then Call (map (fun o => if zeroArg z o then None else o) (c_args c))
            (filter (fun k => negb (zeroArg z (nth k (c_args c) None))) (seq 0 (length (c_args c))))
  else c.

Section Run.
Context {V : Type} (v0 : V) (nonzero : V -> bool).

(** tensor_operator.h: the default implementation and the definitions for
    special regions. *)
Record func := Func { f_default : list V -> V; f_defs : list (list nat * (list V -> V)) }.

Definition find_def (f : func) (d : list nat) : option (list V -> V) :=
  option_map snd (find (fun e => if list_eq_dec Nat.eq_dec (fst e) d then true else false) (f_defs f)).

(** lowerer_impl_imperative.cpp 2919-2936, lowerTensorOp.  [cur a] is what the
    generated code reads for access [a]: the value at the position its
    iterator is at. *)
Definition arg_value (cur : access -> V) (o : option access) : V :=
  match o with Some a => cur a | None => v0 end.
Definition lowerTensorOp (f : func) (cur : access -> V) (c : call) : V :=
  match find_def f (c_defined c) with
  | Some g => g (map (fun k => arg_value cur (nth k (c_args c) None)) (c_defined c))
  | None => f_default f (map (arg_value cur) (c_args c))
  end.

(** What happens at a coordinate: the function is computed, the result is set
    to zero, nothing is done, an assertion of the compiler fails, or a body is
    printed without a guard beside the guarded cases. *)
Inductive outcome := Computed (v : V) | Background | Nothing | AssertFails | Unguarded.

(** ir_printer.cpp 296-324: a Case runs the first clause whose condition holds;
    with [alwaysMatch] the last clause (unless it is the only one) has none. *)
Fixpoint run_case (alwaysMatch : bool) (first : bool) (cs : list (bool * outcome)) : outcome :=
  match cs with
  | [] => Nothing
  | [(b, o)] => if b || (alwaysMatch && negb first) then o else Nothing
  | (b, o) :: t => if b then o else run_case alwaysMatch false t
  end.

(** At the coordinate: [here a] says whether the coordinate of the iterator of
    [a] is the coordinate of the loop (always so for dense levels, which are
    located). *)
Variables (f : func) (here : access -> bool) (cur : access -> V).

(** lowerer_impl_imperative.cpp 1895-1956, constructInnerLoopCasePreamble: the
    condition variables, for the level iterators of the lattice.  Coordinates
    of located iterators are not compared.  (For a located iterator that is not
    a leaf the code declares a variable without a value; excluded above.) *)
Definition in_map (l : list opoint) (it : iter) : bool :=
  mem it (filter (fun it => negb (is_dim it)) (p_iters (o_pt (hd opt0 l))) ++ p_locs (o_pt (hd opt0 l))).
Definition isNonZero (l : list opoint) (it : iter) : bool :=
  match it with
  | Dim => true
  | Lev a _ => (if mem it (p_locs (o_pt (hd opt0 l))) then true else here a) &&
               (if is_leaf it then nonzero (cur a) else true)
  end.

(** lowerer_impl_imperative.cpp 1958-2027, lowerCasesFromMap.  [fullResult]:
    the result has an inserter that is full. *)
Definition casesFromMap (fullResult : bool) (l : list opoint) (c : call) : outcome :=
  let needed p := filter (in_map l) (rangers (o_pt p) ++ p_locs (o_pt p)) in
  let omitted p := filter (in_map l) (iteratorsToOmit l p) in
  let cond p := forallb (isNonZero l) (needed p) && forallb (fun it => negb (isNonZero l it)) (omitted p) in
  let cases := map (fun p => (cond p, Computed (lowerTensorOp f cur (zeroCall (oexhaustedAccess l p) c))))
                   (filter (fun p => negb (o_omit p)) l) in
  let fullInput := existsb is_full (filter (fun it => negb (is_dim it))
                     (p_iters (o_pt (hd opt0 l)) ++ p_locs (o_pt (hd opt0 l)))) in
  if existsb (fun p => match needed p ++ omitted p with [] => true | _ => false end)
             (filter (fun p => negb (o_omit p)) l)
  then Unguarded
  else if negb (oexact l) && fullResult && fullInput
  then run_case true true (cases ++ [(true, Background)])
  else run_case (oexact l) true cases.

(** lowerer_impl_imperative.cpp 2030-2068, lowerMergeCasesWithExplicitZeroChecks
    (returnsTrue, 112-178, is false for calls without an annihilator). *)
Definition explicitCases (fullResult : bool) (l : list opoint) (c : call) : outcome :=
  if (length l =? 1) && (length (p_iters (o_pt (hd opt0 l))) =? 1)
  then if o_omit (hd opt0 l) then AssertFails else Computed (lowerTensorOp f cur c)
  else casesFromMap fullResult l c.

(** lowerer_impl_imperative.cpp 1810-1880, lowerMergeCases.  The comparison of
    a dimension iterator with the coordinate always holds. *)
Definition atCoordinate (it : iter) : bool := match it with Dim => true | Lev a _ => here a end.
Definition mergeCases (fullResult : bool) (l : list opoint) (c : call) : outcome :=
  if anyModeIteratorIsLeaf l && needExplicitZeroChecks false l then explicitCases fullResult l c
  else
    let ll := ogetLoopLattice l in
    if length (p_iters (o_pt (hd opt0 ll))) =? 1
    then if o_omit (hd opt0 ll) then AssertFails else Computed (lowerTensorOp f cur c)
    else run_case (oexact ll) true
           (map (fun p => (forallb atCoordinate (rangers (o_pt p)) &&
                           (o_omit p || forallb (fun it => negb (atCoordinate it)) (iteratorsToOmit ll p)),
                           Computed (lowerTensorOp f cur (zeroCall (oexhaustedAccess ll p) c)))) ll).

(** lowerer_impl_imperative.cpp 1583-1625, lowerMergeLattice: there is a loop
    for every point of the loop lattice, one after the other; loop [lp] runs
    while none of its rangers is exhausted.  [live a]: the iterator of [a] is
    not exhausted.  So the loop that runs when the iterators [live] are left is
    the first one all of whose rangers are live. *)
Definition runningLoop (live : access -> bool) (cl : list opoint) : option opoint :=
  find (fun lp => forallb (fun it => match it with Dim => true | Lev a _ => live a end) (rangers (o_pt lp)))
       (ogetLoopLattice cl).

(** What loop [lp] does at a coordinate (lowerMergePoint, 1627-1738). *)
Definition visit (fullResult : bool) (cl : list opoint) (args : list access) (lp : opoint) : outcome :=
  mergeCases fullResult (osubLattice cl lp) (zeroCall (oexhaustedAccess cl lp) (makeCall args)).
End Run.

(** tensor_operator.cpp 77-87, Func::constructDefaultAlgebra, for a function of
    [a] and [l] that has neither an algebra nor properties. *)
Definition constructDefaultAlgebra (a : access) (l : list access) : alg access :=
  let tensorsRegions := fold_left (fun x b => Union x (Region b)) l (Region a) in
  Union tensorsRegions (Complement tensorsRegions).

(** A stable insertion sort, used in examples. *)
Fixpoint oinsert (p : opoint) (l : list opoint) : list opoint :=
  match l with
  | [] => [p]
  | q :: t => if opsize q <? opsize p then p :: l else q :: oinsert p t
  end.
Definition oisort (l : list opoint) : list opoint := fold_right oinsert [] (rev l).

(** CallNode applies De Morgan's rules (index_notation_nodes.cpp 45); the
    lattice of the loop over [i] of [r = f(args)] with algebra [x]. *)
Definition callLattice (srt : list opoint -> list opoint) (i : ivar) (keep : bool) (x : alg access) : list opoint :=
  makeAlg keep (buildAlg srt i (applyDemorgan x)).
