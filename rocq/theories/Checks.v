(** Checks the library makes on index expressions before it compiles them, and
    the orders and algebra it keeps them in. *)
From Coq Require Import List Arith Bool ZArith Lia.
From Verif Require Import Types.
Import ListNotations.
Local Open Scope nat_scope.

(** ** Containers *)

(** Index variables are compared by name
    (src/index_notation/index_notation_nodes.cpp:74-80); the model numbers the
    names in lexicographic order. *)
Definition ivar := nat.

(** [std::set<IndexVar>::insert]: the set as its sorted sequence of elements. *)
Fixpoint set_insert (x : ivar) (l : list ivar) : list ivar :=
  match l with
  | [] => [x]
  | y :: r => if x <? y then x :: l else if x =? y then l else y :: set_insert x r
  end.
(** [std::set::erase] by value. *)
Definition set_erase (x : ivar) (l : list ivar) : list ivar := filter (fun y => negb (y =? x)) l.
(** [util::contains] (include/taco/util/collections.h). *)
Definition contains (x : ivar) (l : list ivar) : bool := existsb (Nat.eqb x) l.

(** [std::map<IndexVar,set<IndexVar>>], sorted by key. *)
Definition graph := list (ivar * list ivar).
(** [map::insert({k,v})] keeps the old value of a key that is present. *)
Fixpoint map_insert {W} (k : ivar) (v : W) (m : list (ivar * W)) : list (ivar * W) :=
  match m with
  | [] => [(k, v)]
  | (k', v') :: r => if k <? k' then (k, v) :: m else if k =? k' then m else (k', v') :: map_insert k v r
  end.
(** [map::at]; [None] is the [std::out_of_range] exception. *)
Fixpoint map_at {W} (k : ivar) (m : list (ivar * W)) : option W :=
  match m with [] => None | (k', v) :: r => if k =? k' then Some v else map_at k r end.
(** [m.at(k).insert(s)]. *)
Fixpoint map_add (k : ivar) (s : ivar) (m : graph) : graph :=
  match m with
  | [] => []
  | (k', v) :: r => if k =? k' then (k', set_insert s v) :: r else (k', v) :: map_add k s r
  end.

(** ** Transposition check: src/error/error_checks.cpp *)

(** The loop of [addEdges] (lines 87-94) over the mode ordering: [order] is
    [indexVars[modeOrdering[i]]] for each [i]; the last variable gets an entry
    without successors (95-98). *)
Fixpoint addEdges_from (order : list ivar) (g : graph) : graph :=
  match order with
  | [] => g
  | [v] => map_insert v [] g
  | v :: ((s :: _) as r) => addEdges_from r (map_add v s (map_insert v [] g))
  end.

(** [indexVars[modeOrdering[i]]] for all [i]; [None] is an out-of-bounds read. *)
Fixpoint permuted (indexVars : list ivar) (modeOrdering : list nat) : option (list ivar) :=
  match modeOrdering with
  | [] => Some []
  | m :: r => match nth_error indexVars m, permuted indexVars r with
              | Some v, Some vs => Some (v :: vs)
              | _, _ => None
              end
  end.

(** [addEdges], error_checks.cpp:81-99.  [None] is undefined behaviour: an index
    out of bounds, or an empty mode ordering with index variables
    ([modeOrdering.size()-1] wraps around). *)
Definition addEdges (indexVars : list ivar) (modeOrdering : list nat) (g : graph) : option graph :=
  match indexVars, modeOrdering with
  | [], _ => Some g
  | _, [] => None
  | _, _ => match permuted indexVars modeOrdering with
            | Some order => Some (addEdges_from order g)
            | None => None
            end
  end.

(** [hasCycle], error_checks.cpp:101-120.  Result: (answer, visited, marked);
    [None] is an exception from [successors.at], or the recursion deeper than
    [fuel]. *)
Fixpoint hasCycle (fuel : nat) (g : graph) (var : ivar) (visited marked : list ivar)
  : option (bool * list ivar * list ivar) :=
  match fuel with
  | 0 => None
  | S fuel =>
    if contains var visited then Some (false, visited, set_erase var marked)
    else
      match map_at var g with
      | None => None
      | Some succs =>
        (fix loop (succs : list ivar) (visited marked : list ivar) {struct succs} :=
           match succs with
           | [] => Some (false, visited, set_erase var marked)
           | succ :: rest =>
             if negb (contains succ visited) then
               match hasCycle fuel g succ visited marked with
               | None => None
               | Some (true, visited, marked) => Some (true, visited, marked)
               | Some (false, visited, marked) =>
                 if contains succ marked then Some (true, visited, marked)
                 else loop rest visited marked
               end
             else if contains succ marked then Some (true, visited, marked)
             else loop rest visited marked
           end) succs (set_insert var visited) (set_insert var marked)
      end
  end.

(** The loop of [containsTranspose] over the map, lines 138-145. *)
Fixpoint anyCycle (fuel : nat) (g : graph) (vars visited marked : list ivar) : option bool :=
  match vars with
  | [] => Some false
  | v :: r => match hasCycle fuel g v visited marked with
              | None => None
              | Some (true, _, _) => Some true
              | Some (false, visited, marked) => anyCycle fuel g r visited marked
              end
  end.

Fixpoint addAll (accs : list (list ivar * list nat)) (g : graph) : option graph :=
  match accs with
  | [] => Some g
  | (vars, ord) :: r => match addEdges vars ord g with Some g' => addAll r g' | None => None end
  end.

(** [containsTranspose], lines 122-146.  An access is given by its index
    variables and its tensor's mode ordering; [operands] are the accesses [match]
    meets in the expression. *)
Definition containsTranspose (result : list ivar * list nat) (operands : list (list ivar * list nat))
  : option bool :=
  match addAll (result :: operands) [] with
  | None => None
  | Some g => anyCycle (S (length g)) g (map fst g) [] []
  end.

(** ** Dimension check: src/error/error_checks.cpp *)

(** How a mode of an access is restricted: include/taco/index_notation/
    index_notation_nodes.h:56-93 (the bounds are [int]s; lo <= hi and stride > 0
    are checked when the window is made). *)
Inductive modifier :=
| MNone
| MWindow (lo hi stride : nat)
| MIndexSet (elems : list nat).

(** One mode of a read access: variable, dimension of the tensor, modifier. *)
Record mode := { m_var : ivar; m_dim : dimension; m_mod : modifier }.

(** error_checks.cpp:57-66; [getWindowSize] is index_notation.cpp:1072-1076. *)
Definition mode_dimension (m : mode) : dimension :=
  match m_mod m with
  | MNone => m_dim m
  | MWindow lo hi stride => DFixed ((hi - lo) / stride)
  | MIndexSet l => DFixed (length l)
  end.

(** [d.isIndexVarSized() && d.getIndexVarSize() == var]. *)
Definition sized_by (var : ivar) (d : dimension) : bool :=
  match d with DIndexVar v => v =? var | _ => false end.

(** The body of both loops, lines 44-50 and 68-74: the number of errors and the
    map of dimensions. *)
Definition check_dim (var : ivar) (dimension : dimension) (st : nat * list (ivar * Types.dimension))
  : nat * list (ivar * Types.dimension) :=
  match map_at var (snd st) with
  | Some old =>
    if negb (dim_eq old dimension) && negb (sized_by var old) && negb (sized_by var dimension)
    then (S (fst st), snd st)
    else st
  | None => (fst st, map_insert var dimension (snd st))
  end.

(** [dimensionsTypecheck], lines 36-79: whether no error was found. *)
Definition dimensionsTypecheck (result : list (ivar * dimension)) (reads : list (list mode)) : bool :=
  let st := fold_left (fun st vd => check_dim (fst vd) (snd vd) st) result (0, []) in
  let st := fold_left (fun st m => check_dim (m_var m) (mode_dimension m) st) (concat reads) st in
  fst st =? 0.

(** ** Iteration algebra: src/index_notation/iteration_algebra.cpp *)
Section Alg.
Context {R : Type}.

(** Lines 24-82.  [R] are the tensor expressions regions stand for. *)
Inductive alg := Region (r : R) | Complement (a : alg) | Intersect (a b : alg) | Union (a b : alg).

(** [applyDemorgan] (296-298) rewrites with [DeMorganDispatcher] (287-294), the
    default rewriter except at complements; there it hands over to
    [DeMorganApplier] (261-285), which calls [applyDemorgan(Complement(n->a))] on
    children, that is the applier again. *)
Fixpoint applyDemorgan (x : alg) : alg :=
  match x with
  | Region r => Region r
  | Complement a => applier a
  | Intersect a b => Intersect (applyDemorgan a) (applyDemorgan b)
  | Union a b => Union (applyDemorgan a) (applyDemorgan b)
  end
with applier (x : alg) : alg :=
  match x with
  | Region r => Complement (Region r)
  | Complement a => applyDemorgan a
  | Intersect a b => Union (applier a) (applier b)
  | Union a b => Intersect (applier a) (applier b)
  end.

(** [AlgComparer], lines 193-251, with [equals] on index expressions as [req]. *)
Fixpoint algCompare (checkExprs : bool) (req : R -> R -> bool) (a b : alg) : bool :=
  match a, b with
  | Region r, Region s => negb (checkExprs && negb (req r s))
  | Complement x, Complement y => algCompare checkExprs req x y
  | Intersect x1 x2, Intersect y1 y2 => algCompare checkExprs req x1 y1 && algCompare checkExprs req x2 y2
  | Union x1 x2, Union y1 y2 => algCompare checkExprs req x1 y1 && algCompare checkExprs req x2 y2
  | _, _ => false
  end.
Definition algStructureEqual := algCompare false.
Definition algEqual := algCompare true.

(** [replaceAlgIndexExprs], lines 300-322. *)
Fixpoint replaceAlgIndexExprs (subst : R -> option R) (a : alg) : alg :=
  match a with
  | Region r => match subst r with Some s => Region s | None => Region r end
  | Complement x => Complement (replaceAlgIndexExprs subst x)
  | Intersect x y => Intersect (replaceAlgIndexExprs subst x) (replaceAlgIndexExprs subst y)
  | Union x y => Union (replaceAlgIndexExprs subst x) (replaceAlgIndexExprs subst y)
  end.
End Alg.
Arguments alg : clear implicits.

(** ** Equality and order of accesses *)

(** [std::lexicographical_compare], the order of [std::vector] and [std::map]. *)
Fixpoint lex_lt {A} (lt : A -> A -> bool) (a b : list A) : bool :=
  match a, b with
  | _, [] => false
  | [], _ :: _ => true
  | x :: a', y :: b' => if lt x y then true else if lt y x then false else lex_lt lt a' b'
  end.
(** [std::pair]'s operator<. *)
Definition pair_lt {A B} (ltA : A -> A -> bool) (ltB : B -> B -> bool) (p q : A * B) : bool :=
  ltA (fst p) (fst q) || (negb (ltA (fst q) (fst p)) && ltB (snd p) (snd q)).

(** [AccessWindow], index_notation_nodes.h:56-74 *)
Record window := { w_lo : Z; w_hi : Z; w_stride : Z }.
Definition window_eq (a b : window) : bool :=
  (Z.eqb (w_lo a) (w_lo b) && Z.eqb (w_hi a) (w_hi b) && Z.eqb (w_stride a) (w_stride b))%bool.
Definition window_lt (a b : window) : bool :=
  if negb (Z.eqb (w_lo a) (w_lo b)) then Z.ltb (w_lo a) (w_lo b)
  else if negb (Z.eqb (w_hi a) (w_hi b)) then Z.ltb (w_hi a) (w_hi b)
  else Z.ltb (w_stride a) (w_stride b).

(** [IndexSet], index_notation_nodes.h:79-93; tensors are compared by address. *)
Record indexset := { is_set : list Z; is_tensor : nat }.
Fixpoint list_eqb {A} (eqb : A -> A -> bool) (a b : list A) : bool :=
  match a, b with
  | [], [] => true
  | x :: a', y :: b' => eqb x y && list_eqb eqb a' b'
  | _, _ => false
  end.
Definition indexset_eq (a b : indexset) : bool :=
  list_eqb Z.eqb (is_set a) (is_set b) && (is_tensor a =? is_tensor b).
Definition indexset_lt (a b : indexset) : bool :=
  if lex_lt Z.ltb (is_set a) (is_set b) then true else is_tensor a <? is_tensor b.

(** [AccessNode], index_notation_nodes.h:95-; tensor variables are compared by the
    address of their content (index_notation.cpp:2685-2691).  The maps are keyed by
    mode and sorted.  [ac_node] is the address of the node. *)
Record access := { ac_node : nat; ac_tensor : nat; ac_vars : list ivar;
                   ac_windows : list (nat * window); ac_sets : list (nat * indexset);
                   ac_structure : bool }.

(** index_notation.cpp:1083-1101 *)
Definition access_eq (a b : access) : bool :=
  if ac_node a =? ac_node b then true
  else if negb (ac_tensor a =? ac_tensor b) then false
  else if negb (list_eqb Nat.eqb (ac_vars a) (ac_vars b)) then false
  else if negb (list_eqb (fun p q => (fst p =? fst q) && window_eq (snd p) (snd q)) (ac_windows a) (ac_windows b)) then false
  else if negb (list_eqb (fun p q => (fst p =? fst q) && indexset_eq (snd p) (snd q)) (ac_sets a) (ac_sets b)) then false
  else true.

(** index_notation.cpp:1103-1121 *)
Definition access_lt (a b : access) : bool :=
  if negb (ac_tensor a =? ac_tensor b) then ac_tensor a <? ac_tensor b
  else if negb (list_eqb Nat.eqb (ac_vars a) (ac_vars b)) then lex_lt Nat.ltb (ac_vars a) (ac_vars b)
  else if lex_lt (pair_lt Nat.ltb window_lt) (ac_windows a) (ac_windows b) then true
  else lex_lt (pair_lt Nat.ltb indexset_lt) (ac_sets a) (ac_sets b).
