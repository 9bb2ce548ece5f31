(** From index notation to loops with a schedule in hand: IndexStmt::concretizeScheduled
    (/repo/src/index_notation/index_notation.cpp 1796-1806), the functions
    makeReductionNotationScheduled 3176-3267, isReductionNotationScheduled 2841-2898 and
    makeConcreteNotationScheduled 3269-3370.
    Expressions and statements are those of Notation.v, the provenance graph is that of
    Accept.v.  Simplified: the assignment is valid (isValid, Checks.v). *)
From Coq Require Import List Arith Bool.
Import ListNotations.
From Verif Require Accept.
From Verif Require Import Notation.
Local Open Scope nat_scope.

(** provenance_graph.cpp 1096-1106, isDerivedFrom, and 956-969,
    getFullyDerivedDescendants.  The recursion is bounded by the number of relations, as in
    Accept.v. *)
Fixpoint derived_from (fuel : nat) (rels : list Accept.rel) (v ancestor : ivar) : bool :=
  match fuel with
  | O => false
  | S n => existsb (fun p => Nat.eqb p ancestor || derived_from n rels p ancestor) (Accept.getParents rels v)
  end.
Definition isDerivedFrom (rels : list Accept.rel) : ivar -> ivar -> bool := derived_from (S (length rels)) rels.
Fixpoint descendants (fuel : nat) (rels : list Accept.rel) (v : ivar) : list ivar :=
  match fuel with
  | O => []
  | S n => match Accept.getChildren rels v with
           | [] => [v]
           | cs => flat_map (descendants n rels) cs
           end
  end.
Definition getFullyDerivedDescendants (rels : list Accept.rel) : ivar -> list ivar := descendants (S (length rels)) rels.

Section Scheduled.
Variable V : Type.
Variable rels : list Accept.rel.

(** ** makeReductionNotationScheduled *)
(** 3188-3213, addReductions: shouldReduce. *)
Definition shouldReduce (free : list ivar) (v : ivar) : bool :=
  negb (mem v free) &&
  (if Accept.isFullyDerived rels v then negb (existsb (fun f => isDerivedFrom rels v f) free)
   else negb (existsb (fun f => isDerivedFrom rels f v) free)).
Definition addReductionsS (free : list ivar) (e : nexpr V) : nexpr V :=
  fold_left (fun e v => if shouldReduce free v then NRed RSum v e else e) (rev (getIndexVars e)) e.
(** 3215-3257, the rewriter. *)
Fixpoint mrnS (free : list ivar) (e : nexpr V) : nexpr V * bool :=
  match e with
  | NLit _ | NAcc _ _ => (e, true)
  | NNeg a => let (a', o) := mrnS free a in (NNeg a', o)
  | NFun f a => let (a', o) := mrnS free a in (NFun f a', o)
  | NAdd a b => (NAdd (addReductionsS free a) (addReductionsS free b), false)
  | NSub a b => (NSub (addReductionsS free a) (addReductionsS free b), false)
  | NMul a b => let (a', o) := mrnS free a in let (b', o') := mrnS free b in (NMul a' b', o && o')
  | NDiv a b => let (a', o) := mrnS free a in let (b', o') := mrnS free b in (NDiv a' b', o && o')
  | NRed r i a => let (a', o) := mrnS free a in (NRed r i a', o)
  end.
Definition makeReductionNotationScheduled (free : list ivar) (e : nexpr V) : nexpr V :=
  if is_einsum false e
  then let (e', one) := mrnS free e in if one then addReductionsS free e' else e'
  else e.

(** ** isReductionNotationScheduled, 2841-2898 *)
(** For a variable that is not bound, 2872-2890 may set the flag because of the graph, and
    2893 clears it in any case: the graph makes no difference. *)
Fixpoint vars_bound (bound : list ivar) (e : nexpr V) : bool :=
  match e with
  | NLit _ => true
  | NAcc _ vs => forallb (fun v => mem v bound) vs
  | NNeg a | NFun _ a => vars_bound bound a
  | NAdd a b | NSub a b | NMul a b | NDiv a b => vars_bound bound a && vars_bound bound b
  | NRed _ i a => vars_bound (i :: bound) a
  end.

(** ** makeConcreteNotationScheduled, 3269-3370 *)
(** 3335-3349: the loop for a variable of the left-hand side when no list of loops is
    given.  [None]: the first element of an empty vector is read. *)
Definition free_loop (rhsVars : list ivar) (i : ivar) : option ivar :=
  if Accept.isFullyDerived rels i then Some i
  else match rhsVars with
       | [] => None
       | first :: _ =>
           Some (fold_left (fun d v => if mem v rhsVars then v else d) (getFullyDerivedDescendants rels i) first)
       end.
Fixpoint free_loops (rhsVars : list ivar) (vs : list ivar) : option (list ivar) :=
  match vs with
  | [] => Some []
  | i :: vs =>
      match free_loop rhsVars i, free_loops rhsVars vs with Some d, Some ds => Some (d :: ds) | _, _ => None end
  end.
(** 3351-3364: the loops for a variable of the list: one for each of its ancestors that is
    in the statement. *)
Definition listed_loop (known : list ivar) (i : ivar) : option (list ivar) :=
  if mem i known then Some [i]
  else match known with
       | [] => None
       | _ => Some (map (fun _ => i) (filter (fun a => mem a known) (Accept.getUnderivedAncestors rels i)))
       end.
Fixpoint listed_loops (known : list ivar) (l : list ivar) : option (list ivar) :=
  match l with
  | [] => Some []
  | i :: l =>
      match listed_loop known i, listed_loops known l with Some d, Some ds => Some (d ++ ds) | _, _ => None end
  end.
(** The operator of the assignment is Add for every kind of reduction (3299).  [fresh]
    numbers the temporaries (Notation.v). *)
Definition makeConcreteNotationScheduled (loops : list ivar) (fresh t : tensor) (vs : list ivar)
    (op : option redop) (e : nexpr V) : option (nstmt V) :=
  let '(is, rop, e') := peel e in
  let op' := match rop with None => op | Some _ => Some RSum end in
  match replace_reductions (nreds e') fresh t vs op' e' with
  | None => None
  | Some (s, _) =>
      match loops with
      | [] => option_map (fun ds => foralls ds (foralls is s)) (free_loops (getIndexVars e') vs)
      | _ => option_map (fun ds => foralls ds s) (listed_loops (is ++ vs) loops)
      end
  end.

(** concretizeScheduled, 1796-1806, of an assignment. *)
Definition concretizeScheduled (loops : list ivar) (fresh t : tensor) (vs : list ivar)
    (op : option redop) (e : nexpr V) : option (nstmt V) :=
  let e := makeReductionNotationScheduled vs e in
  if vars_bound vs e then makeConcreteNotationScheduled loops fresh t vs op e
  else Some (NAssign t vs op e).
End Scheduled.
Arguments shouldReduce rels free v : assert.
Arguments addReductionsS {V}. Arguments mrnS {V}. Arguments makeReductionNotationScheduled {V}. Arguments vars_bound {V}.
Arguments makeConcreteNotationScheduled {V}. Arguments concretizeScheduled {V}.
