(** Which statements are accepted for compiling: isConcreteNotation and
    isReductionNotation, src/index_notation/index_notation.cpp, the provenance graph's
    queries they use, and the two steps of the loop transformations split, divide, fuse,
    bound and pos, src/index_notation/transformations.cpp.
    Not modelled: YieldNode, windows and index sets, the annotations of loops, reasons. *)
From Coq Require Import List Arith Bool ZArith.
Import ListNotations.
Local Open Scope nat_scope.

Definition var := nat.
Definition mem (v : var) (l : list var) : bool := existsb (Nat.eqb v) l.

(** Index expressions: LiteralNode, AccessNode, IndexVarNode, the unary nodes, the binary
    nodes (and calls: more than two arguments are nested pairs), ReductionNode. *)
Inductive expr :=
| ELit (z : Z) | EAcc (t : nat) (vs : list var) | EVar (v : var)
| EUn (f : nat) (e : expr) | EBin (f : nat) (a b : expr) | ERed (v : var) (e : expr).
(** AssignmentNode; [compound]: the operator (op) is defined. *)
Record assignment := Assign { lhs : nat; lhs_vars : list var; compound : bool; rhs : expr }.
(** IndexVarRelNode: whether it is a PrecomputeRelNode, getParents and getChildren. *)
Record rel := Rel { precompute : bool; parents : list var; children : list var }.
(** MultiNode (stmt1, stmt2), SequenceNode (definition, mutation) and AssembleNode (queries,
    compute) are visited in this order (index_notation_visitor.cpp 114-129).  An AssembleNode
    without queries is visited like its second statement. *)
Inductive pair := Multi | Sequence | Assemble.
Inductive stmt :=
| SAssign (a : assignment)
| SForall (v : var) (s : stmt)
| SWhere (consumer producer : stmt)
| SPair (k : pair) (a b : stmt)
| SSuchThat (s : stmt) (rels : list rel).

(** ** The provenance graph, provenance_graph.cpp *)
(** childRelMap and parentRelMap, 923-938: later relations replace earlier ones. *)
Fixpoint child_rel (rels : list rel) (v : var) : option rel :=
  match rels with
  | [] => None
  | r :: rest => match child_rel rest v with
                 | Some x => Some x
                 | None => if mem v (parents r) then Some r else None
                 end
  end.
Fixpoint parent_rel (rels : list rel) (v : var) : option rel :=
  match rels with
  | [] => None
  | r :: rest => match parent_rel rest v with
                 | Some x => Some x
                 | None => if mem v (children r) then Some r else None
                 end
  end.
(** The constructor takes relations from a SuchThat at the top only, 917-921. *)
Definition relations (s : stmt) : list rel := match s with SSuchThat _ rels => rels | _ => [] end.
(** getChildren 942-947, getParents 949-954, isUnderived 1092-1094, isFullyDerived 1108-1110. *)
Definition getChildren (rels : list rel) (v : var) : list var :=
  match child_rel rels v with Some r => children r | None => [] end.
Definition getParents (rels : list rel) (v : var) : list var :=
  match parent_rel rels v with Some r => parents r | None => [] end.
Definition is_nil {A} (l : list A) : bool := match l with [] => true | _ => false end.
Definition isUnderived (rels : list rel) (v : var) : bool := is_nil (getParents rels v).
Definition isFullyDerived (rels : list rel) (v : var) : bool := is_nil (getChildren rels v).
(** getUnderivedAncestors, 971-984.  The recursion is bounded by the number of relations
    (C60_recursion). *)
Fixpoint ancestors (fuel : nat) (rels : list rel) (v : var) : list var :=
  match fuel with
  | O => []
  | S n => match getParents rels v with
           | [] => [v]
           | ps => flat_map (ancestors n rels) ps
           end
  end.
Definition getUnderivedAncestors (rels : list rel) (v : var) : list var := ancestors (S (length rels)) rels v.
Definition is_precompute (r : option rel) : bool := match r with Some r => precompute r | None => false end.
(** isRecoverablePrecompute, 1139-1160; the recursion is bounded in the same way. *)
Fixpoint recoverable (fuel : nat) (rels : list rel) (defined producers consumers : list var) (v : var) : bool :=
  match fuel with
  | O => false
  | S n =>
      if mem v consumers then true
      else if negb (is_nil producers) && is_precompute (child_rel rels v) then
        match getChildren rels v with
        | [] => false       (* getChildren(indexVar)[0]: a precompute relation has a child *)
        | c :: _ => if mem c producers then true else recoverable n rels defined producers consumers c
        end
      else forallb (fun c => mem c defined || (negb (isFullyDerived rels c) && recoverable n rels defined producers consumers c))
                   (getChildren rels v)
  end.
(** isRecoverable, 1121-1137. *)
Definition consumers_of (rels : list rel) (defined : list var) : list var :=
  filter (fun v => is_precompute (child_rel rels v)) defined.
Definition producers_of (rels : list rel) (defined : list var) : list var :=
  filter (fun v => is_precompute (parent_rel rels v)) defined.
Definition isRecoverable (rels : list rel) (defined : list var) (v : var) : bool :=
  recoverable (S (length rels)) rels defined (producers_of rels defined) (consumers_of rels defined) v.

(** ** isConcreteNotation, index_notation.cpp 2902-3006 *)
(** The condition on variables in accesses and in IndexVarNodes, 2927-2943. *)
Definition variable_ok (rels : list rel) (bound defined : list var) (v : var) : bool :=
  negb (negb (mem v bound) && isUnderived rels v && (isFullyDerived rels v || negb (isRecoverable rels defined v))).
Fixpoint expr_ok (rels : list rel) (bound defined : list var) (e : expr) : bool :=
  match e with
  | ELit _ => true
  | EAcc _ vs => forallb (variable_ok rels bound defined) vs
  | EVar v => variable_ok rels bound defined v
  | EUn _ e => expr_ok rels bound defined e
  | EBin _ a b => expr_ok rels bound defined a && expr_ok rels bound defined b
  | ERed _ _ => false
  end.
(** The variables of the accesses of an expression.  getReductionVars, 2114-2129: those that
    are not on the left-hand side (here with repetitions). *)
Fixpoint access_vars (e : expr) : list var :=
  match e with
  | ELit _ | EVar _ => []
  | EAcc _ vs => vs
  | EUn _ e => access_vars e
  | EBin _ a b => access_vars a ++ access_vars b
  | ERed _ e => access_vars e
  end.
Definition getReductionVars (a : assignment) : list var :=
  filter (fun v => negb (mem v (lhs_vars a))) (access_vars (rhs a)).
(** numReductionVars > 0, 2967-2975. *)
Definition reduces (rels : list rel) (a : assignment) : bool :=
  existsb (fun v => existsb (fun p => negb (mem p (lhs_vars a))) (getUnderivedAncestors rels v)) (getReductionVars a).
(** The traversal: whether the statement is concrete so far, and definedVars.  [valid] is
    isValid, 2698-2729 (modelled in Checks.v); [top]: the statement is the whole one. *)
Fixpoint accept (valid : assignment -> bool) (rels : list rel) (top producer consumer : bool) (bound defined : list var)
    (s : stmt) : bool * list var :=
  match s with
  | SAssign a =>
      ((if negb consumer && negb producer && negb (valid a) then false
        else if reduces rels a && negb (compound a) && negb producer then false
        else forallb (variable_ok rels bound defined) (lhs_vars a) && expr_ok rels bound defined (rhs a)), defined)
  | SForall v s => accept valid rels false producer consumer (v :: bound) (v :: defined) s
  | SWhere c p =>
      let (ok1, defined) := accept valid rels false true consumer bound defined p in
      let (ok2, defined) := accept valid rels false producer true bound defined c in
      (ok1 && ok2, defined)
  | SPair _ a b =>
      let (ok1, defined) := accept valid rels false producer consumer bound defined a in
      let (ok2, defined) := accept valid rels false producer consumer bound defined b in
      (ok1 && ok2, defined)
  | SSuchThat s _ =>
      let (ok, defined) := accept valid rels false producer consumer bound defined s in (top && ok, defined)
  end.
Definition isConcreteNotation (valid : assignment -> bool) (s : stmt) : bool :=
  fst (accept valid (relations s) true false false [] [] s).

(** ** isReductionNotation, 2798-2839 *)
Fixpoint vars_bound (bound : list var) (e : expr) : bool :=
  match e with
  | ELit _ | EVar _ => true
  | EAcc _ vs => forallb (fun v => mem v bound) vs
  | EUn _ e => vars_bound bound e
  | EBin _ a b => vars_bound bound a && vars_bound bound b
  | ERed v e => vars_bound (v :: bound) e
  end.
Definition isReductionNotation (valid : assignment -> bool) (s : stmt) : bool :=
  match s with SAssign a => valid a && vars_bound (lhs_vars a) (rhs a) | _ => false end.

(** ** Loop transformations, transformations.cpp *)
(** AddSuchThatPredicates::apply, 821-846. *)
Definition add_predicate (r : rel) (s : stmt) : stmt :=
  match s with SSuchThat s rels => SSuchThat s (rels ++ [r]) | s => SSuchThat s [r] end.
(** ForAllReplaceRewriter, 727-795.  [k] is elementsMatched: it is back at 0 behind a match,
    so it is passed down only; [None]: it became -1.  The flag tells whether the pattern was
    found. *)
Definition is_forall (s : stmt) : bool := match s with SForall _ _ => true | _ => false end.
Fixpoint replace (pattern replacement : list var) (k : nat) (s : stmt) : option (stmt * bool) :=
  match s with
  | SAssign a => Some (s, false)
  | SForall v s' =>
      if length pattern <=? k then option_map (fun r => (SForall v (fst r), snd r)) (replace pattern replacement k s')
      else if v =? nth k pattern 0 then
        if (S k <? length pattern) && negb (is_forall s') then None
        else option_map (fun r => (if k =? 0 then fold_right SForall (fst r) replacement else fst r, true))
                        (replace pattern replacement (S k) s')
      else if 0 <? k then None
      else option_map (fun r => (SForall v (fst r), snd r)) (replace pattern replacement k s')
  | SWhere c p =>
      match replace pattern replacement k p, replace pattern replacement k c with
      | Some (p', f), Some (c', g) => Some (SWhere c' p', f || g)
      | _, _ => None
      end
  | SPair h a b =>
      match replace pattern replacement k a, replace pattern replacement k b with
      | Some (a', f), Some (b', g) => Some (SPair h a' b', f || g)
      | _, _ => None
      end
  | SSuchThat s rels => option_map (fun r => (SSuchThat (fst r) rels, snd r)) (replace pattern replacement k s)
  end.
(** ForAllReplace::apply, 721-799. *)
Definition forall_replace (valid : assignment -> bool) (pattern replacement : list var) (s : stmt) : option stmt :=
  if isConcreteNotation valid s then
    match replace pattern replacement 0 s with Some (s', true) => Some s' | _ => None end
  else None.
(** IndexStmt::split 1819-1836, divide 1838-1855, fuse 1982-1999, bound 2001-2018 and the last
    steps of pos 1928-1980; [None]: an error is raised. *)
Definition transform (valid : assignment -> bool) (r : rel) (s : stmt) : option stmt :=
  if isConcreteNotation valid s then forall_replace valid (parents r) (children r) (add_predicate r s) else None.
Definition split (valid : assignment -> bool) (i i1 i2 : var) := transform valid (Rel false [i] [i1; i2]).
Definition fuse (valid : assignment -> bool) (i j f : var) := transform valid (Rel false [i; j] [f]).
Definition bound_loop (valid : assignment -> bool) (i i1 : var) := transform valid (Rel false [i] [i1]).
