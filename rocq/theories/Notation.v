(** Index notation statements and the transformations between their forms:
    /repo/include/taco/index_notation/index_notation_nodes.h,
    /repo/src/index_notation/index_notation.cpp and transformations.cpp.
    Not modelled: Yield, Sequence, Multi, Assemble and SuchThat statements,
    calls of user-defined functions, IndexVar expressions, windows. *)
From Coq Require Import List Arith Lia Bool.
Import ListNotations.
Local Open Scope nat_scope.

Definition ivar := nat.
Definition tensor := nat.

(** Compound-assignment and reduction operators (AddNode and MulNode without
    operands). *)
Inductive redop := RSum | RProd.

Section Notation.
Variable V : Type.

(** IndexExpr nodes: LiteralNode, AccessNode, NegNode, the other unary nodes
    (SqrtNode, CastNode: [NFun], told apart by a number), AddNode, SubNode,
    MulNode, DivNode, ReductionNode. *)
Inductive nexpr :=
| NLit (v : V)
| NAcc (t : tensor) (vs : list ivar)
| NNeg (e : nexpr)
| NFun (f : nat) (e : nexpr)
| NAdd (a b : nexpr) | NSub (a b : nexpr) | NMul (a b : nexpr) | NDiv (a b : nexpr)
| NRed (op : redop) (i : ivar) (e : nexpr).

(** Loop annotations: merge strategy, parallel unit, output race strategy,
    unroll factor (ForallNode). *)
Record annot := { an_merge : nat; an_unit : nat; an_race : nat; an_unroll : nat }.
Definition no_annot : annot := {| an_merge := 0; an_unit := 0; an_race := 0; an_unroll := 0 |}.

(** AssignmentNode (op undefined: plain assignment), ForallNode, WhereNode. *)
Inductive nstmt :=
| NAssign (t : tensor) (vs : list ivar) (op : option redop) (e : nexpr)
| NForall (an : annot) (i : ivar) (s : nstmt)
| NWhere (consumer producer : nstmt).

Definition mem (i : nat) (l : list nat) : bool := existsb (Nat.eqb i) l.

(** GetIndexVars, index_notation.cpp 3620-3667: the variables of the accesses,
    each once, in order of first occurrence. *)
Definition add_vars (seen : list ivar) (vs : list ivar) : list ivar :=
  fold_left (fun s v => if mem v s then s else s ++ [v]) vs seen.
Fixpoint expr_vars_acc (seen : list ivar) (e : nexpr) : list ivar :=
  match e with
  | NLit _ => seen
  | NAcc _ vs => add_vars seen vs
  | NNeg e | NFun _ e | NRed _ _ e => expr_vars_acc seen e
  | NAdd a b | NSub a b | NMul a b | NDiv a b => expr_vars_acc (expr_vars_acc seen a) b
  end.
Definition getIndexVars (e : nexpr) : list ivar := expr_vars_acc [] e.

(** ** Einsum notation *)
(** isEinsumNotation 2733-2796 on the right-hand side: no additions below a
    multiplication, no divisions, no reductions. *)
Fixpoint is_einsum (under_mul : bool) (e : nexpr) : bool :=
  match e with
  | NLit _ | NAcc _ _ => true
  | NNeg e | NFun _ e => is_einsum under_mul e
  | NAdd a b | NSub a b => negb under_mul && is_einsum under_mul a && is_einsum under_mul b
  | NMul a b => is_einsum true a && is_einsum true b
  | NDiv _ _ | NRed _ _ _ => false
  end.

(** MakeReductionNotation::addReductions 3024-3032. *)
Definition addReductions (free : list ivar) (e : nexpr) : nexpr :=
  fold_left (fun e v => if mem v free then e else NRed RSum v e) (rev (getIndexVars e)) e.

(** The rewriter, 3034-3076: returns the rewritten expression and whether it
    met no addition or subtraction (onlyOneTerm). *)
Fixpoint mrn (free : list ivar) (e : nexpr) : nexpr * bool :=
  match e with
  | NLit _ | NAcc _ _ => (e, true)
  | NNeg a => let (a', o) := mrn free a in (NNeg a', o)
  | NFun f a => let (a', o) := mrn free a in (NFun f a', o)
  | NAdd a b => (NAdd (addReductions free a) (addReductions free b), false)
  | NSub a b => (NSub (addReductions free a) (addReductions free b), false)
  | NMul a b => let (a', o) := mrn free a in let (b', o') := mrn free b in (NMul a' b', o && o')
  | NDiv a b => let (a', o) := mrn free a in let (b', o') := mrn free b in (NDiv a' b', o && o')
  | NRed r i a => let (a', o) := mrn free a in (NRed r i a', o)
  end.
Definition makeReductionNotation (free : list ivar) (e : nexpr) : nexpr :=
  if is_einsum false e then let (e', one) := mrn free e in if one then addReductions free e' else e' else e.

(** ** Concrete notation *)
(** RemoveTopLevelReductions 3139-3167: peels the reductions that cover the
    right-hand side; the operator is that of the innermost one. *)
Fixpoint peel (e : nexpr) : list ivar * option redop * nexpr :=
  match e with
  | NRed op i e =>
      match peel e with
      | (is, None, e') => (i :: is, Some op, e')
      | (is, Some op', e') => (i :: is, Some op', e')
      end
  | _ => ([], None, e)
  end.
Definition foralls (is : list ivar) (s : nstmt) : nstmt := fold_right (NForall no_annot) s is.

(** ReplaceReductionsWithWheres::visit(ReductionNode) 3113-3124: the first
    reduction (left to right) is replaced by the temporary [t]. *)
Fixpoint replace_first (t : tensor) (e : nexpr) : nexpr * option (redop * ivar * nexpr) :=
  match e with
  | NLit _ | NAcc _ _ => (e, None)
  | NNeg a => let (a', r) := replace_first t a in (NNeg a', r)
  | NFun f a => let (a', r) := replace_first t a in (NFun f a', r)
  | NAdd a b => match replace_first t a with
                | (a', Some r) => (NAdd a' b, Some r)
                | (a', None) => let (b', r) := replace_first t b in (NAdd a' b', r) end
  | NSub a b => match replace_first t a with
                | (a', Some r) => (NSub a' b, Some r)
                | (a', None) => let (b', r) := replace_first t b in (NSub a' b', r) end
  | NMul a b => match replace_first t a with
                | (a', Some r) => (NMul a' b, Some r)
                | (a', None) => let (b', r) := replace_first t b in (NMul a' b', r) end
  | NDiv a b => match replace_first t a with
                | (a', Some r) => (NDiv a' b, Some r)
                | (a', None) => let (b', r) := replace_first t b in (NDiv a' b', r) end
  | NRed op i a => (NAcc t [], Some (op, i, a))
  end.
(** ReplaceReductionsWithWheres::visit(AssignmentNode) 3089-3111.  Each
    temporary is a new tensor variable: they are numbered from [fresh].
    [None]: the model's fuel (the number of reductions) is exhausted. *)
Fixpoint replace_reductions (fuel : nat) (fresh : tensor) (t : tensor) (vs : list ivar) (op : option redop) (e : nexpr)
  : option (nstmt * tensor) :=
  match replace_first fresh e with
  | (_, None) => Some (NAssign t vs op e, fresh)
  | (e', Some (rop, i, body)) =>
      match fuel with
      | O => None
      | S fuel =>
          match replace_reductions fuel (S fresh) t vs op e' with
          | None => None
          | Some (consumer, next) =>
              match replace_reductions fuel next fresh [] (Some rop) body with
              | None => None
              | Some (producer, next') => Some (NWhere consumer (NForall no_annot i producer), next')
              end
          end
      end
  end.
Fixpoint nreds (e : nexpr) : nat :=
  match e with
  | NLit _ | NAcc _ _ => 0
  | NNeg a | NFun _ a => nreds a
  | NAdd a b | NSub a b | NMul a b | NDiv a b => nreds a + nreds b
  | NRed _ _ a => S (nreds a)
  end.
(** makeConcreteNotation 3126-3174. *)
Definition makeConcreteNotation (fresh : tensor) (t : tensor) (vs : list ivar) (op : option redop) (e : nexpr) : option nstmt :=
  let '(is, rop, e') := peel e in
  let op' := match rop with None => op | Some _ => rop end in
  option_map (fun p => foralls vs (foralls is (fst p))) (replace_reductions (nreds e') fresh t vs op' e').

(** ** Reordering *)
(** The loop variables in the order the matcher visits them (index_notation
    _visitor.cpp 104-112: the producer of a where first). *)
Fixpoint loops (s : nstmt) : list ivar :=
  match s with
  | NAssign _ _ _ _ => []
  | NForall _ i s => i :: loops s
  | NWhere c p => loops p ++ loops c
  end.
(** Reorder::apply 98-111: the ordering found and whether the match failed. *)
Definition scan_step (pattern : list ivar) (st : list ivar * bool) (i : ivar) : list ivar * bool :=
  let '(cur, failed) := st in
  if mem i pattern then (cur ++ [i], failed)
  else if negb (Nat.eqb (length cur) 0) && negb (Nat.eqb (length cur) (length pattern)) then (cur, true)
  else (cur, failed).
Definition scan_order (pattern : list ivar) (ls : list ivar) : list ivar * bool :=
  fold_left (scan_step pattern) ls ([], false).
Fixpoint list_eqb (a b : list nat) : bool :=
  match a, b with [], [] => true | x :: a, y :: b => Nat.eqb x y && list_eqb a b | _, _ => false end.

(** ForAllReplaceRewriter 727-795.  The state is elementsMatched, [None] for -1;
    the statement is [None] when the rewriter leaves it undefined. *)
Definition is_forall (s : nstmt) : bool := match s with NForall _ _ _ => true | _ => false end.
Fixpoint far (pattern repl : list ivar) (m : option nat) (s : nstmt) : option nstmt * option nat :=
  match s with
  | NAssign _ _ _ _ => (Some s, m)
  | NWhere c p =>
      match far pattern repl m p with
      | (p', m1) => match far pattern repl m1 c with
                    | (c', m2) => (match c', p' with Some c', Some p' => Some (NWhere c' p') | _, _ => None end, m2)
                    end
      end
  | NForall an i b =>
      match m with
      | None => (None, None)
      | Some k =>
          if length pattern <=? k then
            match far pattern repl m b with (b', m') => (option_map (NForall an i) b', m') end
          else if Nat.eqb i (nth k pattern 0) then
            if (S k <? length pattern) && negb (is_forall b) then (None, None)
            else match far pattern repl (Some (S k)) b with
                 | (b', m') => if Nat.eqb k 0 then (option_map (foralls repl) b', Some 0) else (b', m')
                 end
          else if 0 <? k then (None, None)
          else match far pattern repl m b with (b', m') => (option_map (NForall an i) b', m') end
      end
  end.
(** Reorder::apply 88-125.  [ordered]: the pattern was given as a list; for two
    variables that are in that order already, they are exchanged.  The result is
    an error message, a statement, or a statement with an undefined body.  (The
    check that the statement is concrete notation is not modelled.) *)
Inductive rres := RError | RBroken | ROk (s : nstmt).
Definition reorder (ordered : bool) (pattern : list ivar) (s : nstmt) : rres :=
  let '(cur, failed) := scan_order pattern (loops s) in
  let pattern := if negb ordered && list_eqb cur pattern then rev pattern else pattern in
  if failed || negb (Nat.eqb (length cur) (length pattern)) then RError
  else match far cur pattern (Some 0) s with
       | (_, None) => RError
       | (None, Some _) => RBroken
       | (Some s', Some _) => ROk s'
       end.
End Notation.

Arguments NLit {V}. Arguments NAcc {V}. Arguments NNeg {V}. Arguments NFun {V}. Arguments NAdd {V}. Arguments NSub {V}.
Arguments NMul {V}. Arguments NDiv {V}. Arguments NRed {V}. Arguments NAssign {V}. Arguments NForall {V}. Arguments NWhere {V}.
Arguments expr_vars_acc {V}. Arguments getIndexVars {V}. Arguments is_einsum {V}. Arguments addReductions {V}. Arguments mrn {V}.
Arguments makeReductionNotation {V}. Arguments peel {V}. Arguments foralls {V}. Arguments replace_first {V}.
Arguments replace_reductions {V}. Arguments nreds {V}. Arguments makeConcreteNotation {V}. Arguments loops {V}.
Arguments far {V}. Arguments reorder {V}. Arguments is_forall {V}. Arguments RError {V}. Arguments RBroken {V}. Arguments ROk {V}.
