(** The statements that count the nonzeros of a result before they are inserted:
    SetAssembleStrategy::apply, /repo/src/index_notation/transformations.cpp
    1137-1543, with the attribute queries of the level formats,
    /repo/src/lower/mode_format_compressed.cpp 67-78 and mode_format_impl.cpp
    167-170.  Not modelled: calls of user-defined functions (1380-1428), windows,
    several results, aggregations other than COUNT (refused by the code). *)
From Coq Require Import List Arith ZArith Bool.
Import ListNotations.
From Verif Require Import Notation NotationSpec Transform.
Local Open Scope nat_scope.

(** ** Level formats *)
Inductive level := LDense | LCompressed (unique : bool) | LSingleton.
(** The constructors of the level formats: mode_format_dense.cpp 11-15,
    mode_format_compressed.cpp 16-23, mode_format_singleton.cpp 16-23. *)
Definition hasSeqInsertEdge (l : level) : bool := match l with LCompressed _ => true | _ => false end.
Definition hasInsertCoord (l : level) : bool := match l with LDense => false | _ => true end.
Definition isBranchless (l : level) : bool := match l with LSingleton => true | _ => false end.
Definition isYieldPosPure (l : level) : bool := match l with LCompressed _ => false | _ => true end.

(** The preconditions, 1144-1180: the flags hasSeqInsertEdge, hasInsertCoord and
    hasNonpureYieldPos of the loop over the levels. *)
Fixpoint supported (edge coord nonpure : bool) (ls : list level) : bool :=
  match ls with
  | [] => true
  | l :: ls =>
      if edge && hasSeqInsertEdge l then false
      else if negb edge && hasSeqInsertEdge l && coord then false
      else if nonpure && negb (isBranchless l) then false
      else supported (edge || hasSeqInsertEdge l)
                     (if edge then coord else coord || hasInsertCoord l)
                     (nonpure || negb (isYieldPosPure l)) ls
  end.

(** CompressedModeFormat::attrQueries 67-78 (other formats: none).  The
    coordinates grouped by and the coordinates counted. *)
Definition attrQueries (l : level) (parentCoords childCoords : list ivar) : option (list ivar * list ivar) :=
  match l with
  | LCompressed unique => Some (removelast parentCoords, last parentCoords 0 :: if unique then [] else childCoords)
  | _ => None
  end.
(** The loop over the levels in LowerAttrQuery::visit(AssignmentNode) 1302-1349:
    it returns at the first query. *)
Fixpoint first_query (ls : list level) (parentCoords childCoords : list ivar) : option (list ivar * list ivar) :=
  match ls, childCoords with
  | l :: ls, c :: childCoords =>
      let parentCoords := parentCoords ++ [c] in
      match attrQueries l parentCoords childCoords with
      | Some q => Some q
      | None => first_query ls parentCoords childCoords
      end
  | _, _ => None
  end.
(** 1296-1300: the index variables in storage order. *)
Definition storage_vars (modeOrdering : list nat) (indices : list ivar) : list ivar :=
  map (fun m => nth m indices 0) modeOrdering.
(** 1316-1322: the dimensions given to the query result. *)
Fixpoint find_pos (v : ivar) (l : list ivar) : nat :=
  match l with [] => 0 | w :: l => if Nat.eqb w v then 0 else S (find_pos v l) end.
Definition queryDims (shape : list nat) (groupBy : list ivar) : list nat :=
  map (fun coord => nth (find_pos coord groupBy) shape 0) groupBy.

(** ** The statements of queries *)
(** Access nodes with isAccessingStructure ([QSym]) and without; [QCast]: to
    Int32; [QFun]: sqrt and other casts.  [QAssign _ _ red _]: compound
    assignments with Add() have [red = true]. *)
Inductive qexpr :=
| QLit (z : Z)
| QSym (t : tensor) (vs : list ivar)
| QAcc (t : tensor) (vs : list ivar)
| QNeg (e : qexpr) | QFun (f : nat) (e : qexpr) | QCast (e : qexpr)
| QAdd (a b : qexpr) | QSub (a b : qexpr) | QMul (a b : qexpr) | QDiv (a b : qexpr).
Inductive qstmt :=
| QAssign (t : tensor) (vs : list ivar) (red : bool) (e : qexpr)
| QForall (an : annot) (i : ivar) (s : qstmt)
| QWhere (consumer producer : qstmt).
Fixpoint qres (s : qstmt) : tensor :=
  match s with QAssign t _ _ _ => t | QForall _ _ s => qres s | QWhere c _ => qres c end.

(** 1186-1192: fresh index variables when the queries are to be scheduled on
    their own ([rho]: the identity otherwise). *)
Section Rename.
Context {V : Type}.
Variable rho : ivar -> ivar.
Fixpoint rename_expr (e : nexpr V) : nexpr V :=
  match e with
  | NLit v => NLit v
  | NAcc t vs => NAcc t (map rho vs)
  | NNeg a => NNeg (rename_expr a) | NFun f a => NFun f (rename_expr a)
  | NAdd a b => NAdd (rename_expr a) (rename_expr b) | NSub a b => NSub (rename_expr a) (rename_expr b)
  | NMul a b => NMul (rename_expr a) (rename_expr b) | NDiv a b => NDiv (rename_expr a) (rename_expr b)
  | NRed op i a => NRed op (rho i) (rename_expr a)
  end.
Fixpoint rename (s : nstmt V) : nstmt V :=
  match s with
  | NAssign t vs op e => NAssign t (map rho vs) op (rename_expr e)
  | NForall an i b => NForall an (rho i) (rename b)
  | NWhere c p => NWhere (rename c) (rename p)
  end.
End Rename.

Section Queries.
Variable levels : list level.
Variable modeOrdering : list nat.
(** The new tensors: the copy of a temporary (1224-1228), the Bool tensor of the
    coordinates (1330) and the query result of type Int32 (1335). *)
Variable qtmp : tensor -> tensor.
Variables dedupTmp queryResult : tensor.

(** ** LowerAttrQuery, 1205-1429 *)
Section Lower.
Variables (arguments temps : list tensor) (result : tensor).
(** visit(AccessNode) 1365-1378; the other expression nodes are rebuilt by
    IndexNotationRewriter. *)
Fixpoint lower_expr (e : nexpr Z) : qexpr :=
  match e with
  | NLit z => QLit z
  | NAcc t vs => if mem t arguments then QSym t vs else if mem t temps then QAcc (qtmp t) vs else QAcc t vs
  | NNeg a => QNeg (lower_expr a) | NFun f a => QFun f (lower_expr a)
  | NAdd a b => QAdd (lower_expr a) (lower_expr b) | NSub a b => QSub (lower_expr a) (lower_expr b)
  | NMul a b => QMul (lower_expr a) (lower_expr b) | NDiv a b => QDiv (lower_expr a) (lower_expr b)
  | NRed _ _ a => lower_expr a      (* not in concrete index notation *)
  end.
(** Whether rewriting gives a new node (1276). *)
Definition rewritten (e : nexpr Z) : bool := existsb (fun t => mem t arguments || mem t temps) (reads e).
(** visit(AssignmentNode) 1265-1355, visit(ForallNode) 1240-1251, visit(WhereNode)
    1253-1263.  [None]: a reason is set (1280-1284); [Some None]: an undefined
    statement. *)
Fixpoint lower_stmt (s : nstmt Z) : option (option qstmt) :=
  match s with
  | NAssign t vs op e =>
      let red := match op with Some _ => true | None => false end in
      if negb (Nat.eqb t result)
      then Some (Some (if rewritten e
                       then QAssign (if mem t arguments then t else if mem t temps then qtmp t else t) vs red (lower_expr e)
                       else QAssign t vs red (lower_expr e)))
      else if red then None
      else match first_query levels [] (storage_vars modeOrdering vs) with
           | Some (groupBy, params) => Some (Some (QAssign dedupTmp (groupBy ++ params) true (lower_expr e)))
           | None => Some None
           end
  | NForall an i b =>
      match lower_stmt b with None => None | Some b' => Some (option_map (QForall an i) b') end
  | NWhere c p =>
      match lower_stmt p, lower_stmt c with
      | Some p', Some c' =>
          Some (match c' with
                | Some c' => Some (match p' with Some p' => QWhere c' p' | None => c' end)
                | None => None
                end)
      | _, _ => None
      end
  end.
(** The epilog, 1336-1340: count the coordinates. *)
Definition qforalls (is : list ivar) (s : qstmt) : qstmt := fold_right (QForall no_annot) s is.
Definition epilog (vs : list ivar) : option qstmt :=
  match first_query levels [] (storage_vars modeOrdering vs) with
  | Some (groupBy, params) =>
      let dedupCoords := groupBy ++ params in
      Some (qforalls dedupCoords (QAssign queryResult groupBy true (QCast (QAcc dedupTmp dedupCoords))))
  | None => None
  end.
(** LowerAttrQuery::lower 1220-1238. *)
Definition lower_queries (s : nstmt Z) : option (option qstmt) :=
  match lower_stmt s with
  | Some (Some q) => Some (Some (match epilog (lhs s) with Some e => QWhere e q | None => q end))
  | other => other
  end.
End Lower.

(** ** eliminateRedundantReductions, 337-390 *)
(** availableVars: the loops around a statement inside the scope of each
    tensor (operator[] of std::map: no loops for other tensors). *)
Definition avars := list (tensor * list ivar).
Fixpoint available (t : tensor) (av : avars) : list ivar :=
  match av with [] => [] | (t', vs) :: av => if Nat.eqb t' t then vs else available t av end.
Fixpoint eliminate (candidates : list tensor) (av : avars) (s : qstmt) : qstmt :=
  match s with
  | QAssign t vs red e =>
      if red && set_eqb vs (available t av) && mem t candidates then QAssign t vs false e else s
  | QForall an i b => QForall an i (eliminate candidates (map (fun p => (fst p, i :: snd p)) av) b)
  | QWhere c p =>
      let av := (qres p, []) :: av in
      QWhere (eliminate candidates av c) (eliminate candidates av p)
  end.
Definition eliminateRedundantReductions (candidates : list tensor) (s : qstmt) : qstmt :=
  eliminate candidates [(qres s, [])] s.

(** ** InlineTemporaries, 1445-1504 *)
(** The data type Bool of expressions (include/taco/index_notation/
    index_notation_nodes.h 97-101 and max_type): the query result is the only
    tensor of a query that is not Bool. *)
Definition is_bool (t : tensor) : bool := negb (Nat.eqb t queryResult).
Fixpoint qbool (e : qexpr) : bool :=
  match e with
  | QLit _ | QFun _ _ | QCast _ => false
  | QSym _ _ => true
  | QAcc t _ => is_bool t
  | QNeg a => qbool a
  | QAdd a b | QSub a b | QMul a b | QDiv a b => qbool a && qbool b
  end.
(** tmpUse: the access to a temporary and the assignment that reads it. *)
Definition uses := list (tensor * (list ivar * (tensor * list ivar * bool))).
Fixpoint use_of (t : tensor) (u : uses) : option (list ivar * (tensor * list ivar * bool)) :=
  match u with [] => None | (t', x) :: u => if Nat.eqb t' t then Some x else use_of t u end.
(** indexMap 1471-1486 (at() throws on a missing variable: not reached, since the
    left-hand side of the use has variables of the access only). *)
Fixpoint index_map (m : list (ivar * ivar)) (v : ivar) : ivar :=
  match m with [] => v | (a, b) :: m => if Nat.eqb a v then b else index_map m v end.
Definition rhs_access (e : qexpr) : option (tensor * list ivar) :=
  match e with
  | QAcc t vs | QSym t vs => Some (t, vs)
  | QCast (QAcc t vs) | QCast (QSym t vs) => Some (t, vs)
  | _ => None
  end.
Fixpoint inline (inserted : list tensor) (u : uses) (inlined : list tensor) (s : qstmt) : qstmt * uses * list tensor :=
  match s with
  | QAssign t vs red e =>
      match use_of t u, red with
      | Some (oldIndices, (q, oldCoords, reduceOp)), false =>
          let newCoords := map (index_map (combine oldIndices vs)) oldCoords in
          let rhs := if Bool.eqb (qbool e) (is_bool q) then e else QCast e in
          (QAssign q newCoords reduceOp rhs, u, q :: inlined)
      | _, _ =>
          let u := match rhs_access e with
                   | Some (rt, rvs) => if mem rt inserted then (rt, (rvs, (t, vs, red))) :: u else u
                   | None => u
                   end in
          (s, u, inlined)
      end
  | QForall an i b =>
      let '(b', u, inlined) := inline inserted u inlined b in (QForall an i b', u, inlined)
  | QWhere c p =>
      let '(c', u, inlined) := inline inserted u inlined c in
      let '(p', u, inlined) := inline inserted u inlined p in
      (QWhere c' p', u, inlined)
  end.

(** ** EliminateRedundantTemps, 1507-1541 *)
Fixpoint drop_redundant (inlined : list tensor) (s : qstmt) : option qstmt :=
  match s with
  | QAssign t _ _ _ => if mem t inlined then None else Some s
  | QForall an i b => option_map (QForall an i) (drop_redundant inlined b)
  | QWhere c p =>
      match drop_redundant inlined c with Some c' => Some (QWhere c' p) | None => Some p end
  end.

(** ** SetAssembleStrategy::apply, 1137-1543 *)
(** [ARefused]: a reason is given and no statement; [AQueries q]: the result is
    Assemble(q, stmt, ...).  [tmp]: the scalars made by scalarPromote. *)
Inductive aresult := ARefused | AQueries (q : option qstmt).
Definition query_args (s : nstmt Z) : list tensor :=
  filter (fun t => negb (mem t (res s :: temps s))) (rhs_reads s).
Definition simplify_queries (q : qstmt) : option qstmt :=
  let inserted := [dedupTmp; queryResult] in
  let q := eliminateRedundantReductions inserted q in
  let '(q, _, inlined) := inline inserted [] [] q in
  drop_redundant inlined q.
Definition setAssembleInsert (rho : ivar -> ivar) (tmp : tensor -> tensor) (s : nstmt Z) : aresult :=
  if negb (supported false false false levels) then ARefused
  else
    let s := scalarPromote tmp true false (rename rho s) in
    match lower_queries (query_args s) (temps s) (res s) s with
    | None => ARefused
    | Some None => AQueries None
    | Some (Some q) => AQueries (simplify_queries q)
    end.
End Queries.
