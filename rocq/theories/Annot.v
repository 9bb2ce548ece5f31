(** What becomes of the annotations of loops (parallelize, mergeby, unroll) when a statement
    is scheduled further: src/index_notation/transformations.cpp, index_notation.cpp.
    Not modelled: what the annotations do in the generated code (C53, C62 and C13), when a
    command is refused by preconditions on iterators (a parameter [accepts]), and the
    assignments, which are numbers: the functions that exchange them are parameters. *)
From Coq Require Import List Arith Bool.
Import ListNotations.

Definition var := nat.
Definition assignment := nat.
Definition mem (v : var) (l : list var) : bool := existsb (Nat.eqb v) l.

(** include/taco/ir_tags.h 36-40, 11-13 and 22-24. *)
Inductive merge_strategy := TwoFinger | Gallop.
Inductive parallel_unit :=
| NotParallel | DefaultUnit | GPUBlock | GPUWarp | GPUThread | CPUThread | CPUVector
| CPUThreadGroupReduction | GPUBlockReduction | GPUWarpReduction.
Inductive race_strategy := IgnoreRaces | NoRaces | Atomics | Temporary | ParallelReduction.
(** The fields of ForallNode besides the variable and the body, index_notation_nodes.h 400-418. *)
Record annot := Annot { merge : merge_strategy; unit : parallel_unit; race : race_strategy; factor : nat }.
(** The annotations of a loop made by forall(i, stmt), index_notation.cpp 2206-2208 and 2238-2240. *)
Definition default : annot := Annot TwoFinger NotParallel IgnoreRaces 0.

(** Statements; MultiNode, SequenceNode and AssembleNode are pairs; the relations of a
    SuchThatNode are numbers.  Not modelled: YieldNode. *)
Inductive stmt :=
| SAssign (a : assignment)
| SForall (v : var) (x : annot) (s : stmt)
| SWhere (consumer producer : stmt)
| SPair (a b : stmt)
| SSuchThat (s : stmt) (rels : list nat).

(** The variables of the loops in the order of visiting: the producer is visited before the
    consumer, index_notation_visitor.cpp 104-129. *)
Fixpoint loops (s : stmt) : list var :=
  match s with
  | SAssign _ => []
  | SForall v _ s => v :: loops s
  | SWhere c p => loops p ++ loops c
  | SPair a b => loops a ++ loops b
  | SSuchThat s _ => loops s
  end.
(** A rewriter that only exchanges assignments (ReplaceReductionExpr, RedundantRewriter):
    IndexNotationRewriter keeps the fields of loops, index_notation_rewriter.cpp 182-190. *)
Fixpoint map_assign (f : assignment -> assignment) (s : stmt) : stmt :=
  match s with
  | SAssign a => SAssign (f a)
  | SForall v x s => SForall v x (map_assign f s)
  | SWhere c p => SWhere (map_assign f c) (map_assign f p)
  | SPair a b => SPair (map_assign f a) (map_assign f b)
  | SSuchThat s rels => SSuchThat (map_assign f s) rels
  end.

(** ** split, divide, fuse, pos, bound and reorder *)
(** AddSuchThatPredicates::apply, transformations.cpp 821-846. *)
Definition add_predicate (r : nat) (s : stmt) : stmt :=
  match s with SSuchThat s rels => SSuchThat s (rels ++ [r]) | s => SSuchThat s [r] end.
(** The replacement loops, transformations.cpp 771-774: without annotations. *)
Definition fresh_loops (vs : list var) (s : stmt) : stmt := fold_right (fun v s => SForall v default s) s vs.
(** ForAllReplaceRewriter, 727-795; [k] is elementsMatched, [None]: it became -1; the flag
    tells whether the pattern was found. *)
Definition is_forall (s : stmt) : bool := match s with SForall _ _ _ => true | _ => false end.
Fixpoint replace (pattern replacement : list var) (k : nat) (s : stmt) : option (stmt * bool) :=
  match s with
  | SAssign a => Some (s, false)
  | SForall v x s' =>
      if length pattern <=? k then option_map (fun r => (SForall v x (fst r), snd r)) (replace pattern replacement k s')
      else if v =? nth k pattern 0 then
        if (S k <? length pattern) && negb (is_forall s') then None
        else option_map (fun r => (if k =? 0 then fresh_loops replacement (fst r) else fst r, true))
                        (replace pattern replacement (S k) s')
      else if 0 <? k then None
      else option_map (fun r => (SForall v x (fst r), snd r)) (replace pattern replacement k s')
  | SWhere c p =>
      match replace pattern replacement k p, replace pattern replacement k c with
      | Some (p', f), Some (c', g) => Some (SWhere c' p', f || g)
      | _, _ => None
      end
  | SPair a b =>
      match replace pattern replacement k a, replace pattern replacement k b with
      | Some (a', f), Some (b', g) => Some (SPair a' b', f || g)
      | _, _ => None
      end
  | SSuchThat s rels => option_map (fun r => (SSuchThat (fst r) rels, snd r)) (replace pattern replacement k s)
  end.
(** ForAllReplace::apply, 721-799. *)
Definition forall_replace (pattern replacement : list var) (s : stmt) : option stmt :=
  match replace pattern replacement 0 s with Some (s', true) => Some s' | _ => None end.
(** Reorder::apply, 100-116: the loops of the pattern, and matchFailed. *)
Fixpoint collect (pattern : list var) (current : list var) (failed : bool) (l : list var) : list var * bool :=
  match l with
  | [] => (current, failed)
  | v :: rest =>
      if mem v pattern then collect pattern (current ++ [v]) failed rest
      else collect pattern current
             (failed || (negb (length current =? 0) && negb (length current =? length pattern))) rest
  end.
Fixpoint same (a b : list var) : bool :=
  match a, b with
  | [], [] => true
  | x :: a, y :: b => (x =? y) && same a b
  | _, _ => false
  end.
(** Reorder::apply, 118-127; [ordered]: the pattern is the new order (Reorder of a list). *)
Definition reorder (ordered : bool) (pattern : list var) (s : stmt) : option stmt :=
  let (current, failed) := collect pattern [] false (loops s) in
  let pattern := if negb ordered && same current pattern then rev pattern else pattern in
  if failed || negb (length current =? length pattern) then None else forall_replace current pattern s.

(** ** mergeby, unroll and parallelize *)
Definition set_merge (m : merge_strategy) (x : annot) : annot := Annot m (unit x) (race x) (factor x).
Definition set_factor (n : nat) (x : annot) : annot := Annot (merge x) (unit x) (race x) n.
Definition set_parallel (u : parallel_unit) (r : race_strategy) (x : annot) : annot := Annot (merge x) u r (factor x).
(** SetMergeStrategyRewriter, transformations.cpp 178-212 (when accepted); UnrollLoop,
    index_notation.cpp 2020-2034. *)
Fixpoint on_loops (v : var) (f : annot -> annot) (s : stmt) : stmt :=
  match s with
  | SAssign _ => s
  | SForall w x b => SForall w (if w =? v then f x else x) (on_loops v f b)
  | SWhere c p => SWhere (on_loops v f c) (on_loops v f p)
  | SPair a b => SPair (on_loops v f a) (on_loops v f b)
  | SSuchThat s rels => SSuchThat (on_loops v f s) rels
  end.
Definition mergeby (v : var) (m : merge_strategy) : stmt -> stmt := on_loops v (set_merge m).
Definition unroll (v : var) (n : nat) : stmt -> stmt := on_loops v (set_factor n).
(** HoistWrites, transformations.cpp 1937-1979.  [hoist w x b]: what is hoisted out of the
    loop: the assignment of the consumer and the exchange of accesses in the body. *)
Fixpoint promote (hoist : var -> annot -> stmt -> list (assignment * (assignment -> assignment))) (s : stmt) : stmt :=
  match s with
  | SAssign _ => s
  | SForall w x b =>
      let h := hoist w x b in
      fold_left (fun s c => SWhere (SAssign (fst c)) s) h
                (SForall w x (fold_left (fun b c => map_assign (snd c) b) h (promote hoist b)))
  | SWhere c p => SWhere (promote hoist c) (promote hoist p)
  | SPair a b => SPair (promote hoist a) (promote hoist b)
  | SSuchThat s rels => SSuchThat (promote hoist s) rels
  end.
(** ParallelizeRewriter::visit(ForallNode), 944-1079, when accepted.  [reduction b]: the loop
    over the underived ancestor reduces, 1012-1013; then the assignment of the consumer and
    the exchange of the left-hand side.  Simplified: one assignment is exchanged (with more,
    the assertion of line 1040 fails), and the unit of the consumer, 1044-1053, is a
    parameter.  The body of a loop over the variable is not visited. *)
Fixpoint parallelize (hoist : var -> annot -> stmt -> list (assignment * (assignment -> assignment)))
    (reduction : stmt -> option (assignment * (assignment -> assignment))) (reduction_unit : parallel_unit)
    (v : var) (u : parallel_unit) (r : race_strategy) (s : stmt) : stmt :=
  let again := parallelize hoist reduction reduction_unit v u r in
  match s with
  | SAssign _ => s
  | SForall w x b =>
      if w =? v then
        match r, reduction b with
        | Temporary, Some (consumer, exchange) =>
            SWhere (SForall v (Annot (merge x) reduction_unit ParallelReduction 0) (SAssign consumer))
                   (SForall v (set_parallel u r x) (map_assign exchange b))
        | Atomics, _ => SForall v (set_parallel u r x) (promote hoist b)
        | _, _ => SForall v (set_parallel u r x) b
        end
      else SForall w x (again b)
  | SWhere c p => SWhere (again c) (again p)
  | SPair a b => SPair (again a) (again b)
  | SSuchThat s rels => SSuchThat (again s) rels
  end.

(** ** precompute *)
(** What Precompute::apply computes from the expression and the variables, 493-533: the
    assignments that contain the expression, the consumer's and producer's assignments, which
    variables containsIndexVarScheduled finds among i_vars, the consumer's and the producer's
    variables, the substitution of i_vars by iw_vars, and the final exchange of operators by
    RedundantRewriter, 650-677. *)
Record precomputation := Precomputation {
  contains : assignment -> bool; consumer_of : assignment -> assignment; producer_of : assignment -> assignment;
  in_ivars : var -> bool; in_consumer : var -> bool; in_producer : var -> bool; renamed : var -> var;
  reoperate : assignment -> assignment }.
Fixpoint has_where (s : stmt) : bool :=
  match s with
  | SAssign _ => false
  | SForall _ _ s => has_where s
  | SWhere _ _ => true
  | SPair a b => has_where a || has_where b
  | SSuchThat s _ => has_where s
  end.
Fixpoint assigns (s : stmt) : list assignment :=
  match s with
  | SAssign a => [a]
  | SForall _ _ s => assigns s
  | SWhere c p => assigns p ++ assigns c
  | SPair a b => assigns a ++ assigns b
  | SSuchThat s _ => assigns s
  end.
(** 544-563: the loops of the producer, the consumer and around both, innermost first. *)
Fixpoint distribute (p : precomputation) (stop : bool) (l : list var) : list var * list var * list var :=
  match l with
  | [] => ([], [], [])
  | v :: rest =>
      if negb stop && in_ivars p v then
        let '(pr, co, out) := distribute p stop rest in (renamed p v :: pr, v :: co, out)
      else if stop || (in_producer p v && in_consumer p v) then
        let '(pr, co, out) := distribute p true rest in (pr, co, v :: out)
      else if in_consumer p v then let '(pr, co, out) := distribute p stop rest in (pr, v :: co, out)
      else if in_producer p v then let '(pr, co, out) := distribute p stop rest in (v :: pr, co, out)
      else distribute p stop rest
  end.
(** generateForalls, 465-472: the first variable is innermost; without annotations. *)
Definition generate_foralls (s : stmt) (vs : list var) : stmt := fold_left (fun s v => SForall v default s) vs s.
(** PrecomputeRewriter::visit(ForallNode), 490-574: the nest of a loop without where.  The
    consumer comes from the last assignment (getConsumerAssignment, 417-443). *)
Definition rebuild (p : precomputation) (s : stmt) : stmt :=
  let a := last (assigns s) 0 in
  let '(pr, co, out) := distribute p false (rev (loops s)) in
  generate_foralls (SWhere (generate_foralls (SAssign (consumer_of p a)) co)
                           (generate_foralls (SAssign (producer_of p a)) pr)) out.
Fixpoint precompute_loops (p : precomputation) (s : stmt) : stmt :=
  match s with
  | SAssign _ => s
  | SForall v x b =>
      if negb (has_where b) && existsb (contains p) (assigns b) then rebuild p s else SForall v x (precompute_loops p b)
  | SWhere c d => SWhere (precompute_loops p c) (precompute_loops p d)
  | SPair a b => SPair (precompute_loops p a) (precompute_loops p b)
  | SSuchThat s rels => SSuchThat (precompute_loops p s) rels
  end.
(** Precompute::apply, 666-677; IndexStmt::precompute adds the predicates, index_notation.cpp 1857-1883. *)
Definition precompute (p : precomputation) (predicates : list nat) (s : stmt) : stmt :=
  map_assign (reoperate p) (precompute_loops p (fold_left (fun s r => add_predicate r s) predicates s)).

(** ** reorderLoopsTopologically, transformations.cpp 1704-1830 *)
(** The nest at the top: DAGBuilder, 1718-1761.  Simplified: the statement is a nest (what
    happens with several nests is in C26). *)
Fixpoint nest (s : stmt) : list (var * annot) * stmt :=
  match s with
  | SForall v x b => let (l, inner) := nest b in ((v, x) :: l, inner)
  | s => ([], s)
  end.
(** forallParallelUnit and forallOutputRaceStrategy: the last entry of a variable counts. *)
Fixpoint recorded (l : list (var * annot)) (v : var) : option annot :=
  match l with
  | [] => None
  | (w, x) :: l => match recorded l v with Some y => Some y | None => if w =? v then Some x else None end
  end.
(** TopoReorderRewriter, 1795-1825; [order] is sortedVars; [None]: map::at throws. *)
Fixpoint topo_loops (first : annot) (l : list (var * annot)) (inner : stmt) (order : list var) : option stmt :=
  match order with
  | [] => Some inner
  | v :: order =>
      match recorded l v, topo_loops first l inner order with
      | Some x, Some s => Some (SForall v (Annot (merge first) (unit x) (race x) (factor first)) s)
      | _, _ => None
      end
  end.
Definition reorder_topologically (order : list var) (s : stmt) : option stmt :=
  match s with
  | SForall v x b => let (l, inner) := nest s in topo_loops x l inner order
  | s => Some s
  end.

(** ** Sequences of commands *)
Inductive command :=
| Replace (pattern replacement : list var) (predicate : nat)    (* split, divide, fuse, pos, bound *)
| Reorder (ordered : bool) (pattern : list var)
| MergeBy (v : var) (m : merge_strategy)
| Unroll (v : var) (n : nat)
| Parallelize (v : var) (u : parallel_unit) (r : race_strategy)
| Hoist                                                          (* scalarPromote *)
| Precompute (p : precomputation) (predicates : list nat)
| Topological (order : list var).
(** The environment: which commands are accepted, what is hoisted and what is reduced. *)
Record environment := Environment {
  accepts : command -> stmt -> bool;
  hoisted : var -> annot -> stmt -> list (assignment * (assignment -> assignment));
  reduced : stmt -> option (assignment * (assignment -> assignment));
  reduced_unit : parallel_unit }.
(** IndexStmt::split 1819-1836, divide 1838-1855, reorder 1892-1908, mergeby 1910-1917,
    parallelize 1919-1926, pos 1928-1980, fuse 1982-1999, bound 2001-2018, unroll 2020-2036,
    precompute 1857-1883; [None]: an error is raised. *)
Definition exec (e : environment) (c : command) (s : stmt) : option stmt :=
  if accepts e c s then
    match c with
    | Replace pattern replacement r => forall_replace pattern replacement (add_predicate r s)
    | Reorder ordered pattern => reorder ordered pattern s
    | MergeBy v m => Some (mergeby v m s)
    | Unroll v n => Some (unroll v n s)
    | Parallelize v u r => Some (parallelize (hoisted e) (reduced e) (reduced_unit e) v u r s)
    | Hoist => Some (promote (hoisted e) s)
    | Precompute p predicates => Some (precompute p predicates s)
    | Topological order => reorder_topologically order s
    end
  else None.
Fixpoint run (e : environment) (cs : list command) (s : stmt) : option stmt :=
  match cs with
  | [] => Some s
  | c :: cs => match exec e c s with Some s => run e cs s | None => None end
  end.
(** parallelizeOuterLoop for CPUs, transformations.cpp 1561-1606: the variable of the first
    loop visited; a statement that is refused is kept. *)
Definition parallelize_outer (e : environment) (s : stmt) : stmt :=
  match loops s with
  | [] => s
  | v :: _ => match exec e (Parallelize v CPUThread NoRaces) s with Some s' => s' | None => s end
  end.
