(** Parallel loops: the parallelize command (src/index_notation/transformations.cpp
    873-1110), parallelizeOuterLoop (1560-1600), getReductionVars
    (src/index_notation/index_notation.cpp 3668-3720), and which assignments of a
    parallel loop become atomic (src/lower/lowerer_impl_imperative.cpp 449-545,
    1195-1235, 2516-2605).
    Not modelled: derived index variables (split, fuse, ...), for which the checks
    look at underived ancestors; units of a GPU. *)
From Coq Require Import List Arith Bool.
Import ListNotations.
From Verif Require Import Notation NotationSpec Transform.
Local Open Scope nat_scope.

(** ir_tags.h 7-23: ParallelUnit and OutputRaceStrategy, by number. *)
Definition not_parallel := 0.
Definition cpu_thread := 5.
Definition cpu_reduction := 7.
Definition ignore_races := 0.
Definition no_races := 1.
Definition atomics := 2.
Definition temporary := 3.
Definition parallel_reduction := 4.

Section Parallel.
Context {V : Type}.
Notation stmt := (nstmt V).

(** The variables of [vs] that are not in [seen], each once, in order. *)
Definition add_new (acc : list ivar * list ivar) (vs : list ivar) : list ivar * list ivar :=
  fold_left (fun '(seen, out) v => if mem v seen then (seen, out) else (v :: seen, out ++ [v])) vs acc.
(** The index variables of the accesses of an expression, as the matcher visits them. *)
Fixpoint access_vars (e : nexpr V) : list ivar :=
  match e with
  | NLit _ => []
  | NAcc _ vs => vs
  | NNeg e | NFun _ e | NRed _ _ e => access_vars e
  | NAdd a b | NSub a b | NMul a b | NDiv a b => access_vars a ++ access_vars b
  end.
(** index_notation.cpp 2114-2131: Assignment::getReductionVars *)
Definition assignment_reduction_vars (vs : list ivar) (e : nexpr V) : list ivar :=
  snd (add_new (vs, []) (access_vars e)).
(** index_notation.cpp 3668-3720: getReductionVars of a statement.  [sc], [ps], [cs]:
    scopedVars, producerScopedVars, consumerScopedVars. *)
Fixpoint reduction_vars (sc ps cs : list ivar) (s : stmt) : list ivar :=
  match s with
  | NAssign _ vs _ e => snd (add_new (add_new (vs ++ ps, []) (access_vars e)) cs)
  | NForall _ i b => reduction_vars (sc ++ [i]) ps cs b
  | NWhere c p => reduction_vars sc sc cs p ++ reduction_vars sc ps sc c
  end.
Definition getReductionVars (s : stmt) : list ivar := reduction_vars [] [] [] s.

(** ReplaceReductionExpr, transformations.cpp 854-867, with one substitution. *)
Fixpoint replace_lhs (a : acc) (w : tensor) (ws : list ivar) (s : stmt) : stmt :=
  match s with
  | NAssign t vs op e => if acc_eqb (t, vs) a then NAssign w ws op e else s
  | NForall an i b => NForall an i (replace_lhs a w ws b)
  | NWhere c p => NWhere (replace_lhs a w ws c) (replace_lhs a w ws p)
  end.
(** The assignments below a loop that the loop variable reduces, in the order of
    the matcher: 1019-1033. *)
Fixpoint reduced_by (i : ivar) (s : stmt) : list (tensor * list ivar * option redop) :=
  match s with
  | NAssign t vs op e => if mem i (assignment_reduction_vars vs e) then [(t, vs, op)] else []
  | NForall _ _ b => reduced_by i b
  | NWhere c p => reduced_by i p ++ reduced_by i c
  end.

(** The result of a command: refused with a reason, a failed internal assertion, or
    the new statement. *)
Inductive presult := PRefused | PBroken | POk (s : stmt).

Definition annotate (unit race : nat) (an : annot) : annot :=
  {| an_merge := an_merge an; an_unit := unit; an_race := race; an_unroll := an_unroll an |}.

(** [loop_ok] stands for preconditions 2 and 3 (961-1013), which look at the
    formats of the tensors: the loop merges no dimensions, and the result supports
    inserts.  [w]: the temporary of the Temporary strategy.  [tmp A]: the scalar that
    promotion makes for the result [A]. *)
Variable loop_ok : stmt -> bool.
Variable w : tensor.
Variable tmp : tensor -> tensor.
(** ParallelizeRewriter::visit(ForallNode), 943-1096, at the loop over [i]. *)
Definition parallelize_loop (unit race : nat) (reduced : bool) (an : annot) (i : ivar) (b : stmt) : presult :=
  if Nat.eqb race no_races && reduced then PRefused
  else if negb (loop_ok (NForall an i b)) then PRefused
  else if Nat.eqb race temporary && reduced then
    match reduced_by i b with
    | [(t, vs, op)] =>
        POk (NWhere (NForall {| an_merge := an_merge an; an_unit := cpu_reduction; an_race := parallel_reduction; an_unroll := 0 |} i
                       (NAssign t vs op (NAcc w [i])))
                    (NForall (annotate unit race an) i (replace_lhs (t, vs) w [i] b)))
    | _ => PBroken
    end
  else if Nat.eqb race atomics then POk (NForall (annotate unit race an) i (scalarPromote tmp false true b))
  else POk (NForall (annotate unit race an) i b).
Fixpoint parallelize_at (unit race : nat) (reduced : bool) (i : ivar) (s : stmt) : presult :=
  match s with
  | NAssign _ _ _ _ => POk s
  | NForall an j b =>
      if Nat.eqb j i then parallelize_loop unit race reduced an i b
      else match parallelize_at unit race reduced i b with POk b' => POk (NForall an j b') | r => r end
  | NWhere c p =>
      match parallelize_at unit race reduced i p with
      | POk p' => match parallelize_at unit race reduced i c with POk c' => POk (NWhere c' p') | r => r end
      | r => r
      end
  end.
(** Parallelize::apply, 905-1110. *)
Definition parallelize (unit race : nat) (i : ivar) (s : stmt) : presult :=
  parallelize_at unit race (mem i (getReductionVars s)) i s.

(** A schedule: parallelize(i, unit, NoRaces) for each pair, one after the other. *)
Fixpoint parallelize_all (unit_vars : list (nat * ivar)) (s : stmt) : presult :=
  match unit_vars with
  | [] => POk s
  | (unit, i) :: rest => match parallelize unit no_races i s with POk s' => parallelize_all rest s' | r => r end
  end.

(** parallelizeOuterLoop, 1560-1600, without CUDA: the loop that the matcher meets first. *)
Fixpoint outer_loop (s : stmt) : option ivar :=
  match s with
  | NAssign _ _ _ _ => None
  | NForall _ i _ => Some i
  | NWhere c p => match outer_loop p with Some i => Some i | None => outer_loop c end
  end.
Definition parallelizeOuterLoop (s : stmt) : stmt :=
  match outer_loop s with
  | None => s
  | Some i => match parallelize cpu_thread no_races i s with POk s' => s' | _ => s end
  end.
End Parallel.
Arguments PRefused {V}. Arguments PBroken {V}. Arguments POk {V}.

(** ** Lowering *)
(** A loop runs in parallel: lowerForallDimension 1219-1226 and its like. *)
Definition runs_parallel (an : annot) : bool :=
  negb (Nat.eqb (an_unit an) not_parallel) && negb (Nat.eqb (an_race an) parallel_reduction).
(** markAssignsAtomicDepth in the body of a loop (1200-1210) and in the producer of a
    where statement (2584-2600). *)
Definition depth_in (an : annot) (depth : nat) : nat :=
  if negb (Nat.eqb (an_unit an) not_parallel) && Nat.eqb (an_race an) atomics then S depth else depth.
Definition depth_producer (depth : nat) : nat := depth - 1.
(** Whether a compound assignment is atomic (471-474, 530): scalars that are temporaries
    of an enclosing where statement, [ws], are not. *)
Definition is_atomic (depth : nat) (ws : list tensor) (t : tensor) (vs : list ivar) : bool :=
  (0 <? depth) && negb (match vs with [] => mem t ws | _ => false end).
