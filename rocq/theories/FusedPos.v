(** Loops over the positions of several fused loops, that is, the loops that are generated
    after [fuse] of the loops over the levels of an operand and [pos] of the fused variable:
    src/lower/lowerer_impl_imperative.cpp lowerForallFusedPosition and
    searchForFusedPositionStart, with the bounds and recovery of
    src/index_notation/provenance_graph.cpp.

    What is executed is modelled (the generated code), not the IR.  Integers are unbounded.
    The code for GPUs (the searches per block) is not modelled. *)
From Coq Require Import ZArith List Bool.
From Verif Require Import Outcome CSearch.
Import ListNotations.
Local Open Scope Z_scope.

(** The levels of an operand that the fused variables walk over: src/lower/
    mode_format_dense.cpp, mode_format_compressed.cpp (pos and crd arrays) and
    mode_format_singleton.cpp (crd array).  Packs of more than one mode are not modelled. *)
Inductive level :=
| Dense (n : Z)
| Compressed (pos crd : list Z)
| Singleton (crd : list Z).

(** posIterBounds, second result: mode_format_compressed.cpp [pos[p + 1]],
    mode_format_singleton.cpp 74-77 [p + 1].  A dense level has none
    (mode_format_impl.cpp 190-192): the lowerer reads the results of an empty ModeFunction
    (mode_format_impl.cpp 125-127), which is undefined behaviour of the compiler itself. *)
Definition upper (l : level) (p : Z) : outcome Z :=
  match l with
  | Dense _ => Oob
  | Compressed pos _ => rd pos (p + 1)
  | Singleton _ => Val (p + 1)
  end.

(** The coordinate of position [p]: lowerer_impl_imperative.cpp 1495-1500 (crd array of a
    level with position iteration, else the position itself). *)
Definition coordinate (l : level) (p : Z) : outcome Z :=
  match l with
  | Dense _ => Val p
  | Compressed _ crd => rd crd p
  | Singleton crd => rd crd p
  end.

(** The number of positions below [parent] positions: provenance_graph.cpp 476-486 and
    lowerer_impl_imperative.cpp 1018-1030 (getSize of levels with append, product with the
    width of levels with insert).  Levels from the top. *)
Fixpoint size_of (ls : list level) (parent : Z) : outcome Z :=
  match ls with
  | [] => Val parent
  | Dense n :: r => size_of r (parent * n)
  | Compressed pos _ :: r => do s <- rd pos parent; size_of r s
  | Singleton _ :: r => size_of r parent
  end.

(** The tracked variables: for each fused variable but the last, its position and its
    coordinate, the innermost first. *)
Definition state := list (Z * Z).

(** A while loop of the generated code. *)
Fixpoint while_loop (fuel : nat) (cond : state -> outcome bool) (body : state -> outcome state)
    (st : state) : outcome state :=
  match fuel with
  | O => NoFuel
  | S k => do b <- cond st;
           if b then do st' <- body st; while_loop k cond body st' else Val st
  end.

Definition fuel_of (l : level) : nat :=
  match l with
  | Dense _ => 0
  | Compressed pos _ => S (length pos)
  | Singleton crd => S (S (length crd))
  end.

(** lowerer_impl_imperative.cpp 1492-1493: the position [known] of the level [child] is the
    end of the segment of the tracked position. *)
Definition at_end (child : level) (known : Z) (st : state) : outcome bool :=
  match st with
  | [] => Oob
  | (p, _) :: _ => do u <- upper child p; Val (known =? u)
  end.

(** 1478-1509: [up] holds the levels of the tracked variables, the innermost first, and
    [child] the level below them.  1501: the next position, its coordinate, and then the
    variable above.  1502-1507: an [if] when the level of the variable has position
    iteration, else a [while]. *)
Fixpoint track (up : list level) : level -> Z -> state -> outcome state :=
  match up with
  | [] => fun _ _ st => Val st
  | l :: up' => fun child known st =>
      let body st :=
        match st with
        | [] => Oob
        | (p, _) :: st' =>
            do c <- coordinate l (p + 1);
            do st'' <- track up' l (p + 1) st';
            Val ((p + 1, c) :: st'')
        end in
      match l with
      | Dense _ => while_loop (fuel_of child) (at_end child known) body st
      | _ => do b <- at_end child known st; if b then body st else Val st
      end
  end.

(** An iteration is seen by the body of the loop as the coordinates of all fused variables,
    the outermost first, and the position in the last level. *)
Definition visit : Type := list Z * Z.

(** The body of the loop: 660-676 (the guard, [continue] at or after the number [total] of
    positions: PosRelNode::deriveIterBounds, provenance_graph.cpp 470-488), 678-680 with
    PosRelNode::recoverVariable and FuseRelNode::recoverVariable (566-589, 679-696: the
    coordinate of the last variable), and 1523 (the tracking, before the body). *)
Definition iteration (up : list level) (child : level) (total : Z) (st : state) (fpos : Z)
  : outcome (state * list visit) :=
  if fpos >=? total then Val (st, [])
  else
    do c <- coordinate child fpos;
    do st' <- track up child fpos st;
    Val (st', [(rev (map snd st') ++ [c], fpos)]).

(** 1574-1577: the loop, over the values that its variable takes. *)
Fixpoint loop (up : list level) (child : level) (total : Z) (st : state) (positions : list Z)
  : outcome (state * list visit) :=
  match positions with
  | [] => Val (st, [])
  | fpos :: r =>
      do (st1, v1) <- iteration up child total st fpos;
      do (st2, v2) <- loop up child total st1 r;
      Val (st2, v1 ++ v2)
  end.

(** The values [lo], [lo + 1], ... ([n] of them) of a loop variable. *)
Definition range (lo n : Z) : list Z :=
  map (fun k => lo + Z.of_nat k) (seq 0 (Z.to_nat n)).

(** The chunks that the innermost loop runs over, as their first position and their length,
    when the position variable is split by the first factor, its inner variable by the second
    and so on, and the loops are nested in this order: SplitRelNode::deriveIterBounds and
    recoverVariable (provenance_graph.cpp 203-266) for a variable that starts at 0. *)
Fixpoint chunks (n : Z) (factors : list Z) : list (Z * Z) :=
  match factors with
  | [] => [(0, n)]
  | s :: r =>
      flat_map (fun o => map (fun '(b, k) => (o * s + b, k)) (chunks s r))
               (range 0 ((n + (s - 1)) / s))
  end.

(** 1464-1469: outside parallel loops the variables are declared once, at the top of the
    kernel: positions 0, coordinates at the lower bound of their dimension. *)
Definition initial (up : list level) : state := map (fun _ => (0, 0)) up.

(** 1007-1184 without GPU blocks: in a parallel loop, a search for the variables of the
    first position of the chunk.  [above]: levels above the fused ones (from the top). *)
Fixpoint search (above : list level) (up : list level) (child : level) (target : Z)
  : outcome state :=
  match up with
  | [] => Val []
  | l :: up' =>
      match child with
      | Compressed pos _ =>
          do n <- size_of (above ++ rev (l :: up')) 1;
          do p <- taco_binarySearchBefore pos 0 n target;
          do c <- coordinate l p;
          do st <- search above up' l p;
          Val ((p, c) :: st)
      | _ => Oob
      end
  end.

(** All levels of a fused loop, from the top. *)
Definition levels (up : list level) (child : level) : list level := rev (child :: up).

Definition positions_of (chunk : Z * Z) : list Z := range (fst chunk) (snd chunk).

(** The loops outside parallel loops: one state for all chunks. *)
Definition serial (up : list level) (child : level) (factors : list Z)
  : outcome (state * list visit) :=
  do total <- size_of (levels up child) 1;
  loop up child total (initial up) (flat_map positions_of (chunks total factors)).

(** One chunk inside a parallel loop. *)
Definition chunk_loop (above up : list level) (child : level) (chunk : Z * Z)
  : outcome (list visit) :=
  do total <- size_of (above ++ levels up child) 1;
  do st <- search above up child (fst chunk);
  do (_, vs) <- loop up child total st (positions_of chunk);
  Val vs.

(** All chunks, in the given order: each has its own variables. *)
Fixpoint all_chunks (above up : list level) (child : level) (cs : list (Z * Z))
  : outcome (list visit) :=
  match cs with
  | [] => Val []
  | c :: r =>
      do v <- chunk_loop above up child c;
      do vs <- all_chunks above up child r;
      Val (v ++ vs)
  end.

Definition in_chunks (up : list level) (child : level) (factors : list Z)
  : outcome (list visit) :=
  do total <- size_of (levels up child) 1;
  all_chunks [] up child (chunks total factors).

(** A reduction into a scalar temporary [t] of a where statement around the loop of a chunk:
    1474-1476 and 1525-1530 (at the last position of a segment the consumer runs and the
    temporary is set to 0) and lowerWhere 2605 (the consumer runs after the loop).  [value]:
    what the body adds to the temporary; [consume]: what the consumer does with the
    coordinates of the tracked variables and the temporary. *)
Section Reduction.
  Variable Y : Type.
  Variable value : visit -> Z.
  Variable consume : list Z -> Z -> Y -> outcome Y.

  Definition ends_segment (child : level) (st : state) (fpos : Z) : outcome bool :=
    match st with
    | [] => Oob
    | (p, _) :: _ => do u <- upper child p; Val (fpos + 1 =? u)
    end.

  Fixpoint reduce_loop (up : list level) (child : level) (total : Z)
      (st : state) (t : Z) (y : Y) (positions : list Z) : outcome (state * Z * Y) :=
    match positions with
    | [] => Val (st, t, y)
    | fpos :: r =>
        do (st, vs) <- iteration up child total st fpos;
        match vs with
        | [] => reduce_loop up child total st t y r
        | v :: _ =>
            let t := t + value v in
            do e <- ends_segment child st fpos;
            if e then
              do y <- consume (rev (map snd st)) t y;
              reduce_loop up child total st 0 y r
            else reduce_loop up child total st t y r
        end
    end.

  Definition reduce_chunk (up : list level) (child : level) (chunk : Z * Z) (y : Y)
    : outcome Y :=
    do total <- size_of (levels up child) 1;
    do st <- search [] up child (fst chunk);
    do (st, t, y) <- reduce_loop up child total st 0 y (positions_of chunk);
    consume (rev (map snd st)) t y.
End Reduction.
