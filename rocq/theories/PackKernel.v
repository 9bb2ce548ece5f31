(** The generated helper kernel "pack" of a tensor:
    /repo/src/tensor.cpp 957-994 (getHelperFunctions) lowers
    [forall i1 ... in, packed(i1,...,in) = buffer(i1,...,in)], with the loops in
    the order of the storage levels.  [buffer] is a coordinate tensor with
    duplicates (COO(order, false, true, false, modeOrdering)).

    Simplifications.  The loops over the buffer are written on its list of rows
    (they are [coo_walk] of MergeLoop.v, which C15 covers): a run of equal
    coordinates is one iteration.  The growing arrays of the result are lists, so
    their capacities do not appear (they do in SparseKernel.v, whose code fragments
    are named below).  Levels of the result are dense or compressed. *)
From Coq Require Import List Arith Lia Bool.
Import ListNotations.
From Verif Require Import Storage Eval.

Section PackKernel.
Context {V : Type}.
Variable R : ring_ops V.
Notation row := (@Storage.row V).

(** A store to an array; nothing happens beyond its end. *)
Fixpoint set_nth {A} (i : nat) (x : A) (l : list A) : list A :=
  match l, i with
  | [], _ => []
  | _ :: l, O => x :: l
  | y :: l, S i => y :: set_nth i x l
  end.

(** lowerer_impl_imperative.cpp 3420-3468: the loop of one level of the buffer
    takes, for the coordinate at its position, the run of positions with that
    coordinate. *)
Fixpoint runs (fuel : nat) (rows : list row) : list (nat * list row) :=
  match fuel, rows with
  | S fuel, r :: _ =>
      let (seg, rest) := scan (row_head r) rows in
      (row_head r, map row_tail seg) :: runs fuel rest
  | _, _ => []
  end.

(** lowerer_impl_imperative.cpp 3439-3465: at the last level the values of the
    run are added up. *)
Definition run_sum (rows : list row) : V :=
  match rows with
  | [] => r0 R
  | r :: rest => fold_left (fun acc r => radd R acc (snd r)) rest (snd r)
  end.

(** lowerer_impl_imperative.cpp 3195-3280 with mode_format_compressed.cpp 135-188
    (append_init_edges, append_init_level, init_block of SparseKernel.v): zero the
    slots of [n] new positions: of the values, or of the pos array of the next
    compressed level if it is below a dense one. *)
Fixpoint open_slots (ap : bool) (n : nat) (fmt : list (kind * nat)) (st : @pstate V) : @pstate V :=
  match fmt, fst st with
  | [], _ => (fst st, snd st ++ repeat (r0 R) n)
  | (KDense, d) :: fmt, hd :: tl =>
      let (i, v) := open_slots false (n * d) fmt (tl, snd st) in (hd :: i, v)
  | (KComp, _) :: fmt, (pos, crd) :: tl =>
      if ap then st else ((pos ++ repeat 0 n, crd) :: tl, snd st)
  | _, [] => st
  end.

(** Number of coordinates of the next compressed level, if there is one. *)
Fixpoint appended (fmt : list (kind * nat)) (idx : list (list nat * list nat)) : option nat :=
  match fmt, idx with
  | (KDense, _) :: fmt, _ :: idx => appended fmt idx
  | (KComp, _) :: _, (_, crd) :: _ => Some (length crd)
  | _, _ => None
  end.

(** lowerer_impl_imperative.cpp 3768-3785: a coordinate is appended if the next
    compressed level below got coordinates (or there is none). *)
Definition grew (before after : option nat) : bool :=
  match before, after with
  | Some b, Some e => b <? e
  | _, _ => true
  end.

(** The loops of the result's levels for the rows of one position [p] of the level
    above.  [ap]: there is no level above or it is compressed.
    Dense: the position is located (mode_format_dense.cpp 43-52).
    Compressed: coordinates are appended (append_coord), then the edges
    (append_edges, mode_format_compressed.cpp 122-129). *)
Fixpoint pack_levels (ap : bool) (fmt : list (kind * nat)) (rows : list row) (p : nat)
         (st : @pstate V) : @pstate V :=
  match fmt, fst st with
  | [], _ => (fst st, set_nth p (run_sum rows) (snd st))
  | (KDense, d) :: fmt, hd :: tl =>
      let (i, v) := fold_left (fun st x => pack_levels false fmt (snd x) (p * d + fst x) st)
                              (runs (length rows) rows) (tl, snd st) in
      (hd :: i, v)
  | (KComp, _) :: fmt, (pos, crd) :: tl =>
      let begin := length crd in
      let '(crd, (i, v)) :=
        fold_left (fun (s : list nat * @pstate V) x =>
                     let (crd, st) := s in
                     let st' := open_slots true 1 fmt st in
                     let st'' := pack_levels true fmt (snd x) (length crd) st' in
                     (if grew (appended fmt (fst st)) (appended fmt (fst st''))
                      then crd ++ [fst x] else crd, st''))
                  (runs (length rows) rows) (crd, (tl, snd st)) in
      (((if ap then pos ++ [length crd] else set_nth (p + 1) (length crd - begin) pos), crd) :: i, v)
  | _, [] => st
  end.

(** mode_format_compressed.cpp 190-211 (append_finalize): the counts of a
    compressed level below a dense one become positions. *)
Fixpoint prefix_sums (cs : nat) (l : list nat) : list nat :=
  match l with
  | [] => []
  | x :: l => (cs + x) :: prefix_sums (cs + x) l
  end.

Fixpoint finalize (ap : bool) (fmt : list (kind * nat)) (idx : list (list nat * list nat))
  : list (list nat * list nat) :=
  match fmt, idx with
  | (KDense, _) :: fmt, hd :: idx => hd :: finalize false fmt idx
  | (KComp, _) :: fmt, (pos, crd) :: idx =>
      (match pos with
       | [] => []
       | z :: counts => if ap then pos else z :: prefix_sums 0 counts
       end, crd) :: finalize true fmt idx
  | _, _ => idx
  end.

Definition pack_kernel (fmt : list (kind * nat)) (rows : list row) : storage V :=
  let st := open_slots true 1 fmt (init_indices fmt, []) in
  let (i, v) := pack_levels true fmt rows 0 st in
  mkStorage (mk_levels fmt (finalize true fmt i)) v.

End PackKernel.
