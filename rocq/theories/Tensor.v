(** Inserting into a tensor, packing it and reading it:
    /repo/src/tensor.cpp and /repo/include/taco/tensor.h.
    One tensor without an assignment (those are in DelayedEval.v).  Coordinates and
    dimensions are [nat].  A mode format is dense or compressed. *)
From Coq Require Import List Arith ZArith Lia Bool.
Import ListNotations.
From Verif Require Import Outcome Storage Eval PackKernel Compare.
Local Open Scope nat_scope.

Section Tensor.
Context {V : Type}.
Variable R : ring_ops V.
(** qsort (tensor.cpp 397): any function that sorts. *)
Variable sort : list (list nat * V) -> list (list nat * V).
Notation row := (@Storage.row V).

(** TensorBase::Content (tensor.h 455-540) as the constructor, tensor.cpp 112-147,
    makes it.  [t_ord] gives the mode
    stored at each level.  The coordinate buffer is a vector of bytes; here it is
    a list of entries of coordinateSize bytes ([None]: not written since the
    resize), and coordinateBufferUsed is counted in entries. *)
Record tensor := Tensor {
  t_dims : list nat; t_kinds : list kind; t_ord : list nat;
  t_slots : list (option row); t_used : nat;
  t_store : storage V;
  t_never : bool; t_needs : bool }.

Definition new_tensor (dims : list nat) (kinds : list kind) (ord : list nat) : tensor :=
  Tensor dims kinds ord [] 0 (mkStorage [] []) true true.

(** The levels of the format with the dimensions of their modes (tensor.cpp
    375-378, permutedDimensions). *)
Definition level_fmt (t : tensor) : list (kind * nat) :=
  combine (t_kinds t) (map (fun m => nth m (t_dims t) 0) (t_ord t)).

Definition with_buffer (t : tensor) (slots : list (option row)) (used : nat) : tensor :=
  Tensor (t_dims t) (t_kinds t) (t_ord t) slots used (t_store t) (t_never t) (t_needs t).
Definition with_flags (t : tensor) (never needs : bool) : tensor :=
  Tensor (t_dims t) (t_kinds t) (t_ord t) (t_slots t) (t_used t) (t_store t) never needs.
Definition with_store (t : tensor) (s : storage V) : tensor :=
  Tensor (t_dims t) (t_kinds t) (t_ord t) (t_slots t) (t_used t) s (t_never t) (t_needs t).

(** tensor.cpp 175-179, reserve. *)
Definition reserve (n : nat) (t : tensor) : tensor :=
  with_buffer t (t_slots t ++ repeat None n) (t_used t).

(** tensor.h 967-984, insertUnsynced.  The test
    [size() - coordinateBufferUsed < coordinateSize] is on size_t: the difference
    is a large number if the buffer is smaller than what is used of it. *)
Definition insertUnsynced (r : row) (t : tensor) : outcome tensor :=
  let size := length (t_slots t) in
  let slots := if (t_used t <=? size) && (size - t_used t <? 1)
               then t_slots t ++ [None] else t_slots t in
  if t_used t <? length slots
  then Val (with_buffer t (set_nth (t_used t) (Some r) slots) (t_used t + 1))
  else Oob.

(** tensor.h 938-965, insert. *)
Definition insert (r : row) (t : tensor) : outcome tensor :=
  do t <- insertUnsynced r t; Val (with_flags t (t_never t) true).

(** The coordinates in the order of the levels (tensor.cpp 384-392), and back. *)
Definition permute (ord : list nat) (cs : list nat) : list nat := map (fun m => nth m cs 0) ord.
Fixpoint level_of (ord : list nat) (m : nat) : nat :=
  match ord with
  | [] => 0
  | k :: ord => if k =? m then 0 else S (level_of ord m)
  end.
Definition unpermute (ord : list nat) (ls : list nat) : list nat :=
  map (fun m => nth (level_of ord m) ls 0) (seq 0 (length ord)).

(** What the iterator of a tensor yields (tensor.h 164-369, and the helper kernel
    "iterate", tensor.cpp 971-975 and 995): the stored components in the order of
    storage, with the coordinates in the order of the modes.  Iterate.v models the
    kernel and the iterator; C05 is about them. *)
Definition iterate (t : tensor) : list row :=
  map (fun c => (unpermute (t_ord t) (fst c), snd c)) (components (r0 R) (t_store t)).

(** tensor.h 1002-1013, reinsertPackedComponents. *)
Fixpoint insert_all (rows : list row) (t : tensor) : outcome tensor :=
  match rows with
  | [] => Val t
  | r :: rows => do t <- insertUnsynced r t; insert_all rows t
  end.

(** The first [n] entries of the buffer; an entry that is not there cannot be
    read. *)
Fixpoint buffered (n : nat) (slots : list (option row)) : outcome (list row) :=
  match n, slots with
  | O, _ => Val []
  | S n, Some r :: slots => do l <- buffered n slots; Val (r :: l)
  | S _, _ => Oob
  end.

(** tensor.cpp 297-431, pack. *)
Definition pack_tensor (t : tensor) : outcome tensor :=
  if negb (t_needs t) then Val t
  else
    do t <- (if t_never t then Val (with_flags t false false)
             else insert_all (iterate t) (with_flags t false false));
    do rows <- buffered (t_used t) (t_slots t);
    match t_dims t with
    | [] =>
        (* 337-362: the values are added up; coordinateBufferUsed stays *)
        Val (with_store (with_buffer t [] (t_used t)) (mkStorage [] [run_sum R rows]))
    | _ =>
        let rows := sort (map (fun r => (permute (t_ord t) (fst r), snd r)) rows) in
        Val (with_store (with_buffer t [] 0) (pack_kernel R (level_fmt t) rows))
    end.

(** tensor.h 1032-1049, at: the first component with the coordinates, or 0.
    [syncValues] packs first. *)
Fixpoint find_component (cs : list nat) (l : list row) : V :=
  match l with
  | [] => r0 R
  | (c, v) :: l => if list_eq_dec Nat.eq_dec c cs then v else find_component cs l
  end.
Definition at_coords (cs : list nat) (t : tensor) : outcome V :=
  do t <- pack_tensor t; Val (find_component cs (iterate t)).

(** A history of calls. *)
Inductive call := Insert (cs : list nat) (v : V) | Pack | Reserve (n : nat).
Definition do_call (c : call) (t : tensor) : outcome tensor :=
  match c with
  | Insert cs v => insert (cs, v) t
  | Pack => pack_tensor t
  | Reserve n => Val (reserve n t)
  end.
Fixpoint run (cs : list call) (t : tensor) : outcome tensor :=
  match cs with
  | [] => Val t
  | c :: cs => do t <- do_call c t; run cs t
  end.

(** tensor.h 1235-1255, transpose: a new tensor with the modes in the order
    [modes], filled from the iterator. *)
Definition transpose (modes : list nat) (kinds : list kind) (ord : list nat) (t : tensor)
  : outcome tensor :=
  do t <- pack_tensor t;
  run (map (fun c : row => Insert (permute modes (fst c)) (snd c)) (iterate t) ++ [Pack])
      (new_tensor (permute modes (t_dims t)) kinds ord).

(** tensor.cpp 465-470, setStorage, on a new tensor: [neverPacked] stays set. *)
Definition wrap (dims : list nat) (kinds : list kind) (ord : list nat) (s : storage V) : tensor :=
  with_flags (with_store (new_tensor dims kinds ord) s) true false.

(** tensor.h 787-800, makeCSR from vectors, with index.cpp 115-118. *)
Definition makeCSR (dims : list nat) (rowptr colidx : list nat) (vals : list V) : tensor :=
  wrap dims [KDense; KComp] [0; 1]
       (mkStorage [LDense (length rowptr - 1); LComp rowptr colidx] vals).
(** tensor.h 773-785, makeCSR from pointers, with index.cpp 109-113: the lengths of
    the arrays are read from the arrays, Index::getSize (Storage.v). *)
Definition makeCSR_ptr (dims : list nat) (rowptr colidx : list nat) (vals : list V) : tensor :=
  let n := nth 0 dims 0 in
  let ls := [LDense n; LComp (firstn (n + 1) rowptr) (firstn (nth n rowptr 0) colidx)] in
  wrap dims [KDense; KComp] [0; 1] (mkStorage ls (firstn (getSize ls) vals)).
(** tensor.h 838-851, makeCSC from vectors, with index.cpp 126-129; CSC stores the
    columns first (format.cpp, ModeOrdering {1,0}). *)
Definition makeCSC (dims : list nat) (colptr rowidx : list nat) (vals : list V) : tensor :=
  wrap dims [KDense; KComp] [1; 0]
       (mkStorage [LDense (length colptr - 1); LComp colptr rowidx] vals).
(** tensor.h 823-836, makeCSC from pointers, with index.cpp 120-124. *)
Definition makeCSC_ptr (dims : list nat) (colptr rowidx : list nat) (vals : list V) : tensor :=
  let n := nth 1 dims 0 in
  let ls := [LDense n; LComp (firstn (n + 1) colptr) (firstn (nth n colptr 0) rowidx)] in
  wrap dims [KDense; KComp] [1; 0] (mkStorage ls (firstn (getSize ls) vals)).
(** tensor.h 802-820, getCSRArrays (getCSCArrays, 853-871, is the same). *)
Definition getArrays (t : tensor) : option (list nat * list nat * list V) :=
  match st_levels (t_store t) with
  | [_; LComp pos crd] => Some (pos, crd, st_vals (t_store t))
  | _ => None
  end.

(** tensor.h 1257-1270, removeExplicitFillValues: a new tensor filled from the
    iterator with insertUnchecked (986-1000, insertUnsynced without its checks).
    [is_value] compares with the given value. *)
Definition removeExplicit (is_value : V -> bool) (kinds : list kind) (ord : list nat) (t : tensor)
  : outcome tensor :=
  do t <- pack_tensor t;
  do n <- insert_all (filter (fun c : row => negb (is_value (snd c))) (iterate t))
                     (new_tensor (t_dims t) kinds ord);
  pack_tensor n.

(** tensor.cpp 1056-1103, equalsTyped, on the sequences of the two iterators.
    [isZero] is 1022-1036 and [scalarEquals] 1038-1054. *)
Variable isZero : V -> bool.
Variable scalarEquals : V -> V -> bool.
Fixpoint equals_seq (a : list row) : list row -> bool :=
  fix go (b : list row) : bool :=
    match a, b with
    | [], _ => forallb (fun c : row => isZero (snd c)) b
    | _, [] => forallb (fun c : row => isZero (snd c)) a
    | (ca, va) :: a', (cb, vb) :: b' =>
        if list_eq_dec Nat.eq_dec ca cb
        then if scalarEquals va vb then equals_seq a' b' else false
        else if isZero va then equals_seq a' b
        else if isZero vb then go b'
        else false
    end.
(** tensor.cpp 1105-1151, equals, for tensors of one component type and fill value.
    The iterators pack first. *)
Definition tensors_equal (a b : tensor) : outcome bool :=
  do a <- pack_tensor a; do b <- pack_tensor b;
  Val ((if list_eq_dec Nat.eq_dec (t_dims a) (t_dims b) then true else false) &&
       equals_seq (iterate a) (iterate b)).

End Tensor.

(** scalarEquals (tensor.cpp 1038-1045) on integers, [(a - b) / a] compared with
    10e-6.  Simplified: the quotient is not rounded.  0 / 0 is not a number, which is
    not greater than 10e-6. *)
Definition scalarEqualsZ (a b : Z) : bool :=
  if (a =? 0)%Z then (b =? 0)%Z else (Z.abs (a - b) * 100000 <=? Z.abs a)%Z.
Definition isZeroZ (a : Z) : bool := (a =? 0)%Z.
