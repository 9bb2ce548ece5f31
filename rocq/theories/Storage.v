(** Model of tensor storage and of packing.
    Coordinates, positions and dimensions are [nat]: they are C ints that are
    never negative here, and overflow is not modelled. *)
From Coq Require Import List Arith Lia Bool.
Import ListNotations.

(** Level kinds that /repo/src/storage/pack.cpp supports (lines 71-105); any
    other mode format reaches taco_not_supported_yet. *)
Inductive kind := KDense | KComp.

(** One mode index: /repo/src/storage/pack.cpp 170-187 and
    /repo/src/storage/index.cpp (class ModeIndex).  A dense mode stores its
    size, a compressed mode the pos and crd arrays. *)
Inductive level :=
| LDense (dim : nat)
| LComp (pos crd : list nat).

(** A packed tensor: /repo/include/taco/storage/storage.h.  The levels are in
    storage order (mode ordering already applied). *)
Record storage (V : Type) := mkStorage { st_levels : list level; st_vals : list V }.
Arguments mkStorage {V} _ _.
Arguments st_levels {V} _.
Arguments st_vals {V} _.

Section Pack.
Context {V : Type}.

(** A row of the coordinate buffers: one coordinate per level, and the value.
    pack.cpp keeps a structure of arrays ([coords], [vals]); a range
    [begin,end) of it is represented by the list of rows in that range, with
    the coordinates of the levels above already dropped. *)
Definition row : Type := (list nat * V)%type.

Definition row_head (r : row) : nat := match fst r with c :: _ => c | [] => 0 end.
Definition row_tail (r : row) : row := (tl (fst r), snd r).

(** pack.cpp 82-86 and 100-103: scan [cend] forward while the coordinate equals
    [j]; returns rows [cbegin,cend) and [cend,end). *)
Fixpoint scan (j : nat) (rows : list row) : list row * list row :=
  match rows with
  | r :: rest =>
      if row_head r =? j then let (s, t) := scan j rest in (r :: s, t)
      else ([], rows)
  | [] => ([], [])
  end.

(** pack.cpp 37-56, getUniqueEntries: the distinct entries of a sorted range.
    [unique_from prev l] is the loop body with the previous entry [prev]. *)
Fixpoint unique_from (prev : nat) (l : list nat) : list nat :=
  match l with
  | [] => []
  | curr :: rest =>
      if prev <? curr then curr :: unique_from curr rest else unique_from prev rest
  end.

Definition getUniqueEntries (l : list nat) : list nat :=
  match l with [] => [] | x :: rest => x :: unique_from x rest end.

(** The arrays under construction: [indices] ([pos],[crd] per level, unused for
    dense levels) and the values written so far ([values] up to valuesIndex). *)
Definition pstate : Type := (list (list nat * list nat) * list V)%type.

(** The loop common to the dense branch (pack.cpp 77-89, with
    [js = 0..dim-1]) and the sparse branch (97-106, with [js] the unique
    entries): scan the segment of each [j] and descend. *)
Fixpoint pack_loop (descend : list row -> pstate -> pstate)
         (js : list nat) (rows : list row) (st : pstate) : pstate :=
  match js with
  | [] => st
  | j :: js =>
      let (seg, rest) := scan j rows in
      pack_loop descend js rest (descend (map row_tail seg) st)
  end.

(** pack.cpp 61-109, packTensor, with PACK_NEXT_LEVEL (18-33) folded in: the
    empty list of levels is the case [i + 1 == modeTypes.size()], which writes
    the first value of the range, or the fill value if the range is empty. *)
Fixpoint packTensor (fmt : list (kind * nat)) (fill : V)
         (rows : list row) (st : pstate) : pstate :=
  match fmt with
  | [] =>
      (fst st, snd st ++ [match rows with r :: _ => snd r | [] => fill end])
  | (KDense, dim) :: fmt' =>
      match fst st with
      | hd :: tl =>
          let (idx, vals) := pack_loop (packTensor fmt' fill) (seq 0 dim) rows (tl, snd st) in
          (hd :: idx, vals)
      | [] => st
      end
  | (KComp, _) :: fmt' =>
      match fst st with
      | (pos, crd) :: tl =>
          let u := getUniqueEntries (map row_head rows) in
          let pos := pos ++ [length crd + length u] in
          let crd := crd ++ u in
          let (idx, vals) := pack_loop (packTensor fmt' fill) u rows (tl, snd st) in
          ((pos, crd) :: idx, vals)
      | [] => st
      end
  end.

(** pack.cpp 142-162: initial arrays; compressed levels start with pos = {0}. *)
Definition init_indices (fmt : list (kind * nat)) : list (list nat * list nat) :=
  map (fun kd => match fst kd with KDense => ([], []) | KComp => ([0], []) end) fmt.

(** pack.cpp 142-163: the number of value slots allocated before packing. *)
Definition max_size (fmt : list (kind * nat)) (numCoordinates : nat) : nat :=
  fold_left (fun m kd => match fst kd with
                         | KDense => m * snd kd
                         | KComp => numCoordinates end) fmt 1.

(** pack.cpp 170-187: wrap the arrays as mode indices. *)
Fixpoint mk_levels (fmt : list (kind * nat)) (idx : list (list nat * list nat)) : list level :=
  match fmt, idx with
  | (KDense, d) :: fmt, _ :: idx => LDense d :: mk_levels fmt idx
  | (KComp, _) :: fmt, (pos, crd) :: idx => LComp pos crd :: mk_levels fmt idx
  | _, _ => []
  end.

(** pack.cpp 122-196, pack.  The coordinates must be sorted (comment at 119). *)
Definition pack (fmt : list (kind * nat)) (fill : V) (rows : list row) : storage V :=
  let (idx, vals) := packTensor fmt fill rows (init_indices fmt, []) in
  mkStorage (mk_levels fmt idx) vals.

(** /repo/src/storage/index.cpp 53-67, Index::getSize. *)
Definition getSize (ls : list level) : nat :=
  fold_left (fun size l => match l with
                           | LDense d => size * d
                           | LComp pos _ => nth size pos 0 end) ls 1.

End Pack.

(** ** Specification side: how a packed index denotes a tensor. *)

(** Position of coordinate [c] in [crd] positions [b, b+n). *)
Fixpoint find_crd (crd : list nat) (c b n : nat) : option nat :=
  match n with
  | O => None
  | S n => match nth_error crd b with
           | Some x => if x =? c then Some b else find_crd crd c (S b) n
           | None => None
           end
  end.

(** Position reached from position [p] by following coordinates down the
    levels. *)
Fixpoint locate (ls : list level) (p : nat) (cs : list nat) : option nat :=
  match ls, cs with
  | [], [] => Some p
  | LDense d :: ls, c :: cs => if c <? d then locate ls (p * d + c) cs else None
  | LComp pos crd :: ls, c :: cs =>
      let b := nth p pos 0 in
      let e := nth (S p) pos 0 in
      match find_crd crd c b (e - b) with
      | Some q => locate ls q cs
      | None => None
      end
  | _, _ => None
  end.

(** Value of a tensor at a coordinate; [fill] where nothing is stored. *)
Definition value_at {V} (fill : V) (s : storage V) (cs : list nat) : V :=
  match locate (st_levels s) 0 cs with
  | Some p => nth p (st_vals s) fill
  | None => fill
  end.

(** Well-formedness of an index with [n] positions at the level above. *)
Fixpoint wf_levels (n : nat) (ls : list level) (dims : list nat) (nvals : nat) : Prop :=
  match ls, dims with
  | [], [] => nvals = n
  | LDense d :: ls, dim :: dims => d = dim /\ wf_levels (n * d) ls dims nvals
  | LComp pos crd :: ls, dim :: dims =>
      length pos = S n /\ nth 0 pos 0 = 0 /\ nth n pos 0 = length crd /\
      (forall p, p < n -> nth p pos 0 <= nth (S p) pos 0) /\
      (forall p i j, p < n -> nth p pos 0 <= i -> i < j -> j < nth (S p) pos 0 ->
                     nth i crd 0 < nth j crd 0) /\
      (forall i, i < length crd -> nth i crd 0 < dim) /\
      wf_levels (length crd) ls dims nvals
  | _, _ => False
  end.

Definition wf_storage {V} (dims : list nat) (s : storage V) : Prop :=
  wf_levels 1 (st_levels s) dims (length (st_vals s)).

(** The stored components below position [p], in storage order. *)
Fixpoint enum (ls : list level) (p : nat) : list (list nat * nat) :=
  match ls with
  | [] => [([], p)]
  | LDense d :: ls =>
      flat_map (fun c => map (fun e => (c :: fst e, snd e)) (enum ls (p * d + c))) (seq 0 d)
  | LComp pos crd :: ls =>
      flat_map (fun q => map (fun e => (nth q crd 0 :: fst e, snd e)) (enum ls q))
               (seq (nth p pos 0) (nth (S p) pos 0 - nth p pos 0))
  end.

Definition components {V} (d : V) (s : storage V) : list (list nat * V) :=
  map (fun e => (fst e, nth (snd e) (st_vals s) d)) (enum (st_levels s) 0).
