(** Results whose stored levels append coordinates, with branchless levels.

    Models how the lowerer assembles a result all of whose levels append
    coordinates: compressed levels, and singleton levels, which are
    "branchless": each position has one child.  The coordinate format COO is a
    compressed level that is not unique followed by singleton levels.
    A level above a branchless level shares that level's position variable.

    Modelled: src/lower/lowerer_impl_imperative.cpp
      3055-3137 (result arrays before all loops), 3157-3201 (values after all
      loops), 3229-3281 (before the loop of a level), 3311-3345 (values of a
      leaf), 3749-3796 (appending coordinates), 3799-3823 (appending
      positions); src/lower/mode_format_compressed.cpp 107-190;
      src/lower/mode_format_singleton.cpp 74-124;
      src/ir/ir_generators.cpp 32-48 (doubling an array).
    Simplified: dense levels are left out (SparseKernel.v and AppendRows.v
    model them with compressed levels).  The loops of the kernel are given by
    a tree: the coordinates each loop visits, in order, and what is done
    below.  The capacity variable of an array is the length of the array,
    since the code changes both together.  Array-of-structs packs are left
    out: src/format.cpp 412 refuses them. *)

From Coq Require Import List Arith Bool Lia.
Import ListNotations.

Section Coo.
Context {V : Type} (zero : V).

(** A level that appends coordinates and whether it is declared unique.
    include/taco/format.h ModeFormat::Compressed and ModeFormat::Singleton *)
Inductive kind := Comp (unique : bool) | Sing (unique : bool).

(** [Iterator::isBranchless]: only singleton levels are,
    src/lower/iterator.cpp 200-204, src/lower/mode_format_singleton.cpp 16-23,
    compressed ones are not, src/lower/mode_format_compressed.cpp 16-23 *)
Definition branchless (k : kind) : bool :=
  match k with Comp _ => false | Sing _ => true end.

Definition is_unique (k : kind) : bool :=
  match k with Comp u => u | Sing u => u end.

(** The loops of the kernel below one point: the coordinates visited in order,
    or the value computed.  Simplification described above. *)
Inductive tree := Leaf (v : V) | Node (ts : list (nat * tree)).

Definition kids (t : tree) : list (nat * tree) :=
  match t with Leaf _ => [] | Node ts => ts end.
Definition value (t : tree) : V :=
  match t with Leaf v => v | Node _ => zero end.

(** Outcome of making and running a kernel.  [Undeclared]: the C text uses a
    position variable it does not declare, so it is not C.  [Refused]: an
    internal assertion of the lowerer.  [Bad]: an access outside an array. *)
Inductive res (A : Type) := Ok (a : A) | Undeclared | Refused | Bad.
Arguments Ok {A} a. Arguments Undeclared {A}. Arguments Refused {A}. Arguments Bad {A}.

Definition bind {A B} (x : res A) (f : A -> res B) : res B :=
  match x with Ok a => f a | Undeclared => Undeclared | Refused => Refused | Bad => Bad end.

(** An array of the result: as many cells as are allocated, those not yet
    written hold nothing. *)
Definition arr (A : Type) := list (option A).

Definition aget {A} (a : arr A) (i : nat) : option A :=
  match nth_error a i with Some (Some x) => Some x | _ => None end.

Fixpoint put {A} (a : arr A) (i : nat) (x : A) : arr A :=
  match a, i with
  | [], _ => []
  | _ :: a, 0 => Some x :: a
  | y :: a, S i => y :: put a i x
  end.

Definition aset {A} (a : arr A) (i : nat) (x : A) : res (arr A) :=
  if i <? length a then Ok (put a i x) else Bad.

(** A realloc. *)
Definition resize {A} (a : arr A) (n : nat) : arr A :=
  firstn n a ++ repeat None (n - length a).

(** [doubleSizeIfFull], src/ir/ir_generators.cpp 32-37 *)
Definition double_if_full {A} (a : arr A) (needed : nat) : arr A :=
  if length a <=? needed then resize a (length a * 2) else a.

(** [atLeastDoubleSizeIfFull], src/ir/ir_generators.cpp 39-48 *)
Definition at_least_double_if_full {A} (a : arr A) (needed : nat) : arr A :=
  if length a <=? needed then resize a (max (length a * 2) (needed + 1)) else a.

(** The variables and arrays of the kernel, by level: position variables,
    begin variables, pos arrays, crd arrays, and the values array.
    src/lower/iterator.cpp 75-97 (one position and one begin variable each) *)
Record state := St {
  pv : nat -> nat;
  bg : nat -> nat;
  pos : nat -> arr nat;
  crd : nat -> arr nat;
  vals : arr V }.

Definition upd {A} (f : nat -> A) (l : nat) (x : A) : nat -> A :=
  fun m => if m =? l then x else f m.

Definition set_pv st l x := St (upd (pv st) l x) (bg st) (pos st) (crd st) (vals st).
Definition set_bg st l x := St (pv st) (upd (bg st) l x) (pos st) (crd st) (vals st).
Definition set_pos st l x := St (pv st) (bg st) (upd (pos st) l x) (crd st) (vals st).
Definition set_crd st l x := St (pv st) (bg st) (pos st) (upd (crd st) l x) (vals st).
Definition set_vals st x := St (pv st) (bg st) (pos st) (crd st) x.

(** How many branchless levels follow directly. *)
Fixpoint run (ks : list kind) : nat :=
  match ks with
  | k :: ks => if branchless k then S (run ks) else 0
  | [] => 0
  end.

Section Kernel.
(** The levels of the result, and the initial size of growing arrays
    (DEFAULT_ALLOC_SIZE, include/taco/lower/mode_format_impl.h 267). *)
Variable K : list kind.
Variable alloc : nat.
(** Whether the kernel also computes values. *)
Variable compute : bool.

Definition branchless_at (l : nat) : bool :=
  match nth_error K l with Some k => branchless k | None => false end.
Definition unique_at (l : nat) : bool :=
  match nth_error K l with Some k => is_unique k | None => false end.

(** The level whose position variable a level uses: go down while the child is
    branchless.  src/lower/lowerer_impl_imperative.cpp 3250-3256, 3808-3815 *)
Definition shared (l : nat) : nat := l + run (skipn (S l) K).

(** Position variables are declared for levels that are leaves or whose child
    is not branchless.
    src/lower/lowerer_impl_imperative.cpp 3091-3097 *)
Definition declared (l : nat) : bool := (l <? length K) && negb (branchless_at (S l)).

(** The guard of appending to a level reads the position variable of its
    child, if the level appends at all and has a child.
    src/lower/lowerer_impl_imperative.cpp 3754-3759, 3784-3791 *)
Definition guard_declared (l : nat) : bool :=
  if branchless_at (S l) then true
  else if S l <? length K then declared (S l) else true.

(** A branchless level must have a parent that is not unique.
    src/lower/lowerer_impl_imperative.cpp 3765-3777 *)
Definition parent_accepted (l : nat) : bool :=
  match l with
  | 0 => true
  | S m => if branchless_at l then negb (unique_at m) else true
  end.

Definition all_levels (f : nat -> bool) : bool := forallb f (seq 0 (length K)).

(** The position of the parent: the root has position 0.
    src/lower/iterator.cpp 68-73, 136-139 *)
Definition parent_pos (st : state) (l : nat) : nat :=
  match l with 0 => 0 | S m => pv st m end.

(** Code before the loop of a level: declare its begin variable, make room for
    its edges.  The edges of a top level have room from the start
    (src/lower/mode_format_compressed.cpp 135-155: the position is a literal).
    Singletons have no edges.
    src/lower/lowerer_impl_imperative.cpp 3229-3281 *)
Definition before (l : nat) (st : state) : state :=
  if branchless_at l then st
  else
    let st := set_bg st l (pv st (shared l)) in
    match l with
    | 0 => st
    | S m => set_pos st l (double_if_full (pos st l) (pv st m + 1))
    end.

(** Code after the loop of a level: append its edge.
    src/lower/lowerer_impl_imperative.cpp 3799-3823,
    src/lower/mode_format_compressed.cpp 122-129 (the parent appends or is the
    root, so the end is stored, not the count) *)
Definition after (l : nat) (st : state) : res state :=
  if branchless_at l then Ok st
  else bind (aset (pos st l) (parent_pos st l + 1) (pv st (shared l)))
            (fun a => Ok (set_pos st l a)).

(** [getAppendCoord]: make room and store.
    src/lower/mode_format_compressed.cpp 107-120,
    src/lower/mode_format_singleton.cpp 90-105 *)
Definition append_coord (l p c : nat) (st : state) : res state :=
  let a := if branchless_at l then at_least_double_if_full (crd st l) p
           else double_if_full (crd st l) p in
  bind (aset a p c) (fun a => Ok (set_crd st l a)).

(** Append the coordinates of a level and, while the level is branchless, of
    its parent.  src/lower/lowerer_impl_imperative.cpp 3763-3780 *)
Fixpoint append_up (co : nat -> nat) (p l : nat) (st : state) : res state :=
  bind (append_coord l p (co l) st) (fun st =>
    match l with
    | 0 => Ok st
    | S m => if branchless_at l then append_up co p m st else Ok st
    end).

(** [appendCoordinate] when assembling.
    src/lower/lowerer_impl_imperative.cpp 3749-3796 *)
Definition append_coordinate (co : nat -> nat) (l : nat) (st : state) : res state :=
  if branchless_at (S l) then Ok st
  else
    let code := bind (append_up co (pv st l) l st)
                     (fun st => Ok (set_pv st l (pv st l + 1))) in
    if S l <? length K then
      if bg st (S l) <? pv st (S l) then code else Ok st
    else code.

(** The value of a leaf: double the values array if it is full, store.
    src/lower/lowerer_impl_imperative.cpp 3311-3345 *)
Definition store_value (l : nat) (t : tree) (st : state) : res state :=
  if compute then
    bind (aset (double_if_full (vals st) (pv st l)) (pv st l) (value t))
         (fun a => Ok (set_vals st a))
  else Ok st.

Definition fold_res {A} (f : A -> state -> res state) : list A -> state -> res state :=
  fix go xs st := match xs with [] => Ok st | x :: xs => bind (f x st) (go xs) end.

(** The loop of level [l]; [ks] are the levels from [l] on. *)
Fixpoint level (ks : list kind) (l : nat) (co : nat -> nat) (t : tree) (st : state)
    {struct ks} : res state :=
  match ks with
  | [] => store_value (l - 1) t st
  | _ :: rest =>
      bind (fold_res (fun ct st =>
              let co := upd co l (fst ct) in
              bind (level rest (S l) co (snd ct) st) (append_coordinate co l))
            (kids t) (before l st))
        (after l)
  end.

(** The arrays before all loops: the pos array of a level below the root has
    two cells, others the initial size, and the first cell is 0; crd arrays
    and values have the initial size.
    src/lower/mode_format_compressed.cpp 157-190,
    src/lower/mode_format_singleton.cpp 111-124,
    src/lower/lowerer_impl_imperative.cpp 3104-3117 *)
Definition init : state :=
  St (fun _ => 0) (fun _ => 0)
     (fun l => match l with 0 => [Some 0; None] | S _ => Some 0 :: repeat None (alloc - 1) end)
     (fun _ => repeat None alloc)
     (repeat None alloc).

(** The kernel that assembles the result, and computes it if [compute]. *)
Definition kernel (t : tree) : res state :=
  if negb (all_levels parent_accepted) then Refused
  else if negb (all_levels guard_declared) then Undeclared
  else level K 0 (fun _ => 0) t init.

End Kernel.

(** The compute kernel run on an index that is already assembled: only the
    position variable of the last level is declared and counted, and values
    are stored there, in an array of the size the index has.
    src/lower/lowerer_impl_imperative.cpp 3119-3137, 3781-3783, 3193-3201
    (the assemble kernel allocates the values) *)
Fixpoint compute_level (n : nat) (t : tree) (pa : nat * arr V) : res (nat * arr V) :=
  match n with
  | 0 => bind (aset (snd pa) (fst pa) (value t)) (fun a => Ok (S (fst pa), a))
  | S n =>
      (fix go ts pa := match ts with
       | [] => Ok pa
       | ct :: ts => bind (compute_level n (snd ct) pa) (go ts)
       end) (kids t) pa
  end.

Definition compute_kernel (K : list kind) (st : state) (t : tree) : res (arr V) :=
  bind (compute_level (length K) t (0, repeat None (pv st (length K - 1))))
       (fun pa => Ok (snd pa)).

End Coo.

Arguments tree : clear implicits.
Arguments state : clear implicits.
Arguments Ok {A} a. Arguments Undeclared {A}. Arguments Refused {A}. Arguments Bad {A}.
