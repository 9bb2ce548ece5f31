(** What a raw tensor structure and a tensor storage hold, for the theorems about
    kernels (C80). *)
From Coq Require Import List Arith ZArith.
From Verif Require Import Kernels.
Import ListNotations.
Local Open Scope nat_scope.

(** The content of a level: a size, or positions and coordinates. *)
Inductive content := CDense (size : nat) | CSparse (pos crd : list Z).

(** The memory at a raw structure's pointers holds the levels [cs] under [n] positions, and
    they end in [k] positions. *)
Inductive stored_levels (m : memory) : list klevel -> list ptrs -> nat -> list content -> nat -> Prop :=
  | stored_none : forall n, stored_levels m [] [] n [] n
  | stored_dense : forall ls ps p n d rest cs k,
      block m (fst p) = Some (Z.of_nat d :: rest) ->
      stored_levels m ls ps (n * d) cs k ->
      stored_levels m (KDense :: ls) (p :: ps) n (CDense d :: cs) k
  | stored_sparse : forall ls ps p n pos crd more1 more2 cs k,
      block m (fst p) = Some (pos ++ more1) -> block m (snd p) = Some (crd ++ more2) ->
      length pos = n + 1 -> nth_error pos n = Some (Z.of_nat (length crd)) ->
      stored_levels m ls ps (length crd) cs k ->
      stored_levels m (KSparse :: ls) (p :: ps) n (CSparse pos crd :: cs) k.
(** ... and one value for each of these positions. *)
Definition stored (m : memory) (ls : list klevel) (r : raw) (cs : list content) (vs : list Z) : Prop :=
  stored_levels m ls (r_indices r) 1 cs (length vs) /\
  exists more, block m (r_vals r) = Some (vs ++ more).

(** What the user reads in an array: [None] if some of it does not exist. *)
Definition array_contents (m : memory) (a : arr) : option (list Z) :=
  match block m (a_data a) with
  | Some b => if a_size a <=? length b then Some (firstn (a_size a) b) else None
  | None => None
  end.
(** What the user reads in the index and the values of a storage. *)
Fixpoint reads_levels (m : memory) (ls : list klevel) (index : list (list arr)) (cs : list content) : Prop :=
  match ls, index, cs with
  | [], [], [] => True
  | KDense :: ls, [a] :: index, CDense d :: cs =>
      array_contents m a = Some [Z.of_nat d] /\ reads_levels m ls index cs
  | KSparse :: ls, [a; b] :: index, CSparse pos crd :: cs =>
      array_contents m a = Some pos /\ array_contents m b = Some crd /\ reads_levels m ls index cs
  | _, _, _ => False
  end.
Definition reads (m : memory) (s : sto) (cs : list content) (vs : list Z) : Prop :=
  reads_levels m (k_levels s) (k_index s) cs /\ array_contents m (k_values s) = Some vs.

(** The blocks that are freed when the arrays of a storage are destroyed. *)
Definition owned_by (a : arr) : list nat :=
  if a_free a then match a_data a with Some p => [p] | None => [] end else [].
Definition owned (s : sto) : list nat := flat_map owned_by (concat (k_index s) ++ [k_values s]).

(** The pointers of a raw structure, and those that a storage takes over: all but the
    ones to the sizes of dense levels. *)
Definition pointers (r : raw) : list (option nat) :=
  flat_map (fun p => [fst p; snd p]) (r_indices r) ++ [r_vals r].
Fixpoint kept_levels (ls : list klevel) (ps : list ptrs) : list (option nat) :=
  match ls, ps with
  | KDense :: ls, _ :: ps => kept_levels ls ps
  | _ :: ls, p :: ps => fst p :: snd p :: kept_levels ls ps
  | _, _ => []
  end.
Definition kept (ls : list klevel) (r : raw) : list (option nat) := kept_levels ls (r_indices r) ++ [r_vals r].

(** The arrays a kernel leaves in its results are new: none of them is freed together with
    what the results held before. *)
Definition new_arrays (m : memory) (stos : list sto) (results : list nat) : Prop :=
  forall h s, In h results -> nth_error stos h = Some s ->
    (forall p, In p (owned s) -> p < length m) /\
    (forall p, In (Some p) (kept (k_levels s) (k_raw s)) -> ~ In p (owned s)) /\
    (forall p h' s', In (Some p) (pointers (k_raw s)) -> In h' results -> h' <> h ->
       nth_error stos h' = Some s' -> ~ In p (owned s')).

(** Two storages have the same format, index arrays and values. *)
Definition same_arrays (s s' : sto) : Prop :=
  k_levels s = k_levels s' /\ k_index s = k_index s' /\ k_values s = k_values s'.

(** The sizes of the levels fit together: [n] positions above, [k] below. *)
Fixpoint sized (cs : list content) (n k : nat) : Prop :=
  match cs with
  | [] => n = k
  | CDense d :: cs => sized cs (n * d) k
  | CSparse pos crd :: cs =>
      length pos = n + 1 /\ nth_error pos n = Some (Z.of_nat (length crd)) /\ sized cs (length crd) k
  end.
(** The raw structure of a storage has pointers for each level. *)
Definition has_levels (s : sto) : Prop := length (r_indices (k_raw s)) = length (k_levels s).
