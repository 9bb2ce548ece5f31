(** What a list of inserted components means. *)
From Coq Require Import List Arith ZArith Lia Bool Sorting.Sorted Permutation.
Import ListNotations.
From Verif Require Import Outcome Storage Eval Compare Tensor.
Local Open Scope nat_scope.

Section Spec.
Context {V : Type}.
Variable R : ring_ops V.

(** The sum of a list of values. *)
Definition sum_values (l : list V) : V := fold_right (radd R) (r0 R) l.

Definition same_coords (a b : list nat) : bool := if list_eq_dec Nat.eq_dec a b then true else false.

(** The sum of the values inserted at coordinate [cs]. *)
Definition inserted_at (rows : list (list nat * V)) (cs : list nat) : V :=
  sum_values (map snd (filter (fun r => same_coords (fst r) cs) rows)).

End Spec.

Section Logical.
Context {V : Type}.
Variable R : ring_ops V.

(** [ord] lists the modes 0..n-1 in some order. *)
Definition mode_order (ord : list nat) (n : nat) : Prop := Permutation ord (seq 0 n).

(** The tensor with storage [s], whose level [l] stores mode [nth l ord]: its value
    at the coordinates [cs], given in the order of the modes. *)
Definition logical (ord : list nat) (s : storage V) (cs : list nat) : V :=
  value_at (r0 R) s (map (fun m => nth m cs 0) ord).

(** What qsort may do with tuples of ints: any reordering after which no entry is
    greater than a later one, for the comparator. *)
Definition sorts (sort : list (list nat * V) -> list (list nat * V)) : Prop :=
  forall n rows, (forall r, In r rows -> length (fst r) = n /\ Forall (fun c => (Z.of_nat c < 2 ^ 31)%Z) (fst r)) ->
    Permutation rows (sort rows) /\
    StronglySorted (fun a b => (lexicographicalCmp (map Z.of_nat a) (map Z.of_nat b) <= 0)%Z) (map fst (sort rows)).

(** The components inserted by a history of calls. *)
Definition inserts (cs : list (@call V)) : list (list nat * V) :=
  flat_map (fun c => match c with Insert cs v => [(cs, v)] | _ => [] end) cs.

(** Formats and dimensions that taco accepts: one level for each mode, dimensions
    are ints. *)
Definition format_ok (dims : list nat) (kinds : list kind) (ord : list nat) : Prop :=
  length kinds = length dims /\ mode_order ord (length dims) /\ Forall (fun d => (Z.of_nat d <= 2 ^ 31)%Z) dims.

(** The storage of a packed tensor: no pending insertions, the levels are those of
    the format, and the arrays are well-formed (Storage.v, wf_storage). *)
Definition is_packed (t : @tensor V) : Prop :=
  format_ok (t_dims t) (t_kinds t) (t_ord t) /\ t_dims t <> [] /\ t_needs t = false /\
  map (fun l => match l with LDense _ => KDense | LComp _ _ => KComp end) (st_levels (t_store t)) = t_kinds t /\
  wf_storage (map (fun m => nth m (t_dims t) 0) (t_ord t)) (t_store t).

(** The value of a packed tensor at coordinates [cs]. *)
Definition tvalue (t : @tensor V) (cs : list nat) : V := logical (t_ord t) (t_store t) cs.

(** Arrays of a matrix in compressed sparse row form with [n] rows and [m] columns:
    row i has the entries rowptr[i] .. rowptr[i+1]-1, with increasing columns. *)
Definition csr_ok (n m : nat) (rowptr colidx : list nat) (vals : list V) : Prop :=
  length rowptr = n + 1 /\ nth 0 rowptr 0 = 0 /\ nth n rowptr 0 = length colidx /\ length vals = length colidx /\
  (forall i, i < n -> nth i rowptr 0 <= nth (i + 1) rowptr 0) /\
  (forall k, k < length colidx -> nth k colidx 0 < m) /\
  (forall i k, i < n -> nth i rowptr 0 <= k -> k + 1 < nth (i + 1) rowptr 0 ->
     nth k colidx 0 < nth (k + 1) colidx 0).

(** The (row, column, value) triples of such arrays. *)
Definition triples (n : nat) (rowptr colidx : list nat) (vals : list V) : list (nat * nat * V) :=
  flat_map (fun i => map (fun k => (i, nth k colidx 0, nth k vals (r0 R)))
                         (seq (nth i rowptr 0) (nth (i + 1) rowptr 0 - nth i rowptr 0)))
           (seq 0 n).

End Logical.

(** The mode orders [back] and [modes] of [n] modes are inverse to each other. *)
Definition undoes (back modes : list nat) (n : nat) : Prop :=
  mode_order back n /\ mode_order modes n /\ forall m, m < n -> nth (nth m back 0) modes 0 = m.

(** Lexicographic order of tuples of integers: at the first place where they
    differ, the first is smaller. *)
Definition smaller (a b : list Z) : Prop :=
  exists p x y s t, a = p ++ x :: s /\ b = p ++ y :: t /\ (x < y)%Z.
Definition coordinate (z : Z) : Prop := (0 <= z < 2 ^ 31)%Z.
