(** Properties C01, C02: packing. *)
From Coq Require Import List Arith Lia Bool Sorting.Sorted.
From Verif Require Import Storage StorageProofs StorageMore.
Import ListNotations.

(** C01. Reading back any in-range coordinate of a packed tensor gives the value
    of the (first) component with that coordinate, or the fill value. *)
Theorem C01_pack_read_back : forall (V : Type) fmt (fill : V) (rows : list (list nat * V)) cs,
  packable (dims_of fmt) rows -> in_range (dims_of fmt) cs ->
  value_at fill (pack fmt fill rows) cs = row_value fill rows cs.
Proof. exact @pack_value_at. Qed.
Print Assumptions C01_pack_read_back.

(** C01. The stored components are listed in strictly increasing lexicographic
    order; a coordinate is stored iff some input component agrees with it up to
    the last compressed level (always, if there is no compressed level). *)
Theorem C01_pack_components_exact : forall (V : Type) fmt (fill : V) (rows : list (list nat * V)),
  packable (dims_of fmt) rows ->
  StronglySorted lexlt (map fst (components fill (pack fmt fill rows))) /\
  forall cs v,
    In (cs, v) (components fill (pack fmt fill rows)) <->
    in_range (dims_of fmt) cs /\
    (comp_depth fmt = 0 \/
     exists r, In r rows /\ firstn (comp_depth fmt) (fst r) = firstn (comp_depth fmt) cs) /\
    v = row_value fill rows cs.
Proof. exact @pack_components. Qed.
Print Assumptions C01_pack_components_exact.

(** C01. With compressed levels only, the stored components are the input. *)
Theorem C01_pack_components_compressed : forall (V : Type) fmt (fill : V) (rows : list (list nat * V)),
  fmt <> [] -> (forall kd, In kd fmt -> fst kd = KComp) ->
  (forall r, In r rows -> in_range (dims_of fmt) (fst r)) ->
  StronglySorted lexlt (map fst rows) ->
  components fill (pack fmt fill rows) = rows.
Proof. exact @pack_components_compressed. Qed.
Print Assumptions C01_pack_components_compressed.

(** C02. The packed index is well formed, ... *)
Theorem C02_pack_well_formed : forall (V : Type) fmt (fill : V) (rows : list (list nat * V)),
  packable (dims_of fmt) rows -> wf_storage (dims_of fmt) (pack fmt fill rows).
Proof. exact @pack_wf. Qed.
Print Assumptions C02_pack_well_formed.

(** ... its size query returns the number of values, ... *)
Theorem C02_pack_size : forall (V : Type) fmt (fill : V) (rows : list (list nat * V)),
  packable (dims_of fmt) rows ->
  getSize (st_levels (pack fmt fill rows)) = length (st_vals (pack fmt fill rows)).
Proof.
  exact (fun V fmt fill rows H => wf_storage_getSize (dims_of fmt) _ (pack_wf fmt fill rows H)).
Qed.
Print Assumptions C02_pack_size.

(** ... and the values written fit in the buffer allocated before packing. *)
Theorem C02_pack_buffer_bound : forall (V : Type) fmt (fill : V) (rows : list (list nat * V)),
  packable (dims_of fmt) rows ->
  length (st_vals (pack fmt fill rows)) <= max_size fmt (length rows).
Proof. exact @pack_max_size. Qed.
Print Assumptions C02_pack_buffer_bound.

(** The hypotheses are met by a dense-compressed-dense tensor with an empty row. *)
Example C01_C02_nontrivial :
  let fmt := [(KDense, 3); (KComp, 4); (KDense, 2)] in
  let rows := [([0; 1; 0], 5); ([0; 3; 1], 6); ([2; 0; 0], 7)] in
  packable (dims_of fmt) rows /\
  pack fmt 0 rows =
    mkStorage [LDense 3; LComp [0; 2; 2; 3] [1; 3; 0]; LDense 2] [5; 0; 0; 6; 7; 0] /\
  value_at 0 (pack fmt 0 rows) [0; 3; 1] = 6 /\ value_at 0 (pack fmt 0 rows) [1; 3; 1] = 0.
Proof.
  split; [|vm_compute; auto].
  split.
  - intros r H. simpl in H. unfold in_range.
    repeat (destruct H as [<-|H]; [repeat constructor|]). contradiction.
  - repeat constructor; simpl; lia.
Qed.
