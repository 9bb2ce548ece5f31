(** Properties C03, C04, C06, C07, C08, C51: the tensor API. *)
From Coq Require Import List Arith ZArith Lia Bool Sorting.Sorted Permutation Ring_theory.
Import ListNotations.
From Verif Require Import Outcome Storage Eval StorageProofs StorageMore PackKernel Compare Tensor TensorSpec PackKernelProofs TensorProofs TensorMore TensorOps.
Local Open Scope nat_scope.
Local Arguments list_eq_dec : simpl never.

Definition Zops : ring_ops Z := mkOps Z 0%Z 1%Z Z.add Z.mul Z.sub Z.opp.
Lemma Zops_ring : is_ring Zops.
Proof. exact InitialRing.Zth. Qed.

(** ** C03 *)

(** C03. After any sequence of insertions, packings and reservations, and a last
    packing, the tensor holds at each coordinate the sum of the values inserted
    there.  No access is out of bounds.  [sort] is any function that qsort may be. *)
Theorem C03_insertions : forall (V : Type) (R : ring_ops V) sort dims kinds ord (calls : list call),
  is_ring R -> sorts sort -> format_ok dims kinds ord -> dims <> [] ->
  (forall cs v, In (cs, v) (inserts calls) -> in_range dims cs) ->
  exists t, run R sort (calls ++ [Pack]) (new_tensor dims kinds ord) = Val t /\
    is_packed t /\ t_dims t = dims /\ t_kinds t = kinds /\ t_ord t = ord /\
    forall cs, in_range dims cs -> tvalue R t cs = inserted_at R (inserts calls) cs.
Proof.
  intros V R sort dims kinds ord calls HR SORT OK NE IR.
  destruct (history_ok R HR sort SORT dims kinds ord OK NE calls) as (t & E & (D & K & O) & N & NV & W & KK & VAL & _).
  { intros [c v] H. exact (IR c v H). }
  exists t. split; auto. split; [|unfold tvalue; rewrite O; auto].
  unfold is_packed. rewrite D, K, O. auto.
Qed.
Print Assumptions C03_insertions.

(** C03. Two histories that insert the same components, in any order and with
    packings anywhere, into two formats of any level types and mode orders, give
    the same tensor. *)
Theorem C03_order_and_format : forall (V : Type) (R : ring_ops V) sort1 sort2 dims kinds1 ord1 kinds2 ord2 (calls1 calls2 : list call) t1 t2,
  is_ring R -> sorts sort1 -> sorts sort2 -> format_ok dims kinds1 ord1 -> format_ok dims kinds2 ord2 -> dims <> [] ->
  (forall cs v, In (cs, v) (inserts calls1) -> in_range dims cs) ->
  Permutation (inserts calls1) (inserts calls2) ->
  run R sort1 (calls1 ++ [Pack]) (new_tensor dims kinds1 ord1) = Val t1 ->
  run R sort2 (calls2 ++ [Pack]) (new_tensor dims kinds2 ord2) = Val t2 ->
  forall cs, in_range dims cs -> tvalue R t1 cs = tvalue R t2 cs.
Proof.
  intros V R sort1 sort2 dims kinds1 ord1 kinds2 ord2 calls1 calls2 t1 t2 HR S1 S2 OK1 OK2 NE IR PM E1 E2 cs RC.
  destruct (C03_insertions V R sort1 dims kinds1 ord1 calls1) as (u1 & F1 & _ & _ & _ & _ & V1); auto.
  destruct (C03_insertions V R sort2 dims kinds2 ord2 calls2) as (u2 & F2 & _ & _ & _ & _ & V2); auto.
  { intros c v H. apply (IR c v). apply (Permutation_in _ (Permutation_sym PM)). auto. }
  assert (u1 = t1) by congruence. assert (u2 = t2) by congruence. subst.
  rewrite V1, V2 by auto. apply (inserted_perm R HR). auto.
Qed.
Print Assumptions C03_order_and_format.

(** C03. If the last level is compressed then the stored coordinates are the
    inserted ones. *)
Theorem C03_stored_coordinates : forall (V : Type) (R : ring_ops V) sort dims kinds ord (calls : list call) t,
  is_ring R -> sorts sort -> format_ok dims kinds ord -> dims <> [] -> last kinds KDense = KComp ->
  (forall cs v, In (cs, v) (inserts calls) -> in_range dims cs) ->
  run R sort (calls ++ [Pack]) (new_tensor dims kinds ord) = Val t ->
  forall cs, In cs (map fst (iterate R t)) <-> In cs (map fst (inserts calls)).
Proof.
  intros V R sort dims kinds ord calls t HR SORT OK NE LK IR E.
  destruct (history_ok R HR sort SORT dims kinds ord OK NE calls) as (u & F & _ & _ & _ & _ & _ & _ & ST).
  { intros [c v] H. exact (IR c v H). }
  assert (u = t) by congruence. subst u. apply ST.
  unfold fmt. destruct OK as (L & MO & _). rewrite last_comp_depth; auto. rewrite (permute_length _ _ MO). auto.
Qed.
Print Assumptions C03_stored_coordinates.

(** C03. A scalar that is packed once holds the sum of the inserted values. *)
Theorem C03_scalar : forall (V : Type) (R : ring_ops V) sort (calls : list call),
  is_ring R -> (forall c, In c calls -> c <> Pack) -> (forall cs v, In (cs, v) (inserts calls) -> cs = []) ->
  exists t, run R sort (calls ++ [Pack]) (new_tensor [] [] []) = Val t /\ tvalue R t [] = inserted_at R (inserts calls) [].
Proof.
  intros V R sort calls HR NP CS. apply (scalar_ok R HR); auto. intros [c v] H. exact (CS c v H).
Qed.
Print Assumptions C03_scalar.

(** C03, finding. Packing a scalar empties the buffer but not the count of bytes
    used in it: the next insertion writes outside the buffer. *)
Theorem C03_scalar_insert_again_refuted :
  run Zops sort_rows [Insert [] 3%Z; Pack; Insert [] 4%Z] (new_tensor [] [] []) = Oob.
Proof. reflexivity. Qed.
Print Assumptions C03_scalar_insert_again_refuted.

(** C03, finding. A tensor made from arrays counts as never packed: inserting one
    component and packing discards the arrays. *)
Theorem C03_insert_into_wrapped_refuted :
  let m := makeCSR [2; 2] [0; 1; 2] [0; 1] [5%Z; 6%Z] in
  is_packed m /\ tvalue Zops m [0; 0] = 5%Z /\
  exists t, run Zops sort_rows [Insert [0; 1] 7%Z; Pack] m = Val t /\
    tvalue Zops t [0; 1] = 7%Z /\ tvalue Zops t [0; 0] = 0%Z /\ tvalue Zops t [1; 1] = 0%Z.
Proof.
  cbv zeta. split.
  - apply csr_packed; [cbn; lia|cbn; lia|]. unfold csr_ok. cbn [length nth]. repeat split; auto.
    + intros [|[|i]] H; cbn; lia.
    + intros [|[|k]] H; cbn; lia.
    + intros [|[|i]] k H; cbn; lia.
  - split; [reflexivity|]. eexists. split; [vm_compute; reflexivity|]. repeat split.
Qed.
Print Assumptions C03_insert_into_wrapped_refuted.

Example C03_example : sorts (@sort_rows Z) /\ format_ok [3; 4] [KDense; KComp] [1; 0] /\
  exists t, run Zops sort_rows ([Insert [2; 3] 1%Z; Insert [0; 3] 2%Z; Pack; Reserve 3; Insert [2; 3] 10%Z; Insert [1; 0] 4%Z] ++ [Pack])
                (new_tensor [3; 4] [KDense; KComp] [1; 0]) = Val t /\
    iterate Zops t = [([1; 0], 4%Z); ([0; 3], 2%Z); ([2; 3], 11%Z)].
Proof.
  split; [apply sort_rows_sorts|]. split.
  - unfold format_ok, mode_order. cbn. repeat split; auto; [constructor|repeat constructor; lia].
  - eexists. split; [vm_compute; reflexivity|reflexivity].
Qed.

(** ** C04 *)

(** C04. Looking up a coordinate of a packed tensor gives the tensor's value
    there, which is 0 where nothing is stored. *)
Theorem C04_at : forall (V : Type) (R : ring_ops V) sort (t : tensor) cs,
  is_ring R -> is_packed t -> in_range (t_dims t) cs ->
  at_coords R sort cs t = Val (tvalue R t cs) /\
  (In (cs, tvalue R t cs) (iterate R t) \/ ~ In cs (map fst (iterate R t)) /\ tvalue R t cs = r0 R).
Proof.
  intros V R sort t cs HR P RC. split.
  - unfold at_coords. rewrite (p_pack R sort t P). cbn [obind]. rewrite (p_find R t cs P RC). auto.
  - destruct (in_dec (list_eq_dec Nat.eq_dec) cs (map fst (iterate R t))) as [I|I].
    + left. apply (p_in R t P). auto.
    + right. split; auto. rewrite <- (p_value R HR t P cs RC). apply inserted_absent. auto.
Qed.
Print Assumptions C04_at.

(** C04. Looking up after any history, packed or not, gives the sum of what was
    inserted. *)
Theorem C04_at_after_history : forall (V : Type) (R : ring_ops V) sort dims kinds ord (calls : list call) cs,
  is_ring R -> sorts sort -> format_ok dims kinds ord -> dims <> [] ->
  (forall cs v, In (cs, v) (inserts calls) -> in_range dims cs) -> in_range dims cs ->
  exists t, run R sort calls (new_tensor dims kinds ord) = Val t /\
    at_coords R sort cs t = Val (inserted_at R (inserts calls) cs).
Proof.
  intros V R sort dims kinds ord calls cs HR SORT OK NE IR RC.
  destruct (C03_insertions V R sort dims kinds ord calls) as (u & F & P & D & _ & _ & VAL); auto.
  rewrite run_app in F. destruct (run R sort calls (new_tensor dims kinds ord)) as [t| |] eqn:E; try discriminate.
  exists t. split; auto. cbn [obind run do_call] in F. unfold at_coords.
  destruct (pack_tensor R sort t) as [t'| |]; try discriminate. cbn [obind] in *. assert (t' = u) by congruence. subst t'.
  rewrite (p_find R u cs P) by (rewrite D; auto). rewrite VAL; auto.
Qed.
Print Assumptions C04_at_after_history.

(** C04, finding. With a fill value other than 0, the value of the tensor where
    nothing is stored is the fill value, but looking it up gives 0. *)
Theorem C04_fill_value_refuted :
  let t := makeCSR [1; 2] [0; 1] [0] [5%Z] in
  is_packed t /\ value_at 7%Z (t_store t) [0; 1] = 7%Z /\ at_coords Zops sort_rows [0; 1] t = Val 0%Z.
Proof.
  cbv zeta. split; [|split; reflexivity].
  apply csr_packed; [cbn; lia|cbn; lia|]. unfold csr_ok. cbn [length nth]. repeat split; auto.
  - intros [|i] H; cbn; lia.
  - intros [|k] H; cbn; lia.
  - intros [|i] k H; cbn; lia.
Qed.
Print Assumptions C04_fill_value_refuted.

(** ** C06 *)

(** C06. A matrix made from CSR arrays: its components are the triples of the
    arrays in order, its value at (i, j) is that of the triple, or 0. *)
Theorem C06_csr : forall (V : Type) (R : ring_ops V) n m rowptr colidx (vals : list V),
  is_ring R -> (Z.of_nat n <= 2 ^ 31)%Z -> (Z.of_nat m <= 2 ^ 31)%Z -> csr_ok n m rowptr colidx vals ->
  let t := makeCSR [n; m] rowptr colidx vals in
  is_packed t /\ getArrays t = Some (rowptr, colidx, vals) /\
  iterate R t = map (fun x => ([fst (fst x); snd (fst x)], snd x)) (triples R n rowptr colidx vals) /\
  forall i j, i < n -> j < m ->
    tvalue R t [i; j] = inserted_at R (map (fun x => ([fst (fst x); snd (fst x)], snd x)) (triples R n rowptr colidx vals)) [i; j].
Proof.
  intros V R n m rowptr colidx vals HR Bn Bm OK t.
  assert (P : is_packed t).
  { apply csr_packed; auto. }
  assert (I : iterate R t = map (fun x => ([fst (fst x); snd (fst x)], snd x)) (triples R n rowptr colidx vals)).
  { unfold iterate, t, makeCSR. cbn [wrap with_flags with_store new_tensor t_ord t_store].
    rewrite (csr_components R n m rowptr colidx vals OK), map_map. apply map_ext. intros [[i j] v]. reflexivity. }
  split; auto. split; auto. split; auto. intros i j Hi Hj. rewrite <- I. symmetry. apply (p_value R HR t P).
  repeat constructor; auto.
Qed.
Print Assumptions C06_csr.

(** C06. The same arrays taken as CSC describe the transpose. *)
Theorem C06_csc_is_transpose : forall (V : Type) (R : ring_ops V) n m rowptr colidx (vals : list V),
  is_ring R -> (Z.of_nat n <= 2 ^ 31)%Z -> (Z.of_nat m <= 2 ^ 31)%Z -> csr_ok n m rowptr colidx vals ->
  let t := makeCSR [n; m] rowptr colidx vals in
  let u := makeCSC [m; n] rowptr colidx vals in
  is_packed u /\ getArrays u = Some (rowptr, colidx, vals) /\
  iterate R u = map (fun x => ([snd (fst x); fst (fst x)], snd x)) (triples R n rowptr colidx vals) /\
  forall i j, tvalue R u [j; i] = tvalue R t [i; j].
Proof.
  intros V R n m rowptr colidx vals HR Bn Bm OK t u. split; [|split; [|split]]; auto.
  - apply csc_packed; auto.
  - unfold iterate, u, makeCSC. cbn [wrap with_flags with_store new_tensor t_ord t_store].
    rewrite (csr_components R n m rowptr colidx vals OK), map_map. apply map_ext. intros [[i j] v]. reflexivity.
Qed.
Print Assumptions C06_csc_is_transpose.

(** C06. From pointers, only the part of the arrays that the row pointers and
    dimensions cover is used. *)
Theorem C06_pointers : forall (V : Type) n m rowptr colidx (vals : list V) x y z,
  csr_ok n m rowptr colidx vals ->
  makeCSR_ptr [n; m] (rowptr ++ x) (colidx ++ y) (vals ++ z) = makeCSR [n; m] rowptr colidx vals /\
  makeCSC_ptr [m; n] (rowptr ++ x) (colidx ++ y) (vals ++ z) = makeCSC [m; n] rowptr colidx vals.
Proof.
  intros V n m rowptr colidx vals x y z (A & B & C & D & _). unfold makeCSR_ptr, makeCSC_ptr, makeCSR, makeCSC. cbn [nth].
  assert (P : nth n (rowptr ++ x) 0 = length colidx) by (rewrite app_nth1; auto; lia).
  rewrite P, <- A, !firstn_app, !Nat.sub_diag, !firstn_all, !firstn_O, !app_nil_r. rewrite A. replace (n + 1 - 1) with n by lia.
  replace (getSize [LDense n; LComp rowptr colidx]) with (length vals).
  2:{ unfold getSize. cbn. rewrite Nat.add_0_r, C. auto. }
  rewrite !Nat.sub_diag, !firstn_all, !firstn_O, !app_nil_r. auto.
Qed.
Print Assumptions C06_pointers.

(** C06. Transposition permutes the coordinates and keeps the values, into any
    format. *)
Theorem C06_transpose : forall (V : Type) (R : ring_ops V) sort modes kinds ord (t : tensor),
  is_ring R -> sorts sort -> is_packed t -> mode_order modes (length (t_dims t)) ->
  length kinds = length (t_dims t) -> mode_order ord (length (t_dims t)) ->
  exists t', transpose R sort modes kinds ord t = Val t' /\ is_packed t' /\
    t_dims t' = map (fun m => nth m (t_dims t) 0) modes /\
    forall cs, in_range (t_dims t) cs -> tvalue R t' (map (fun m => nth m cs 0) modes) = tvalue R t cs.
Proof.
  intros V R sort modes kinds ord t HR SORT P MM LK MO.
  destruct (transpose_ok R HR sort SORT modes kinds ord t P MM LK MO) as (t' & E & P' & D & _ & _ & VAL). exists t'. auto.
Qed.
Print Assumptions C06_transpose.

(** C06. Transposing twice with inverse orders gives the same values; and the same
    list of components if the last level of the format in between is compressed. *)
Theorem C06_transpose_twice : forall (V : Type) (R : ring_ops V) sort back modes kinds ord (t : tensor),
  is_ring R -> sorts sort -> is_packed t -> undoes back modes (length (t_dims t)) ->
  length kinds = length (t_dims t) -> mode_order ord (length (t_dims t)) ->
  exists t1 t2, transpose R sort modes kinds ord t = Val t1 /\ transpose R sort back (t_kinds t) (t_ord t) t1 = Val t2 /\
    t_dims t2 = t_dims t /\
    (forall cs, in_range (t_dims t) cs -> tvalue R t2 cs = tvalue R t cs) /\
    (last kinds KDense = KComp -> iterate R t2 = iterate R t).
Proof.
  intros V R sort back modes kinds ord t HR SORT P U LK MO.
  destruct (transpose_twice R HR sort SORT back modes kinds ord t P U LK MO) as (t1 & t2 & E1 & E2 & _ & D & _ & _ & VAL & IT).
  exists t1, t2. auto.
Qed.
Print Assumptions C06_transpose_twice.

(** C06, finding. If the last level in between is dense then zeros appear among the
    components. *)
Theorem C06_transpose_twice_dense_refuted :
  let t := makeCSR [2; 2] [0; 1; 1] [0] [5%Z] in
  is_packed t /\ undoes [1; 0] [1; 0] 2 /\
  exists t1 t2, transpose Zops sort_rows [1; 0] [KComp; KDense] [0; 1] t = Val t1 /\
    transpose Zops sort_rows [1; 0] (t_kinds t) (t_ord t) t1 = Val t2 /\
    iterate Zops t = [([0; 0], 5%Z)] /\ iterate Zops t2 = [([0; 0], 5%Z); ([1; 0], 0%Z)].
Proof.
  cbv zeta. split; [|split].
  - apply csr_packed; [cbn; lia|cbn; lia|]. unfold csr_ok. cbn [length nth]. repeat split; auto.
    + intros [|[|i]] H; cbn; lia.
    + intros [|k] H; cbn; lia.
    + intros [|[|i]] k H; cbn; lia.
  - unfold undoes, mode_order. cbn. split; [constructor|]. split; [constructor|]. intros [|[|m]] H; cbn; auto; lia.
  - eexists. eexists. split; [vm_compute; reflexivity|]. split; [vm_compute; reflexivity|]. split; reflexivity.
Qed.
Print Assumptions C06_transpose_twice_dense_refuted.

Example C06_example :
  let rowptr := [0; 2; 2; 3] in let colidx := [0; 3; 1] in let vals := [5; 6; 7]%Z in
  csr_ok 3 4 rowptr colidx vals /\
  iterate Zops (makeCSR [3; 4] rowptr colidx vals) = [([0; 0], 5%Z); ([0; 3], 6%Z); ([2; 1], 7%Z)] /\
  iterate Zops (makeCSC [4; 3] rowptr colidx vals) = [([0; 0], 5%Z); ([3; 0], 6%Z); ([1; 2], 7%Z)] /\
  undoes [2; 0; 1] [1; 2; 0] 3.
Proof.
  cbv zeta. split.
  - unfold csr_ok. cbn [length nth]. repeat split; auto.
    + intros [|[|[|i]]] H; cbn; lia.
    + intros [|[|[|k]]] H; cbn; lia.
    + intros [|[|[|i]]] k H; cbn; try lia. intros _. destruct k; cbn; lia.
  - split; [reflexivity|]. split; [reflexivity|]. unfold undoes, mode_order. cbn. split; [|split].
    + apply Permutation_sym. apply perm_trans with [0; 2; 1]; [constructor; constructor|constructor].
    + apply perm_trans with [1; 0; 2]; [constructor; constructor|constructor].
    + intros [|[|[|m]]] H; cbn; auto; lia.
Qed.

(** ** C07 *)

(** C07. Two tensors with the same dimensions and mode order (and any level types)
    compare equal exactly if their values agree, for the comparison of values, at
    every coordinate.  That comparison must tell 0 from everything else (it does not
    for NaN). *)
Theorem C07_equality : forall (V : Type) (R : ring_ops V) sort (isZero : V -> bool) (scalarEquals : V -> V -> bool) (t u : tensor),
  is_ring R -> (forall v, isZero v = true <-> v = r0 R) -> scalarEquals (r0 R) (r0 R) = true ->
  (forall v, isZero v = false -> scalarEquals (r0 R) v = false /\ scalarEquals v (r0 R) = false) ->
  is_packed t -> is_packed u -> t_dims t = t_dims u -> t_ord t = t_ord u ->
  exists b, tensors_equal R sort isZero scalarEquals t u = Val b /\
    (b = true <-> forall cs, in_range (t_dims t) cs -> scalarEquals (tvalue R t cs) (tvalue R u cs) = true).
Proof. intros V R sort isZero scalarEquals t u HR Z0 S0 SZ. apply equal_ok; auto. Qed.
Print Assumptions C07_equality.

(** C07. Integers: the same values at every coordinate compare equal; and equal
    means the same values if they are below 10^5 in size. *)
Theorem C07_integers : forall sort (t u : tensor),
  is_packed t -> is_packed u -> t_dims t = t_dims u -> t_ord t = t_ord u ->
  (forall cs, in_range (t_dims t) cs -> (Z.abs (tvalue Zops t cs) < 100000)%Z) ->
  exists b, tensors_equal Zops sort isZeroZ scalarEqualsZ t u = Val b /\
    (b = true <-> forall cs, in_range (t_dims t) cs -> tvalue Zops t cs = tvalue Zops u cs).
Proof.
  intros sort t u Pt Pu D O SM.
  destruct (C07_equality Z Zops sort isZeroZ scalarEqualsZ t u) as (b & E & H); auto.
  - exact Zops_ring.
  - intros v. unfold isZeroZ. cbn. apply Z.eqb_eq.
  - intros v H. unfold isZeroZ in H. unfold scalarEqualsZ. cbn. rewrite H. split; auto. apply Z.eqb_neq in H. apply Z.leb_gt. lia.
  - exists b. split; auto. rewrite H. split; intros X cs RC; specialize (X cs RC); specialize (SM cs RC).
    + unfold scalarEqualsZ in X. destruct (Z.eqb_spec (tvalue Zops t cs) 0) as [Z0|Z0].
      * apply Z.eqb_eq in X. congruence.
      * apply Z.leb_le in X. lia.
    + rewrite X. unfold scalarEqualsZ. destruct (Z.eqb_spec (tvalue Zops u cs) 0) as [Z0|Z0]; [auto|].
      rewrite Z.sub_diag. apply Z.leb_le. cbn. lia.
Qed.
Print Assumptions C07_integers.

Definition one_by_one (v : Z) : tensor := makeCSR [1; 1] [0; 1] [0] [v].
Lemma one_by_one_packed : forall v, is_packed (one_by_one v).
Proof.
  intros v. apply csr_packed; [cbn; lia|cbn; lia|]. unfold csr_ok. cbn [length nth]. repeat split; auto.
  - intros [|i] H; cbn; lia.
  - intros [|k] H; cbn; lia.
  - intros [|i] k H; cbn; lia.
Qed.

(** C07, finding. Integers that differ compare equal if they are large; and the
    comparison is neither symmetric nor transitive. *)
Theorem C07_tolerance_refuted :
  (forall v, is_packed (one_by_one v)) /\
  tensors_equal Zops sort_rows isZeroZ scalarEqualsZ (one_by_one 1000000) (one_by_one 1000001) = Val true /\
  tensors_equal Zops sort_rows isZeroZ scalarEqualsZ (one_by_one 200001) (one_by_one 199999) = Val true /\
  tensors_equal Zops sort_rows isZeroZ scalarEqualsZ (one_by_one 199999) (one_by_one 200001) = Val false /\
  tensors_equal Zops sort_rows isZeroZ scalarEqualsZ (one_by_one 100000) (one_by_one 100001) = Val true /\
  tensors_equal Zops sort_rows isZeroZ scalarEqualsZ (one_by_one 100001) (one_by_one 100002) = Val true /\
  tensors_equal Zops sort_rows isZeroZ scalarEqualsZ (one_by_one 100000) (one_by_one 100002) = Val false.
Proof. split; [exact one_by_one_packed|]. repeat split. Qed.
Print Assumptions C07_tolerance_refuted.

(** C07, finding. The same matrix in CSR and in CSC compares unequal. *)
Theorem C07_mode_order_refuted :
  let t := makeCSR [2; 2] [0; 1; 2] [1; 0] [5%Z; 6%Z] in
  let u := makeCSC [2; 2] [0; 1; 2] [1; 0] [6%Z; 5%Z] in
  is_packed t /\ is_packed u /\
  (forall cs, in_range [2; 2] cs -> tvalue Zops t cs = tvalue Zops u cs) /\
  tensors_equal Zops sort_rows isZeroZ scalarEqualsZ t u = Val false.
Proof.
  cbv zeta.
  assert (X : forall vals : list Z, length vals = 2 -> csr_ok 2 2 [0; 1; 2] [1; 0] vals).
  { intros vals L. unfold csr_ok. cbn [length nth]. repeat split; auto.
    - intros [|[|i]] H; cbn; lia.
    - intros [|[|k]] H; cbn; lia.
    - intros [|[|i]] k H; cbn; lia. }
  split; [|split; [|split]].
  - apply (C06_csr Z Zops); [exact Zops_ring|cbn; lia|cbn; lia|auto].
  - apply (C06_csc_is_transpose Z Zops); [exact Zops_ring|cbn; lia|cbn; lia|auto].
  - intros cs RC. inversion RC as [|i ? r ? H1 H2]; subst. inversion H2 as [|j ? r' ? H3 H4]; subst. inversion H4; subst.
    destruct i as [|[|i]]; [| |lia]; (destruct j as [|[|j]]; [| |lia]); reflexivity.
  - reflexivity.
Qed.
Print Assumptions C07_mode_order_refuted.

Example C07_example :
  let t := makeCSR [2; 2] [0; 2; 3] [0; 1; 1] [5; 0; 6]%Z in let u := makeCSR [2; 2] [0; 1; 2] [0; 1] [5; 6]%Z in
  is_packed t /\ is_packed u /\ tensors_equal Zops sort_rows isZeroZ scalarEqualsZ t u = Val true.
Proof.
  cbv zeta. split; [|split; [|reflexivity]]; (apply csr_packed; [cbn; lia|cbn; lia|]); unfold csr_ok; cbn [length nth]; repeat split; auto.
  - intros [|[|i]] H; cbn; lia.
  - intros [|[|[|k]]] H; cbn; lia.
  - intros [|[|i]] [|k] H; cbn; lia.
  - intros [|[|i]] H; cbn; lia.
  - intros [|[|k]] H; cbn; lia.
  - intros [|[|i]] k H; cbn; lia.
Qed.

(** ** C08 *)

(** C08. The comparator orders tuples of non-negative ints lexicographically. *)
Theorem C08_lexicographic : forall a b, length a = length b -> Forall coordinate a -> Forall coordinate b ->
  ((lexicographicalCmp a b < 0)%Z <-> smaller a b) /\
  (lexicographicalCmp a b = 0%Z <-> a = b) /\
  ((lexicographicalCmp a b > 0)%Z <-> smaller b a).
Proof. exact cmp_spec. Qed.
Print Assumptions C08_lexicographic.

(** C08. So it is a total order on them: antisymmetric, transitive, total. *)
Theorem C08_total_order : forall n,
  let tuple a := length a = n /\ Forall coordinate a in
  (forall a b, tuple a -> tuple b -> (lexicographicalCmp a b <= 0)%Z -> (lexicographicalCmp b a <= 0)%Z -> a = b) /\
  (forall a b c, tuple a -> tuple b -> tuple c ->
     (lexicographicalCmp a b <= 0)%Z -> (lexicographicalCmp b c <= 0)%Z -> (lexicographicalCmp a c <= 0)%Z) /\
  (forall a b, tuple a -> tuple b -> (lexicographicalCmp a b <= 0)%Z \/ (lexicographicalCmp b a <= 0)%Z).
Proof.
  intros n tuple.
  assert (TR : forall a b c, smaller a b -> smaller b c -> length a = length b -> length b = length c -> smaller a c).
  { induction a as [|x a IH]; intros b c H1 H2 L1 L2; [apply smaller_nil in H1; tauto|].
    destruct b as [|y b]; [discriminate|]. destruct c as [|z c]; [discriminate|].
    apply smaller_cons in H1. apply smaller_cons in H2. apply smaller_cons. destruct H1 as [H1|[H1 H1']], H2 as [H2|[H2 H2']].
    - left. lia. - left. lia. - left. lia. - right. split; [lia|]. apply (IH b c); auto. }
  assert (CS : forall a b, tuple a -> tuple b -> ((lexicographicalCmp a b <= 0)%Z <-> smaller a b \/ a = b)).
  { intros a b [La A] [Lb B]. destruct (cmp_spec a b) as (I1 & I2 & I3); auto; [congruence|]. rewrite <- I1, <- I2. lia. }
  split; [|split].
  - intros a b [La A] [Lb B] H1 H2. destruct (cmp_spec a b) as (I1 & I2 & I3); auto; [congruence|].
    destruct (cmp_spec b a) as (J1 & J2 & J3); auto; [congruence|].
    apply I2. destruct (Z.lt_trichotomy (lexicographicalCmp a b) 0) as [L|[L|L]]; auto; [|lia].
    apply I1 in L. apply J3 in L. lia.
  - intros a b c TA TB TC H1 H2. apply CS in H1; auto. apply CS in H2; auto. apply CS; auto.
    destruct H1 as [H1| ->]; auto. destruct H2 as [H2|<-]; auto. left. destruct TA, TB, TC. apply (TR a b c); auto; congruence.
  - intros a b TA TB. destruct (Z.le_gt_cases (lexicographicalCmp a b) 0) as [L|L]; auto. right. apply CS; auto. left.
    destruct TA as [La A], TB as [Lb B]. apply (cmp_spec a b); auto; [congruence|lia].
Qed.
Print Assumptions C08_total_order.

(** C08, finding. On all 32-bit ints the difference overflows: there are three ints of
    which each is less than the next, in a circle. *)
Theorem C08_overflow_refuted :
  int32 (- 2 ^ 31) /\ int32 0 /\ int32 (2 ^ 31 - 1) /\
  (lexicographicalCmp [- 2 ^ 31] [0] < 0 /\ lexicographicalCmp [0] [2 ^ 31 - 1] < 0 /\
   lexicographicalCmp [2 ^ 31 - 1] [- 2 ^ 31] < 0)%Z.
Proof. unfold int32. cbn. lia. Qed.
Print Assumptions C08_overflow_refuted.

Example C08_example : Forall coordinate [3; 2147483647; 0]%Z /\ smaller [3; 7; 9]%Z [3; 2147483647; 0]%Z /\
  (lexicographicalCmp [3; 7; 9] [3; 2147483647; 0] < 0)%Z.
Proof.
  split; [repeat constructor; unfold coordinate; cbn; lia|]. split; [exists [3%Z], 7%Z, 2147483647%Z, [9%Z], [0%Z]; cbn; repeat split; lia|reflexivity].
Qed.

(** ** C51 *)

(** C51. Removing the stored occurrences of a value keeps every other value, gives 0
    where the value was, and, if the last level of the new format is compressed,
    stores exactly the other components. *)
Theorem C51_remove : forall (V : Type) (R : ring_ops V) sort (is_value : V -> bool) kinds ord (t : tensor),
  is_ring R -> sorts sort -> is_packed t -> length kinds = length (t_dims t) -> mode_order ord (length (t_dims t)) ->
  exists t', removeExplicit R sort is_value kinds ord t = Val t' /\ is_packed t' /\ t_dims t' = t_dims t /\
    (forall cs, in_range (t_dims t) cs -> tvalue R t' cs = if is_value (tvalue R t cs) then r0 R else tvalue R t cs) /\
    (last kinds KDense = KComp -> forall c, In c (iterate R t') <-> In c (iterate R t) /\ is_value (snd c) = false).
Proof.
  intros V R sort is_value kinds ord t HR SORT P LK MO.
  destruct (remove_ok R HR sort SORT is_value kinds ord t P LK MO) as (t' & E & P' & D & _ & _ & VAL & ST). exists t'. auto.
Qed.
Print Assumptions C51_remove.

(** C51. Removing explicit zeros does not change the tensor. *)
Theorem C51_remove_zeros : forall sort kinds ord (t : tensor),
  sorts sort -> is_packed t -> length kinds = length (t_dims t) -> mode_order ord (length (t_dims t)) ->
  exists t', removeExplicit Zops sort (Z.eqb 0) kinds ord t = Val t' /\
    (forall cs, in_range (t_dims t) cs -> tvalue Zops t' cs = tvalue Zops t cs) /\
    (last kinds KDense = KComp -> forall c, In c (iterate Zops t') <-> In c (iterate Zops t) /\ snd c <> 0%Z).
Proof.
  intros sort kinds ord t SORT P LK MO.
  destruct (C51_remove Z Zops sort (Z.eqb 0) kinds ord t Zops_ring SORT P LK MO) as (t' & E & _ & _ & VAL & ST).
  exists t'. split; auto. split.
  - intros cs RC. rewrite VAL by auto. destruct (Z.eqb_spec 0 (tvalue Zops t cs)); auto.
  - intros LC c. rewrite (ST LC c). rewrite Z.eqb_neq. split; intros [A B]; split; auto.
Qed.
Print Assumptions C51_remove_zeros.

Example C51_example :
  let t := makeCSR [2; 2] [0; 2; 3] [0; 1; 1] [5; 0; 6]%Z in
  exists u, removeExplicit Zops sort_rows (Z.eqb 0) [KDense; KComp] [0; 1] t = Val u /\
    iterate Zops t = [([0; 0], 5%Z); ([0; 1], 0%Z); ([1; 1], 6%Z)] /\ iterate Zops u = [([0; 0], 5%Z); ([1; 1], 6%Z)].
Proof. cbv zeta. eexists. split; [vm_compute; reflexivity|]. split; reflexivity. Qed.
