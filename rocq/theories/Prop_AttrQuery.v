(** C54: the queries computed before a result is assembled by insertion count the
    coordinates that the statement inserts. *)
From Coq Require Import List Arith ZArith Bool Lia Permutation.
Import ListNotations.
From Verif Require Import Notation NotationSpec NotationProofs Transform TransformSpec AttrQuery AttrQuerySpec AttrQueryProofs.
Local Open Scope nat_scope.

(** For every accepted statement with a compressed level [k] in its result, and for
    every tuple [g] of coordinates of the levels above, the query result is the
    number of different continuations of [g]: by one coordinate if the level is
    unique, by all remaining coordinates otherwise. *)
Theorem C54_counts : forall dim stored sparse levels ord rho tmp qtmp dd nz s q,
  countable s -> fresh_tensors s tmp qtmp dd nz ->
  (forall i j, rho i = rho j -> i = j) -> (forall i, dim (rho i) = dim i) ->
  Permutation ord (seq 0 (length (lhs s))) -> length levels = length (lhs s) ->
  setAssembleInsert levels ord qtmp dd nz rho tmp s = AQueries (Some q) ->
  exists k u, nth_error levels k = Some (LCompressed u) /\ (forall j u', j < k -> nth_error levels j <> Some (LCompressed u')) /\
  forall g, length g = k -> exists L, NoDup L /\ query_value dim stored sparse nz q g = Z.of_nat (length L) /\
    forall p, In p L <-> length p = (if u then 1 else length levels - k) /\
                         exists x rest, inserts dim stored s x /\ in_storage_order ord x = g ++ p ++ rest.
Proof. intros; eapply query_counts; eauto. Qed.
Print Assumptions C54_counts.

(** So where the compressed level is the last one, or is not unique, the query
    result is the number of all inserted coordinates below [g]. *)
Theorem C54_last_level : forall dim stored sparse levels ord rho tmp qtmp dd nz s q,
  countable s -> fresh_tensors s tmp qtmp dd nz ->
  (forall i j, rho i = rho j -> i = j) -> (forall i, dim (rho i) = dim i) ->
  Permutation ord (seq 0 (length (lhs s))) -> length levels = length (lhs s) ->
  setAssembleInsert levels ord qtmp dd nz rho tmp s = AQueries (Some q) ->
  exists k u, nth_error levels k = Some (LCompressed u) /\
  (u = false \/ S k = length levels ->
   forall g, length g = k -> exists L, NoDup L /\ query_value dim stored sparse nz q g = Z.of_nat (length L) /\
     forall y, In y L <-> firstn k y = g /\ exists x, inserts dim stored s x /\ in_storage_order ord x = y).
Proof.
  intros dim stored sparse levels ord rho tmp qtmp dd nz s q C F RI RD PO LL E.
  destruct (query_counts dim stored sparse levels ord rho tmp qtmp dd nz s C F RI RD PO LL q E) as (k & u & E1 & E2 & Q).
  exists k, u. split; auto. intros LAST g LG. destruct (Q g LG) as (L & ND & QV & IFF).
  assert (LK : k < length levels) by (apply nth_error_Some; congruence).
  assert (LO : forall x, length (in_storage_order ord x) = length levels). { intros x. unfold in_storage_order. rewrite map_length, (Permutation_length PO), seq_length. auto. }
  exists (map (app g) L). split; [|split].
  - clear - ND. induction ND; cbn; constructor; auto. intros I. apply H. apply in_map_iff in I. destruct I as (p & EP & I). apply app_inv_head in EP. subst; auto.
  - rewrite map_length. auto.
  - intros y. rewrite in_map_iff. split.
    + intros (p & <- & I). apply IFF in I. destruct I as (LP & x & rest & I & EX).
      assert (R : rest = []). { specialize (LO x). rewrite EX, !app_length in LO. destruct rest; auto. exfalso. cbn in LO. destruct LAST as [->|LAST]; [|destruct u]; lia. }
      subst rest. rewrite app_nil_r in EX. split; [|eauto]. rewrite <- LG, firstn_app, firstn_all, Nat.sub_diag. cbn. apply app_nil_r.
    + intros (FG & x & I & EX). exists (skipn k y). rewrite <- FG at 1. rewrite firstn_skipn. split; auto. apply IFF.
      assert (LS : length (skipn k y) = length levels - k) by (rewrite skipn_length, <- EX, LO; auto).
      split. { rewrite LS. destruct LAST as [->|LAST]; auto. destruct u; auto. lia. }
      exists x, []. split; auto. rewrite app_nil_r, <- FG, firstn_skipn. auto.
Qed.
Print Assumptions C54_last_level.

(** Which statements are accepted: the levels are dense ones, one compressed one and
    singletons (or none is compressed), and each component of the result is
    complete before the next: the result is assigned, or all loops over its
    coordinates, and no others, are outside of the loops that sum. *)
Theorem C54_accepts : forall levels ord rho tmp qtmp dd nz s,
  countable s -> fresh_tensors s tmp qtmp dd nz ->
  (forall i j, rho i = rho j -> i = j) ->
  Permutation ord (seq 0 (length (lhs s))) -> length levels = length (lhs s) ->
  (setAssembleInsert levels ord qtmp dd nz rho tmp s <> ARefused <->
   ((forall u, ~ In (LCompressed u) levels) \/ exists n u m, levels = repeat LDense n ++ LCompressed u :: repeat LSingleton m) /\
   (op_of s = None \/ (lhs s <> [] /\ exists pre post, spine s = pre ++ post /\ post <> [] /\ forall v, In v (lhs s) <-> In v pre))).
Proof. intros. apply (assemble_refused (fun _ => 0) (fun _ _ => false) (fun _ => false)); auto. Qed.
Print Assumptions C54_accepts.

(** If there are no queries, no level needs a count. *)
Theorem C54_no_queries : forall levels ord rho tmp qtmp dd nz s,
  countable s -> fresh_tensors s tmp qtmp dd nz ->
  (forall i j, rho i = rho j -> i = j) ->
  Permutation ord (seq 0 (length (lhs s))) -> length levels = length (lhs s) ->
  setAssembleInsert levels ord qtmp dd nz rho tmp s = AQueries None -> forall u, ~ In (LCompressed u) levels.
Proof. intros. eapply (assemble_none (fun _ => 0) (fun _ _ => false) (fun _ => false)); eauto. Qed.
Print Assumptions C54_no_queries.

(** ** Cases *)
(** A(i,j) = B(i,k)*C(k,j) by rows, with a workspace; A(i,j) = B(i,j)+C(i,j); and
    A(i,j) = sum over k of B(i,j,k).  0 1 2: A B C; 3: w; 0 1 2: i j k. *)
Definition spgemm : nstmt Z :=
  NForall no_annot 0 (NWhere (NForall no_annot 1 (NAssign 0 [0; 1] None (NAcc 3 [1])))
    (NForall no_annot 2 (NForall no_annot 1 (NAssign 3 [1] (Some RSum) (NMul (NAcc 1 [0; 2]) (NAcc 2 [2; 1])))))).
Definition spadd : nstmt Z :=
  NForall no_annot 0 (NForall no_annot 1 (NAssign 0 [0; 1] None (NAdd (NAcc 1 [0; 1]) (NAcc 2 [0; 1])))).
Definition rowsum : nstmt Z :=
  NForall no_annot 0 (NForall no_annot 1 (NForall no_annot 2 (NAssign 0 [0; 1] (Some RSum) (NAcc 1 [0; 1; 2])))).
Definition csr := [LDense; LCompressed true].
Definition coo := [LCompressed false; LSingleton].
Definition dims3 : ivar -> nat := fun _ => 3.
Definition tmp0 (t : tensor) : tensor := 100 + 2 * t.
Definition qtmp0 (t : tensor) : tensor := 101 + 2 * t.
Definition assemble (levels : list level) (s : nstmt Z) : aresult := setAssembleInsert levels [0; 1] qtmp0 50 51 (fun i => i) tmp0 s.
(** B has (0,0) (0,2) (2,1) (and as a tensor of order 3 those with any last coordinate 1); C has (0,1) (2,1) (2,2). *)
Definition some_stored : marks := fun t x =>
  match t, x with
  | 1, [0; 0] | 1, [0; 2] | 1, [2; 1] => true
  | 1, [0; 0; 1] | 1, [0; 0; 2] | 1, [2; 1; 1] => true
  | 2, [0; 1] | 2, [2; 1] | 2, [2; 2] => true
  | _, _ => false
  end.
Definition values (a : aresult) (g : list (list nat)) : list Z :=
  match a with AQueries (Some q) => map (query_value dims3 some_stored (fun _ => false) 51 q) g | _ => [] end.

Ltac fin := repeat match goal with
  | H : _ \/ _ |- _ => destruct H
  | H : False |- _ => destruct H
  | H : In _ _ |- _ => cbn in H
  end; subst.
Ltac distinct := try unfold distinct_results;
  match goal with |- NoDup ?l => let l' := eval vm_compute in l in change (NoDup l') end;
  repeat (apply NoDup_cons; [cbn; intros; fin; lia|]); apply NoDup_nil.
Lemma fresh0 : forall s, (forall t, In t (tensors s) -> t < 50) -> fresh_tensors s tmp0 qtmp0 50 51.
Proof.
  intros s B. unfold tmp0, qtmp0. split; [split|split; [|split]]; intros; try lia.
  - intros I. apply B in I. lia.
  - split; [intros I; apply B in I; lia|]. intros; lia.
Qed.
Ltac countable_tac :=
  split; [distinct|split; [cbn; intuition lia|split; [|split; [distinct|split; [cbn; tauto|reflexivity]]]]];
  split; [split; [first [right; split; [reflexivity|cbn; tauto]|left; reflexivity]|cbv; lia]
         |intros ? I; cbn in I; fin; (split; [first [left; reflexivity|right; split; [reflexivity|cbn; tauto]]|cbv; lia])].
Example C54_spgemm : countable spgemm /\ fresh_tensors spgemm tmp0 qtmp0 50 51 /\ Permutation [0; 1] (seq 0 (length (lhs spgemm))) /\ length csr = length (lhs spgemm) /\
  values (assemble csr spgemm) [[0]; [1]; [2]] = [2; 0; 0]%Z.
Proof.
  split; [countable_tac|]. split; [apply fresh0; cbn; intros; fin; lia|]. split; [apply Permutation_refl|]. split; [reflexivity|]. vm_compute. reflexivity.
Qed.
Example C54_spadd : countable spadd /\ fresh_tensors spadd tmp0 qtmp0 50 51 /\
  values (assemble csr spadd) [[0]; [1]; [2]] = [3; 0; 2]%Z /\ values (assemble coo spadd) [[]] = [5]%Z /\
  assemble csr spadd =
  AQueries (Some (QForall no_annot 0 (QForall no_annot 1 (QAssign 51 [0] true (QCast (QAdd (QSym 1 [0; 1]) (QSym 2 [0; 1]))))))).
Proof.
  split; [countable_tac|]. split; [apply fresh0; cbn; intros; fin; lia|]. split; [vm_compute; reflexivity|]. split; vm_compute; reflexivity.
Qed.
Example C54_rowsum : countable rowsum /\ fresh_tensors rowsum tmp0 qtmp0 50 51 /\
  values (assemble csr rowsum) [[0]; [1]; [2]] = [1; 0; 1]%Z /\ assemble [LCompressed true; LCompressed true] rowsum = ARefused.
Proof.
  split; [countable_tac|]. split; [apply fresh0; cbn; intros; fin; lia|]. split; vm_compute; reflexivity.
Qed.
(** The same product by columns of the left operand scatters into A: refused. *)
Example C54_scatter : assemble csr (NForall no_annot 2 (NForall no_annot 0 (NForall no_annot 1
    (NAssign 0 [0; 1] (Some RSum) (NMul (NAcc 1 [0; 2]) (NAcc 2 [2; 1])))))) = ARefused.
Proof. reflexivity. Qed.

(** ** Findings *)
(** [countable] without the restriction to sums and products of operands. *)
Definition concrete (s : nstmt Z) : Prop :=
  distinct_results s /\ no_shadow [] s /\ every (fun p => sums_or_assigns p /\ not_own_operand p) s /\
  NoDup (lhs s) /\ (forall v, In v (lhs s) -> In v (spine s)).
Ltac concrete_tac :=
  split; [distinct|split; [cbn; intuition lia|split; [|split; [distinct|cbn; tauto]]]];
  split; [split; [first [right; split; [reflexivity|cbn; tauto]|left; reflexivity]|cbv; lia]|intros ? I; destruct I].

(** A(i,j) = -B(i,j): the operand's structure is [true], its negation [false], so
    nothing is counted. *)
Theorem C54_negation_refuted : exists s q, concrete s /\ fresh_tensors s tmp0 qtmp0 50 51 /\
  assemble csr s = AQueries (Some q) /\ inserts dims3 some_stored s [0; 0] /\
  query_value dims3 some_stored (fun _ => false) 51 q [0] = 0%Z.
Proof.
  exists (NForall no_annot 0 (NForall no_annot 1 (NAssign 0 [0; 1] None (NNeg (NAcc 1 [0; 1]))))). eexists.
  split; [concrete_tac|]. split; [apply fresh0; cbn; intros; fin; lia|]. split; [vm_compute; reflexivity|]. split; vm_compute; reflexivity.
Qed.
Print Assumptions C54_negation_refuted.

(** A(i,j) = B(i,j)-C(i,j): where both operands are stored, true-true is counted,
    which is 0. *)
Theorem C54_subtraction_refuted : exists s q stored, concrete s /\ fresh_tensors s tmp0 qtmp0 50 51 /\
  assemble csr s = AQueries (Some q) /\ inserts dims3 stored s [0; 1] /\ inserts dims3 stored s [0; 2] /\
  query_value dims3 stored (fun _ => false) 51 q [0] = 1%Z.
Proof.
  exists (NForall no_annot 0 (NForall no_annot 1 (NAssign 0 [0; 1] None (NSub (NAcc 1 [0; 1]) (NAcc 2 [0; 1]))))). eexists.
  exists (fun t x => match t, x with 1, [0; 1] | 2, [0; 1] | 1, [0; 2] => true | _, _ => false end).
  split; [concrete_tac|]. split; [apply fresh0; cbn; intros; fin; lia|]. split; [vm_compute; reflexivity|]. split; [vm_compute; reflexivity|]. split; vm_compute; reflexivity.
Qed.
Print Assumptions C54_subtraction_refuted.

(** A(i,j) = 2*B(i,j): each coordinate counts twice, so the result gets entries that
    are never written. *)
Theorem C54_constant_factor_refuted : exists s q stored, concrete s /\ fresh_tensors s tmp0 qtmp0 50 51 /\
  assemble csr s = AQueries (Some q) /\ (forall x, inserts dims3 stored s x <-> x = [0; 1]) /\
  query_value dims3 stored (fun _ => false) 51 q [0] = 2%Z.
Proof.
  exists (NForall no_annot 0 (NForall no_annot 1 (NAssign 0 [0; 1] None (NMul (NLit 2%Z) (NAcc 1 [0; 1]))))). eexists.
  exists (fun t x => match t, x with 1, [0; 1] => true | _, _ => false end).
  split; [concrete_tac|]. split; [apply fresh0; cbn; intros; fin; lia|]. split; [vm_compute; reflexivity|]. split; [|vm_compute; reflexivity].
  intros x. split; [|intros ->; vm_compute; reflexivity].
  unfold inserts. cbn - [list_eqb operands_only]. unfold operands_only, mark, mem. cbn - [list_eqb].
  destruct (list_eqb_spec x [0; 1]); auto; cbn; discriminate.
Qed.
Print Assumptions C54_constant_factor_refuted.

(** A compressed level that is unique, with a singleton level below it, is
    accepted; the second of two coordinates in one row is not counted. *)
Theorem C54_unique_singleton_refuted : exists q, countable spadd /\ fresh_tensors spadd tmp0 qtmp0 50 51 /\
  assemble [LCompressed true; LSingleton] spadd = AQueries (Some q) /\
  inserts dims3 some_stored spadd [0; 0] /\ inserts dims3 some_stored spadd [0; 1] /\ inserts dims3 some_stored spadd [2; 2] /\
  query_value dims3 some_stored (fun _ => false) 51 q [] = 2%Z.
Proof.
  eexists. split; [countable_tac|]. split; [apply fresh0; cbn; intros; fin; lia|]. split; [vm_compute; reflexivity|]. repeat split; vm_compute; reflexivity.
Qed.
Print Assumptions C54_unique_singleton_refuted.

(** The dimensions declared for the query result, with [shape] the dimensions of
    the result: right if the modes are stored in their order. *)
Theorem C54_query_dims : forall shape vs k, NoDup vs -> length shape = length vs -> k <= length vs ->
  queryDims shape (firstn k (storage_vars (seq 0 (length vs)) vs)) = firstn k shape.
Proof.
  intros shape vs k ND LS LK.
  assert (SV : storage_vars (seq 0 (length vs)) vs = vs).
  { unfold storage_vars. clear. induction vs as [|v vs IH]; cbn; auto. f_equal. rewrite <- seq_shift, map_map. cbn. exact IH. }
  rewrite SV. unfold queryDims.
  assert (FP : forall (l : list ivar) j, NoDup l -> j < length l -> find_pos (nth j l 0) l = j).
  { induction l as [|a l IH]; intros j N J; cbn in J; [lia|]. inversion N; subst. destruct j; cbn; [rewrite Nat.eqb_refl; auto|].
    destruct (Nat.eqb_spec a (nth j l 0)) as [E|_]; [exfalso; apply H1; rewrite E; apply nth_In; lia|]. rewrite IH; auto. lia. }
  assert (NF : NoDup (firstn k vs)). { rewrite <- (firstn_skipn k vs) in ND. apply (PromoteProofs.nodup_l _ _ ND). }
  assert (LF : length (firstn k vs) = k) by (apply firstn_length_le; auto).
  apply nth_ext with (d := 0) (d' := 0). { rewrite map_length, LF, firstn_length_le; lia. }
  intros j J. rewrite map_length, LF in J.
  set (f := fun coord => nth (find_pos coord (firstn k vs)) shape 0).
  rewrite nth_indep with (d' := f 0) by (rewrite map_length, LF; exact J).
  rewrite map_nth. unfold f. rewrite (FP (firstn k vs) j NF) by (rewrite LF; exact J). clear - J. revert k J. revert j. induction shape; intros j k J; [destruct j, k; auto|].
  destruct k; [lia|]. destruct j; cbn; auto. apply IHshape. lia.
Qed.
Print Assumptions C54_query_dims.
Example C54_query_dims_case : queryDims [4; 5; 6] (firstn 2 (storage_vars [0; 1; 2] [7; 8; 9])) = [4; 5].
Proof. reflexivity. Qed.
(** Not so in other orders: levels over the modes 0, 2, 1, dimensions 4, 5, 6. *)
Theorem C54_query_dims_refuted : exists shape ord vs k, NoDup vs /\ Permutation ord (seq 0 (length vs)) /\ length shape = length vs /\ k <= length vs /\
  queryDims shape (firstn k (storage_vars ord vs)) <> map (fun m => nth m shape 0) (firstn k ord).
Proof.
  exists [4; 5; 6], [0; 2; 1], [7; 8; 9], 2. split; [distinct|]. split; [cbn; apply perm_skip; apply perm_swap|]. split; [reflexivity|]. split; [cbn; lia|]. vm_compute. discriminate.
Qed.
Print Assumptions C54_query_dims_refuted.
