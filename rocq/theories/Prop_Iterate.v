(** C05: iterating over a tensor through the chunked iterator. *)
From Coq Require Import List Arith ZArith Lia Bool Permutation.
Import ListNotations.
From Verif Require Import Outcome Storage StorageProofs Eval PackKernel Tensor TensorSpec TensorProofs
  Iterate IterateSpec IterateProofs.
Local Open Scope nat_scope.

Lemma fewer_short : forall n ls, fewer_iterations n ls -> short n ls.
Proof. intros n ls H. induction H as [|[d|pos crd] ls H1 H2 IH]; cbn in *; auto. Qed.

Lemma unpermute_in_mode_order : forall ord cs, mode_order ord (length ord) -> in_mode_order ord cs (unpermute ord cs).
Proof.
  intros ord cs H. split.
  - unfold unpermute. rewrite map_length, seq_length. auto.
  - intros l Hl. unfold unpermute.
    assert (Hn : nth l ord 0 < length ord).
    { assert (Hin : In (nth l ord 0) (seq 0 (length ord))) by (eapply Permutation_in; [exact H|apply nth_In; auto]).
      apply in_seq in Hin. lia. }
    rewrite nth_indep with (d' := nth (level_of ord 0) cs 0) by (rewrite map_length, seq_length; auto).
    rewrite (map_nth (fun m => nth (level_of ord m) cs 0) (seq 0 (length ord)) 0).
    rewrite seq_nth by auto. cbn. f_equal.
    assert (Hnd : NoDup ord) by (eapply Permutation_NoDup; [apply Permutation_sym; exact H|apply seq_NoDup]).
    clear -Hnd Hl. revert l Hl. induction Hnd as [|a ord Hin Hnd IH]; cbn [length]; intros l Hl; [lia|].
    destruct l as [|l]; cbn [nth level_of]; [rewrite Nat.eqb_refl; auto|].
    destruct (Nat.eqb_spec a (nth l ord 0)) as [E|]; [|rewrite IH by lia; auto].
    exfalso. apply Hin. rewrite E. apply nth_In. lia.
Qed.

Lemma traversal_enum : forall V (d : V) ord s, mode_order ord (length ord) ->
  traversal d ord s (map (fun e => (unpermute ord (fst e), Some (nth (snd e) (st_vals s) d))) (enum (st_levels s) 0)).
Proof.
  intros V d ord s H. unfold traversal, components. induction (enum (st_levels s) 0) as [|e l IH]; cbn [map]; constructor; auto.
  split; auto. apply unpermute_in_mode_order; auto.
Qed.

(** For every tensor, every positive capacity of the buffers, whatever the buffers
    and the uninitialised variables of the kernel contain: the loop
    [for (auto& c : tensor)] accesses no array out of bounds, and sees each stored
    component once, in the order of storage, and ends after the last. *)
Theorem C05_iteration : forall V (d : V) dims ord (s : storage V) cap fuel n garb crds vals,
  wf_storage dims s -> length dims = length ord -> mode_order ord (length ord) -> 0 < cap ->
  length crds = length ord * cap -> length vals = cap ->
  fewer_iterations fuel (st_levels s) -> length (components d s) <= n ->
  exists seen, foreach (st_levels s) (st_vals s) ord cap fuel n garb crds vals = Val seen /\
    traversal d ord s seen.
Proof.
  intros V d dims ord s cap fuel n garb crds vals Hwf Hd Ho Hc Lc Lv Hf Hn.
  eexists. split; [|apply traversal_enum; exact Ho].
  eapply foreach_ok; eauto.
  - rewrite <- Hd. symmetry. eapply wf_levels_length; eauto.
  - apply fewer_short. auto.
  - unfold components in Hn. rewrite map_length in Hn. auto.
Qed.
Print Assumptions C05_iteration.

(** The sequence does not depend on the capacity, the buffers or the uninitialised
    variables. *)
Theorem C05_capacity : forall V (d : V) dims ord (s : storage V) cap fuel n garb crds vals cap' garb' crds' vals',
  wf_storage dims s -> length dims = length ord -> mode_order ord (length ord) -> 0 < cap -> 0 < cap' ->
  length crds = length ord * cap -> length vals = cap -> length crds' = length ord * cap' -> length vals' = cap' ->
  fewer_iterations fuel (st_levels s) -> length (components d s) <= n ->
  foreach (st_levels s) (st_vals s) ord cap fuel n garb crds vals
    = foreach (st_levels s) (st_vals s) ord cap' fuel n garb' crds' vals'.
Proof.
  intros V d dims ord s cap fuel n garb crds vals cap' garb' crds' vals' Hwf Hd Ho Hc Hc' Lc Lv Lc' Lv' Hf Hn.
  assert (Hl : length ord = length (st_levels s)) by (rewrite <- Hd; symmetry; eapply wf_levels_length; eauto).
  apply fewer_short in Hf. unfold components in Hn. rewrite map_length in Hn.
  rewrite (foreach_ok d (st_vals s) ord cap fuel Ho Hc (st_levels s) dims Hwf Hl Hf n garb crds vals Lc Lv Hn).
  rewrite (foreach_ok d (st_vals s) ord cap' fuel Ho Hc' (st_levels s) dims Hwf Hl Hf n garb' crds' vals' Lc' Lv' Hn).
  reflexivity.
Qed.
Print Assumptions C05_capacity.

(** Two iterators of a tensor, obtained by begin() and [j] and [k] increments, are
    equal exactly when [j = k]; after as many increments as there are components,
    and not before, an iterator equals end(). *)
Theorem C05_comparison : forall V (d : V) dims ord (s : storage V) cap fuel garb crds vals garb' crds' vals' j k,
  wf_storage dims s -> length dims = length ord -> mode_order ord (length ord) -> 0 < cap ->
  length crds = length ord * cap -> length vals = cap -> length crds' = length ord * cap -> length vals' = cap ->
  fewer_iterations fuel (st_levels s) -> j <= length (components d s) -> k <= length (components d s) ->
  exists h i h' i',
    advance (st_levels s) (st_vals s) ord cap fuel garb crds vals j = Val (h, i) /\
    advance (st_levels s) (st_vals s) ord cap fuel garb' crds' vals' k = Val (h', i') /\
    (iter_eqb cap i i' = true <-> j = k) /\
    (iter_eqb cap i end_iter = true <-> j = length (components d s)).
Proof.
  intros V d dims ord s cap fuel garb crds vals garb' crds' vals' j k Hwf Hd Ho Hc Lc Lv Lc' Lv' Hf Hj Hk.
  assert (Hl : length ord = length (st_levels s)) by (rewrite <- Hd; symmetry; eapply wf_levels_length; eauto).
  apply fewer_short in Hf. unfold components in *. rewrite map_length in *.
  destruct (advance_ok d (st_vals s) ord cap fuel Ho Hc (st_levels s) dims Hwf Hl Hf garb crds vals j Lc Lv Hj)
    as (h & i & E1 & A1).
  destruct (advance_ok d (st_vals s) ord cap fuel Ho Hc (st_levels s) dims Hwf Hl Hf garb' crds' vals' k Lc' Lv' Hk)
    as (h' & i' & E2 & A2).
  exists h, i, h', i'. split; auto. split; auto. split.
  - rewrite (equal_ok d (st_vals s) ord cap Hc (st_levels s) Hl j k h h' i i' Hj Hk A1 A2). apply Nat.eqb_eq.
  - rewrite (at_end d (st_vals s) ord cap Hc (st_levels s) Hl j h i Hj A1). apply Nat.eqb_eq.
Qed.
Print Assumptions C05_comparison.

(** A 3 by 4 matrix with compressed rows and buffers for two entries. *)
Definition m34 : storage nat := mkStorage [LDense 3; LComp [0; 2; 2; 5] [1; 3; 0; 2; 3]] [10; 20; 30; 40; 50].
Definition junk : nat -> locals := fun n x => match x with Crd l => 7 + n + l | Pos l => 3 * n + l end.
Example C05_satisfiable :
  wf_storage [3; 4] m34 /\ mode_order [0; 1] 2 /\ mode_order [1; 0] 2 /\ fewer_iterations 6 (st_levels m34) /\
  foreach (st_levels m34) (st_vals m34) [0; 1] 2 6 5 junk [9; 9; 9; 9] [8; 8] =
    Val [([0; 1], Some 10); ([0; 3], Some 20); ([2; 0], Some 30); ([2; 2], Some 40); ([2; 3], Some 50)] /\
  foreach (st_levels m34) (st_vals m34) [1; 0] 5 6 5 junk [9; 9; 9; 9; 9; 9; 9; 9; 9; 9] [8; 8; 8; 8; 8] =
    Val [([1; 0], Some 10); ([3; 0], Some 20); ([0; 2], Some 30); ([2; 2], Some 40); ([3; 2], Some 50)].
Proof.
  split.
  { cbn. split; auto. repeat split; auto.
    - intros p H. do 3 (destruct p; [cbn; lia|]). lia.
    - intros p i j H1 H2 H3 H4. do 3 (destruct p; [cbn in *; do 5 (destruct i; [do 5 (destruct j; [cbn; lia|]); cbn in *; lia|]); lia|]). lia.
    - intros i H. do 5 (destruct i; [cbn; lia|]). lia. }
  split; [apply Permutation_refl|]. split; [cbn; constructor|].
  split; [repeat constructor|]. split; vm_compute; reflexivity.
Qed.

(** Finding.  The postfix increment returns a copy that shares the buffers.  When
    the increment refills them up to the entry the copy points to, the copy has the value of its component and the
    coordinates of another: [*it++] gives a component the tensor does not have.
    The capacity is the one in tensor.h 293. *)
Definition v200 : storage nat := mkStorage [LDense 200] (repeat 10 99 ++ [20] ++ repeat 30 100).
Theorem C05_post_increment_refuted :
  ~ (forall V (d : V) dims ord (s : storage V) fuel garb crds vals k,
       wf_storage dims s -> length dims = length ord -> mode_order ord (length ord) ->
       length crds = length ord * 100 -> length vals = 100 ->
       fewer_iterations fuel (st_levels s) -> k < length (components d s) ->
       exists h i c h' i',
         advance (st_levels s) (st_vals s) ord 100 fuel garb crds vals k = Val (h, i) /\
         post_increment (st_levels s) (st_vals s) ord 100 fuel (garb (S k)) h i = Val (c, (h', i')) /\
         deref ord h' c = deref ord h i).
Proof.
  intro H. destruct (H nat 0 [200] [0] v200 201 junk (repeat 0 100) (repeat 0 100) 99) as (h & i & c & h' & i' & H1 & H2 & H3).
  - cbn. auto.
  - auto.
  - apply Permutation_refl.
  - auto.
  - auto.
  - constructor; [lia|constructor].
  - vm_compute. lia.
  - assert (E : (do r <- advance (st_levels v200) (st_vals v200) [0] 100 201 junk (repeat 0 100) (repeat 0 100) 99;
                 do q <- post_increment (st_levels v200) (st_vals v200) [0] 100 201 (junk 100) (fst r) (snd r);
                 Val (deref [0] (fst r) (snd r), deref [0] (fst (snd q)) (fst q)))
               = Val (([99], Some 20), ([199], Some 20))) by (vm_compute; reflexivity).
    rewrite H1 in E. cbn [obind fst snd] in E. rewrite H2 in E. cbn [obind fst snd] in E.
    rewrite H3 in E. injection E as E1 E2. congruence.
Qed.
Print Assumptions C05_post_increment_refuted.
