(** Properties C25, C28 and C29: transformed loops, windows and index sets. *)
From Coq Require Import List Arith ZArith Lia Bool Permutation.
From Verif Require Import Outcome CSearch CSearchProofs Schedule ScheduleSpec ScheduleProofs Window WindowSpec WindowProofs.
Import ListNotations.
Local Open Scope nat_scope.

(** ** C25: loop transformations *)
(** Whatever relations are composed, and in whatever order the resulting loops are
    nested, the body is reached exactly once for every iteration of the original
    loops, provided the relations meet the conditions [exact] for the variables the
    lowerer guards. *)
Theorem C25_same_iterations : forall B0 roots rels order g,
  NoDup roots -> well_formed roots roots rels -> Permutation order (loop_vars roots rels) ->
  guarded_roots rels order roots = Some g -> exact (all_bounds B0 rels) roots g rels ->
  exists vs, visited B0 roots rels order = Some vs /\ Permutation vs (iterations B0 roots).
Proof.
  intros B0 roots rels order g N W P E X. unfold visited. rewrite E. eexists. split; [reflexivity|].
  apply visits; auto. eapply guarded_roots_incl; eauto.
Qed.
Print Assumptions C25_same_iterations.

(** Without [bound] every variable that was transformed is guarded. *)
Theorem C25_without_bounds : forall B0 roots rels order,
  (forall p b n, ~ In (Bound p b n) rels) ->
  NoDup roots -> well_formed roots roots rels -> Permutation order (loop_vars roots rels) ->
  exact (all_bounds B0 rels) roots roots rels ->
  exists vs, visited B0 roots rels order = Some vs /\ Permutation vs (iterations B0 roots).
Proof.
  intros B0 roots rels order NB N W P X.
  destruct (guarded_no_bounds rels roots order roots NB N W P (incl_refl _)) as (g & E & G).
  apply (C25_same_iterations B0 roots rels order g); auto. eapply exact_mono; [|exact X]. auto.
Qed.
Print Assumptions C25_without_bounds.

(** Splitting or dividing one loop by any positive factor, with the two loops in
    either order. *)
Theorem C25_split : forall n f i i0 i1, 0 < f -> NoDup [i; i0; i1] -> forall order, Permutation order [i0; i1] ->
  exists vs, visited (fun _ => (0, n)) [i] [Split i i0 i1 f] order = Some vs /\
             Permutation vs (map (fun x => [x]) (seq 0 n)).
Proof.
  intros n f i i0 i1 Hf N order P.
  inversion N as [|? ? N1 N2]; subst. inversion N2 as [|? ? N3 N4]; subst. simpl in N1, N3.
  assert (L : loop_vars [i] [Split i i0 i1 f] = [i0; i1]).
  { unfold loop_vars, replace_loops. simpl. rewrite Nat.eqb_refl. reflexivity. }
  replace (map (fun x => [x]) (seq 0 n)) with (iterations (fun _ => (0, n)) [i]).
  - apply C25_without_bounds.
    + intros p b m [C|[]]; discriminate.
    + constructor; [simpl; auto|constructor].
    + simpl. split; [intros x [<-|[]]; simpl; auto|]. split; [constructor; simpl; auto; constructor|].
      split; [constructor; simpl; auto; constructor; auto; constructor|]. split; [|exact I].
      intros c [<-|[<-|[]]] [C|[]]; subst; tauto.
    + rewrite L. auto.
    + simpl. repeat split; auto. left. rewrite Nat.eqb_refl. reflexivity.
  - simpl. unfold lo, hi. simpl. rewrite Nat.sub_0_r. induction (seq 0 n); simpl; congruence.
Qed.
Print Assumptions C25_split.

Theorem C25_divide : forall n f i i0 i1, 0 < f -> NoDup [i; i0; i1] -> forall order, Permutation order [i0; i1] ->
  exists vs, visited (fun _ => (0, n)) [i] [Divide i i0 i1 f] order = Some vs /\
             Permutation vs (map (fun x => [x]) (seq 0 n)).
Proof.
  intros n f i i0 i1 Hf N order P.
  inversion N as [|? ? N1 N2]; subst. inversion N2 as [|? ? N3 N4]; subst. simpl in N1, N3.
  assert (L : loop_vars [i] [Divide i i0 i1 f] = [i0; i1]).
  { unfold loop_vars, replace_loops. simpl. rewrite Nat.eqb_refl. reflexivity. }
  replace (map (fun x => [x]) (seq 0 n)) with (iterations (fun _ => (0, n)) [i]).
  - apply C25_without_bounds.
    + intros p b m [C|[]]; discriminate.
    + constructor; [simpl; auto|constructor].
    + simpl. split; [intros x [<-|[]]; simpl; auto|]. split; [constructor; simpl; auto; constructor|].
      split; [constructor; simpl; auto; constructor; auto; constructor|]. split; [|exact I].
      intros c [<-|[<-|[]]] [C|[]]; subst; tauto.
    + rewrite L. auto.
    + simpl. repeat split; auto.
      * unfold lo, all_bounds, upd. simpl. destruct (Nat.eqb_spec i i1); [subst; tauto|]. destruct (Nat.eqb_spec i i0); [subst; tauto|]. reflexivity.
      * left. rewrite Nat.eqb_refl. reflexivity.
  - simpl. unfold lo, hi. simpl. rewrite Nat.sub_0_r. induction (seq 0 n); simpl; congruence.
Qed.
Print Assumptions C25_divide.

(** Findings.  The inner variable of a split, split again by a factor that does not
    divide the first, visits iterations twice: no guard catches the overrun of the
    inner variable. *)
Theorem C25_split_inner_refuted :
  exists B0 roots rels order vs, NoDup roots /\ well_formed roots roots rels /\
    Permutation order (loop_vars roots rels) /\ rels = [Split 0 1 2 4; Split 2 3 4 3] /\
    visited B0 roots rels order = Some vs /\ count_occ (list_eq_dec Nat.eq_dec) vs [4] = 2.
Proof.
  exists (fun _ => (0, 8)), [0], [Split 0 1 2 4; Split 2 3 4 3], [1; 3; 4].
  eexists. split; [|split; [|split; [|split; [|split]]]].
  - constructor; [simpl; tauto|constructor].
  - simpl. repeat split; try (intros x Hx; simpl in *; intuition lia); repeat (constructor; [simpl; lia|]); constructor.
  - vm_compute. apply Permutation_refl.
  - reflexivity.
  - vm_compute. reflexivity.
  - vm_compute. reflexivity.
Qed.
Print Assumptions C25_split_inner_refuted.

(** Dividing a position loop over a segment that does not start at 0 misses
    positions: of [5, 9) in two parts only 5 is visited. *)
Theorem C25_divide_position_refuted :
  exists vs, visited (fun _ => (5, 9)) [0] [Divide 0 1 2 2] [1; 2] = Some vs /\ vs = [[5]].
Proof. eexists. split; [vm_compute; reflexivity|reflexivity]. Qed.
Print Assumptions C25_divide_position_refuted.

(** Fusing with an inner loop that does not start at 0: here i in [0,2), j in [1,4). *)
Theorem C25_fuse_offset_refuted :
  exists vs, visited (fun v => if v =? 0 then (0, 2) else (1, 4)) [0; 1] [Fuse 0 1 2] [2] = Some vs /\
    ~ In [0; 3] vs /\ In [0; 3] (iterations (fun v => if v =? 0 then (0, 2) else (1, 4)) [0; 1]).
Proof. eexists. split; [vm_compute; reflexivity|]. simpl. intuition discriminate. Qed.
Print Assumptions C25_fuse_offset_refuted.

(** A bounded loop split by 6 and 2: the guard is left out because the innermost
    range, 2, divides the bound, 16, although 6 does not.  Iterations 16 and 17 are
    outside the loop. *)
Theorem C25_bound_guard_refuted :
  exists vs, visited (fun _ => (0, 16)) [0] [Bound 0 1 16; Split 1 2 3 6; Split 3 4 5 2] [2; 4; 5] = Some vs /\
    In [16] vs /\ In [17] vs.
Proof. eexists. split; [vm_compute; reflexivity|]. simpl. intuition. Qed.
Print Assumptions C25_bound_guard_refuted.

(** A bounded and split loop with the outer loop innermost: the compiler
    dereferences a null pointer. *)
Theorem C25_bound_crash_refuted :
  visited (fun _ => (0, 16)) [0] [Bound 0 1 16; Split 1 2 3 4] [3; 2] = None.
Proof. reflexivity. Qed.
Print Assumptions C25_bound_crash_refuted.

(** A composition that meets the conditions: 7 by 10 iterations, the first loop
    divided in 3, its inner part fused with the second loop, the fused loop split by 4
    and that split's outer loop by 5. *)
Definition example_rels := [Divide 0 2 3 3; Fuse 3 1 4; Split 4 5 6 4; Split 5 7 8 5].
Definition example_bounds : bounds := fun v => if v =? 0 then (0, 7) else (0, 10).
Example C25_example : NoDup [0; 1] /\ well_formed [0; 1] [0; 1] example_rels /\
  loop_vars [0; 1] example_rels = [2; 6; 7; 8] /\
  exact (all_bounds example_bounds example_rels) [0; 1] [0; 1] example_rels /\
  option_map (@length _) (visited example_bounds [0; 1] example_rels [8; 2; 6; 7]) = Some 70.
Proof.
  split; [|split; [|split; [|split]]].
  - repeat (constructor; [simpl; lia|]). constructor.
  - simpl. repeat split; try (intros x Hx; simpl in *; intuition lia); repeat (constructor; [simpl; lia|]); constructor.
  - reflexivity.
  - vm_compute. repeat split; auto; lia.
  - vm_compute. reflexivity.
Qed.

(** ** C28: windows and strides *)
Local Open Scope Z_scope.

(** A windowed loop over a stored segment visits exactly the stored coordinates
    lo, lo+stride, ... below hi, in order, numbered by their place in the window. *)
Theorem C28_window_exact : forall crd b e lo hi stride,
  0 <= b -> b < e -> e <= Z.of_nat (length crd) -> strict_on crd b e ->
  0 < stride -> lo <= hi -> (hi - lo) mod stride = 0 ->
  window_serial crd b e lo hi stride = Val (selected crd b e lo hi stride).
Proof.
  intros. rewrite window_serial_spec by auto. rewrite full_steps_exact by auto. reflexivity.
Qed.
Print Assumptions C28_window_exact.

(** In general: below lo + stride * floor((hi-lo)/stride). *)
Theorem C28_window_general : forall crd b e lo hi stride,
  0 <= b -> b < e -> e <= Z.of_nat (length crd) -> strict_on crd b e -> 0 < stride -> lo <= hi ->
  window_serial crd b e lo hi stride = Val (selected crd b e lo (lo + stride * ((hi - lo) / stride)) stride).
Proof. exact window_serial_spec. Qed.
Print Assumptions C28_window_general.

(** A loop parallelised over threads visits all of the window in any case. *)
Theorem C28_window_parallel : forall crd b e lo hi stride,
  0 <= b -> b < e -> e <= Z.of_nat (length crd) -> strict_on crd b e -> 0 < stride -> lo <= hi ->
  window_parallel crd b e lo hi stride = Val (selected crd b e lo hi stride).
Proof. exact window_parallel_spec. Qed.
Print Assumptions C28_window_parallel.

(** A dense mode is read at the coordinates of the window, each once. *)
Theorem C28_dense_window : forall lo hi stride, 0 < stride -> lo <= hi -> (hi - lo) mod stride = 0 ->
  forall c, (exists i, 0 <= i < window_size lo hi stride /\ window_locate lo stride i = c) <->
            (lo <= c < hi /\ (c - lo) mod stride = 0).
Proof.
  intros lo hi stride Hs Hl Hd c. unfold window_size, window_locate. rewrite Z.quot_div_nonneg by lia.
  pose proof (Z.div_mod (hi - lo) stride ltac:(lia)). split.
  - intros (i & Hi & <-). replace (i * stride + lo - lo) with (i * stride) by lia. rewrite Z.mod_mul by lia. nia.
  - intros [Hc Hm]. pose proof (Z.div_mod (c - lo) stride ltac:(lia)). exists ((c - lo) / stride). split; [|lia].
    split; [apply Z.div_pos; lia|]. nia.
Qed.
Print Assumptions C28_dense_window.
Theorem C28_dense_window_once : forall lo stride i j, 0 < stride ->
  window_locate lo stride i = window_locate lo stride j -> i = j.
Proof. unfold window_locate. intros. nia. Qed.
Print Assumptions C28_dense_window_once.

(** Findings.  If the stride does not divide the window's length, the last element is
    not visited by a serial loop, but is by a parallel one. *)
Theorem C28_last_element_refuted : exists crd b e lo hi stride,
  0 <= b /\ b < e /\ e <= Z.of_nat (length crd) /\ strict_on crd b e /\ 0 < stride /\ lo <= hi /\
  window_serial crd b e lo hi stride = Val [(0, 0); (1, 1)] /\
  window_parallel crd b e lo hi stride = Val [(0, 0); (1, 1); (2, 2)] /\
  selected crd b e lo hi stride = [(0, 0); (1, 1); (2, 2)].
Proof.
  exists [0; 2; 4], 0, 3, 0, 5, 2. repeat split; try (vm_compute; congruence).
  intros i j H1 H2 H3. assert (i = 0 \/ i = 1) as [->| ->] by lia; assert (j = 1 \/ j = 2) as [->| ->] by lia; vm_compute; congruence || lia.
Qed.
Print Assumptions C28_last_element_refuted.
(** An empty segment at the end of the array is read past its end before the loop
    starts. *)
Theorem C28_empty_segment_refuted : exists crd b lo hi stride,
  0 <= b <= Z.of_nat (length crd) /\ 0 < stride /\ lo <= hi /\ window_serial crd b b lo hi stride = Oob.
Proof. exists [1; 2], 2, 0, 2, 1. repeat split; vm_compute; congruence. Qed.
Print Assumptions C28_empty_segment_refuted.

Example C28_example : window_serial [3; 0; 2; 5; 6; 8; 11; 4] 1 7 2 10 2 = Val [(2, 0); (4, 2); (5, 3)] /\
  selected [3; 0; 2; 5; 6; 8; 11; 4] 1 7 2 10 2 = [(2, 0); (4, 2); (5, 3)].
Proof. split; reflexivity. Qed.

(** ** C29: index sets *)
(** Merging a stored segment with a sorted index set visits exactly the stored
    coordinates in the set, numbered by their place in it. *)
Theorem C29_indexset_exact : forall A b e set,
  0 <= b -> e <= Z.of_nat (length A) -> strict_on A b e -> strict_on set 0 (Z.of_nat (length set)) ->
  indexset_merge A b e (indexset_crd set) = Val (selected_by_set A b e set).
Proof. intros. rewrite indexset_crd_sorted by auto. apply indexset_merge_spec; auto. Qed.
Print Assumptions C29_indexset_exact.

(** Any list of coordinates, in any order and with repetitions, selects the stored
    coordinates in it, numbered by their place among its distinct coordinates. *)
Theorem C29_any_list : forall A b e set sorted,
  0 <= b -> e <= Z.of_nat (length A) -> strict_on A b e ->
  strict_on sorted 0 (Z.of_nat (length sorted)) -> (forall x, In x set <-> In x sorted) ->
  indexset_merge A b e (indexset_crd set) = Val (selected_by_set A b e sorted).
Proof. intros A b e set sorted Hb He SA SS E. rewrite (indexset_crd_any set sorted) by auto. apply indexset_merge_spec; auto. Qed.
Print Assumptions C29_any_list.

Example C29_any_example : strict_on [2; 4; 7] 0 3 /\ (forall x, In x [7; 2; 7; 4; 2] <-> In x [2; 4; 7]) /\
  indexset_merge [1; 2; 5; 7] 0 4 (indexset_crd [7; 2; 7; 4; 2]) = Val [(1, 0); (3, 2)].
Proof.
  split; [|split; [intros x; cbn; tauto|reflexivity]]. intros i j Hi Hj Hl.
  assert (i = 0 \/ i = 1) as [-> | ->] by lia; assert (j = 1 \/ j = 2) as [-> | ->] by lia; first [lia | reflexivity].
Qed.

(** Finding: a set that is not listed in increasing order is sorted, so coordinates
    are not numbered by their place in the list. *)
Theorem C29_unsorted_refuted : exists set A,
  indexset_merge A 0 2 (indexset_crd set) = Val [(0, 0); (1, 1)] /\
  selected_by_set A 0 2 set = [(0, 1); (1, 0)].
Proof. exists [7; 2], [2; 7]. split; reflexivity. Qed.
Print Assumptions C29_unsorted_refuted.

Example C29_example : indexset_merge [9; 1; 3; 4; 8; 20; 21; 0] 1 7 [0; 1; 4; 5; 20; 30] = Val [(1, 1); (3, 2); (5, 4)] /\
  selected_by_set [9; 1; 3; 4; 8; 20; 21; 0] 1 7 [0; 1; 4; 5; 20; 30] = [(1, 1); (3, 2); (5, 4)].
Proof. split; reflexivity. Qed.
