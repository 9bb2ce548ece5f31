(** C73: kernels generated for GPUs do the work of the loops they replace. *)
From Coq Require Import List ZArith Bool Lia Sorting.Permutation.
Import ListNotations.
From Verif Require Import Cuda CudaSpec CudaProofs.
Local Open Scope Z_scope.

(** The threads that are launched have, all together, exactly the effects of the
    loops, each as often as the loops have it. *)
Theorem C73_program : forall s e, gpu_program s ->
  exists evs, host e s = Some evs /\ Permutation evs (sequential e s).
Proof. intros s e G. now apply host_right. Qed.
Print Assumptions C73_program.
(** Two warps of four threads in each of three blocks; every thread adds up some
    positions, and the first thread of each warp reduces. *)
Definition fixed (z : Z) : bound := {| uses := []; value := fun _ => z |}.
Definition example : stmt :=
  Both (Do 9 [])
    (Par Block 0 0 5 2
      (Serial 3 (fixed 0) {| uses := [0%nat]; value := fun l => 1 + nth 0 l 0 |} 1
        (Par Warp 1 0 2 1
          (Both (Par Thread 2 1 9 2 (Serial 4 (fixed 0) {| uses := [2%nat]; value := fun l => nth 0 l 0 |} 1 (Do 7 [0; 1; 2; 3; 4]%nat)))
                (Reduce 2 1 9 2 (Do 8 [0; 1; 2; 3]%nat)))))).
Example C73_program_example : gpu_program example /\
  (exists evs, host (fun _ => 0) example = Some evs /\ length evs = length (sequential (fun _ => 0) example) /\
    (100 < length evs)%nat).
Proof.
  split.
  - apply gpu_both; [constructor|]. apply (gpu_kernel _ _ _ _ _ (Some (1%nat, 0, 2, 1)) (2%nat, 1, 9, 2)); [|lia|discriminate].
    apply warps.
    + apply placed_serial; cbn; [|discriminate|tauto|intros [H|[]]; discriminate].
      apply placed_inside; [reflexivity|]. apply (placed_reduction _ _ _ _ _ 9 2); auto.
      * apply placed_here; cbn; auto.
      * exact I.
    + apply placed_serial; cbn; [|discriminate|tauto|intros [H|[]]; discriminate].
      apply placed_here; [reflexivity|]. cbn. repeat split; discriminate.
    + cbn. repeat split; discriminate.
    + cbn. repeat split; try lia. exists 4. reflexivity.
    + cbn. repeat split; try lia. exists 2. reflexivity.
    + discriminate.
  - eexists. split; [vm_compute; reflexivity|]. split; [vm_compute; reflexivity|]. vm_compute. lia.
Qed.

(** No matter how threads take turns, no atomic addition and no atomic or is
    lost. *)
Theorem C73_adds : forall threads m m', adds (concat threads) ->
  interleaving m (map start threads) m' ->
  forall l, m' l = m l + total (operands l (concat threads)).
Proof.
  intros uss m m' A R l. destruct (adds_steps (concat uss) A) as [S O].
  rewrite (all_added m _ m' R); rewrite left_start; [now rewrite O|exact S].
Qed.
Print Assumptions C73_adds.
Theorem C73_ors : forall threads m m', ors (concat threads) ->
  interleaving m (map start threads) m' ->
  forall l, m' l = Z.lor (m l) (union (operands l (concat threads))).
Proof.
  intros uss m m' A R l. destruct (ors_steps (concat uss) A) as [S O].
  rewrite (all_ored m _ m' R); rewrite left_start; [now rewrite O|exact S].
Qed.
Print Assumptions C73_ors.
Example C73_adds_example :
  interleaving (fun _ => 0) (map start [[AddTo 0 5; AddTo 1 2]; [AddTo 0 6]])
    (upd (upd (upd (fun _ => 0) 0 5) 0 11) 1 2).
Proof.
  apply (turn _ [] 0 (Add 0 5) [Add 1 2] [(0, [Add 0 6])]).
  apply (turn _ [(0, [Add 1 2])] 0 (Add 0 6) [] []).
  apply (turn _ [] 0 (Add 1 2) [] [(0, [])]).
  apply finished. intros t [<-|[<-|[]]]; reflexivity.
Qed.

(** Finding: atomic multiplications are lost.  The generated code tries to
    exchange once and does not try again if another thread was faster.  A single
    thread computes the product. *)
Theorem C73_mul_refuted : exists threads m m', muls (concat threads) /\
  interleaving m (map start threads) m' /\
  exists l, m' l <> m l * product (operands l (concat threads)).
Proof.
  exists [[MulTo 0 2]; [MulTo 0 3]], (fun _ => 1), (upd (fun _ => 1) 0 2).
  split; [|split].
  - intros u [<-|[<-|[]]]; eauto.
  - apply (turn _ [] 0 (Old 0) [Cas 0 2] [(0, [Old 0; Cas 0 3])]).
    apply (turn _ [(1, [Cas 0 2])] 0 (Old 0) [Cas 0 3] []).
    apply (turn _ [] 1 (Cas 0 2) [] [(1, [Cas 0 3])]).
    apply (turn _ [(1, [])] 1 (Cas 0 3) [] []).
    apply finished. intros t [<-|[<-|[]]]; reflexivity.
  - exists 0%nat. cbn. discriminate.
Qed.
Print Assumptions C73_mul_refuted.
Theorem C73_mul_alone : forall us m m', muls us -> interleaving m [start us] m' ->
  forall l, m' l = m l * product (operands l us).
Proof.
  intros us m m' M R l. rewrite (alone m _ m' R 0 (concat (map steps_of us)) eq_refl).
  now apply run_muls.
Qed.
Print Assumptions C73_mul_alone.

(** atomicAddWarp adds what the threads of the warp that still run want to add,
    also if some have returned and whatever is read from those. *)
Theorem C73_warp : forall active junk index junk_index v m l,
  add_warp active junk index junk_index v m l =
  m l + total (map v (filter (fun i => active i && Nat.eqb (index i) l) (seq 0 32))).
Proof. exact warp_right. Qed.
Print Assumptions C73_warp.
Example C73_warp_example :
  add_warp (fun _ => true) 0 (fun _ => 3%nat) 0%nat Z.of_nat (fun _ => 4) 3%nat = 500 /\
  add_warp (fun i => Nat.ltb i 30) 77 (fun _ => 3%nat) 0%nat Z.of_nat (fun _ => 4) 3%nat = 439.
Proof. vm_compute. auto. Qed.

(** The search before a kernel writes the results of all blocks, and one for the
    end, each once and in bounds. *)
Theorem C73_search : forall search target size num_blocks,
  1 <= size <= max_threads -> 0 <= num_blocks ->
  search_launch search target size num_blocks =
  map (fun idx => (idx, search (target idx))) (map Z.of_nat (seq 0 (Z.to_nat (num_blocks + 1)))).
Proof. exact search_right. Qed.
Print Assumptions C73_search.
Example C73_search_example :
  search_launch (fun t => t / 10) (fun idx => idx * 25) 2 4 = [(0, 0); (1, 2); (2, 5); (3, 7); (4, 10)].
Proof. vm_compute. reflexivity. Qed.

(** Leaving a loop where the source says to continue with the next iteration is
    right if the condition, once true, stays true. *)
Theorem C73_break : forall guard body lo hi inc, 0 < inc ->
  (forall x y, x < y -> guard x = true -> guard y = true) ->
  loop_break guard body (iterations lo hi inc) =
  flat_map (fun x => if guard x then [] else body x) (iterations lo hi inc).
Proof.
  intros guard body lo hi inc P M. destruct (iterations_sorted lo hi inc P) as (n & ->).
  now apply break_right.
Qed.
Print Assumptions C73_break.
Theorem C73_break_refuted : exists guard body,
  loop_break guard body (iterations 0 3 1) <> flat_map (fun x => if guard x then [] else body x) (iterations 0 3 1).
Proof. exists (fun x => x =? 1), (fun x => [(0%nat, [x])]). vm_compute. discriminate. Qed.
Print Assumptions C73_break_refuted.

(** Finding: an effect outside of the loop over threads is repeated by each
    thread. *)
Theorem C73_outside_refuted : exists s evs, host (fun _ => 0) s = Some evs /\
  ~ Permutation evs (sequential (fun _ => 0) s).
Proof.
  exists (Par Block 0 0 1 1 (Both (Do 0 []) (Par Thread 1 0 2 1 (Do 1 [1%nat])))),
    [(0%nat, []); (1%nat, [0]); (0%nat, []); (1%nat, [1])].
  split; [vm_compute; reflexivity|]. intros P. apply Permutation_length in P. vm_compute in P. discriminate.
Qed.
Print Assumptions C73_outside_refuted.

(** Finding: the number of threads is rounded down, so iterations at the end of a
    loop that does not step evenly are lost. *)
Theorem C73_uneven_refuted : forall hi, 0 < hi -> Z.odd hi = true -> 1 < hi <= max_threads ->
  exists evs, host (fun _ => 0) (Par Block 0 0 1 1 (Par Thread 1 0 hi 2 (Do 0 [1%nat]))) = Some evs /\
    ~ In (0%nat, [hi - 1]) evs /\
    In (0%nat, [hi - 1]) (sequential (fun _ => 0) (Par Block 0 0 1 1 (Par Thread 1 0 hi 2 (Do 0 [1%nat])))).
Proof.
  intros hi H O M. apply Z.odd_spec in O. destruct O as [q O].
  assert (Q : Z.quot (hi - 0) 2 = q).
  { rewrite Z.quot_div_nonneg by lia. symmetry. apply (Z.div_unique (hi - 0) 2 q 1); lia. }
  cbn [host]. unfold kernel. cbn [collect]. cbn [block_size count_of]. rewrite Q.
  destruct (Z.leb_spec 1 q); [|lia]. destruct (Z.leb_spec q max_threads); [|unfold max_threads in *; lia].
  cbn [andb]. eexists. split; [reflexivity|]. split.
  - intros I. apply in_flat_map in I. destruct I as (k & _ & I). apply in_flat_map in I.
    destruct I as (tid & T & I). apply range_in in T. cbn in I. destruct I as [I|[]].
    unfold thread_env in I. cbn [var_of id_of count_of] in I. rewrite Q in I.
    rewrite Z.rem_small in I by lia. unfold upd in I. cbn in I. injection I as I. lia.
  - unfold sequential. cbn [sem].
    apply in_flat_map. exists 0. split; [vm_compute; now left|].
    apply in_flat_map. exists (hi - 1). split; [|cbn; now left].
    rewrite (iterations_count 0 hi 2 (q + 1)) by lia. apply in_map_iff. exists q. split; [lia|].
    apply range_in. lia.
Qed.
Print Assumptions C73_uneven_refuted.

(** Finding: a loop over more threads than a block can have does nothing, without
    an error. *)
Theorem C73_large_refuted : forall n, max_threads < n ->
  host (fun _ => 0) (Par Block 0 0 1 1 (Par Thread 1 0 n 1 (Do 0 [1%nat]))) = Some [] /\
  In (0%nat, [0]) (sequential (fun _ => 0) (Par Block 0 0 1 1 (Par Thread 1 0 n 1 (Do 0 [1%nat])))).
Proof.
  intros n N. split.
  - cbn [host]. unfold kernel. cbn [collect block_size count_of]. rewrite Z.sub_0_r, Z.quot_1_r.
    destruct (Z.leb_spec n max_threads); [lia|]. now rewrite andb_false_r.
  - unfold sequential. cbn [sem]. apply in_flat_map. exists 0. split; [vm_compute; now left|].
    apply in_flat_map. exists 0. split; [|cbn; now left].
    destruct (iterations_first 0 n 1) as (r & -> & _); [lia|unfold max_threads in N; lia|now left].
Qed.
Print Assumptions C73_large_refuted.
