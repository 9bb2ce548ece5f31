(** Property C46: the search helpers printed into every kernel. *)
From Coq Require Import ZArith List Lia Bool.
From Verif Require Import Outcome CSearch CSearchProofs.
Import ListNotations.
Open Scope Z_scope.

(** taco_binarySearchAfter returns the first position of a strictly sorted,
    non-empty segment whose entry is not below the target (or the segment's
    end), without leaving the array and terminating. *)
Theorem C46_search_after : forall a lo hi t,
  0 <= lo -> lo < hi -> hi <= Z.of_nat (length a) -> strict_on a lo hi ->
  exists r, taco_binarySearchAfter a lo hi t = Val r /\ first_geq a lo hi t r.
Proof. exact search_after_spec. Qed.
Print Assumptions C46_search_after.

(** taco_binarySearchBefore (inclusive upper bound). *)
Theorem C46_search_before : forall a lo hi t,
  0 <= lo -> lo <= hi -> hi < Z.of_nat (length a) -> strict_on a lo (hi + 1) ->
  at_ a lo <= t ->
  exists r, taco_binarySearchBefore a lo hi t = Val r /\ last_leq a lo hi t r.
Proof. exact search_before_spec. Qed.
Print Assumptions C46_search_before.

(** The same on arrays with repeated entries (pos arrays). *)
Theorem C46_search_before_repeated : forall a lo hi t,
  0 <= lo -> lo <= hi -> hi < Z.of_nat (length a) -> weak_on a lo (hi + 1) ->
  at_ a lo <= t ->
  exists r, taco_binarySearchBefore a lo hi t = Val r /\ lo <= r <= hi /\
            at_ a r <= t /\ (at_ a r = t \/ forall i, r < i <= hi -> t < at_ a i).
Proof. exact search_before_weak_spec. Qed.
Print Assumptions C46_search_before_repeated.

(** taco_gallop, also with repeated entries. *)
Theorem C46_gallop : forall a lo hi t,
  0 <= lo -> lo < hi -> hi <= Z.of_nat (length a) -> weak_on a lo hi ->
  exists r, taco_gallop a lo hi t = Val r /\ first_geq a lo hi t r.
Proof. exact gallop_spec. Qed.
Print Assumptions C46_gallop.

(** Finding: on an empty segment at the end of the array both helpers read one
    element past the array. *)
Theorem C46_empty_segment_refuted :
  exists a lo hi t, 0 <= lo /\ lo <= hi /\ hi <= Z.of_nat (length a) /\ weak_on a lo hi /\
    taco_gallop a lo hi t = Oob /\ taco_binarySearchAfter a lo hi t = Oob.
Proof.
  exists [1; 2], 2, 2, 5. repeat split; try (vm_compute; congruence).
  intros i j; lia.
Qed.
Print Assumptions C46_empty_segment_refuted.

(** Finding: with repeated entries taco_binarySearchAfter need not return the
    first position that is not below the target. *)
Theorem C46_search_after_repeated_refuted :
  exists a lo hi t r, 0 <= lo /\ lo < hi /\ hi <= Z.of_nat (length a) /\ weak_on a lo hi /\
    taco_binarySearchAfter a lo hi t = Val r /\ ~ first_geq a lo hi t r.
Proof.
  exists [0; 3; 3; 3; 4], 0, 5, 3, 2. repeat split; try (vm_compute; congruence).
  - intros i j H1 H2 H3.
    assert (i = 0 \/ i = 1 \/ i = 2 \/ i = 3) as [->|[->|[->| ->]]] by lia;
    assert (j = 1 \/ j = 2 \/ j = 3 \/ j = 4) as [->|[->|[->| ->]]] by lia;
      vm_compute; congruence.
  - intros (_ & H & _). specialize (H 1 ltac:(lia)). vm_compute in H. congruence.
Qed.
Print Assumptions C46_search_after_repeated_refuted.

Example C46_nontrivial :
  let a := [1; 4; 6; 9; 12; 15; 20; 31; 40] in
  strict_on a 1 8 /\ taco_gallop a 1 8 16 = Val 6 /\
  taco_binarySearchAfter a 1 8 16 = Val 6 /\ taco_binarySearchBefore a 1 8 16 = Val 5.
Proof.
  split; [|vm_compute; auto].
  intros i j H1 H2 H3.
  assert (i = 1 \/ i = 2 \/ i = 3 \/ i = 4 \/ i = 5 \/ i = 6 \/ i = 7) as Hi by lia.
  assert (j = 1 \/ j = 2 \/ j = 3 \/ j = 4 \/ j = 5 \/ j = 6 \/ j = 7) as Hj by lia.
  destruct Hi as [->|[->|[->|[->|[->|[->| ->]]]]]]; destruct Hj as [->|[->|[->|[->|[->|[->| ->]]]]]];
    vm_compute; congruence || lia.
Qed.
