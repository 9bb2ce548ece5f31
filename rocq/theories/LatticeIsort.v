(** The example sort is one that std::sort may perform. *)
From Coq Require Import List Arith Lia Bool Permutation Sorted.
Import ListNotations.
From Verif Require Import Lattice LatticeSpec.

Lemma insert_perm : forall p l, Permutation (p :: l) (insert_pt p l).
Proof.
  induction l; simpl; auto. destruct (psize a <? psize p); auto.
  eapply perm_trans; [apply perm_swap|]. constructor. auto.
Qed.

Lemma insert_sorted : forall p l, StronglySorted (fun p q => psize q <= psize p) l ->
  StronglySorted (fun p q => psize q <= psize p) (insert_pt p l).
Proof.
  induction l; simpl; intros S; [repeat constructor|].
  inversion S; subst. destruct (Nat.ltb_spec (psize a) (psize p)).
  - constructor; auto. constructor; [lia|]. rewrite Forall_forall in *. intros x Hx.
    specialize (H2 x Hx). lia.
  - constructor; auto. rewrite Forall_forall in *. intros x Hx.
    eapply Permutation_in in Hx; [|apply Permutation_sym, insert_perm].
    destruct Hx as [<-|Hx]; auto.
Qed.

Theorem isort_admissible : admissible_sort isort.
Proof.
  intros l. unfold isort. split.
  - eapply perm_trans; [apply Permutation_rev|].
    induction (rev l); simpl; auto.
    eapply perm_trans; [|apply insert_perm]. auto.
  - induction (rev l); simpl; [constructor|]. apply insert_sorted. auto.
Qed.
