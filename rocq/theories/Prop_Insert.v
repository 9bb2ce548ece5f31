(** Property C10: ungrouped insertion into a compressed level. *)
From Coq Require Import List Arith Lia Bool Permutation.
Import ListNotations.
From Verif Require Import Outcome Storage IndexExpr Eval LoopIR InsertRows AppendSpec InsertProofs.
Local Open Scope nat_scope.

(** Below any number of dense levels of any widths, for every sequence of
    insertions and every order in which they were counted: the code runs, so no
    access is out of bounds, and it leaves the compressed level whose [r]-th
    segment holds the coordinates inserted below [r], each in a slot of its own,
    with the values in the same slots. *)
Theorem C10_ungrouped_insertion :
  forall V (R : ring_ops V) fn T junkV junkI nv ds counted (ins : list (nat * (nat * V))) (st : state V),
  (forall x, In x ins -> fst x < prodr ds) -> Permutation counted (map fst ins) ->
  exists st', exec R fn T junkV junkI (insert_kernel nv ds counted ins) st st' /\
    let pos := ibuf st' (RPos (length ds)) in
    let crd := ibuf st' (RCrd (length ds)) in
    let vals := vbuf st' nv in
    compressed_level (prodr ds) (fun r => map fst (below_parent ins r)) pos crd /\
    length vals = length crd /\
    forall r, r < prodr ds ->
      firstn (nth (S r) pos 0 - nth r pos 0) (skipn (nth r pos 0) vals) = map snd (below_parent ins r).
Proof. intros. apply insert_ok; auto. Qed.
Print Assumptions C10_ungrouped_insertion.

(** Whatever the order of insertion, each parent gets the same coordinates and values. *)
Theorem C10_any_order :
  forall V (ins ins' : list (nat * (nat * V))) r, Permutation ins ins' ->
  Permutation (below_parent ins r) (below_parent ins' r).
Proof.
  intros V ins ins' r P. apply Permutation_map. induction P; simpl; auto.
  - destruct (fst x =? r); auto.
  - destruct (fst x =? r), (fst y =? r); auto. apply perm_swap.
  - etransitivity; eauto.
Qed.
Print Assumptions C10_any_order.

Definition ex_ins : list (nat * (nat * nat)) := [(3, (1, 10)); (0, (2, 20)); (3, (0, 30)); (5, (4, 40))].
Example C10_example : (forall x, In x ex_ins -> fst x < prodr [2; 3]) /\ Permutation [0; 3; 3; 5] (map fst ex_ins).
Proof.
  split; [intros x H; simpl in H; simpl; intuition (subst; simpl; lia)|]. apply perm_swap.
Qed.
