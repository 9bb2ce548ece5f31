(** C62: unrolled and vectorized loops. *)
From Coq Require Import List Arith Bool Lia Permutation.
From Verif Require Import Schedule ScheduleSpec Prop_Schedule Cloned ClonedSpec ClonedProofs.
Import ListNotations.

(** Variables that are split, divided or fused once below the loops around: any of
    the loops may be unrolled or vectorized, in any order of the loops, and the
    same iterations run in the same order as without. *)
Theorem C62_one_level : forall B0 roots rels outer inner, NoDup roots -> well_formed roots roots rels ->
  Permutation (outer ++ inner) (loop_vars roots rels) -> fusable (all_bounds B0 rels) rels ->
  one_level rels roots outer (outer ++ inner) ->
  visited_cloned B0 roots rels outer inner = visited B0 roots rels (outer ++ inner).
Proof. exact one_level_same. Qed.
Print Assumptions C62_one_level.

(** Variables that are derived any number of times: the innermost loop may be, if it
    counts in steps of one. *)
Theorem C62_innermost : forall B0 roots rels outer c, NoDup roots -> well_formed roots roots rels ->
  Permutation (outer ++ [c]) (loop_vars roots rels) -> fusable (all_bounds B0 rels) rels ->
  unit_steps rels roots outer c ->
  (forall u, In u roots -> lo (all_bounds B0 rels) u = 0) \/ no_fuse rels ->
  visited_cloned B0 roots rels outer [c] = visited B0 roots rels (outer ++ [c]).
Proof. exact innermost_same. Qed.
Print Assumptions C62_innermost.

(** So every original iteration runs once and no other one does, whenever the
    schedule has that property without unrolling. *)
Theorem C62_iterations : forall B0 roots rels outer inner g, NoDup roots -> well_formed roots roots rels ->
  Permutation (outer ++ inner) (loop_vars roots rels) ->
  guarded_roots rels (outer ++ inner) roots = Some g -> exact (all_bounds B0 rels) roots g rels ->
  one_level rels roots outer (outer ++ inner) \/
  (exists c, inner = [c] /\ unit_steps rels roots outer c /\
             ((forall u, In u roots -> lo (all_bounds B0 rels) u = 0) \/ no_fuse rels)) ->
  exists vs, visited_cloned B0 roots rels outer inner = Some vs /\ Permutation vs (iterations B0 roots).
Proof.
  intros B0 roots rels outer inner g N W P G E H.
  destruct (C25_same_iterations B0 roots rels (outer ++ inner) g N W P G E) as (vs & V & Q).
  exists vs. split; auto. assert (F := exact_fusable _ _ _ _ E). rewrite <- V.
  destruct H as [H|(c & -> & U & Z)]; [apply one_level_same|apply innermost_same]; auto.
Qed.
Print Assumptions C62_iterations.

(** One split loop of any length by any factor, either of the two loops unrolled or
    vectorized, in either order. *)
Theorem C62_split : forall n f i i0 i1, 0 < f -> NoDup [i; i0; i1] ->
  forall outer inner, Permutation (outer ++ inner) [i0; i1] -> inner <> [] ->
  accepts_cloned [Split i i0 i1 f] outer [i] = true /\
  exists vs, visited_cloned (fun _ => (0, n)) [i] [Split i i0 i1 f] outer inner = Some vs /\
             Permutation vs (map (fun x => [x]) (seq 0 n)).
Proof.
  intros n f i i0 i1 Hf N outer inner P I.
  destruct (C25_split n f i i0 i1 Hf N (outer ++ inner) P) as (vs & V & Q).
  inversion N as [|? ? N1 N2]; subst. inversion N2 as [|? ? N3 N4]; subst. simpl in N1, N3.
  assert (W : well_formed [i] [i] [Split i i0 i1 f]).
  { simpl. split; [intros x [<-|[]]; simpl; auto|]. split; [constructor; simpl; auto; constructor|].
    split; [constructor; simpl; auto; constructor; auto; constructor|]. split; [|exact Logic.I].
    intros c [<-|[<-|[]]] [C|[]]; subst; tauto. }
  assert (L : loop_vars [i] [Split i i0 i1 f] = [i0; i1]).
  { unfold loop_vars, replace_loops. simpl. rewrite Nat.eqb_refl. reflexivity. }
  split.
  - assert (R : is_recoverable [Split i i0 i1 f] outer i = false).
    { apply (pending_iff [i]); auto.
      - rewrite L. intros v Hv. eapply Permutation_in; [exact P|]. apply in_app_iff; auto.
      - split; [exists (Split i i0 i1 f); simpl; auto|]. intros K.
        assert (A : In i0 outer /\ In i1 outer).
        { assert (O : forall v, In v outer -> v = i0 \/ v = i1).
          { intros v Hv. assert (In v [i0; i1]) by (eapply Permutation_in; [exact P|apply in_app_iff; auto]). simpl in H. intuition. }
          assert (Z : forall v, known [Split i i0 i1 f] outer v -> v <> i -> In v outer).
          { intros v Kv Nv. inversion Kv as [w Hw|r w Hr Hw Hk]; subst; auto.
            destruct Hr as [<-|[]]. simpl in Hw. destruct Hw as [<-|[]]. congruence. }
          inversion K as [w Hw|r w Hr Hw Hk]; subst.
          - exfalso. destruct (O _ Hw); subst; tauto.
          - destruct Hr as [<-|[]]. simpl in Hk. split; apply Z; auto. }
        apply I. destruct inner as [|x l]; auto. exfalso.
        assert (X : In x [i0; i1]) by (eapply Permutation_in; [exact P|apply in_app_iff; simpl; auto]).
        assert (ND : NoDup (outer ++ x :: l)) by (eapply Permutation_NoDup; [apply Permutation_sym; exact P|auto]).
        apply NoDup_remove_2 in ND. apply ND. apply in_app_iff. left. destruct X as [<-|[<-|[]]]; tauto. }
    unfold accepts_cloned, vars_with_guard. simpl. rewrite R. reflexivity.
  - exists vs. split; auto. rewrite <- V. apply one_level_same; auto.
    + constructor; [simpl; tauto|constructor].
    + rewrite L. auto.
    + intros a b c [C|[]]; discriminate.
    + intros r u c [<-|[]] Hu Hp Hc. left. eapply Permutation_in; [apply Permutation_sym; exact P|auto].
Qed.
Print Assumptions C62_split.

(** A loop is refused exactly if no original variable is both derived and open: all
    are fixed by the loops around or have a loop of their own.  In particular a
    loop that no transformation touched is refused if nothing else was transformed. *)
Theorem C62_accepted : forall roots rels outer, well_formed roots roots rels -> incl outer (loop_vars roots rels) ->
  accepts_cloned rels outer roots = true <->
  exists u, In u roots /\ (exists r, In r rels /\ In u (parents r)) /\ ~ known rels outer u.
Proof.
  intros roots rels outer W O. unfold accepts_cloned. split.
  - destruct (vars_with_guard rels outer roots) as [|u l] eqn:E; [discriminate|]. intros _.
    assert (H : In u (u :: l)) by (simpl; auto). rewrite <- E in H. apply filter_In in H. destruct H as [H1 H2].
    exists u. split; auto. apply (pending_iff roots); auto. apply negb_true_iff; auto.
  - intros (u & Hu & H). apply (pending_iff roots) in H; auto. apply (pending_in roots) in H; auto.
    destruct (vars_with_guard rels outer roots); [destruct H|auto].
Qed.
Print Assumptions C62_accepted.
Theorem C62_plain_loop_refused : forall roots outer, accepts_cloned [] outer roots = false.
Proof.
  intros. unfold accepts_cloned, vars_with_guard. assert (E : filter (fun u => negb (is_recoverable [] outer u)) roots = []).
  { induction roots; simpl; auto. }
  rewrite E. reflexivity.
Qed.
Print Assumptions C62_plain_loop_refused.

(** ** Findings: the test misses iterations out of range *)

Definition in_bounds (n : nat) (vs : list (list nat)) : Prop := forall x, In x vs -> forall k, In k x -> k < n.

(** [i] of length 20 is split by 8 and the outer loop again by 4.  Unrolling the
    middle loop, or vectorizing it as the innermost one: the test assumes
    that [i] grows by one with each of its steps, where it grows by 8.  The iterations
    20 to 31 run.  Without unrolling the same loops run 0 to 19. *)
Theorem C62_outer_refuted :
  let rels := [Split 0 1 2 8; Split 1 3 4 4] in let B0 := fun _ => (0, 20) in
  well_formed [0] [0] rels /\ exact (all_bounds B0 rels) [0] [0] rels /\
  (forall order, order = [3; 4; 2] \/ order = [3; 2; 4] ->
     Permutation order (loop_vars [0] rels) /\
     exists vs, visited B0 [0] rels order = Some vs /\ Permutation vs (iterations B0 [0])) /\
  (exists vs, visited_cloned B0 [0] rels [3] [4; 2] = Some vs /\ In [31] vs) /\
  (exists vs, visited_cloned B0 [0] rels [3; 2] [4] = Some vs /\ In [31] vs).
Proof.
  assert (W : well_formed [0] [0] [Split 0 1 2 8; Split 1 3 4 4]).
  { simpl. repeat split; try (intros x Hx; simpl in *; intuition lia); repeat (constructor; [simpl; lia|]); constructor. }
  assert (E : exact (all_bounds (fun _ => (0, 20)) [Split 0 1 2 8; Split 1 3 4 4]) [0] [0] [Split 0 1 2 8; Split 1 3 4 4]).
  { simpl. repeat split; try lia; left; reflexivity. }
  cbv zeta. split; [exact W|]. split; [exact E|]. split; [|split].
  - intros order H. assert (P : Permutation order (loop_vars [0] [Split 0 1 2 8; Split 1 3 4 4])).
    { change (loop_vars [0] [Split 0 1 2 8; Split 1 3 4 4]) with [2; 3; 4].
      destruct H as [->| ->].
      - apply Permutation_trans with [3; 2; 4]; [|apply perm_swap]. apply perm_skip. apply perm_swap.
      - apply perm_swap. }
    split; auto. eapply C25_same_iterations; eauto.
    + constructor; [simpl; tauto|constructor].
    + destruct H as [->| ->]; vm_compute; reflexivity.
  - eexists. split; [vm_compute; reflexivity|]. simpl. tauto.
  - eexists. split; [vm_compute; reflexivity|]. simpl. tauto.
Qed.
Print Assumptions C62_outer_refuted.

(** Inner loops split further: all factors divide each other, so that the loops
    without unrolling are right for every length (here 40), but the offset of the first
    recovered variable is used for all. *)
Theorem C62_inner_refuted :
  exists vs ws, visited (fun _ => (0, 40)) [0] [Split 0 1 2 64; Split 2 3 4 16; Split 4 5 6 4] [1; 3; 5; 6] = Some vs /\
    vs = map (fun x => [x]) (seq 0 40) /\
    visited_cloned (fun _ => (0, 40)) [0] [Split 0 1 2 64; Split 2 3 4 16; Split 4 5 6 4] [1] [3; 5; 6] = Some ws /\
    ws = map (fun x => [x]) (seq 0 64).
Proof. do 2 eexists. repeat split; vm_compute; reflexivity. Qed.
Print Assumptions C62_inner_refuted.

(** Two original variables: the offset of one is used for the other. *)
Theorem C62_two_variables_refuted :
  let rels := [Split 0 1 2 4; Split 10 11 12 8; Split 12 13 14 4] in
  let B0 := fun v => if v =? 0 then (0, 9) else (0, 5) in
  exists vs ws, visited B0 [0; 10] rels [1; 11; 2; 13; 14] = Some vs /\ in_bounds 9 vs /\
    (forall x, In x vs -> nth 1 x 0 < 5) /\
    visited_cloned B0 [0; 10] rels [1; 11] [2; 13; 14] = Some ws /\ In [0; 7] ws.
Proof.
  do 2 eexists. split; [vm_compute; reflexivity|]. split; [|split; [|split; [vm_compute; reflexivity|simpl; tauto]]].
  - intros x Hx k Hk. simpl in Hx. repeat (destruct Hx as [<-|Hx]; [simpl in Hk; lia|]). destruct Hx.
  - intros x Hx. simpl in Hx. repeat (destruct Hx as [<-|Hx]; [simpl; lia|]). destruct Hx.
Qed.
Print Assumptions C62_two_variables_refuted.

(** Cases that meet the hypotheses: a variable split twice with the innermost loop
    unrolled, and two variables fused and the result split, for a length that no
    factor divides.  In both the guarded clone runs for some iterations and the other
    one for others. *)
Example C62_innermost_case :
  let rels := [Split 0 1 2 8; Split 2 3 4 4] in let B0 := fun _ => (0, 29) in
  well_formed [0] [0] rels /\ Permutation ([1; 3] ++ [4]) (loop_vars [0] rels) /\
  fusable (all_bounds B0 rels) rels /\ unit_steps rels [0] [1; 3] 4 /\ no_fuse rels /\
  may_leave (all_bounds B0 rels) rels [1; 3] [0] (upd (upd (fun _ => 0) 1 3) 3 1) = true /\
  may_leave (all_bounds B0 rels) rels [1; 3] [0] (upd (fun _ => 0) 1 3) = false.
Proof.
  cbv zeta. split; [|split; [|split; [|split; [|split; [|split]]]]].
  - simpl. repeat split; try (intros x Hx; simpl in *; intuition lia); repeat (constructor; [simpl; lia|]); constructor.
  - apply Permutation_refl.
  - intros a b c [C|[C|[]]]; discriminate.
  - intros r [<-|[<-|[]]]; left; apply known_loop; simpl; auto.
  - intros a b c [C|[C|[]]]; discriminate.
  - vm_compute. reflexivity.
  - vm_compute. reflexivity.
Qed.
Example C62_fused_case :
  let rels := [Fuse 0 1 2; Split 2 3 4 4] in let B0 := fun v => if v =? 0 then (0, 3) else (0, 5) in
  well_formed [0; 1] [0; 1] rels /\ Permutation ([3] ++ [4]) (loop_vars [0; 1] rels) /\
  fusable (all_bounds B0 rels) rels /\ unit_steps rels [0; 1] [3] 4 /\
  (forall u, In u [0; 1] -> lo (all_bounds B0 rels) u = 0) /\
  exists vs, visited_cloned B0 [0; 1] rels [3] [4] = Some vs /\ Permutation vs (iterations B0 [0; 1]).
Proof.
  cbv zeta. split; [|split; [|split; [|split; [|split]]]].
  - simpl. repeat split; try (intros x Hx; simpl in *; intuition lia); repeat (constructor; [simpl; lia|]); constructor.
  - apply Permutation_refl.
  - intros a b c [C|[C|[]]]; inversion C; subst. vm_compute. split; [reflexivity|lia].
  - intros r [<-|[<-|[]]]; [right; simpl; auto|left; apply known_loop; simpl; auto].
  - intros u [<-|[<-|[]]]; reflexivity.
  - eexists. split; [vm_compute; reflexivity|]. vm_compute. apply Permutation_refl.
Qed.
