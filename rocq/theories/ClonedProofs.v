(** Proofs about unrolled and vectorized loops. *)
From Coq Require Import List Arith Bool Lia Permutation.
From Verif Require Import Schedule ScheduleSpec ScheduleProofs Cloned ClonedSpec.
Import ListNotations.

Lemma inb_In : forall v l, inb v l = true <-> In v l.
Proof. exact mem_In. Qed.
Lemma inb_not : forall v l, inb v l = false <-> ~ In v l.
Proof.
  intros. destruct (inb v l) eqn:E.
  - apply inb_In in E. split; [discriminate|tauto].
  - split; auto. intros _ C. apply inb_In in C. congruence.
Qed.
Lemma is_parent_iff : forall rels v, is_parent rels v = true <-> exists r, In r rels /\ In v (parents r).
Proof.
  intros. unfold is_parent. rewrite existsb_exists. split; intros (r & Hr & H); exists r; split; auto; apply inb_In; auto.
Qed.

(** ** The relations form a forest *)
Lemma incl_used : forall L used r, incl L used -> incl (replace_loops L r) (used ++ children r).
Proof.
  intros L used r H x Hx. apply in_replace in Hx. rewrite in_app_iff. destruct Hx as [[Hx _]|Hx]; auto.
Qed.
Lemma child_new : forall rels L used r c, well_formed L used rels -> In r rels -> In c (children r) -> ~ In c used.
Proof.
  induction rels as [|r0 rest IH]; simpl; intros L used r c W Hr Hc; [contradiction|].
  destruct W as (_ & _ & _ & W4 & W5). destruct Hr as [<-|Hr]; auto.
  specialize (IH _ _ _ _ W5 Hr Hc). rewrite in_app_iff in IH. tauto.
Qed.
Lemma child_unique : forall rels L used r r' c, well_formed L used rels -> In r rels -> In r' rels ->
  In c (children r) -> In c (children r') -> r = r'.
Proof.
  induction rels as [|r0 rest IH]; simpl; intros L used r r' c W Hr Hr' Hc Hc'; [contradiction|].
  destruct W as (_ & _ & _ & W4 & W5). destruct Hr as [<-|Hr], Hr' as [<-|Hr']; auto.
  - exfalso. apply (child_new _ _ _ _ c W5 Hr' Hc'). apply in_app_iff; auto.
  - exfalso. apply (child_new _ _ _ _ c W5 Hr Hc). apply in_app_iff; auto.
  - eapply IH; eauto.
Qed.
Lemma parent_gone : forall L r p, In p (parents r) -> ~ In p (children r) -> ~ In p (replace_loops L r).
Proof. intros L r p H H1 C. apply in_replace in C. tauto. Qed.
Lemma parent_unique : forall rels L used r r' p, incl L used -> well_formed L used rels -> In r rels -> In r' rels ->
  In p (parents r) -> In p (parents r') -> r = r'.
Proof.
  induction rels as [|r0 rest IH]; simpl; intros L used r r' p I W Hr Hr' Hp Hp'; [contradiction|].
  destruct W as (W1 & _ & _ & W4 & W5).
  assert (G : In p (parents r0) -> forall q, In q rest -> ~ In p (parents q)).
  { intros H q Hq. assert (U := I _ (W1 _ H)).
    apply (wf_gone _ _ _ _ (incl_used _ _ r0 I) W5); auto.
    - apply in_app_iff; auto.
    - apply parent_gone; auto. intros C. exact (W4 _ C U). }
  destruct Hr as [<-|Hr], Hr' as [<-|Hr']; auto.
  - exfalso. exact (G Hp _ Hr' Hp').
  - exfalso. exact (G Hp' _ Hr Hp).
  - eapply IH; [apply (incl_used _ _ r0 I)|exact W5|auto..]; eauto.
Qed.
Lemma parent_no_loop : forall rels L used r p, incl L used -> well_formed L used rels -> In r rels ->
  In p (parents r) -> ~ In p (loop_vars L rels).
Proof.
  assert (K : forall rels L used p, incl L used -> well_formed L used rels -> In p used -> ~ In p L -> ~ In p (loop_vars L rels)).
  { unfold loop_vars. induction rels as [|r0 rest IH]; simpl; intros L used p I W U N; auto.
    destruct W as (W1 & _ & _ & W4 & W5). eapply IH; [apply (incl_used _ _ r0 I)|exact W5| |].
    - apply in_app_iff; auto.
    - intros C. apply in_replace in C. destruct C as [[C _]|C]; [auto|exact (W4 _ C U)]. }
  unfold loop_vars. induction rels as [|r0 rest IH]; simpl; intros L used r p I W Hr Hp; [contradiction|].
  destruct W as (W1 & _ & _ & W4 & W5). destruct Hr as [<-|Hr].
  - assert (U := I _ (W1 _ Hp)). eapply (K rest); [apply (incl_used _ _ r0 I)|exact W5| |].
    + apply in_app_iff; auto.
    + apply parent_gone; auto. intros C. exact (W4 _ C U).
  - eapply IH; [apply (incl_used _ _ r0 I)|exact W5|eauto..].
Qed.
Lemma loop_or_parent : forall rels L v, In v L -> In v (loop_vars L rels) \/ exists r, In r rels /\ In v (parents r).
Proof.
  unfold loop_vars. induction rels as [|r rest IH]; simpl; intros L v H; auto.
  destruct (in_dec Nat.eq_dec v (parents r)) as [Hp|Hp]; [right; eauto|].
  destruct (IH (replace_loops L r) v) as [G|(q & Hq & G)]; auto.
  - apply in_replace; auto.
  - right. eauto.
Qed.
Lemma child_loop_or_parent : forall rels L r c, In r rels -> In c (children r) ->
  In c (loop_vars L rels) \/ exists q, In q rels /\ In c (parents q).
Proof.
  unfold loop_vars. induction rels as [|r0 rest IH]; simpl; intros L r c Hr Hc; [contradiction|].
  destruct Hr as [<-|Hr].
  - destruct (loop_or_parent rest (replace_loops L r0) c) as [G|(q & Hq & G)]; auto.
    + apply in_replace; auto.
    + right. eauto.
  - destruct (IH (replace_loops L r0) r c Hr Hc) as [G|(q & Hq & G)]; auto. right. eauto.
Qed.

(** Each variable has the value recovered from its children. *)
Lemma recover_fix : forall B rels L used s r p, incl L used -> well_formed L used rels -> In r rels ->
  In p (parents r) -> recover_all B rels s p = recover B (recover_all B rels s) r p.
Proof.
  induction rels as [|r0 rest IH]; simpl; intros L used s r p I W Hr Hp; [contradiction|].
  destruct W as (W1 & W2 & W3 & W4 & W5). destruct Hr as [<-|Hr].
  - apply recover_ext; auto. intros c Hc. symmetry. apply recover_other.
    intros C. exact (W4 _ Hc (I _ (W1 _ C))).
  - assert (N : ~ In p (parents r0)).
    { intros H. assert (U := I _ (W1 _ H)).
      destruct (wf_gone _ _ _ p (incl_used _ _ r0 I) W5) with (r := r) as [G _]; auto.
      - apply in_app_iff; auto.
      - apply parent_gone; auto. intros C. exact (W4 _ C U). }
    rewrite recover_other by auto. rewrite (IH _ _ s r p (incl_used _ _ r0 I) W5 Hr Hp).
    apply recover_ext; auto. intros c Hc. symmetry. apply recover_other. intros C.
    apply (child_new _ _ _ _ c W5 Hr Hc). apply in_app_iff. left. auto.
Qed.

Lemma fuse_first : forall B s a b d, a <> b -> recover B s (Fuse a b d) a = s d / (hi B b - lo B b).
Proof. intros. simpl. rewrite upd_other by auto. apply upd_same. Qed.

(** ** What is recoverable *)
Lemma recs_cons : forall D r rels, recs D (r :: rels) =
  if forallb (fun c => inb c D || inb c (recs D rels)) (children r) then parents r ++ recs D rels else recs D rels.
Proof. reflexivity. Qed.
Lemma recs_known : forall D rels v, In v (recs D rels) -> known rels D v /\ exists r, In r rels /\ In v (parents r).
Proof.
  assert (K : forall D r rels v, known rels D v -> known (r :: rels) D v).
  { induction 1; [apply known_loop; auto|]. eapply known_derived; [right; eauto|auto|auto]. }
  intros D rels. induction rels as [|r rest IH]; intros v H; [destruct H|].
  rewrite recs_cons in H.
  destruct (forallb (fun c => inb c D || inb c (recs D rest)) (children r)) eqn:E.
  - apply in_app_iff in H. destruct H as [H|H].
    + split; [|exists r; simpl; auto]. eapply known_derived; [left; reflexivity|auto|].
      intros c Hc. rewrite forallb_forall in E. specialize (E _ Hc). apply orb_prop in E.
      destruct E as [E|E]; apply inb_In in E; [apply known_loop; auto|]. apply K. apply IH; auto.
    + destruct (IH _ H) as (A & q & Hq & A'). split; [auto|]. exists q. simpl; auto.
  - destruct (IH _ H) as (A & q & Hq & A'). split; [auto|]. exists q. simpl; auto.
Qed.
Lemma recs_mono : forall D r rels v, In v (recs D rels) -> In v (recs D (r :: rels)).
Proof.
  intros. rewrite recs_cons. destruct (forallb (fun c => inb c D || inb c (recs D rels)) (children r)); auto.
  apply in_app_iff; auto.
Qed.
Lemma recs_all : forall D rels L, incl (loop_vars L rels) D -> forall r p, In r rels -> In p (parents r) -> In p (recs D rels).
Proof.
  intros D rels. induction rels as [|r0 rest IH]; intros L I r p Hr Hp; [destruct Hr|].
  unfold loop_vars in I. simpl in I. fold (loop_vars (replace_loops L r0) rest) in I.
  assert (G := IH _ I). destruct Hr as [<-|Hr]; [|apply recs_mono; eauto].
  rewrite recs_cons. rewrite (proj2 (forallb_forall _ (children r0))); [apply in_app_iff; auto|].
  intros c Hc. apply orb_true_iff.
  destruct (loop_or_parent rest (replace_loops L r0) c) as [H|(q & Hq & H)].
  - apply in_replace; auto.
  - left. apply inb_In. auto.
  - right. apply inb_In. eauto.
Qed.

Lemma expand_in : forall r Ls v, In v (flat_map (fun v => if inb v (parents r) then children r else [v]) Ls) ->
  (In v Ls /\ ~ In v (parents r)) \/ (In v (children r) /\ exists w, In w Ls /\ In w (parents r)).
Proof.
  intros r Ls v H. apply in_flat_map in H. destruct H as (w & Hw & H).
  destruct (inb w (parents r)) eqn:E.
  - right. split; auto. exists w. split; auto. apply inb_In; auto.
  - destruct H as [<-|[]]. left. split; auto. apply inb_not; auto.
Qed.
Lemma leaves_recs : forall D rels Ls,
  (forall v, In v (fold_left (fun L r => flat_map (fun v => if inb v (parents r) then children r else [v]) L) rels Ls) -> In v D) ->
  forall v, In v Ls -> In v D \/ In v (recs D rels).
Proof.
  intros D rels. induction rels as [|r rest IH]; simpl; intros Ls H v Hv; auto.
  assert (G := IH _ H). destruct (in_dec Nat.eq_dec v (parents r)) as [Hp|Hp].
  - right. fold (recs D rest). rewrite (proj2 (forallb_forall _ (children r))); [apply in_app_iff; auto|].
    intros c Hc. apply orb_true_iff. rewrite !inb_In. apply G. apply in_flat_map. exists v. split; auto.
    apply inb_In in Hp. rewrite Hp. auto.
  - destruct (G v) as [K|K]; auto.
    + apply in_flat_map. exists v. split; auto. apply inb_not in Hp. rewrite Hp. simpl; auto.
    + right. exact (recs_mono D r rest v K).
Qed.
Lemma leaves_loops : forall rels L Ls, incl Ls L ->
  forall v, In v (fold_left (fun L r => flat_map (fun v => if inb v (parents r) then children r else [v]) L) rels Ls) ->
  In v (loop_vars L rels).
Proof.
  unfold loop_vars. induction rels as [|r rest IH]; simpl; intros L Ls I v H; auto.
  eapply IH; [|exact H]. intros w Hw. apply in_replace. apply expand_in in Hw. destruct Hw as [[H1 H2]|[H1 _]]; auto.
Qed.

(** ** The values around the loop *)
Lemma loops_app : forall B a b s, loops B (a ++ b) s = flat_map (loops B b) (loops B a s).
Proof.
  induction a as [|v a IH]; simpl; intros b s; [rewrite app_nil_r; auto|].
  induction (seq (lo B v) (hi B v - lo B v)) as [|x l IHl]; simpl; auto.
  rewrite IHl, flat_map_app, IH. reflexivity.
Qed.
Lemma loops_range : forall B order s t v, In t (loops B order s) -> In v order -> lo B v <= t v < hi B v.
Proof.
  induction order as [|w r IH]; simpl; intros s t v H Hv; [contradiction|].
  apply in_flat_map in H. destruct H as (x & Hx & H). apply in_seq in Hx.
  destruct (in_dec Nat.eq_dec v r) as [Hr|Hr]; [eauto|].
  destruct Hv as [<-|Hv]; [|contradiction]. rewrite (loops_other _ _ _ _ w H Hr), upd_same. lia.
Qed.

Section Values.
Variables (B : bounds) (roots : list var) (rels : list rel) (outer inner : list var).
Hypothesis W : well_formed roots roots rels.
Hypothesis P : Permutation (outer ++ inner) (loop_vars roots rels).
Hypothesis ND : NoDup (outer ++ inner).
Variables (s t : env).
Hypothesis T : In t (loops B inner s).

Let V := recover_all B rels t.
Let M := min_values B rels outer s.
Let X := max_child_values B rels outer s.

Lemma order_loop : forall v, In v (outer ++ inner) -> is_parent rels v = false.
Proof.
  intros v H. destruct (is_parent rels v) eqn:E; auto. apply is_parent_iff in E. destruct E as (r & Hr & Hp).
  exfalso. apply (parent_no_loop rels roots roots r v (incl_refl _) W Hr Hp). eapply Permutation_in; eauto.
Qed.
Lemma loop_value : forall e v, is_parent rels v = false -> recover_all B rels e v = e v.
Proof.
  intros e v H. apply recover_all_other. intros r Hr C.
  assert (is_parent rels v = true) by (apply is_parent_iff; eauto). congruence.
Qed.
Lemma V_outer : forall v, In v outer -> V v = s v.
Proof.
  intros v H. unfold V. rewrite loop_value by (apply order_loop, in_app_iff; auto).
  apply (loops_other B inner s t v T). intros C. clear - ND H C. induction outer as [|x l IH]; simpl in *; [auto|].
  inversion ND; subst. destruct H as [<-|H]; auto. apply H2, in_app_iff; auto.
Qed.
Lemma M_outer : forall v, In v outer -> M v = s v.
Proof.
  intros v H. unfold M, min_values. rewrite loop_value by (apply order_loop, in_app_iff; auto).
  rewrite (proj2 (inb_In v outer) H). reflexivity.
Qed.
Lemma V_inner : forall v, In v inner -> lo B v <= V v < hi B v.
Proof.
  intros v H. unfold V. rewrite loop_value by (apply order_loop, in_app_iff; auto). eapply loops_range; eauto.
Qed.
Lemma not_outer : forall v, In v inner -> ~ In v outer.
Proof.
  intros v H C. clear - ND H C. induction outer as [|x l IH]; simpl in *; [auto|].
  inversion ND; subst. destruct C as [<-|C]; auto. apply H2, in_app_iff; auto.
Qed.
Lemma M_inner : forall v, In v inner -> M v = lo B v.
Proof.
  intros v H. unfold M, min_values. rewrite loop_value by (apply order_loop, in_app_iff; auto).
  rewrite (proj2 (inb_not v outer) (not_outer v H)). reflexivity.
Qed.
Lemma X_inner : forall v, In v inner -> X v = hi B v.
Proof.
  intros v H. unfold X, max_child_values. rewrite order_loop by (apply in_app_iff; auto).
  rewrite (proj2 (inb_not v outer) (not_outer v H)). reflexivity.
Qed.
Lemma V_fix : forall r p, In r rels -> In p (parents r) -> V p = recover B V r p.
Proof. intros. apply (recover_fix B rels roots roots); auto. apply incl_refl. Qed.
Lemma M_fix : forall r p, In r rels -> In p (parents r) -> M p = recover B M r p.
Proof. intros. apply (recover_fix B rels roots roots); auto. apply incl_refl. Qed.
Lemma known_equal : forall v, known rels outer v -> V v = M v.
Proof.
  induction 1.
  - rewrite V_outer, M_outer; auto.
  - rewrite (V_fix r v), (M_fix r v) by auto. apply recover_ext; auto.
Qed.
Lemma X_parent : forall v, is_parent rels v = true -> X v = M v.
Proof. intros v H. unfold X, max_child_values. rewrite H. reflexivity. Qed.
Lemma X_outer : forall v, In v outer -> X v = M v.
Proof.
  intros v H. unfold X, max_child_values. rewrite order_loop by (apply in_app_iff; auto).
  rewrite (proj2 (inb_In v outer) H). symmetry. apply M_outer; auto.
Qed.
Lemma X_known : forall v, known rels outer v -> X v = M v.
Proof.
  intros v [u H|r u Hr Hu H]; [apply X_outer; auto|]. apply X_parent. apply is_parent_iff. eauto.
Qed.
Lemma max_value_eq : forall r p, In r rels -> In p (parents r) -> max_value B rels outer s p = recover B X r p.
Proof.
  intros r p Hr Hp. unfold max_value, recover_from.
  destruct (find (fun r0 => inb p (parents r0)) rels) as [r'|] eqn:E.
  - apply find_some in E. destruct E as [Hr' Hp']. apply inb_In in Hp'.
    rewrite (parent_unique rels roots roots r r' p); auto. apply incl_refl.
  - exfalso. apply (find_none _ _ E) in Hr. apply inb_not in Hr. auto.
Qed.
Lemma pending_parent : forall u, is_recoverable rels outer u = false -> exists r, In r rels /\ In u (parents r).
Proof.
  intros u H. apply is_parent_iff. unfold is_recoverable in H. apply orb_false_iff in H. destruct H as [H _].
  apply negb_false_iff in H. auto.
Qed.
Lemma pending_in : forall u, In u roots -> is_recoverable rels outer u = false -> In u (vars_with_guard rels outer roots).
Proof. intros. apply filter_In. rewrite H0. auto. Qed.
Lemma not_leaving : forall u, may_leave B rels outer roots s = false -> In u roots -> is_recoverable rels outer u = false ->
  lo B u <= M u /\ max_value B rels outer s u + max_offset B rels outer roots s < hi B u.
Proof.
  intros u H Hu Hr. unfold may_leave in H.
  assert (G : (min_values B rels outer s u <? lo B u) ||
    (hi B u <=? max_value B rels outer s u + max_offset B rels outer roots s) = false).
  { destruct (_ || _) eqn:E; auto. rewrite (proj2 (existsb_exists _ _)) in H; [discriminate|].
    exists u. split; auto. apply pending_in; auto. }
  apply orb_false_iff in G. destruct G as [G1 G2]. apply Nat.ltb_ge in G1. apply Nat.leb_gt in G2. auto.
Qed.

Hypothesis F : fusable B rels.
Lemma fused_inner : forall a b d, In (Fuse a b d) rels -> lo B b <= V b < hi B b.
Proof.
  intros a b d H. destruct (F a b d H) as [F1 F2]. rewrite (V_fix (Fuse a b d) b) by (simpl; auto). simpl.
  rewrite upd_same. rewrite F1, Nat.sub_0_r. split; [lia|]. apply Nat.mod_upper_bound. lia.
Qed.

(** *** One level *)
Lemma one_level_in_range : one_level rels roots outer (outer ++ inner) ->
  may_leave B rels outer roots s = false ->
  forall u, In u roots -> is_recoverable rels outer u = false -> lo B u <= V u < hi B u.
Proof.
  intros O G u Hu Hr. destruct (pending_parent u Hr) as (r & Hin & Hp).
  destruct (not_leaving u G Hu Hr) as [G1 G2].
  rewrite (max_value_eq r u Hin Hp) in G2. rewrite (M_fix r u Hin Hp) in G1.
  assert (C : forall c, In c (children r) -> M c <= V c <= X c).
  { intros c Hc. destruct (O r u c Hin Hu Hp Hc) as [K|K].
    - apply in_app_iff in K. destruct K as [K|K].
      + rewrite (X_outer c K), V_outer, M_outer by auto. lia.
      + rewrite (X_inner c K), (M_inner c K). pose proof (V_inner c K). lia.
    - rewrite (known_equal c K), (X_known c K). lia. }
  destruct r as [p o i f|p o i f|a b d|p b n|p d]; simpl in Hp;
  try (destruct Hp as [<-|[]]; rewrite (V_fix _ p Hin) by (simpl; auto); simpl in *; rewrite upd_same in *).
  - assert (C1 := C o (or_introl eq_refl)). assert (C2 := C i (or_intror (or_introl eq_refl))). nia.
  - assert (C1 := C o (or_introl eq_refl)). assert (C2 := C i (or_intror (or_introl eq_refl))).
    set (k := (hi B p - lo B p + (f - 1)) / f) in *. nia.
  - assert (C1 := C d (or_introl eq_refl)). destruct Hp as [<-|[<-|[]]]; [|eapply fused_inner; eauto].
    destruct (Nat.eq_dec a b) as [->|N]; [eapply fused_inner; eauto|].
    rewrite (V_fix _ a Hin) by (simpl; auto). rewrite fuse_first in * by auto.
    destruct (F a b d Hin) as [F1 F2]. rewrite F1, Nat.sub_0_r in *.
    assert (V d / hi B b <= X d / hi B b) by (apply Nat.div_le_mono; lia).
    assert (M d / hi B b <= V d / hi B b) by (apply Nat.div_le_mono; lia). lia.
  - assert (C1 := C b (or_introl eq_refl)). lia.
  - assert (C1 := C d (or_introl eq_refl)). lia.
Qed.
End Values.

(** *** The innermost loop *)
Section Innermost.
Variables (B : bounds) (roots : list var) (rels : list rel) (outer : list var) (c : var).
Hypothesis W : well_formed roots roots rels.
Hypothesis P : Permutation (outer ++ [c]) (loop_vars roots rels).
Hypothesis ND : NoDup (outer ++ [c]).
Variables (s t : env).
Hypothesis T : In t (loops B [c] s).
Hypothesis F : fusable B rels.
Hypothesis U : unit_steps rels roots outer c.

Let V := recover_all B rels t.
Let M := min_values B rels outer s.
Let X := max_child_values B rels outer s.
Let off := max_offset B rels outer roots s.

Lemma c_inner : In c [c]. Proof. simpl; auto. Qed.
Lemma c_not_known : ~ known rels outer c.
Proof.
  intros H. inversion H as [v Hv|r v Hr Hv HC]; subst.
  - exact (not_outer outer [c] ND c c_inner Hv).
  - assert (is_parent rels c = true) by (apply is_parent_iff; eauto).
    rewrite (order_loop roots rels outer [c] W P) in H0 by (apply in_app_iff; simpl; auto). discriminate.
Qed.
Lemma todo_c : forall v, In v (filter (fun v => negb (inb v outer)) (flat_map (leaves rels) (vars_with_guard rels outer roots))) -> v = c.
Proof.
  intros v H. apply filter_In in H. destruct H as [H N]. apply negb_true_iff, inb_not in N.
  apply in_flat_map in H. destruct H as (u & Hu & H). apply filter_In in Hu.
  assert (K : In v (loop_vars roots rels)).
  { apply (leaves_loops rels roots [u]); auto. intros w [<-|[]]. apply Hu. }
  apply (Permutation_in _ (Permutation_sym P)) in K. apply in_app_iff in K. simpl in K. intuition.
Qed.
Lemma todo_some : forall u, In u roots -> is_recoverable rels outer u = false ->
  exists l, filter (fun v => negb (inb v outer)) (flat_map (leaves rels) (vars_with_guard rels outer roots)) = c :: l.
Proof.
  intros u Hu Hr.
  destruct (filter (fun v => negb (inb v outer)) (flat_map (leaves rels) (vars_with_guard rels outer roots))) as [|v l] eqn:E.
  - exfalso. assert (A : forall v, In v (leaves rels u) -> In v outer).
    { intros v Hv. destruct (in_dec Nat.eq_dec v outer) as [H|H]; auto. exfalso.
      assert (K : In v []); [|destruct K]. rewrite <- E. apply filter_In. split; [|apply negb_true_iff, inb_not; auto].
      apply in_flat_map. exists u. split; auto. apply pending_in; auto. }
    unfold is_recoverable in Hr. apply orb_false_iff in Hr. destruct Hr as [Hr1 Hr2]. apply negb_false_iff in Hr1.
    destruct (leaves_recs outer rels [u] A u (or_introl eq_refl)) as [K|K].
    + rewrite (order_loop roots rels outer [c] W P) in Hr1 by (apply in_app_iff; auto). discriminate.
    + apply inb_not in Hr2. auto.
  - exists l. f_equal. apply todo_c. rewrite E. simpl; auto.
Qed.
Lemma c_child : forall u, In u roots -> is_recoverable rels outer u = false -> exists r, In r rels /\ In c (children r).
Proof.
  assert (K : forall rels' Ls v,
    In v (fold_left (fun L r => flat_map (fun v => if inb v (parents r) then children r else [v]) L) rels' Ls) ->
    In v Ls \/ exists r, In r rels' /\ In v (children r)).
  { induction rels' as [|r rest IH]; simpl; intros Ls v H; auto.
    destruct (IH _ _ H) as [G|(q & Hq & G)]; [|right; eauto].
    apply expand_in in G. destruct G as [[G _]|[G _]]; auto. right. eauto. }
  intros u Hu Hr. destruct (todo_some u Hu Hr) as (l & E).
  assert (H : In c (c :: l)) by (simpl; auto). rewrite <- E in H. apply filter_In in H. destruct H as [H _].
  apply in_flat_map in H. destruct H as (w & Hw & H). apply filter_In in Hw. destruct Hw as [Hw1 Hw2].
  apply negb_true_iff in Hw2. destruct (K _ _ _ H) as [[<-|[]]|G]; auto. exfalso.
  destruct (pending_parent rels outer w Hw2) as (r & Hr' & Hp).
  assert (is_parent rels w = true) by (apply is_parent_iff; eauto).
  rewrite (order_loop roots rels outer [w] W P) in H0 by (apply in_app_iff; simpl; auto). discriminate.
Qed.
(** The offset is the distance between the greatest and the least value of the
    first parent of the loop's variable. *)
Lemma off_eq : forall u r p ps, In u roots -> is_recoverable rels outer u = false ->
  In r rels -> In c (children r) -> parents r = p :: ps -> off = recover B X r p - M p.
Proof.
  intros u r p ps Hu Hp Hr Hc E. unfold off, max_offset. destruct (todo_some u Hu Hp) as (l & ->). simpl.
  assert (N : newly_recoverable rels outer c = Some p).
  { unfold newly_recoverable. destruct (find (fun r0 => inb c (children r0)) rels) as [r'|] eqn:Er.
    - apply find_some in Er. destruct Er as [Hr' Hc']. apply inb_In in Hc'.
      rewrite <- (child_unique rels roots roots r r' c W Hr Hr' Hc Hc'). rewrite E. simpl.
      assert (Hpp : In p (parents r)) by (rewrite E; simpl; auto).
      assert (A : is_recoverable rels outer p = false).
      { unfold is_recoverable. rewrite (proj2 (is_parent_iff rels p)) by eauto. simpl. apply inb_not.
        intros C. apply recs_known in C. destruct C as [C _]. inversion C as [v Hv|q v Hq Hv HC]; subst.
        - assert (is_parent rels p = true) by (apply is_parent_iff; eauto).
          rewrite (order_loop roots rels outer [c] W P) in H by (apply in_app_iff; auto). discriminate.
        - assert (q = r) by (eapply (parent_unique rels roots roots); eauto; apply incl_refl). subst.
          apply c_not_known; auto. }
      assert (A' : is_recoverable rels (c :: outer) p = true).
      { unfold is_recoverable. apply orb_true_iff. right. apply inb_In.
        apply (recs_all (c :: outer) rels roots) with (r := r); auto.
        intros v Hv. apply (Permutation_in _ (Permutation_sym P)) in Hv. apply in_app_iff in Hv. simpl in *. tauto. }
      rewrite A, A'. reflexivity.
    - exfalso. apply (find_none _ _ Er) in Hr. apply inb_not in Hr. auto. }
  rewrite N. rewrite (max_value_eq B roots rels outer W s r p Hr) by (rewrite E; simpl; auto). reflexivity.
Qed.

Lemma all_known : forall v, In v (loop_vars roots rels) \/ (exists r, In r rels /\ In v (parents r)) -> known rels (outer ++ [c]) v.
Proof.
  assert (I : incl (loop_vars roots rels) (outer ++ [c])).
  { intros v Hv. eapply Permutation_in; [apply Permutation_sym; eauto|auto]. }
  intros v [H|(r & Hr & H)]; [apply known_loop; auto|].
  apply recs_known. eapply recs_all; eauto.
Qed.

Lemma Vc : lo B c <= V c < hi B c.
Proof. apply (V_inner B roots rels outer [c] W P s t T c c_inner). Qed.
Lemma Xc : X c = hi B c.
Proof. apply (X_inner B roots rels outer [c] W P ND s c c_inner). Qed.
Lemma Mc : M c = lo B c.
Proof. apply (M_inner B roots rels outer [c] W P ND s c c_inner). Qed.
Lemma Vfix : forall r p, In r rels -> In p (parents r) -> V p = recover B V r p.
Proof. exact (V_fix B roots rels W t). Qed.
Lemma Mfix : forall r p, In r rels -> In p (parents r) -> M p = recover B M r p.
Proof. exact (M_fix B roots rels outer W s). Qed.
Lemma Veq : forall v, known rels outer v -> V v = M v.
Proof. exact (known_equal B roots rels outer [c] W P ND s t T). Qed.
Lemma Xeq : forall v, known rels outer v -> X v = M v.
Proof. exact (X_known B roots rels outer [c] W P s). Qed.

(** In the loop's own relation the greatest value is an upper bound. *)
Lemma own_le : forall r v, In r rels -> In c (children r) -> In v (parents r) ->
  (forall a b d, r = Fuse a b d -> v <> b) -> V v <= recover B X r v.
Proof.
  intros r v Hr Hc Hv NF. rewrite (Vfix r v Hr Hv).
  assert (U' := U r Hr). pose proof Vc as HVc. pose proof Xc as HXc.
  destruct r as [p o i f|p o i f|a b d|p b n|p d]; simpl in Hv, Hc.
  - destruct Hv as [<-|[]]. simpl. rewrite !upd_same. destruct U' as [U'|[-> U']].
    + destruct Hc as [->|[->|[]]]; [exfalso; exact (c_not_known U')|].
      rewrite (Xeq o U'), (Veq o U'). nia.
    + rewrite (Xeq i U'), (Veq i U'). nia.
  - destruct Hv as [<-|[]]. simpl. rewrite !upd_same. set (k := (hi B p - lo B p + (f - 1)) / f).
    destruct U' as [U'|[-> U']].
    + destruct Hc as [->|[->|[]]]; [exfalso; exact (c_not_known U')|].
      rewrite (Xeq o U'), (Veq o U'). nia.
    + rewrite (Xeq i U'), (Veq i U'). nia.
  - destruct Hc as [->|[]]. specialize (NF a b c eq_refl). destruct Hv as [<-|[<-|[]]]; [|congruence].
    rewrite !fuse_first by auto. destruct (F a b c Hr) as [F1 F2].
    apply Nat.div_le_mono; lia.
  - destruct Hv as [<-|[]], Hc as [->|[]]. simpl. rewrite !upd_same. lia.
  - destruct Hv as [<-|[]], Hc as [->|[]]. simpl. rewrite !upd_same. lia.
Qed.

(** A variable between an original one and the loop is above its least value by
    the offset at most. *)
Lemma within_offset : forall u0, In u0 roots -> is_recoverable rels outer u0 = false ->
  forall v, known rels (outer ++ [c]) v -> v <> c -> ~ In v roots \/ known rels outer v -> V v <= M v + off.
Proof.
  intros u0 Hu0 Hr0 v K. induction K as [v Hv|r v Hr Hv Hk IH]; intros Nc Nr.
  { apply in_app_iff in Hv. destruct Hv as [Hv|[->|[]]]; [|congruence].
    rewrite (Veq v (known_loop _ _ v Hv)). lia. }
  destruct Nr as [Nr|Nr]; [|rewrite (Veq v Nr); lia].
  assert (NR : forall d, In d (children r) -> ~ In d roots).
  { intros d Hd. exact (child_new rels roots roots r d W Hr Hd). }
  assert (U' := U r Hr).
  destruct (in_dec Nat.eq_dec c (children r)) as [Hc|Hc].
  - destruct (parents r) as [|p ps] eqn:Ep; [destruct Hv|].
    assert (E := off_eq u0 r p ps Hu0 Hr0 Hr Hc Ep).
    assert (NF : forall a b d, r = Fuse a b d -> v <> b).
    { intros a b d -> ->. simpl in Hc. destruct Hc as [->|[]]. destruct U' as [U'|U']; [exact (c_not_known U')|auto]. }
    assert (Hv' : In v (parents r)) by (rewrite Ep; auto).
    assert (S := own_le r v Hr Hc Hv' NF).
    assert (v = p).
    { destruct r as [p' o i f|p' o i f|a b d|p' b n|p' d]; simpl in Ep; inversion Ep; subst; simpl in Hv;
      try (destruct Hv as [<-|[]]; reflexivity).
      destruct Hv as [<-|[<-|[]]]; auto. exfalso. exact (NF _ _ _ eq_refl eq_refl). }
    subst. lia.
  - assert (IH' : forall d, In d (children r) -> V d <= M d + off).
    { intros d Hd. apply IH; auto. intros ->. contradiction. }
    rewrite (Vfix r v Hr Hv), (Mfix r v Hr Hv).
    destruct r as [p' o i f|p' o i f|a b d|p' b n|p' d]; simpl in Hv, Hc.
    + destruct Hv as [<-|[]]. simpl. rewrite !upd_same. assert (I2 := IH' i (or_intror (or_introl eq_refl))).
      destruct U' as [U'|[-> _]]; [|tauto]. rewrite (Veq o U'). lia.
    + destruct Hv as [<-|[]]. simpl. rewrite !upd_same. assert (I2 := IH' i (or_intror (or_introl eq_refl))).
      destruct U' as [U'|[-> _]]; [|tauto]. rewrite (Veq o U'). lia.
    + destruct U' as [U'|U'].
      * rewrite <- (Nat.add_0_r (recover B V _ v)). apply Nat.add_le_mono; [|lia]. apply Nat.eq_le_incl.
        apply recover_ext; [|simpl; auto]. intros x [<-|[]]. apply Veq; auto.
      * assert (Nb : v <> b) by (intros ->; auto). destruct Hv as [<-|[<-|[]]]; [|congruence].
        rewrite !fuse_first by auto. destruct (F a b d Hr) as [F1 F2]. rewrite F1, Nat.sub_0_r.
        assert (I2 := IH' d (or_introl eq_refl)).
        assert (V d / hi B b <= (M d + off * hi B b) / hi B b) by (apply Nat.div_le_mono; nia).
        rewrite Nat.div_add in H by lia. lia.
    + destruct Hv as [<-|[]]. simpl. rewrite !upd_same. apply (IH' b); simpl; auto.
    + destruct Hv as [<-|[]]. simpl. rewrite !upd_same. apply (IH' d); simpl; auto.
Qed.

(** Without fused variables every value is at its least if the loop is. *)
Lemma least : no_fuse rels -> forall v, known rels (outer ++ [c]) v -> M v <= V v.
Proof.
  intros NF v K. induction K as [v Hv|r v Hr Hv Hk IH].
  - apply in_app_iff in Hv. destruct Hv as [Hv|[<-|[]]].
    + rewrite (Veq v (known_loop _ _ v Hv)). lia.
    + rewrite Mc. apply Vc.
  - rewrite (Vfix r v Hr Hv), (Mfix r v Hr Hv).
    destruct r as [p o i f|p o i f|a b d|p b n|p d]; simpl in Hv; try (destruct Hv as [<-|[]]; simpl; rewrite !upd_same).
    + assert (I1 := IH o (or_introl eq_refl)). assert (I2 := IH i (or_intror (or_introl eq_refl))). nia.
    + assert (I1 := IH o (or_introl eq_refl)). assert (I2 := IH i (or_intror (or_introl eq_refl))).
      set (k := (hi B p - lo B p + (f - 1)) / f). nia.
    + exfalso. exact (NF _ _ _ Hr).
    + apply IH; simpl; auto.
    + apply IH; simpl; auto.
Qed.

Lemma innermost_in_range : (forall u, In u roots -> lo B u = 0) \/ no_fuse rels ->
  may_leave B rels outer roots s = false ->
  forall u, In u roots -> is_recoverable rels outer u = false -> lo B u <= V u < hi B u.
Proof.
  intros Z G u Hu Hr. destruct (pending_parent rels outer u Hr) as (r & Hin & Hp).
  destruct (not_leaving B roots rels outer s u G Hu Hr) as [G1 G2].
  split.
  { destruct Z as [Z|Z]; [rewrite (Z u Hu); lia|].
    apply (Nat.le_trans _ (M u)); [exact G1|]. apply least; auto. apply all_known. right. eauto. }
  rewrite (max_value_eq B roots rels outer W s r u Hin Hp) in G2. fold X off in G2.
  assert (NR : forall d, In d (children r) -> ~ In d roots).
  { intros d Hd. exact (child_new rels roots roots r d W Hin Hd). }
  assert (L : forall d, In d (children r) -> d <> c -> V d <= M d + off).
  { intros d Hd N. apply (within_offset u Hu Hr); auto. apply all_known.
    apply (child_loop_or_parent rels roots r d); auto. }
  assert (XM : forall d, In d (children r) -> d <> c -> X d = M d).
  { intros d Hd N. destruct (child_loop_or_parent rels roots r d Hin Hd) as [K|K].
    - apply (Permutation_in _ (Permutation_sym P)) in K. apply in_app_iff in K. destruct K as [K|[K|[]]]; [|congruence].
      apply Xeq. apply known_loop; auto.
    - apply (X_parent B rels outer s). apply is_parent_iff; auto. }
  destruct (in_dec Nat.eq_dec c (children r)) as [Hc|Hc].
  - assert (D : (exists a b d, r = Fuse a b d /\ u = b) \/ (forall a b d, r = Fuse a b d -> u <> b)).
    { destruct r as [p o i f|p o i f|a b d|p b n|p d]; try (right; intros; discriminate).
      destruct (Nat.eq_dec u b); [left; eauto 6|]. right. intros. inversion H; subst; auto. }
    destruct D as [(a & b & d & -> & ->)|D].
    + exact (proj2 (fused_inner B roots rels W t F a b d Hin)).
    + assert (S := own_le r u Hin Hc Hp D). lia.
  - assert (U' := U r Hin). rewrite (Vfix r u Hin Hp).
    destruct r as [p o i f|p o i f|a b d|p b n|p d]; simpl in Hp, Hc.
    + destruct Hp as [<-|[]]. simpl in *. rewrite upd_same in *. destruct U' as [U'|[-> _]]; [|tauto].
      rewrite (Xeq o U') in G2. rewrite (Veq o U').
      assert (L2 := L i (or_intror (or_introl eq_refl))). assert (X2 := XM i (or_intror (or_introl eq_refl))).
      assert (i <> c) by tauto. specialize (L2 H). specialize (X2 H). rewrite X2 in G2. lia.
    + destruct Hp as [<-|[]]. simpl in *. rewrite upd_same in *. destruct U' as [U'|[-> _]]; [|tauto].
      rewrite (Xeq o U') in G2. rewrite (Veq o U').
      assert (L2 := L i (or_intror (or_introl eq_refl))). assert (X2 := XM i (or_intror (or_introl eq_refl))).
      assert (i <> c) by tauto. specialize (L2 H). specialize (X2 H). rewrite X2 in G2. lia.
    + assert (N : d <> c) by tauto. assert (L2 := L d (or_introl eq_refl) N). assert (X2 := XM d (or_introl eq_refl) N).
      destruct (Nat.eq_dec u b) as [->|Nb].
      { rewrite <- (Vfix _ b Hin) by (simpl; auto). exact (proj2 (fused_inner B roots rels W t F a b d Hin)). }
      destruct Hp as [<-|[<-|[]]]; [|congruence]. rewrite fuse_first in * by auto.
      destruct (F a b d Hin) as [F1 F2]. rewrite F1, Nat.sub_0_r in *. rewrite X2 in G2.
      assert (V d / hi B b <= (M d + off * hi B b) / hi B b) by (apply Nat.div_le_mono; nia).
      rewrite Nat.div_add in H by lia. lia.
    + destruct Hp as [<-|[]]. simpl in *. rewrite upd_same in *. assert (N : b <> c) by tauto.
      assert (L2 := L b (or_introl eq_refl) N). assert (X2 := XM b (or_introl eq_refl) N). lia.
    + destruct Hp as [<-|[]]. simpl in *. rewrite upd_same in *. assert (N : d <> c) by tauto.
      assert (L2 := L d (or_introl eq_refl) N). assert (X2 := XM d (or_introl eq_refl) N). lia.
Qed.
End Innermost.

(** ** The loop nest *)
Lemma guarded_incl : forall rels order roots g, guarded_roots rels order roots = Some g -> incl g roots.
Proof.
  induction roots as [|u r IH]; simpl; intros g H.
  - inversion H. apply incl_refl.
  - destruct (underived_guard rels order u) as [[]|]; [| |discriminate];
    destruct (guarded_roots rels order r) as [g'|]; try discriminate; inversion H; subst.
    + intros x [<-|Hx]; simpl; auto. right. apply (IH g'); auto.
    + intros x Hx. right. apply (IH g); auto.
Qed.
Lemma flat_map_map_filter : forall (A C : Type) (f : A -> list C) (h : A -> C -> bool) (k : C -> bool) l,
  (forall a x, In a l -> In x (f a) -> h a x = k x) ->
  flat_map (fun a => filter (h a) (f a)) l = filter k (flat_map f l).
Proof.
  induction l as [|a l IH]; simpl; intros H; auto. rewrite filter_app. rewrite IH by auto.
  f_equal. apply filter_ext_in. auto.
Qed.
Lemma cloned_same : forall B0 roots rels outer inner,
  (forall s t, In t (loops (all_bounds B0 rels) inner s) -> may_leave (all_bounds B0 rels) rels outer roots s = false ->
     forall u, In u roots -> is_recoverable rels outer u = false ->
     in_range (all_bounds B0 rels) (recover_all (all_bounds B0 rels) rels t) u = true) ->
  visited_cloned B0 roots rels outer inner = visited B0 roots rels (outer ++ inner).
Proof.
  intros B0 roots rels outer inner H. unfold visited_cloned, visited.
  destruct (guarded_roots rels (outer ++ inner) roots) as [g|] eqn:G; auto. f_equal. f_equal.
  apply guarded_incl in G. set (B := all_bounds B0 rels) in *.
  rewrite loops_app.
  rewrite (flat_map_concat_map (loops B inner)), concat_map, map_map, <- flat_map_concat_map.
  apply flat_map_map_filter. intros s x _ Hx. apply in_map_iff in Hx. destruct Hx as (t & <- & Ht).
  destruct (may_leave B rels outer roots s) eqn:E; auto.
  unfold guards. f_equal. apply eq_true_iff_eq. rewrite !forallb_forall. split; intros K u Hu.
  - destruct (is_recoverable rels outer u) eqn:Er.
    + apply K. apply filter_In; auto.
    + eapply H; eauto.
  - apply filter_In in Hu. apply K. apply Hu.
Qed.
Lemma range_bool : forall B s u, lo B u <= s u < hi B u -> in_range B s u = true.
Proof. intros B s u [H1 H2]. unfold in_range. apply Nat.leb_le in H1. apply Nat.ltb_lt in H2. rewrite H1, H2. auto. Qed.

(** ** Which loops are accepted *)
Lemma recs_closed : forall D rels L used r p, incl L used -> well_formed L used rels -> In r rels -> In p (parents r) ->
  (forall c, In c (children r) -> In c D \/ In c (recs D rels)) -> In p (recs D rels).
Proof.
  intros D rels. induction rels as [|r0 rest IH]; simpl; intros L used r p I W Hr Hp H; [contradiction|].
  fold (recs D rest) in *. destruct W as (W1 & W2 & W3 & W4 & W5).
  assert (G : forall c, ~ In c (parents r0) ->
    (In c D \/ In c (if forallb (fun c0 => inb c0 D || inb c0 (recs D rest)) (children r0)
                     then parents r0 ++ recs D rest else recs D rest)) -> In c D \/ In c (recs D rest)).
  { intros c N [K|K]; auto. destruct (forallb _ _); auto. apply in_app_iff in K. tauto. }
  destruct Hr as [<-|Hr].
  - rewrite (proj2 (forallb_forall _ (children r0))); [apply in_app_iff; auto|].
    intros c Hc. apply orb_true_iff. rewrite !inb_In. apply G; auto. intros C. exact (W4 _ Hc (I _ (W1 _ C))).
  - apply (recs_mono D r0 rest). apply (IH _ _ r p (incl_used _ _ r0 I) W5 Hr Hp). intros c Hc. apply G; auto.
    intros C. apply (child_new _ _ _ _ c W5 Hr Hc). apply in_app_iff. left. auto.
Qed.
Lemma known_recs : forall D rels L used v, incl L used -> well_formed L used rels -> known rels D v -> In v D \/ In v (recs D rels).
Proof.
  intros D rels L used v I W K. induction K as [v Hv|r v Hr Hv Hk IH]; auto. right. eapply recs_closed; eauto.
Qed.
Lemma pending_iff : forall roots rels outer u, well_formed roots roots rels -> incl outer (loop_vars roots rels) ->
  is_recoverable rels outer u = false <-> (exists r, In r rels /\ In u (parents r)) /\ ~ known rels outer u.
Proof.
  intros roots rels outer u W O. unfold is_recoverable. rewrite orb_false_iff, negb_false_iff, is_parent_iff, inb_not.
  split; intros [(r & Hr & Hp) H]; split; eauto.
  - intros K. destruct (known_recs outer rels roots roots u (incl_refl _) W K) as [C|C]; auto.
    apply (parent_no_loop rels roots roots r u (incl_refl _) W Hr Hp). auto.
  - intros C. apply H. apply recs_known. auto.
Qed.
Lemma exact_fusable : forall B roots rels tol, exact B roots tol rels -> fusable B rels.
Proof.
  intros B roots. induction rels as [|r rest IH]; intros tol E a b d H; [destruct H|].
  assert (K : exists tol', exact B roots tol' rest).
  { destruct r; simpl in E; repeat match goal with H : _ /\ _ |- _ => destruct H end; eauto. }
  destruct K as [tol' K]. destruct H as [->|H]; [|eapply IH; eauto]. simpl in E. tauto.
Qed.
Lemma nodup_loops : forall rels L used, NoDup L -> incl L used -> well_formed L used rels -> NoDup (loop_vars L rels).
Proof.
  unfold loop_vars. induction rels as [|r rest IH]; simpl; intros L used N I W; auto.
  destruct W as (W1 & W2 & W3 & W4 & W5). eapply IH; [|apply (incl_used _ _ r I)|exact W5].
  apply nodup_replace; auto. intros c Hc C. exact (W4 _ Hc (I _ C)).
Qed.

Lemma one_level_same : forall B0 roots rels outer inner, NoDup roots -> well_formed roots roots rels ->
  Permutation (outer ++ inner) (loop_vars roots rels) -> fusable (all_bounds B0 rels) rels ->
  one_level rels roots outer (outer ++ inner) ->
  visited_cloned B0 roots rels outer inner = visited B0 roots rels (outer ++ inner).
Proof.
  intros B0 roots rels outer inner N W P F O. apply cloned_same. intros s t T G u Hu Hr. apply range_bool.
  eapply one_level_in_range; eauto.
  eapply Permutation_NoDup; [apply Permutation_sym; eauto|]. eapply nodup_loops; eauto. apply incl_refl.
Qed.
Lemma innermost_same : forall B0 roots rels outer c, NoDup roots -> well_formed roots roots rels ->
  Permutation (outer ++ [c]) (loop_vars roots rels) -> fusable (all_bounds B0 rels) rels ->
  unit_steps rels roots outer c ->
  (forall u, In u roots -> lo (all_bounds B0 rels) u = 0) \/ no_fuse rels ->
  visited_cloned B0 roots rels outer [c] = visited B0 roots rels (outer ++ [c]).
Proof.
  intros B0 roots rels outer c N W P F U Z. apply cloned_same. intros s t T G u Hu Hr. apply range_bool.
  eapply innermost_in_range; eauto.
  eapply Permutation_NoDup; [apply Permutation_sym; eauto|]. eapply nodup_loops; eauto. apply incl_refl.
Qed.
