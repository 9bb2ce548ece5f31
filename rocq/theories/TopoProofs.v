(** Topological loop reordering (C26). *)
From Coq Require Import List Arith Lia Bool Ring_theory Ring Permutation.
Import ListNotations.
From Verif Require Import IndexExpr Eval Notation NotationSpec NotationProofs NotationRun NotationConv NotationConc Transform TransformSpec.
Local Open Scope nat_scope.

(** *** Order *)
Lemma before_cons : forall l a b x, before l a b -> before (x :: l) a b.
Proof. intros l a b x (l1 & l2 & l3 & ->). exists (x :: l1), l2, l3. auto. Qed.
Lemma before_head : forall l a b, In b l -> before (a :: l) a b.
Proof. intros l a b I. apply in_split in I as (l2 & l3 & ->). exists [], l2, l3. auto. Qed.
Lemma before_In : forall l a b, before l a b -> In a l /\ In b l.
Proof. intros l a b (l1 & l2 & l3 & ->). rewrite !in_app_iff. cbn. rewrite in_app_iff. cbn. intuition. Qed.
Lemma before_not_head : forall a l b, NoDup (a :: l) -> ~ before (a :: l) b a.
Proof.
  intros a l b N (l1 & l2 & l3 & E). inversion N; subst. destruct l1 as [|x l1]; cbn in E; injection E as E1 E2; subst.
  - apply H1. apply in_app_iff. cbn. auto.
  - apply H1. apply in_app_iff. right. right. apply in_app_iff. cbn. auto.
Qed.
Lemma before_tail : forall x l a b, before (x :: l) a b -> a <> x -> before l a b.
Proof. intros x l a b (l1 & l2 & l3 & E) N. destruct l1 as [|y l1]; cbn in E; injection E as -> ->; [congruence|]. exists l1, l2, l3. auto. Qed.

Lemma remove_one_perm : forall v l, In v l -> Permutation l (v :: remove_one v l).
Proof.
  induction l as [|x l IH]; intros I; [destruct I|]. cbn. destruct (Nat.eqb_spec x v) as [->|N]; auto.
  destruct I as [->|I]; [congruence|]. eapply perm_trans; [apply perm_skip, IH; auto|]. apply perm_swap.
Qed.
Lemma remove_one_In : forall v x l, In x (remove_one v l) -> In x l.
Proof. induction l as [|y l IH]; cbn; auto. destruct (Nat.eqb y v); cbn; tauto. Qed.
Lemma remove_one_before : forall v l a b, before l a b -> a <> v -> b <> v -> before (remove_one v l) a b.
Proof.
  induction l as [|x l IH]; intros a b (l1 & l2 & l3 & E) Na Nb; [destruct l1; discriminate|]. cbn.
  destruct (Nat.eqb_spec x v) as [->|N].
  - destruct l1; cbn in E; injection E as -> ->; [congruence|]. exists l1, l2, l3; auto.
  - destruct l1 as [|y l1]; cbn in E; injection E as -> ->.
    + apply before_head. assert (I : In b (l2 ++ b :: l3)) by (apply in_app_iff; cbn; auto).
      clear - I Nb. induction (l2 ++ b :: l3) as [|x l IH]; [destruct I|]. cbn. destruct (Nat.eqb_spec x v) as [->|]; destruct I as [->|I]; cbn; auto. congruence.
    + apply before_cons. apply IH; auto. exists l1, l2, l3; auto.
Qed.

(** *** The sort *)
Lemma has_dep_spec : forall d v, has_dep d v = true <-> exists s, In (v, s) d.
Proof.
  intros. unfold has_dep. rewrite existsb_exists. split.
  - intros ([d' s] & I & E). apply Nat.eqb_eq in E. cbn in E. subst. eauto.
  - intros (s & I). exists (v, s). split; auto. apply Nat.eqb_refl.
Qed.
Lemma pick_some : forall hard soft orig best v, pick hard soft best orig = Some v ->
  (exists n, best = Some (v, n)) \/ (In v orig /\ has_dep hard v = false).
Proof.
  induction orig as [|x orig IH]; intros best v H; cbn [pick] in H.
  - destruct best as [[w n]|]; [|discriminate]. cbn in H. injection H as ->. left. eauto.
  - destruct (has_dep hard x) eqn:D.
    { destruct (IH _ _ H) as [?|[? ?]]; auto. right. split; auto. right; auto. }
    assert (K : forall n, pick hard soft (Some (x, n)) orig = Some v -> (exists n, best = Some (v, n)) \/ (In v (x :: orig) /\ has_dep hard v = false)).
    { intros n Q. destruct (IH _ _ Q) as [(m & E)|[? ?]]; [injection E as -> ->|]; right; split; auto; [left|right]; auto. }
    destruct best as [[w n]|]; [|eauto]. destruct (count_dep soft x <? n); [eauto|].
    destruct (IH _ _ H) as [?|[? ?]]; auto. right. split; auto. right; auto.
Qed.
Lemma pick_none : forall hard soft orig best, pick hard soft best orig = None -> best = None /\ forall v, In v orig -> has_dep hard v = true.
Proof.
  induction orig as [|x orig IH]; intros best H; cbn [pick] in H.
  - destruct best as [[w n]|]; cbn in H; [discriminate|]. split; [reflexivity|]. intros v [].
  - destruct (has_dep hard x) eqn:D.
    + apply IH in H as [? H]. split; auto. intros v [<-|I]; auto.
    + destruct best as [[w n]|]; [destruct (_ <? _)|]; apply IH in H as [H _]; discriminate.
Qed.

Lemma topo_sound : forall n hard soft orig l, topo n hard soft orig = Some l -> n = length orig -> NoDup orig ->
  Permutation l orig /\ forall d s, In (d, s) hard -> In d orig -> before l s d.
Proof.
  induction n as [|n IH]; intros hard soft orig l H L N; cbn in H.
  - injection H as <-. destruct orig; [|discriminate]. split; auto. intros d s _ [].
  - destruct (pick hard soft None orig) as [v|] eqn:P; [|discriminate].
    destruct (pick_some _ _ _ _ _ P) as [(m & E)|[Iv Dv]]; [discriminate|].
    destruct (topo n (drop_src v hard) (drop_src v soft) (remove_one v orig)) as [l'|] eqn:Q; [|discriminate]. injection H as <-.
    pose proof (remove_one_perm v orig Iv) as PM. pose proof (Permutation_length PM) as PL. cbn in PL.
    assert (N' : NoDup (v :: remove_one v orig)) by (eapply Permutation_NoDup; eauto). inversion N' as [|? ? Nv N'']; subst.
    destruct (IH _ _ _ _ Q) as [P1 P2]; auto; [lia|]. split.
    + eapply perm_trans; [apply perm_skip, P1|]. symmetry. auto.
    + intros d s I J. assert (Nd : d <> v). { intros ->. assert (has_dep hard v = true) by (apply has_dep_spec; eauto). congruence. }
      assert (J' : In d (remove_one v orig)). { eapply Permutation_in in J; [|exact PM]. destruct J; congruence. }
      destruct (Nat.eq_dec s v) as [->|Ns].
      * apply before_head. eapply Permutation_in; [symmetry; exact P1|]. auto.
      * apply before_cons. apply P2; auto. unfold drop_src. apply filter_In. split; auto. cbn. apply negb_true_iff, Nat.eqb_neq. auto.
Qed.

Lemma topo_complete : forall n hard soft orig q, n = length orig -> NoDup orig -> Permutation q orig ->
  (forall d s, In (d, s) hard -> In d orig -> before q s d) -> exists l, topo n hard soft orig = Some l.
Proof.
  induction n as [|n IH]; intros hard soft orig q L N PQ H; cbn; eauto.
  destruct (pick hard soft None orig) as [v|] eqn:P.
  2: { exfalso. apply pick_none in P as [_ P]. destruct q as [|x q]. { apply Permutation_nil in PQ. subst. discriminate. }
       assert (Ix : In x orig) by (eapply Permutation_in; [exact PQ|left; auto]).
       destruct (proj1 (has_dep_spec _ _) (P x Ix)) as (s & I). apply (before_not_head x q s); auto.
       eapply Permutation_NoDup; [symmetry; exact PQ|]. auto. }
  destruct (pick_some _ _ _ _ _ P) as [(m & E)|[Iv Dv]]; [discriminate|].
  pose proof (remove_one_perm v orig Iv) as PM. pose proof (Permutation_length PM) as PL. cbn in PL.
  assert (N' : NoDup (v :: remove_one v orig)) by (eapply Permutation_NoDup; eauto). inversion N' as [|? ? Nv N'']; subst.
  assert (Iq : In v q) by (eapply Permutation_in; [symmetry; exact PQ|auto]).
  destruct (IH (drop_src v hard) (drop_src v soft) (remove_one v orig) (remove_one v q)) as (l & ->); auto; [lia| | |cbn; eauto].
  - apply (Permutation_cons_inv (a := v)). eapply perm_trans; [symmetry; apply remove_one_perm; auto|]. eapply perm_trans; eauto.
  - intros d s I J. unfold drop_src in I. apply filter_In in I as [I E]. cbn in E. apply negb_true_iff, Nat.eqb_neq in E.
    apply remove_one_before; auto.
    + apply H; auto. eapply remove_one_In; eauto.
    + intros ->. auto.
Qed.

(** *** Dependencies *)
Lemma entry_eqb_spec : forall a b, reflect (a = b) (entry_eqb a b).
Proof.
  intros [i [l h]] [i' [l' h']]. unfold entry_eqb. cbn. destruct (Nat.eqb_spec i i'), (Nat.eqb_spec l l'); cbn; try (constructor; congruence).
  destruct (Bool.eqb h h') eqn:E; constructor; [apply eqb_prop in E|apply eqb_false_iff in E]; congruence.
Qed.
Lemma add_entry_In : forall e l x, In x (add_entry e l) <-> x = e \/ In x l.
Proof.
  intros. unfold add_entry. destruct (existsb (entry_eqb e) l) eqn:E.
  - apply existsb_exists in E as (y & I & Q). destruct (entry_eqb_spec e y); [subst y|discriminate]. split; [auto|]. intros [->|?]; auto.
  - rewrite in_app_iff. cbn. split; [intros [?|[?|[]]]|intros [?|?]]; auto.
Qed.
Lemma add_entry_NoDup : forall e l, NoDup l -> NoDup (add_entry e l).
Proof.
  intros. unfold add_entry. destruct (existsb (entry_eqb e) l) eqn:E; auto.
  apply (Permutation_NoDup (l := e :: l)). { apply Permutation_cons_append. } constructor; auto.
  intro I. assert (existsb (entry_eqb e) l = true) by (apply existsb_exists; exists e; split; auto; destruct (entry_eqb_spec e e); congruence). congruence.
Qed.
Lemma entries_spec : forall uses loops t,
  NoDup (tensor_entries uses loops t) /\
  (forall i l h, In (i, (l, h)) (tensor_entries uses loops t) <-> In i loops /\ exists u, In u (uses i) /\ u_tensor u = t /\ u_level u = l /\ u_hard u = h).
Proof.
  intros uses loops t. unfold tensor_entries.
  assert (G1 : forall i us acc, NoDup acc ->
    let l' := fold_left (fun l u => if Nat.eqb (u_tensor u) t then add_entry (i, (u_level u, u_hard u)) l else l) us acc in
    NoDup l' /\ forall x, In x l' <-> In x acc \/ exists u, In u us /\ u_tensor u = t /\ x = (i, (u_level u, u_hard u))).
  { intros i. induction us as [|u us IH]; intros acc N; cbn [fold_left].
    - split; auto. intros x. split; auto. intros [?|(u & [] & _)]; auto.
    - destruct (Nat.eqb_spec (u_tensor u) t) as [E|E].
      + destruct (IH (add_entry (i, (u_level u, u_hard u)) acc)) as [A B]; [apply add_entry_NoDup; auto|]. split; auto. intros x. rewrite B, add_entry_In. split.
        * intros [[->|?]|(u' & I & Q)]; auto; right; [exists u|exists u']; cbn; auto.
        * intros [?|(u' & [<-|I] & Q & X)]; auto. right. eauto.
      + destruct (IH acc N) as [A B]. split; auto. intros x. rewrite B. split.
        * intros [?|(u' & I & Q)]; auto. right. exists u'. cbn; auto.
        * intros [?|(u' & [<-|I] & Q & X)]; auto; [congruence|]. right. eauto. }
  assert (G2 : forall ls acc, NoDup acc ->
    let l' := fold_left (fun l i => fold_left (fun l u => if Nat.eqb (u_tensor u) t then add_entry (i, (u_level u, u_hard u)) l else l) (uses i) l) ls acc in
    NoDup l' /\ forall x, In x l' <-> In x acc \/ exists i u, In i ls /\ In u (uses i) /\ u_tensor u = t /\ x = (i, (u_level u, u_hard u))).
  { induction ls as [|i ls IH]; intros acc N; cbn [fold_left].
    - split; auto. intros x. split; auto. intros [?|(i & u & [] & _)]; auto.
    - destruct (G1 i (uses i) acc N) as [A B]. destruct (IH _ A) as [C D]. split; auto. intros x. rewrite D, B. split.
      + intros [[?|(u & Q)]|(i' & u & I & Q)]; auto; right; [exists i, u|exists i', u]; cbn; tauto.
      + intros [?|(i' & u & [<-|I] & Q)]; auto; [left; right; eauto|right; exists i', u; auto]. }
  destruct (G2 loops [] (NoDup_nil _)) as [A B]. split; auto. intros i l h. rewrite B. split.
  - intros [[]|(i' & u & I & J & Q & X)]. injection X as -> -> ->. split; auto. exists u. auto.
  - intros (I & u & J & Q & <- & <-). right. exists i, u. auto.
Qed.

Lemma order_deps_fwd : forall l i li hi j lj hj, by_level l -> In (i, (li, hi)) l -> In (j, (lj, hj)) l -> li < lj -> hi || hj = true ->
  In (j, i) (order_deps l).
Proof.
  induction l as [|[k [lk hk]] l IH]; intros i li hi j lj hj S Hi Hj L H; [destruct Hi|]. cbn in S |- *. destruct S as [S1 S2]. apply in_app_iff.
  destruct Hi as [E|Hi].
  - injection E as -> -> ->. left. destruct Hj as [E|Hj]; [injection E as <- <- <-; lia|].
    apply in_map_iff. exists (j, (lj, hj)). split; auto. apply filter_In. auto.
  - destruct Hj as [E|Hj]; [|right; eapply IH; eauto]. injection E as -> -> ->. apply S1 in Hi. cbn in Hi. lia.
Qed.
Lemma order_deps_bwd : forall l d s, by_level l -> NoDup l -> In (d, s) (order_deps l) ->
  exists ls hs ld hd, In (s, (ls, hs)) l /\ In (d, (ld, hd)) l /\ ls <= ld /\ hs || hd = true /\ (s, (ls, hs)) <> (d, (ld, hd)).
Proof.
  induction l as [|[k [lk hk]] l IH]; intros d s S N H; cbn in H; [destruct H|]. cbn in S. destruct S as [S1 S2]. inversion N; subst.
  apply in_app_iff in H as [H|H].
  - apply in_map_iff in H as ([d' [ld hd]] & E & H). cbn in E. injection E as -> ->. apply filter_In in H as [H E]. cbn in E.
    exists lk, hk, ld, hd. split; [left; auto|]. split; [right; auto|]. split; [apply (S1 _ H)|]. split; auto. intro Q. rewrite Q in H2. auto.
  - destruct (IH d s S2) as (ls & hs & ld & hd & A & B & C); auto. exists ls, hs, ld, hd. cbn. auto.
Qed.

Lemma tensor_names_spec : forall uses loops t, In t (tensor_names uses loops) <-> exists i u, In i loops /\ In u (uses i) /\ u_tensor u = t.
Proof.
  intros. unfold tensor_names. rewrite nodup_In, in_flat_map. split.
  - intros (i & I & H). apply in_map_iff in H as (u & <- & J). eauto.
  - intros (i & u & I & J & <-). exists i. split; auto. apply in_map_iff. eauto.
Qed.
Lemma by_level_perm_entries : forall srt uses loops t i l h, admissible_level_sort srt ->
  In (i, (l, h)) (srt (tensor_entries uses loops t)) <-> In (i, (l, h)) (tensor_entries uses loops t).
Proof. intros srt uses loops t i l h A. destruct (A (tensor_entries uses loops t)) as [P _]. split; apply Permutation_in; auto. symmetry; auto. Qed.

Lemma hard_fwd : forall srt uses loops i j u u', admissible_level_sort srt ->
  In i loops -> In j loops -> In u (uses i) -> In u' (uses j) -> u_tensor u = u_tensor u' -> u_level u < u_level u' -> u_hard u || u_hard u' = true ->
  In (j, i) (hard_deps srt uses loops).
Proof.
  intros srt uses loops i j u u' A Ii Ij Iu Iu' ET EL EH. unfold hard_deps. apply in_flat_map. exists (u_tensor u). split.
  - apply tensor_names_spec. eauto.
  - destruct (A (tensor_entries uses loops (u_tensor u))) as [P S]. destruct (entries_spec uses loops (u_tensor u)) as [_ E].
    eapply (order_deps_fwd _ i (u_level u) (u_hard u) j (u_level u') (u_hard u')); auto; eapply (Permutation_in _ (Permutation_sym P)); apply E; split; auto; eexists; eauto.
Qed.
Lemma hard_bwd : forall srt uses loops d s, admissible_level_sort srt -> one_access uses loops -> In (d, s) (hard_deps srt uses loops) ->
  In s loops /\ In d loops /\ exists u u', In u (uses s) /\ In u' (uses d) /\ u_tensor u = u_tensor u' /\ u_level u < u_level u' /\ u_hard u || u_hard u' = true.
Proof.
  intros srt uses loops d s A OA H. unfold hard_deps in H. apply in_flat_map in H as (t & _ & H).
  destruct (A (tensor_entries uses loops t)) as [P S]. destruct (entries_spec uses loops t) as [N E].
  destruct (order_deps_bwd _ d s S) as (ls & hs & ld & hd & I1 & I2 & L & HH & NE); auto.
  { eapply Permutation_NoDup; [symmetry; exact P|auto]. }
  eapply (Permutation_in _ P) in I1. eapply (Permutation_in _ P) in I2. apply E in I1 as (J1 & u & K1 & T1 & L1 & H1). apply E in I2 as (J2 & u' & K2 & T2 & L2 & H2).
  split; auto. split; auto. exists u, u'. subst. repeat (split; auto).
  destruct (Nat.eq_dec (u_level u) (u_level u')) as [Q|]; [|lia]. exfalso. apply NE.
  destruct (OA s d u u' J1 J2 K1 K2) as [-> ->]; auto. rewrite Q. auto.
Qed.

(** *** Statements *)
Section P.
Context {V : Type}.
Notation stmt := (nstmt V).
Lemma dag_nest : forall is (s b : stmt), nest_of is s b -> is <> [] -> is_forall b = false ->
  map fst (fst (dag s)) = is /\ snd (dag s) = Some b.
Proof.
  induction 1 as [b|an i is s b H IH]; intros N F; [congruence|]. cbn [dag]. inversion H as [b'|an' i' is' s' b' H']; subst.
  - rewrite F. auto.
  - destruct IH as [A B]; [discriminate|auto|]. cbn [is_forall]. destruct (dag (NForall an' i' s')) as [l ib]. cbn [fst snd map] in *. subst. rewrite A. auto.
Qed.
Lemma rewrite_nest : forall l sorted (ib s : stmt), is_forall s = true -> nest_of sorted (topo_rewrite l sorted ib s) ib.
Proof.
  intros l sorted ib s F. destruct s as [| an i b|]; try discriminate. cbn [topo_rewrite].
  induction sorted; cbn; constructor; auto.
Qed.

Lemma topo_ok : forall mo srt uses is (s b : stmt) s', admissible_level_sort srt ->
  nest_of is s b -> is <> [] -> is_forall b = false -> NoDup is ->
  reorderLoopsTopologically mo srt uses s = Some s' ->
  exists is', Permutation is' is /\ nest_of is' s' b /\ storage_order uses is is'.
Proof.
  intros mo srt uses is s b s' A H N F ND Q. unfold reorderLoopsTopologically in Q.
  destruct (dag_nest is s b H N F) as [D1 D2]. destruct (dag s) as [l ib]. cbn in D1, D2. subst ib.
  destruct (topologicallySort (hard_deps srt uses (map fst l)) (soft_deps mo s) (map fst l)) as [sorted|] eqn:TS; [|discriminate].
  injection Q as <-. rewrite D1 in TS. unfold topologicallySort in TS. apply topo_sound in TS as [P B]; auto.
  exists sorted. split; auto. split.
  - apply rewrite_nest. inversion H; subst; auto; congruence.
  - intros i j u u' Ii Ij Iu Iu' ET EL EH. apply B; auto. eapply hard_fwd; eauto.
Qed.
Lemma topo_total : forall mo srt uses is (s b : stmt) q, admissible_level_sort srt ->
  nest_of is s b -> is <> [] -> is_forall b = false -> NoDup is -> one_access uses is ->
  Permutation q is -> storage_order uses is q -> exists s', reorderLoopsTopologically mo srt uses s = Some s'.
Proof.
  intros mo srt uses is s b q A H N F ND OA P SO. unfold reorderLoopsTopologically.
  destruct (dag_nest is s b H N F) as [D1 D2]. destruct (dag s) as [l ib]. cbn in D1, D2. subst ib. rewrite D1.
  destruct (topo_complete (length is) (hard_deps srt uses is) (soft_deps mo s) is q) as (l' & E); auto.
  - intros d s0 I _. destruct (hard_bwd _ _ _ _ _ A OA I) as (J1 & J2 & u & u' & K). apply (SO s0 d u u'); tauto.
  - unfold topologicallySort. rewrite E. eauto.
Qed.

Variable R : ring_ops V.
Hypothesis RT : ring_theory (r0 R) (r1 R) (radd R) (rmul R) (rsub R) (ropp R) eq.
Variable fn : nat -> V -> V.
Variable dv : V -> V -> V.
Variable dim : ivar -> nat.
Lemma topo_run : forall mo srt uses is (s b : stmt) s', admissible_level_sort srt ->
  nest_of is s b -> is <> [] -> is_forall b = false -> order_free s ->
  reorderLoopsTopologically mo srt uses s = Some s' ->
  forall r T, eqT (run R fn dv dim s' r T) (run R fn dv dim s r T).
Proof.
  intros mo srt uses is s b s' A H N F (O & _ & NS) Q r T.
  destruct (nest_nodup is s b [] H NS) as [ND _].
  destruct (topo_ok mo srt uses is s b s' A H N F ND Q) as (is' & P & H' & _).
  destruct (nest_facts R fn dv dim _ _ _ H) as (_ & _ & _ & _ & _ & E & _).
  destruct (nest_facts R fn dv dim _ _ _ H') as (_ & _ & _ & _ & _ & E' & _).
  eapply eqT_trans; [apply E'|]. eapply eqT_trans; [|apply eqT_sym, E].
  apply reorder_nest; auto. { symmetry; auto. } eapply nest_order_free; eauto.
Qed.
End P.
