From Coq Require Import List Arith Bool ZArith Lia.
From Verif Require Import Types Checks ChecksSpec.
Import ListNotations.
Local Open Scope nat_scope.

(** ** Containers *)
Lemma contains_in : forall x l, contains x l = true <-> In x l.
Proof.
  intros. unfold contains. rewrite existsb_exists. split.
  - intros [y [I E]]. apply Nat.eqb_eq in E. subst. auto.
  - intros I. exists x. split; auto. apply Nat.eqb_refl.
Qed.
Lemma contains_nin : forall x l, contains x l = false <-> ~ In x l.
Proof. intros. rewrite <- contains_in. destruct (contains x l); split; congruence. Qed.
Lemma set_insert_in : forall x y l, In y (set_insert x l) <-> y = x \/ In y l.
Proof.
  induction l as [|z l IH]; simpl; [intuition|].
  destruct (x <? z) eqn:E; simpl; [intuition|].
  destruct (Nat.eqb_spec x z); simpl; [subst; intuition|]. rewrite IH. intuition.
Qed.
Lemma set_erase_in : forall x y l, In y (set_erase x l) <-> y <> x /\ In y l.
Proof.
  intros. unfold set_erase. rewrite filter_In. destruct (Nat.eqb_spec y x); simpl; intuition congruence.
Qed.

(** maps sorted by key *)
Definition sorted_keys {W} (m : list (ivar * W)) := forall l1 k v l2, m = l1 ++ (k, v) :: l2 -> forall k' v', In (k', v') l2 -> k < k'.
Lemma sorted_cons {W} : forall k v (m : list (ivar * W)),
  sorted_keys ((k, v) :: m) <-> (forall k' v', In (k', v') m -> k < k') /\ sorted_keys m.
Proof.
  unfold sorted_keys. split.
  - intros H. split.
    + intros k' v'. apply (H [] k v m eq_refl).
    + intros l1 k1 v1 l2 E. apply (H ((k, v) :: l1) k1 v1 l2). simpl. congruence.
  - intros [A B] [|x l1] k1 v1 l2 E; simpl in E; inversion E; subst; auto.
    eapply B. reflexivity.
Qed.
Lemma sorted_nil {W} : sorted_keys (@nil (ivar * W)).
Proof. intros [|? ?] ? ? ? H; discriminate. Qed.
Lemma map_insert_in {W} : forall k v (m : list (ivar * W)) p, In p (map_insert k v m) -> p = (k, v) \/ In p m.
Proof.
  induction m as [|[k' v'] m IH]; simpl; intros p H; [intuition|].
  destruct (k <? k'); simpl in *; [intuition|]. destruct (k =? k'); simpl in *; auto.
  destruct H as [H|H]; auto. apply IH in H. intuition.
Qed.
Lemma map_insert_sorted {W} : forall k v (m : list (ivar * W)), sorted_keys m -> sorted_keys (map_insert k v m).
Proof.
  induction m as [|[k' v'] m IH]; simpl; intros S.
  - apply sorted_cons. split; [intros ? ? []|apply sorted_nil].
  - pose proof S as S'. apply sorted_cons in S'. destruct S' as [S1 S2].
    destruct (Nat.ltb_spec k k').
    + apply sorted_cons. split; auto. intros q w [E|I]; [inversion E; subst; auto|]. apply S1 in I. lia.
    + destruct (Nat.eqb_spec k k'); auto. apply sorted_cons. split; auto.
      intros q w I. apply map_insert_in in I. destruct I as [I|I]; [inversion I; lia|eauto].
Qed.
Lemma map_at_in {W} : forall k (m : list (ivar * W)) v, map_at k m = Some v -> In (k, v) m.
Proof.
  induction m as [|[k' v'] m IH]; simpl; intros v H; [discriminate|].
  destruct (Nat.eqb_spec k k'); [inversion H; subst; auto|auto].
Qed.
Lemma map_at_none {W} : forall k (m : list (ivar * W)), map_at k m = None <-> ~ In k (map fst m).
Proof.
  induction m as [|[k' v'] m IH]; simpl; [tauto|].
  destruct (Nat.eqb_spec k k'); [subst; split; [discriminate|intuition]|]. rewrite IH. intuition.
Qed.
Lemma map_at_insert {W} : forall k v (m : list (ivar * W)) q, sorted_keys m ->
  map_at q (map_insert k v m) = match map_at q m with Some w => Some w | None => if q =? k then Some v else None end.
Proof.
  induction m as [|[k' v'] m IH]; intros q S; simpl; auto.
  pose proof S as S'. apply sorted_cons in S'. destruct S' as [S1 S2].
  destruct (Nat.ltb_spec k k'); simpl.
  - destruct (Nat.eqb_spec q k).
    + subst. destruct (Nat.eqb_spec k k'); [lia|].
      destruct (map_at k m) eqn:E; auto. apply map_at_in in E. apply S1 in E. lia.
    + destruct (Nat.eqb_spec q k'); auto. destruct (map_at q m); auto.
  - destruct (Nat.eqb_spec k k'); simpl.
    + subst. destruct (Nat.eqb_spec q k'); auto. destruct (map_at q m); auto.
    + destruct (Nat.eqb_spec q k'); auto.
Qed.
Lemma map_add_keys : forall k s (m : graph), map fst (map_add k s m) = map fst m.
Proof. induction m as [|[k' v] m IH]; simpl; auto. destruct (k =? k'); simpl; congruence. Qed.
Lemma sorted_keys_fst {W U} : forall (m : list (ivar * W)) (n : list (ivar * U)), map fst m = map fst n -> sorted_keys m -> sorted_keys n.
Proof.
  induction m as [|[k v] m IH]; intros [|[k' v'] n] E S; simpl in E; try discriminate; [apply sorted_nil|].
  injection E as -> E. apply sorted_cons in S. destruct S as [S1 S2]. apply sorted_cons. split; [|eauto].
  intros q w I. apply (in_map fst) in I. simpl in I. rewrite <- E in I. apply in_map_iff in I. destruct I as [[q' w'] [<- I]].
  simpl. eauto.
Qed.
Lemma map_at_add : forall k s (m : graph) q,
  map_at q (map_add k s m) = if q =? k then option_map (set_insert s) (map_at q m) else map_at q m.
Proof.
  induction m as [|[k' v] m IH]; intros q; simpl; [destruct (q =? k); auto|].
  destruct (Nat.eqb_spec k k'); simpl.
  - subst. destruct (Nat.eqb_spec q k'); auto.
  - rewrite IH. destruct (Nat.eqb_spec q k'); auto. subst. destruct (Nat.eqb_spec k' k); congruence.
Qed.

(** successors in a graph *)
Definition edge (g : graph) u v := exists l, map_at u g = Some l /\ In v l.
Definition key (g : graph) u := map_at u g <> None.
Lemma key_in : forall g u, key g u <-> In u (map fst g).
Proof.
  intros. unfold key. pose proof (map_at_none u g). destruct (map_at u g) eqn:E.
  - split; [intros _|congruence]. apply map_at_in in E. apply (in_map fst) in E. auto.
  - split; [congruence|]. intros I. destruct H as [H _]. elim (H eq_refl I).
Qed.
Definition consecutive (u v : ivar) (l : list ivar) := exists l1 l2, l = l1 ++ u :: v :: l2.
Lemma consecutive_cons : forall u v x l, consecutive u v (x :: l) <-> (u = x /\ exists l2, l = v :: l2) \/ consecutive u v l.
Proof.
  unfold consecutive. split.
  - intros [[|y l1] [l2 E]]; simpl in E; inversion E; subst; [left; eauto|right; eauto].
  - intros [[-> [l2 ->]]|[l1 [l2 ->]]]; [exists [], l2; auto|exists (x :: l1), l2; auto].
Qed.
Lemma addEdges_from_spec : forall order g, sorted_keys g ->
  sorted_keys (addEdges_from order g) /\
  (forall u, key (addEdges_from order g) u <-> key g u \/ In u order) /\
  (forall u v, edge (addEdges_from order g) u v <-> edge g u v \/ consecutive u v order).
Proof.
  induction order as [|x order IH]; intros g S.
  - simpl. split; [auto|split; [intuition|]]. intros u v. split; auto. intros [H|[[|? ?] [l2 H]]]; auto; discriminate.
  - destruct order as [|y order].
    + simpl. split; [apply map_insert_sorted; auto|]. split.
      * intros u. unfold key. rewrite map_at_insert by auto. destruct (map_at u g).
        -- split; [left|]; congruence.
        -- destruct (Nat.eqb_spec u x); [subst; split; [auto|congruence]|]. split; [congruence|]. intros [?|[?|[]]]; congruence.
      * intros u v. unfold edge. rewrite map_at_insert by auto. rewrite consecutive_cons. split.
        -- intros [l [E I]]. left. destruct (map_at u g); eauto. destruct (u =? x); inversion E; subst; elim I.
        -- intros [[l [E I]]|[[_ [l2 H]]|[[|? ?] [l2 H]]]]; try discriminate. rewrite E. eauto.
    + change (addEdges_from (x :: y :: order) g) with (addEdges_from (y :: order) (map_add x y (map_insert x [] g))).
      assert (S1 : sorted_keys (map_add x y (map_insert x [] g))).
      { eapply sorted_keys_fst; [symmetry; apply map_add_keys|]. apply map_insert_sorted; auto. }
      specialize (IH _ S1). destruct IH as [A [B C]]. split; [auto|]. split.
      * intros u. rewrite B. unfold key at 1. rewrite map_at_add, map_at_insert by auto.
        unfold key. destruct (Nat.eqb_spec u x).
        -- subst. destruct (map_at x g); simpl; intuition (try congruence).
        -- destruct (map_at u g); simpl; intuition (try congruence).
      * intros u v. rewrite C. rewrite (consecutive_cons u v x). unfold edge.
        rewrite map_at_add, map_at_insert by auto. destruct (Nat.eqb_spec u x).
        -- subst. destruct (map_at x g) as [l0|] eqn:E; simpl.
           ++ split.
              ** intros [[l [H I]]|H]; auto. inversion H; subst. apply set_insert_in in I.
                 destruct I as [->|I]; [right; left; eauto|left; eauto].
              ** intros [[l [H I]]|[[_ [l2 H]]|H]]; auto.
                 --- inversion H; subst. left. eexists. split; eauto. apply set_insert_in. auto.
                 --- inversion H; subst. left. eexists. split; eauto. apply set_insert_in. auto.
           ++ split.
              ** intros [[l [H I]]|H]; auto. inversion H; subst. simpl in I. destruct I as [<-|[]]. right. left. eauto.
              ** intros [[l [H I]]|[[_ [l2 H]]|H]]; auto; [discriminate|].
                 inversion H; subst. left. eexists. split; eauto. simpl. auto.
        -- destruct (map_at u g) as [l0|] eqn:E; simpl; split.
           ++ intros [?|?]; auto.
           ++ intros [?|[[? ?]|?]]; auto. congruence.
           ++ intros [?|?]; auto.
           ++ intros [?|[[? ?]|?]]; auto. congruence.
Qed.

Lemma permuted_proper : forall vars ord, (forall m, In m ord -> m < length vars) ->
  permuted vars ord = Some (map (fun m => nth m vars 0) ord).
Proof.
  induction ord as [|m ord IH]; intros H; simpl; auto.
  rewrite (nth_error_nth' vars 0) by (apply H; simpl; auto). rewrite IH; auto. intros. apply H. simpl. auto.
Qed.
Lemma addEdges_proper : forall a g, proper_access a -> addEdges (fst a) (snd a) g = Some (addEdges_from (storage_order a) g).
Proof.
  intros [vars ord] g [L H]. unfold addEdges, storage_order. simpl in *.
  destruct vars as [|v vars]; destruct ord as [|m ord]; simpl in L; try lia; auto.
  rewrite permuted_proper by auto. auto.
Qed.
Lemma addAll_proper : forall accs g, Forall proper_access accs -> sorted_keys g ->
  exists g', addAll accs g = Some g' /\ sorted_keys g' /\
    (forall u, key g' u <-> key g u \/ exists a, In a accs /\ In u (storage_order a)) /\
    (forall u v, edge g' u v <-> edge g u v \/ exists a, In a accs /\ consecutive u v (storage_order a)).
Proof.
  induction accs as [|[vars ord] accs IH]; intros g F S.
  - exists g. simpl. repeat split; auto; intros; auto; try (destruct H as [H|[a [[] _]]]; auto).
  - inversion F; subst. cbn [addAll]. rewrite (addEdges_proper (vars, ord)) by auto.
    destruct (addEdges_from_spec (storage_order (vars, ord)) g S) as [A [B C]].
    destruct (IH _ H2 A) as [g' [E [S' [K' E']]]]. exists g'. split; [auto|]. split; [auto|]. split.
    + intros u. rewrite K', B. simpl. split.
      * intros [[?|?]|[a [? ?]]]; eauto.
      * intros [?|[a [[<-|?] ?]]]; eauto.
    + intros u v. rewrite E', C. simpl. split.
      * intros [[?|?]|[a [? ?]]]; eauto.
      * intros [?|[a [[<-|?] ?]]]; eauto.
Qed.

(** ** Depth-first search *)
Section DFS.
Variable g : graph.
Hypothesis closed : forall u v, edge g u v -> key g v.

(** nodes listed before all their successors *)
Inductive topo : list ivar -> Prop :=
| topo_nil : topo []
| topo_cons u l : ~ In u l -> (forall v, edge g u v -> In v l) -> topo l -> topo (u :: l).
Inductive path : ivar -> ivar -> Prop :=
| path_one u v : edge g u v -> path u v
| path_step u v w : edge g u v -> path v w -> path u w.
Lemma path_snoc : forall u v w, path u v -> edge g v w -> path u w.
Proof. induction 1; intros; [eapply path_step; eauto; constructor; auto|eapply path_step; eauto]. Qed.

Definition white (vis : list ivar) := length (filter (fun k => negb (contains k vis)) (map fst g)).
Lemma white_le : forall vis vis', incl vis vis' -> white vis' <= white vis.
Proof.
  intros vis vis' I. unfold white. induction (map fst g) as [|k l IH]; simpl; auto.
  destruct (contains k vis) eqn:E1; simpl.
  - apply contains_in, I, contains_in in E1. rewrite E1. simpl. auto.
  - destruct (contains k vis'); simpl; lia.
Qed.
Lemma white_lt : forall vis v, key g v -> ~ In v vis -> white (set_insert v vis) < white vis.
Proof.
  intros vis v K N. apply key_in in K. unfold white.
  assert (G : forall l, length (filter (fun k => negb (contains k (set_insert v vis))) l) <=
                        length (filter (fun k => negb (contains k vis)) l)).
  { induction l as [|k l IH]; simpl; auto. destruct (contains k vis) eqn:E1; simpl.
    - assert (contains k (set_insert v vis) = true) as ->.
      { apply contains_in, set_insert_in. right. apply contains_in. auto. } simpl. auto.
    - destruct (contains k (set_insert v vis)); simpl; lia. }
  induction (map fst g) as [|k l IH]; simpl; [elim K|].
  destruct K as [->|K].
  - assert (contains v (set_insert v vis) = true) as -> by (apply contains_in, set_insert_in; auto).
    assert (contains v vis = false) as -> by (apply contains_nin; auto). simpl. specialize (G l). lia.
  - specialize (IH K). destruct (contains k vis) eqn:E1; simpl.
    + assert (contains k (set_insert v vis) = true) as ->.
      { apply contains_in, set_insert_in. right. apply contains_in. auto. } simpl. auto.
    + destruct (contains k (set_insert v vis)); simpl; lia.
Qed.

(** [L] lists the finished nodes. *)
Definition ok_state (vis mk L : list ivar) :=
  topo L /\ incl mk vis /\ forall x, In x L <-> In x vis /\ ~ In x mk.

Definition loopF fuel var := fix loop (succs : list ivar) (visited marked : list ivar) {struct succs} :=
           match succs with
           | [] => Some (false, visited, set_erase var marked)
           | succ :: rest =>
             if negb (contains succ visited) then
               match hasCycle fuel g succ visited marked with
               | None => None
               | Some (true, visited, marked) => Some (true, visited, marked)
               | Some (false, visited, marked) =>
                 if contains succ marked then Some (true, visited, marked)
                 else loop rest visited marked
               end
             else if contains succ marked then Some (true, visited, marked)
             else loop rest visited marked
           end.

Lemma hasCycle_spec : forall fuel var vis mk L, white vis < fuel -> key g var -> ~ In var vis ->
  ok_state vis mk L -> (forall m, In m mk -> path m var) ->
  exists b vis' mk', hasCycle fuel g var vis mk = Some (b, vis', mk') /\
    (b = true -> exists x, path x x) /\
    (b = false -> exists L', ok_state vis' mk' (var :: L') /\ incl vis vis' /\ (forall x, In x mk' <-> In x mk)).
Proof.
  induction fuel as [|fuel IH]; intros var vis mk L F K N O M; [lia|].
  cbn [hasCycle]. assert (contains var vis = false) as -> by (apply contains_nin; auto).
  destruct (map_at var g) as [succs|] eqn:Es; [|elim K; auto].
  change (exists b vis' mk', loopF fuel var succs (set_insert var vis) (set_insert var mk) = Some (b, vis', mk') /\
    (b = true -> exists x, path x x) /\
    (b = false -> exists L', ok_state vis' mk' (var :: L') /\ incl vis vis' /\ (forall x, In x mk' <-> In x mk))).
  assert (SE : forall s, In s succs -> edge g var s) by (intros s I; exists succs; auto).
  assert (W : white (set_insert var vis) < fuel) by (pose proof (white_lt vis var K N); lia).
  assert (G : forall ss visited marked L1, incl ss succs -> white visited < fuel -> 
    incl vis visited -> In var visited -> ok_state visited marked L1 -> 
    (forall x, In x marked <-> x = var \/ In x mk) ->
    (forall s, In s succs -> In s ss \/ In s L1) ->
    exists b vis' mk', loopF fuel var ss visited marked = Some (b, vis', mk') /\
    (b = true -> exists x, path x x) /\
    (b = false -> exists L', ok_state vis' mk' (var :: L') /\ incl vis vis' /\ (forall x, In x mk' <-> In x mk))).
  { induction ss as [|s ss IHs]; intros visited marked L1 I1 W1 V1 V2 O1 M1 D1.
    - simpl. exists false, visited, (set_erase var marked). split; [auto|]. split; [discriminate|]. intros _.
      exists L1. destruct O1 as [T1 [MV LV]].
      assert (NM : ~ In var mk). { intros I. apply N. destruct O as [_ [O _]]. auto. }
      assert (ME : forall x, In x (set_erase var marked) <-> In x mk).
      { intros x. rewrite set_erase_in, M1. split; [tauto|]. intros. split; auto. intros ->. auto. }
      split; [|split; auto]. split; [|split].
      + constructor; auto.
        * intros I. apply LV in I. apply (proj2 I). apply M1. auto.
        * intros v [l [E I]]. rewrite Es in E. inversion E; subst. destruct (D1 v I) as [[]|]; auto.
      + intros x I. apply set_erase_in in I. apply MV. tauto.
      + intros x. simpl. rewrite LV, ME, M1. split.
        * intros [<-|[A B]]; [auto|]. split; auto.
        * intros [A B]. destruct (Nat.eq_dec var x); auto. right. split; auto. intros [->|?]; auto.
    - simpl. destruct (contains s visited) eqn:Ev; simpl.
      + destruct (contains s marked) eqn:Em.
        * exists true, visited, marked. split; [auto|]. split; [|discriminate]. intros _.
          apply contains_in in Em. apply M1 in Em. assert (edge g var s) by (apply SE, I1; simpl; auto).
          destruct Em as [->|Em]; [exists var; constructor; auto|]. exists s. eapply path_snoc; eauto.
        * apply (IHs visited marked L1); auto; [intros x Hx; apply I1; simpl; auto|].
          intros s' I'. destruct (D1 s' I') as [[<-|?]|?]; auto. right. apply O1. split; [apply contains_in; auto|apply contains_nin; auto].
      + apply contains_nin in Ev.
        destruct (IH s visited marked L1) as [b [vis' [mk' [Eq [Tr Fa]]]]]; auto.
        * apply (closed var). apply SE, I1. simpl. auto.
        * intros m Hm. apply M1 in Hm. assert (edge g var s) by (apply SE, I1; simpl; auto).
          destruct Hm as [->|Hm]; [constructor; auto|eapply path_snoc; eauto].
        * rewrite Eq. destruct b.
          -- exists true, vis', mk'. split; [auto|]. split; [auto|discriminate].
          -- destruct (Fa eq_refl) as [L' [O' [V' M']]].
             assert (contains s mk' = false) as ->.
             { apply contains_nin. intros I. apply M' in I. destruct O1 as [_ [O1 _]]. auto. }
             apply (IHs vis' mk' (s :: L')); auto.
             ++ intros x Hx; apply I1; simpl; auto.
             ++ pose proof (white_le _ _ V'). lia.
             ++ intros x Hx. auto.
             ++ intros x. rewrite M', M1. tauto.
             ++ intros s' I'. destruct (D1 s' I') as [[<-|?]|?]; simpl; auto.
                right. apply O'. apply O1 in H. split; [apply V'; tauto|]. intros I. apply M' in I. tauto. }
  apply (G succs _ _ L); auto.
  - intros x Hx; auto.
  - intros x Hx. apply set_insert_in. auto.
  - apply set_insert_in. auto.
  - destruct O as [T [MV LV]]. split; [auto|]. split.
    + intros x Hx. apply set_insert_in in Hx. apply set_insert_in. destruct Hx; auto.
    + intros x. rewrite LV, !set_insert_in. split; [intros [A B]; split; auto|intros [[->|A] B]; tauto].
      intros [->|?]; auto.
  - intros x. apply set_insert_in.
Qed.

Lemma hasCycle_visited : forall fuel var vis mk, In var vis -> hasCycle (S fuel) g var vis mk = Some (false, vis, set_erase var mk).
Proof. intros. cbn [hasCycle]. apply contains_in in H. rewrite H. auto. Qed.

Lemma anyCycle_spec : forall fuel vars vis L, white vis < S fuel -> (forall v, In v vars -> key g v) ->
  topo L -> (forall x, In x L <-> In x vis) ->
  exists b, anyCycle (S fuel) g vars vis [] = Some b /\
    (b = true -> exists x, path x x) /\
    (b = false -> exists L', topo L' /\ incl vars L' /\ incl L L').
Proof.
  intros fuel. induction vars as [|v vars IH]; intros vis L W K T LV; cbn [anyCycle].
  - exists false. split; [auto|]. split; [discriminate|]. intros _. exists L. split; [auto|]. split; [intros ? []|intros ? ?; auto].
  - destruct (contains v vis) eqn:E.
    + apply contains_in in E. rewrite hasCycle_visited by auto. simpl.
      destruct (IH vis L) as [b [A [B C]]]; auto.
      * intros; apply K; simpl; auto.
      * exists b. split; [auto|]. split; [auto|]. intros Hb. destruct (C Hb) as [L' [T' [I1 I2]]].
        exists L'. split; [auto|]. split; auto. intros x [<-|I]; auto. apply I2, LV. auto.
    + apply contains_nin in E.
      destruct (hasCycle_spec (S fuel) v vis [] L) as [b [vis' [mk' [Eq [Tr Fa]]]]]; auto.
      * apply K. simpl. auto.
      * split; [auto|]. split; [intros ? []|]. intros x. rewrite LV. simpl. tauto.
      * intros m [].
      * rewrite Eq. destruct b.
        -- exists true. split; [auto|]. split; [auto|discriminate].
        -- destruct (Fa eq_refl) as [L' [[T' [_ LV']] [V' M']]].
           assert (mk' = []) as ->. { destruct mk' as [|m mk']; auto. exfalso. apply (M' m). simpl. auto. }
           destruct (IH vis' (v :: L')) as [b [A [B C]]]; auto.
           ++ pose proof (white_le _ _ V'). lia.
           ++ intros; apply K; simpl; auto.
           ++ intros x. rewrite LV'. simpl. tauto.
           ++ exists b. split; [auto|]. split; [auto|]. intros Hb. destruct (C Hb) as [L2 [T2 [I1 I2]]].
              exists L2. split; [auto|]. split.
              ** intros x [<-|I]; auto. apply I2. simpl. auto.
              ** intros x I. apply I2, LV'. split; [apply V', LV; auto|intros []].
Qed.

Definition chain (p : list ivar) := forall u v, consecutive u v p -> edge g u v.
Lemma topo_nodup : forall L, topo L -> NoDup L.
Proof. induction 1; constructor; auto. Qed.
Lemma chain_tl : forall x p, chain (x :: p) -> chain p.
Proof. intros x p C u v H. apply C. apply consecutive_cons. auto. Qed.
Lemma chain_in : forall L, topo L -> forall p x, chain (x :: p) -> In x L -> incl (x :: p) L.
Proof.
  intros L T p. induction p as [|y p IH]; intros x C I z Hz.
  - destruct Hz as [<-|[]]; auto.
  - destruct Hz as [<-|Hz]; auto. assert (In y L).
    { assert (E : edge g x y). { apply C. apply consecutive_cons. left. eauto. }
      clear - T I E. induction T; [elim I|]. destruct I as [->|I]; simpl; auto. }
    apply (IH y); auto. eapply chain_tl; eauto.
Qed.
Lemma chain_subsequence : forall L, topo L -> forall p, chain p -> incl p L -> subsequence p L.
Proof.
  induction 1 as [|u L N E T IH]; intros p C I.
  - destruct p as [|x p]; [constructor|]. elim (I x). simpl. auto.
  - destruct p as [|x p]; [constructor|].
    destruct (Nat.eq_dec x u).
    + subst. constructor. apply IH; [eapply chain_tl; eauto|].
      destruct p as [|y p]; [intros ? []|]. apply chain_in; auto; [eapply chain_tl; eauto|].
      apply E. apply C. apply consecutive_cons. left. eauto.
    + constructor. apply IH; auto. apply chain_in; auto.
      destruct (I x); simpl; auto. congruence.
Qed.
End DFS.

Lemma consecutive_before : forall (p order : list ivar) u v, subsequence p order -> consecutive u v p ->
  exists i j, nth_error order i = Some u /\ nth_error order j = Some v /\ i < j.
Proof.
  intros p order u v SS. induction SS; intros [l1 [l2 E]].
  - destruct l1; discriminate.
  - destruct l1 as [|y l1]; simpl in E; inversion E; subst.
    + clear - SS. assert (exists j, nth_error order j = Some v).
      { apply In_nth_error. clear -SS. remember (v :: l2) as l. induction SS; subst; try discriminate.
        - inversion Heql; subst. simpl. auto.
        - simpl. auto. }
      destruct H as [j H]. exists 0, (S j). simpl. repeat split; auto. lia.
    + destruct IHSS as [i [j [A [B C]]]]; [exists l1, l2; auto|]. exists (S i), (S j). simpl. repeat split; auto. lia.
  - destruct IHSS as [i [j [A [B C]]]]; [exists l1, l2; auto|]. exists (S i), (S j). simpl. repeat split; auto. lia.
Qed.

Lemma path_before : forall g order, NoDup order ->
  (forall u v, edge g u v -> exists i j, nth_error order i = Some u /\ nth_error order j = Some v /\ i < j) ->
  forall u v, path g u v -> exists i j, nth_error order i = Some u /\ nth_error order j = Some v /\ i < j.
Proof.
  intros g order ND H u v P. induction P; auto.
  destruct (H _ _ H0) as [i [j [A [B C]]]]. destruct IHP as [j' [k [D [E F]]]].
  assert (j = j'). { apply (proj1 (NoDup_nth_error order)); auto; [apply nth_error_Some; congruence|congruence]. }
  exists i, k. repeat split; auto. lia.
Qed.

Theorem containsTranspose_spec : forall result operands, Forall proper_access (result :: operands) ->
  exists b, containsTranspose result operands = Some b /\
    (b = false <-> exists order, compatible order (result :: operands)).
Proof.
  intros result operands F. unfold containsTranspose.
  destruct (addAll_proper (result :: operands) [] F sorted_nil) as [g [E [Srt [K Ed]]]]. rewrite E.
  assert (K' : forall u, key g u <-> exists a, In a (result :: operands) /\ In u (storage_order a)).
  { intros u. rewrite K. split; auto. intros [H|?]; auto. elim H. auto. }
  assert (Ed' : forall u v, edge g u v <-> exists a, In a (result :: operands) /\ consecutive u v (storage_order a)).
  { intros u v. rewrite Ed. split; auto. intros [[l [H _]]|?]; auto. discriminate. }
  assert (C : forall u v, edge g u v -> key g v).
  { intros u v H. apply Ed' in H. destruct H as [a [I [l1 [l2 H]]]]. apply K'. exists a. split; auto. rewrite H.
    apply in_or_app. right. simpl. auto. }
  destruct (anyCycle_spec g C (length g) (map fst g) [] []) as [b [A [B D]]].
  - assert (H : forall l : list ivar, length (filter (fun k => negb (contains k [])) l) <= length l).
    { induction l as [|k l IH]; [auto|]. cbn [filter]. destruct (negb (contains k [])); cbn [length]; lia. }
    specialize (H (map fst g)). rewrite map_length in H. unfold white.
    apply Nat.lt_succ_r. exact H.
  - intros v. apply key_in.
  - constructor.
  - intros; tauto.
  - exists b. split; [auto|]. split.
    + intros ->. destruct (D eq_refl) as [L [T [I _]]]. exists L. split; [eapply topo_nodup; eauto|].
      intros a Ia. apply (chain_subsequence g L T).
      * intros u v H. apply Ed'. eauto.
      * intros u Iu. apply I, key_in, K'. eauto.
    + intros [order [ND Co]]. destruct b; auto. exfalso. destruct (B eq_refl) as [x P].
      destruct (path_before g order ND) with (u := x) (v := x) as [i [j [P1 [P2 P3]]]]; auto.
      * intros u v H. apply Ed' in H. destruct H as [a [Ia H]]. eapply consecutive_before; eauto.
      * assert (i = j); [|lia]. apply (proj1 (NoDup_nth_error order)); auto; [apply nth_error_Some; congruence|congruence].
Qed.

(** ** Dimensions *)
Definition check_all (l : list (ivar * dimension)) st := fold_left (fun st vd => check_dim (fst vd) (snd vd) st) l st.

Lemma dim_eq_extent : forall a b, dim_eq a b = true <-> extent a = extent b.
Proof.
  intros a b. unfold dim_eq, extent. destruct (isFixed a), (isFixed b); simpl; try (split; congruence).
  destruct (Nat.eqb_spec (getSize a) (getSize b)); simpl; split; congruence.
Qed.
Lemma dim_eq_refl : forall a, dim_eq a a = true.
Proof. intros. apply dim_eq_extent. auto. Qed.

Definition tolerated (v : ivar) (old d : dimension) := dim_eq old d = true \/ sized_by v old = true \/ sized_by v d = true.
(** the first dimension a variable is used with *)
Fixpoint first_dim (v : ivar) (l : list (ivar * dimension)) : option dimension :=
  match l with [] => None | (w, d) :: r => if v =? w then Some d else first_dim v r end.

Lemma check_dim_spec : forall v d n m, sorted_keys m ->
  sorted_keys (snd (check_dim v d (n, m))) /\
  (forall q, map_at q (snd (check_dim v d (n, m))) = match map_at q m with Some x => Some x | None => if q =? v then Some d else None end) /\
  n <= fst (check_dim v d (n, m)) /\
  (fst (check_dim v d (n, m)) = n <-> match map_at v m with Some old => tolerated v old d | None => True end).
Proof.
  intros v d n m S. unfold check_dim. simpl. destruct (map_at v m) as [old|] eqn:E.
  - unfold tolerated. assert (Q : forall q, map_at q m = match map_at q m with Some x => Some x | None => if q =? v then Some d else None end).
    { intros q. destruct (map_at q m) eqn:E2; auto. destruct (Nat.eqb_spec q v); auto. congruence. }
    destruct (dim_eq old d), (sized_by v old), (sized_by v d); simpl; (split; [auto|split; [auto|split; [lia|split; [intros; auto; lia|intros; auto]]]]);
    intuition congruence.
  - simpl. split; [apply map_insert_sorted; auto|]. split; [intros; apply map_at_insert; auto|]. split; [lia|tauto].
Qed.

Lemma check_all_spec : forall l n m, sorted_keys m ->
  n <= fst (check_all l (n, m)) /\
  (fst (check_all l (n, m)) = n <->
   forall v d, In (v, d) l ->
     match (match map_at v m with Some x => Some x | None => first_dim v l end) with
     | Some old => old = d \/ tolerated v old d | None => False end).
Proof.
  induction l as [|[v d] l IH]; intros n m S.
  - simpl. split; auto. split; auto. intros _ v d [].
  - unfold check_all in *. cbn [fold_left fst snd].
    destruct (check_dim_spec v d n m S) as [S1 [Q1 [L1 T1]]].
    destruct (check_dim v d (n, m)) as [n1 m1] eqn:E1. simpl in S1, Q1, L1, T1.
    destruct (IH n1 m1 S1) as [L2 T2]. split; [lia|].
    assert (Q2 : forall q, (match map_at q m1 with Some x => Some x | None => first_dim q l end) =
                           (match map_at q m with Some x => Some x | None => first_dim q ((v, d) :: l) end)).
    { intros q. rewrite Q1. simpl. destruct (map_at q m); auto. destruct (q =? v); auto. }
    split.
    + intros H. assert (n1 = n) by lia. assert (H2 : fst (fold_left (fun st vd => check_dim (fst vd) (snd vd) st) l (n1, m1)) = n1) by lia.
      pose proof (proj1 T2 H2) as T2'. pose proof (proj1 T1 H0) as T1'.
      intros v' d' I. destruct I as [I|I].
      * inversion I; subst. destruct (map_at v' m) as [old|]; auto. simpl. rewrite Nat.eqb_refl. auto.
      * specialize (T2' _ _ I). rewrite Q2 in T2'. auto.
    + intros H. assert (n1 = n).
      { apply T1. specialize (H v d (or_introl eq_refl)). destruct (map_at v m) as [old|]; auto.
        destruct H as [->|H]; auto. left. apply dim_eq_refl. }
      subst n1. apply T2. intros v' d' I. rewrite Q2. apply H. simpl. auto.
Qed.

Lemma fold_left_map {A B C} : forall (f : A -> B -> A) (h : C -> B) (l : list C) a,
  fold_left f (map h l) a = fold_left (fun a c => f a (h c)) l a.
Proof. induction l; simpl; auto. Qed.

Theorem dimensionsTypecheck_spec : forall result reads,
  let uses := result ++ map (fun m => (m_var m, mode_dimension m)) (concat reads) in
  dimensionsTypecheck result reads = true <->
  forall v d, In (v, d) uses -> exists d0, first_dim v uses = Some d0 /\ (extent d0 = extent d \/ sized_by v d0 = true \/ sized_by v d = true).
Proof.
  intros result reads uses. unfold dimensionsTypecheck.
  rewrite Nat.eqb_eq.
  assert (E : fold_left (fun st m => check_dim (m_var m) (mode_dimension m) st) (concat reads)
      (fold_left (fun st vd => check_dim (fst vd) (snd vd) st) result (0, [])) = check_all uses (0, [])).
  { unfold check_all, uses. rewrite fold_left_app, fold_left_map. auto. }
  rewrite E. destruct (check_all_spec uses 0 [] sorted_nil) as [_ T]. rewrite T. simpl. split.
  - intros H v d I. specialize (H v d I). destruct (first_dim v uses) as [d0|]; [|elim H]. exists d0. split; auto.
    destruct H as [->|[H|H]]; auto. left. apply dim_eq_extent. auto.
  - intros H v d I. destruct (H v d I) as [d0 [-> H0]]. right. unfold tolerated. rewrite dim_eq_extent. auto.
Qed.

Lemma first_dim_in : forall v l d, first_dim v l = Some d -> In (v, d) l.
Proof.
  induction l as [|[w x] l IH]; simpl; intros d H; [discriminate|].
  destruct (Nat.eqb_spec v w); [inversion H; subst; auto|auto].
Qed.
Lemma in_first_dim : forall v l d, In (v, d) l -> exists d', first_dim v l = Some d'.
Proof.
  induction l as [|[w x] l IH]; simpl; intros d H; [elim H|destruct H as [H|H]].
  - inversion H; subst. rewrite Nat.eqb_refl. eauto.
  - destruct (v =? w); eauto.
Qed.

Theorem dimensions_consistent : forall result reads,
  let uses := result ++ map (fun m => (m_var m, mode_dimension m)) (concat reads) in
  (forall v d w, In (v, d) uses -> d <> DIndexVar w) ->
  (dimensionsTypecheck result reads = true <-> exists ext, forall v d, In (v, d) uses -> extent d = ext v).
Proof.
  intros result reads uses ND. unfold uses in *. rewrite dimensionsTypecheck_spec. fold uses in ND |- *.
  assert (NS : forall v d u, In (u, d) uses -> sized_by v d = false).
  { intros v d u I. destruct d; auto. exfalso. eapply ND; eauto. }
  split.
  - intros H. exists (fun v => match first_dim v uses with Some d => extent d | None => None end).
    intros v d I. destruct (H v d I) as [d0 [F [E|[E|E]]]].
    + rewrite F. auto.
    + rewrite (NS v d0 v (first_dim_in _ _ _ F)) in E. discriminate.
    + rewrite (NS v d v I) in E. discriminate.
  - intros [ext H] v d I. destruct (in_first_dim _ _ _ I) as [d0 F]. exists d0. split; auto. left.
    rewrite (H v d I). apply (H v d0). apply first_dim_in. auto.
Qed.

(** ** Iteration algebra *)
Section AlgProofs.
Context {R : Type}.
Lemma demorgan_inside : forall (m : R -> Prop), (forall r, m r \/ ~ m r) -> forall a,
  (inside m (applyDemorgan a) <-> inside m a) /\ (inside m (applier a) <-> ~ inside m a).
Proof.
  intros m D. assert (DI : forall a, inside m a \/ ~ inside m a) by (induction a; simpl; [auto|tauto|tauto|tauto]).
  induction a as [r|a [H1 H2]|a [H1 H2] b [H3 H4]|a [H1 H2] b [H3 H4]]; simpl.
  - tauto.
  - rewrite H1, H2. split; [tauto|]. destruct (DI a); tauto.
  - rewrite H1, H2, H3, H4. split; [tauto|]. destruct (DI a); tauto.
  - rewrite H1, H2, H3, H4. split; [tauto|]. tauto.
Qed.
Lemma demorgan_nnf : forall a : alg R, complements_at_regions (applyDemorgan a) /\ complements_at_regions (applier a).
Proof. induction a; simpl; tauto. Qed.
Lemma demorgan_regions : forall a : alg R, regions (applyDemorgan a) = regions a /\ regions (applier a) = regions a.
Proof.
  induction a as [r|a [H1 H2]|a [H1 H2] b [H3 H4]|a [H1 H2] b [H3 H4]]; [split; reflexivity|split; assumption|..].
  - change (regions (applyDemorgan a) ++ regions (applyDemorgan b) = regions a ++ regions b /\
            regions (applier a) ++ regions (applier b) = regions a ++ regions b).
    rewrite H1, H2, H3, H4. auto.
  - change (regions (applyDemorgan a) ++ regions (applyDemorgan b) = regions a ++ regions b /\
            regions (applier a) ++ regions (applier b) = regions a ++ regions b).
    rewrite H1, H2, H3, H4. auto.
Qed.
Lemma nnf_fixed : forall a : alg R, complements_at_regions a -> applyDemorgan a = a.
Proof.
  induction a; intros H; auto.
  - destruct a; simpl in H; auto; tauto.
  - destruct H. change (Intersect (applyDemorgan a1) (applyDemorgan a2) = Intersect a1 a2). rewrite IHa1, IHa2; auto.
  - destruct H. change (Union (applyDemorgan a1) (applyDemorgan a2) = Union a1 a2). rewrite IHa1, IHa2; auto.
Qed.
Lemma algEqual_spec : forall req, (forall r s : R, req r s = true <-> r = s) -> forall a b, algEqual req a b = true <-> a = b.
Proof.
  intros req H. unfold algEqual. induction a; intros [ ]; simpl; try (split; congruence).
  - specialize (H r r0). destruct (req r r0); simpl; split; intros; try discriminate.
    + f_equal. apply H. auto.
    + auto.
    + inversion H0; subst. destruct H as [_ H]. specialize (H eq_refl). discriminate.
  - rewrite IHa. split; congruence.
  - rewrite andb_true_iff, IHa1, IHa2. split; [intros [-> ->]; auto|intros E; inversion E; auto].
  - rewrite andb_true_iff, IHa1, IHa2. split; [intros [-> ->]; auto|intros E; inversion E; auto].
Qed.
End AlgProofs.

(** ** Access order *)
Lemma list_eqb_spec {A} : forall (eqb : A -> A -> bool), (forall x y, eqb x y = true <-> x = y) ->
  forall a b, list_eqb eqb a b = true <-> a = b.
Proof.
  intros eqb H. induction a as [|x a IH]; intros [|y b]; simpl; try (split; congruence).
  rewrite andb_true_iff, H, IH. split; [intros [-> ->]; auto|intros E; inversion E; auto].
Qed.

(** an order as a boolean function *)
Record total_lt {A} (lt : A -> A -> bool) : Prop := {
  tl_irrefl : forall a, lt a a = false;
  tl_trans : forall a b c, lt a b = true -> lt b c = true -> lt a c = true;
  tl_total : forall a b, lt a b = false -> lt b a = false -> a = b }.
Lemma tl_asym {A} (lt : A -> A -> bool) : total_lt lt -> forall a b, lt a b = true -> lt b a = false.
Proof. intros T a b H. destruct (lt b a) eqn:E; auto. pose proof (tl_trans _ T _ _ _ H E). rewrite (tl_irrefl _ T) in H0. discriminate. Qed.
Lemma nat_total : total_lt Nat.ltb.
Proof.
  split; intros *; rewrite ?Nat.ltb_lt, ?Nat.ltb_ge, ?Nat.ltb_irrefl; try lia; auto.
Qed.
Lemma Z_total : total_lt Z.ltb.
Proof. split; intros *; rewrite ?Z.ltb_lt, ?Z.ltb_ge, ?Z.ltb_irrefl; try lia; auto. Qed.
Lemma lex_total {A} : forall lt : A -> A -> bool, total_lt lt -> total_lt (lex_lt lt).
Proof.
  intros lt T. split.
  - induction a as [|x a IH]; simpl; auto. rewrite (tl_irrefl _ T). auto.
  - induction a as [|x a IH]; intros [|y b] [|z c]; simpl; auto; try congruence.
    destruct (lt x y) eqn:E1.
    + intros _. destruct (lt y z) eqn:E2.
      * intros _. rewrite (tl_trans _ T _ _ _ E1 E2). auto.
      * destruct (lt z y) eqn:E3; [congruence|]. pose proof (tl_total _ T _ _ E2 E3). subst. rewrite E1. auto.
    + destruct (lt y x) eqn:E2; [congruence|]. pose proof (tl_total _ T _ _ E1 E2). subst.
      destruct (lt y z); auto. destruct (lt z y); auto. intros. eapply IH; eauto.
  - induction a as [|x a IH]; intros [|y b]; simpl; auto; try congruence.
    destruct (lt x y) eqn:E1; [congruence|]. destruct (lt y x) eqn:E2; [congruence|].
    intros. rewrite (tl_total _ T _ _ E1 E2). f_equal. auto.
Qed.
Lemma pair_total {A B} : forall (lt : A -> A -> bool) (lt2 : B -> B -> bool), total_lt lt -> total_lt lt2 -> total_lt (pair_lt lt lt2).
Proof.
  intros lt lt2 T T2. unfold pair_lt. split.
  - intros [a b]. simpl. rewrite (tl_irrefl _ T), (tl_irrefl _ T2). auto.
  - intros [a b] [a' b'] [a'' b'']. simpl. intros H1 H2.
    apply orb_true_iff in H1, H2. apply orb_true_iff.
    destruct (lt a a') eqn:E1; destruct (lt a' a'') eqn:E2.
    + left. eapply tl_trans; eauto.
    + left. destruct H2 as [H2|H2]; [discriminate|]. apply andb_prop in H2. destruct H2 as [H2 _].
      apply negb_true_iff in H2. rewrite <- (tl_total _ T _ _ E2 H2). auto.
    + left. destruct H1 as [H1|H1]; [discriminate|]. apply andb_prop in H1. destruct H1 as [H1 _].
      apply negb_true_iff in H1. rewrite (tl_total _ T _ _ E1 H1). auto.
    + destruct H1 as [H1|H1]; [discriminate|]. apply andb_prop in H1. destruct H1 as [H1 H1'].
      destruct H2 as [H2|H2]; [discriminate|]. apply andb_prop in H2. destruct H2 as [H2 H2'].
      apply negb_true_iff in H1, H2. pose proof (tl_total _ T _ _ E1 H1). pose proof (tl_total _ T _ _ E2 H2). subst.
      right. rewrite (tl_irrefl _ T). simpl. eapply tl_trans; eauto.
  - intros [a b] [a' b']. simpl. intros H1 H2. apply orb_false_iff in H1, H2. destruct H1 as [H1 H1'], H2 as [H2 H2'].
    pose proof (tl_total _ T _ _ H1 H2). subst. rewrite H1 in *. simpl in *. f_equal. eapply tl_total; eauto.
Qed.
Lemma window_total : total_lt window_lt.
Proof.
  split.
  - intros [l h s]. unfold window_lt. simpl. rewrite !Z.eqb_refl. simpl. apply Z.ltb_irrefl.
  - intros [l h s] [l' h' s'] [l'' h'' s'']. unfold window_lt. simpl.
    destruct (Z.eqb_spec l l'), (Z.eqb_spec l' l''), (Z.eqb_spec l l''); simpl; try lia; rewrite ?Z.ltb_lt; try lia.
    destruct (Z.eqb_spec h h'), (Z.eqb_spec h' h''), (Z.eqb_spec h h''); simpl; try lia; rewrite ?Z.ltb_lt; try lia.
  - intros [l h s] [l' h' s']. unfold window_lt. simpl.
    rewrite (Z.eqb_sym l' l), (Z.eqb_sym h' h).
    destruct (Z.eqb_spec l l'); simpl; rewrite ?Z.ltb_ge; try lia.
    destruct (Z.eqb_spec h h'); simpl; rewrite ?Z.ltb_ge; try lia.
    intros. assert (s = s') by lia. congruence.
Qed.
Lemma window_eq_spec : forall a b, window_eq a b = true <-> a = b.
Proof.
  intros [l h s] [l' h' s']. unfold window_eq. simpl. rewrite !andb_true_iff, !Z.eqb_eq. split; [intros [[-> ->] ->]; auto|intros E; inversion E; auto].
Qed.
Lemma indexset_eq_spec : forall a b, indexset_eq a b = true <-> a = b.
Proof.
  intros [l h] [l' h']. unfold indexset_eq. simpl. rewrite andb_true_iff, Nat.eqb_eq, (list_eqb_spec _ Z.eqb_eq).
  split; [intros [-> ->]; auto|intros E; inversion E; auto].
Qed.
Lemma keyed_eq {B} : forall (eqb : B -> B -> bool), (forall x y, eqb x y = true <-> x = y) ->
  forall p q : nat * B, (fst p =? fst q) && eqb (snd p) (snd q) = true <-> p = q.
Proof. intros eqb H [a b] [a' b']. simpl. rewrite andb_true_iff, Nat.eqb_eq, H. split; [intros [-> ->]; auto|intros E; inversion E; auto]. Qed.

Lemma access_eq_spec : forall a b, (ac_node a = ac_node b -> a = b) ->
  (access_eq a b = true <-> ac_tensor a = ac_tensor b /\ ac_vars a = ac_vars b /\ ac_windows a = ac_windows b /\ ac_sets a = ac_sets b).
Proof.
  intros a b N. unfold access_eq. destruct (Nat.eqb_spec (ac_node a) (ac_node b)) as [E|_].
  - rewrite (N E). tauto.
  - destruct (Nat.eqb_spec (ac_tensor a) (ac_tensor b)); simpl; [|split; [discriminate|tauto]].
    pose proof (list_eqb_spec _ Nat.eqb_eq (ac_vars a) (ac_vars b)) as H1.
    pose proof (list_eqb_spec _ (keyed_eq _ window_eq_spec) (ac_windows a) (ac_windows b)) as H2.
    pose proof (list_eqb_spec _ (keyed_eq _ indexset_eq_spec) (ac_sets a) (ac_sets b)) as H3.
    destruct (list_eqb Nat.eqb (ac_vars a) (ac_vars b)); simpl; [|split; [discriminate|intros [_ [H _]]; apply H1 in H; discriminate]].
    destruct (list_eqb (fun p q : nat * window => (fst p =? fst q) && window_eq (snd p) (snd q)) (ac_windows a) (ac_windows b)); simpl; [|split; [discriminate|intros [_ [_ [H _]]]; apply H2 in H; discriminate]].
    destruct (list_eqb (fun p q : nat * indexset => (fst p =? fst q) && indexset_eq (snd p) (snd q)) (ac_sets a) (ac_sets b)); simpl; [|split; [discriminate|intros [_ [_ [_ H]]]; apply H3 in H; discriminate]].
    split; [|auto]. intros _. tauto.
Qed.

(** without index sets the order is that of the triple *)
Definition triple (a : access) := (ac_tensor a, (ac_vars a, ac_windows a)).
Definition triple_lt := pair_lt Nat.ltb (pair_lt (lex_lt Nat.ltb) (lex_lt (pair_lt Nat.ltb window_lt))).
Lemma triple_total : total_lt triple_lt.
Proof.
  apply pair_total; [apply nat_total|]. apply pair_total; [apply lex_total, nat_total|].
  apply lex_total, pair_total; [apply nat_total|apply window_total].
Qed.
Lemma pair_lt_eq {A B} : forall (l1 : A -> A -> bool) (l2 : B -> B -> bool) a b c d,
  pair_lt l1 l2 (a, b) (c, d) = l1 a c || (negb (l1 c a) && l2 b d).
Proof. reflexivity. Qed.
Lemma access_lt_triple : forall a b, ac_sets a = [] -> ac_sets b = [] -> access_lt a b = triple_lt (triple a) (triple b).
Proof.
  intros a b Ea Eb. unfold access_lt, triple_lt, triple. rewrite Ea, Eb.
  rewrite !pair_lt_eq.
  destruct (Nat.eqb_spec (ac_tensor a) (ac_tensor b)) as [E|E]; cbn [negb].
  - rewrite E, Nat.ltb_irrefl. cbn [negb orb andb].
    pose proof (list_eqb_spec _ Nat.eqb_eq (ac_vars a) (ac_vars b)) as H.
    destruct (list_eqb Nat.eqb (ac_vars a) (ac_vars b)); cbn [negb].
    + rewrite (proj1 H eq_refl). rewrite (tl_irrefl _ (lex_total _ nat_total)). cbn [negb orb andb].
      destruct (lex_lt (pair_lt Nat.ltb window_lt) (ac_windows a) (ac_windows b)); auto.
    + destruct (lex_lt Nat.ltb (ac_vars a) (ac_vars b)) eqn:E1; auto.
      destruct (lex_lt Nat.ltb (ac_vars b) (ac_vars a)) eqn:E2; auto.
      pose proof (tl_total _ (lex_total _ nat_total) _ _ E1 E2) as E3. apply H in E3. discriminate.
  - destruct (ac_tensor a <? ac_tensor b) eqn:E1; auto.
    destruct (ac_tensor b <? ac_tensor a) eqn:E2; auto.
    pose proof (tl_total _ nat_total _ _ E1 E2). congruence.
Qed.
Theorem access_strict_order : forall dom : access -> Prop,
  (forall a b, dom a -> dom b -> ac_node a = ac_node b -> a = b) ->
  (forall a, dom a -> ac_sets a = []) -> strict_order dom access_eq access_lt.
Proof.
  intros dom N S. pose proof triple_total as T. split.
  - intros a D. rewrite access_lt_triple by auto. apply T.
  - intros a b c Da Db Dc. rewrite !access_lt_triple by auto. apply T.
  - intros a b Da Db. rewrite !access_lt_triple by auto. intros H1 H2.
    pose proof (tl_total _ T _ _ H1 H2) as E. unfold triple in E. inversion E.
    apply access_eq_spec; auto. rewrite (S a), (S b) by auto. auto.
  - intros a b Da Db. rewrite access_eq_spec by auto. rewrite access_lt_triple by auto. unfold triple.
    intros [-> [-> [-> _]]]. apply T.
Qed.

(** ** Extents of windows *)
Lemma multiples_count : forall lo stride n k, 0 < stride ->
  length (filter (fun c => (c - lo) mod stride =? 0) (seq (lo + k * stride) (n * stride))) = n.
Proof.
  intros lo stride n. induction n; intros k Hs; [reflexivity|].
  replace (S n * stride) with (stride + n * stride) by lia. rewrite seq_app, filter_app, app_length.
  replace (lo + k * stride + stride) with (lo + S k * stride) by lia. rewrite IHn by auto.
  destruct stride as [|s]; [lia|]. cbn [seq filter].
  replace (lo + k * S s - lo) with (k * S s) by lia. rewrite Nat.mod_mul by lia. rewrite Nat.eqb_refl. cbn [length].
  assert (G : filter (fun c => (c - lo) mod S s =? 0) (seq (S (lo + k * S s)) s) = []); [|rewrite G; reflexivity].
  assert (X : forall x, In x (seq (S (lo + k * S s)) s) -> (x - lo) mod S s <> 0).
  { intros x Hx. apply in_seq in Hx. replace (x - lo) with ((x - lo - k * S s) + k * S s) by lia.
    rewrite Nat.mod_add by lia. rewrite Nat.mod_small by lia. lia. }
  induction (seq (S (lo + k * S s)) s) as [|x l IH]; auto. cbn [filter].
  destruct (Nat.eqb_spec ((x - lo) mod S s) 0) as [E|E]; [exfalso; apply (X x); simpl; auto|].
  apply IH. intros y Hy. apply X. simpl; auto.
Qed.
Lemma filter_split3 : forall (P : nat -> bool) a b d, a <= b -> b <= d ->
  filter (fun c => (a <=? c) && (c <? b) && P c) (seq 0 d) = filter P (seq a (b - a)).
Proof.
  intros P a b d H1 H2. replace d with (a + ((b - a) + (d - b))) by lia.
  rewrite !seq_app, !filter_app. cbn [plus].
  assert (N : forall Q l, (forall x, In x l -> Q x = false) -> filter Q l = @nil nat).
  { clear. induction l; simpl; intros H; auto. rewrite H by auto. apply IHl. auto. }
  rewrite N. 2: { intros x Hx. apply in_seq in Hx. destruct (Nat.leb_spec a x); [lia|reflexivity]. }
  rewrite (N _ (seq (a + (b - a)) (d - b))). 2: { intros x Hx. apply in_seq in Hx. destruct (Nat.ltb_spec x b); [lia|]. rewrite andb_false_r. reflexivity. }
  rewrite app_nil_r. cbn [app]. apply filter_ext_in. intros x Hx. apply in_seq in Hx.
  replace (a <=? x) with true by (symmetry; apply Nat.leb_le; lia). replace (x <? b) with true by (symmetry; apply Nat.ltb_lt; lia). reflexivity.
Qed.
Lemma mode_extent : forall v d m, match m with MWindow lo hi stride => lo <= hi /\ hi <= d /\ 0 < stride /\ (hi - lo) mod stride = 0 | _ => True end ->
  mode_dimension {| m_var := v; m_dim := DFixed d; m_mod := m |} = DFixed (length (used_coordinates d m)).
Proof.
  intros v d m H. destruct m; unfold mode_dimension, used_coordinates; cbn [m_mod m_dim].
  - rewrite seq_length. reflexivity.
  - destruct H as (H1 & H2 & H3 & H4). f_equal. rewrite filter_split3 by auto.
    pose proof (Nat.div_mod (hi - lo) stride ltac:(lia)) as D. rewrite H4 in D.
    replace (seq lo (hi - lo)) with (seq (lo + 0 * stride) (((hi - lo) / stride) * stride)) by (f_equal; lia).
    rewrite multiples_count by auto. reflexivity.
  - reflexivity.
Qed.
