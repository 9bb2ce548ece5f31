(** The coordinate tree that an appending loop nest builds. *)
From Coq Require Import List Arith Lia Bool Ring_theory Ring.
Import ListNotations.
From Verif Require Import Storage StorageProofs IndexExpr Eval EvalProofs Lattice LatticeSpec LatticeLoop
  LoopIR Lower Walk LowerBase LoopRule Visits TreeLevels.
Local Open Scope nat_scope.

Section Build.
Context {V : Type}.
Variable T : nat -> storage V.
Variable dimf : ivar -> nat.
Notation payload := ((ivar -> nat) * expr V)%type.
Notation ttree := (tree payload).

Definition ks_of (rs : list (ivar * kind)) : list (kind * nat) := map (fun x => (snd x, dimf (fst x))) rs.

(** What a dense level stores for a coordinate that is not visited. *)
Fixpoint empty (rs : list (ivar * kind)) (x : payload) : ttree :=
  match rs with
  | [] => Leaf x
  | (i, KDense) :: rs => Node (map (fun c => (c, empty rs x)) (seq 0 (dimf i)))
  | (i, KComp) :: rs => Node []
  end.

Definition comp_first (rs : list (ivar * kind)) : bool :=
  match rs with (_, KComp) :: _ => true | _ => false end.
(** Slices without components are not appended to a compressed level above a
    compressed level. *)
Definition dropped (k : kind) (rs : list (ivar * kind)) (t : ttree) : bool :=
  match k with
  | KComp => comp_first rs && match kids t with [] => true | _ => false end
  | KDense => false
  end.
Definition kid (k : kind) (rs : list (ivar * kind)) (sub : (ivar -> nat) -> expr V -> ttree)
    (rho : ivar -> nat) (e : expr V) (i c : nat) : list (nat * ttree) :=
  match restrict i (stored T rho i c) e with
  | Some e' => let t := sub (upd rho i c) e' in if dropped k rs t then [] else [(c, t)]
  | None => match k with KDense => [(c, empty rs (rho, e))] | KComp => [] end
  end.
Fixpoint build (rs : list (ivar * kind)) (rho : ivar -> nat) (e : expr V) : ttree :=
  match rs with
  | [] => Leaf (rho, e)
  | (i, k) :: rs' => Node (flat_map (kid k rs' (build rs') rho e i) (seq 0 (dimf i)))
  end.
Definition kids_to (k : kind) (rs : list (ivar * kind)) (rho : ivar -> nat) (e : expr V) (i n : nat) :=
  flat_map (kid k rs (build rs) rho e i) (seq 0 n).

Lemma kids_to_S : forall k rs rho e i n,
  kids_to k rs rho e i (S n) = kids_to k rs rho e i n ++ kid k rs (build rs) rho e i n.
Proof. intros. unfold kids_to. rewrite seq_S, flat_map_app. simpl. rewrite app_nil_r. auto. Qed.
Lemma build_kids : forall i k rs rho e, build ((i, k) :: rs) rho e = Node (kids_to k rs rho e i (dimf i)).
Proof. auto. Qed.

Lemma kid_crd : forall k rs sub rho e i c x, In x (kid k rs sub rho e i c) -> fst x = c.
Proof.
  intros k rs sub rho e i c x H. unfold kid in H. destruct (restrict i (stored T rho i c) e).
  - cbv zeta in H. destruct (dropped _ _ _); [destruct H|destruct H as [<-|[]]; auto].
  - destruct k; [destruct H as [<-|[]]; auto|destruct H].
Qed.

Lemma kids_dense : forall rs rho e i n, map fst (kids_to KDense rs rho e i n) = seq 0 n.
Proof.
  induction n; auto. rewrite kids_to_S, map_app, IHn, seq_S. f_equal. simpl. unfold kid.
  destruct (restrict i (stored T rho i n) e); auto.
Qed.
Lemma kids_dense_len : forall rs rho e i n, length (kids_to KDense rs rho e i n) = n.
Proof. intros. rewrite <- (map_length fst), kids_dense, seq_length. auto. Qed.
Lemma kids_lt : forall k rs rho e i n c, In c (map fst (kids_to k rs rho e i n)) -> c < n.
Proof.
  induction n; simpl; intros c H; [contradiction|]. rewrite kids_to_S, map_app, in_app_iff in H.
  destruct H as [H|H]; [specialize (IHn c H); lia|]. apply in_map_iff in H. destruct H as (x & <- & H).
  apply kid_crd in H. lia.
Qed.
Lemma kid_len : forall k rs sub rho e i c, length (kid k rs sub rho e i c) <= 1.
Proof.
  intros. unfold kid. destruct (restrict i (stored T rho i c) e); cbv zeta.
  - destruct (dropped _ _ _); simpl; lia.
  - destruct k; simpl; lia.
Qed.
Lemma kids_sorted : forall k rs rho e i n a b, a < b -> b < length (kids_to k rs rho e i n) ->
  nth a (map fst (kids_to k rs rho e i n)) 0 < nth b (map fst (kids_to k rs rho e i n)) 0.
Proof.
  induction n; intros a b A B; [simpl in B; lia|]. rewrite kids_to_S, app_length in B. rewrite kids_to_S, map_app.
  assert (KL := kid_len k rs (build rs) rho e i n).
  destruct (Nat.lt_ge_cases b (length (kids_to k rs rho e i n))).
  - rewrite !app_nth1 by (rewrite map_length; lia). apply IHn; auto.
  - assert (b = length (kids_to k rs rho e i n)) by lia. subst b.
    rewrite app_nth1 by (rewrite map_length; lia). rewrite app_nth2 by (rewrite map_length; lia).
    rewrite map_length, Nat.sub_diag.
    assert (X : nth a (map fst (kids_to k rs rho e i n)) 0 < n).
    { eapply kids_lt. apply nth_In. rewrite map_length. auto. }
    destruct (kid k rs (build rs) rho e i n) as [|x l] eqn:EK; [simpl in B; lia|].
    simpl. rewrite (kid_crd k rs (build rs) rho e i n x); [auto|]. rewrite EK. simpl; auto.
Qed.

(** ** The trees fit the levels *)
Lemma empty_good : forall rs x, good (ks_of rs) (empty rs x).
Proof.
  induction rs as [|[i k] rs IH]; intros x; simpl; [eauto|].
  destruct k; simpl; split; auto.
  - rewrite map_map. simpl. rewrite map_id. auto.
  - intros c t' H. apply in_map_iff in H. destruct H as (c' & E & _). inversion E; subst. auto.
  - split; [intros; lia|intros c []].
  - intros c t' [].
Qed.

Lemma in_kids_to : forall k rs rho e i n c t, In (c, t) (kids_to k rs rho e i n) ->
  (exists e', t = build rs (upd rho i c) e') \/ t = empty rs (rho, e).
Proof.
  intros k rs rho e i n c t H. unfold kids_to in H. apply in_flat_map in H. destruct H as (c' & _ & H).
  assert (c' = c) by (symmetry; apply (kid_crd _ _ _ _ _ _ _ _ H)). subst c'.
  unfold kid in H. destruct (restrict i (stored T rho i c) e); cbv zeta in H.
  - destruct (dropped _ _ _); [destruct H|destruct H as [E|[]]]. inversion E; eauto.
  - destruct k; [destruct H as [E|[]]|destruct H]. inversion E; auto.
Qed.

Lemma build_good : forall rs rho e, good (ks_of rs) (build rs rho e).
Proof.
  induction rs as [|[i k] rs IH]; intros rho e; [simpl; eauto|].
  rewrite build_kids. cbn [ks_of map good fst snd kids]. split.
  - destruct k; [apply kids_dense|]. split; [apply kids_sorted|]. intros c H. eapply kids_lt; eauto.
  - intros c t H. destruct (in_kids_to _ _ _ _ _ _ _ _ H) as [[e' ->]| ->]; [apply IH|apply empty_good].
Qed.

(** ** Leaves *)
Definition ends_comp (rs : list (ivar * kind)) : Prop := exists i rs0, rs = rs0 ++ [(i, KComp)].
Lemma ends_comp_tl : forall x y rs, ends_comp (x :: y :: rs) -> ends_comp (y :: rs).
Proof. intros x y rs (i & rs0 & E). destruct rs0; simpl in E; inversion E; subst. exists i, rs0. auto. Qed.
Lemma ends_comp_one : forall i k, ends_comp [(i, k)] -> k = KComp.
Proof. intros i k (j & rs0 & E). destruct rs0 as [|a [|b l]]; simpl in E; inversion E; auto. Qed.
Lemma ends_comp_nil : ends_comp [] -> False.
Proof. intros (i & rs0 & E). destruct rs0; discriminate. Qed.

Lemma leaves_flat : forall ks (ts : list ttree), leaves ks ts = flat_map (fun t => leaves ks [t]) ts.
Proof.
  intros ks ts; induction ts as [|t ts IH]; [apply leaves_nil|].
  change (t :: ts) with ([t] ++ ts). rewrite leaves_app, IH. auto.
Qed.
Lemma leaves_node : forall k ks (K : list (nat * ttree)), leaves (k :: ks) [Node K] = flat_map (fun x => leaves ks [snd x]) K.
Proof.
  intros. simpl. unfold below. simpl. rewrite app_nil_r, leaves_flat.
  induction K; simpl; auto. rewrite IHK. auto.
Qed.

Lemma leaves_empty : forall rs x, ends_comp rs -> leaves (ks_of rs) [empty rs x] = [].
Proof.
  induction rs as [|[i k] rs IH]; intros x E; [exfalso; apply ends_comp_nil; auto|].
  destruct rs as [|y rs].
  - apply ends_comp_one in E. subst. auto.
  - assert (E' := ends_comp_tl _ _ _ E). destruct k; simpl empty.
    + change (ks_of ((i, KDense) :: y :: rs)) with ((KDense, dimf i) :: ks_of (y :: rs)).
      rewrite leaves_node. apply flat_map_nil. intros [c t] H. apply in_map_iff in H. destruct H as (c' & X & _).
      inversion X; subst. apply IH. auto.
    + change (ks_of ((i, KComp) :: y :: rs)) with ((KComp, dimf i) :: ks_of (y :: rs)). rewrite leaves_node. auto.
Qed.

Lemma leaves_build : forall rs rho e, rs = [] \/ ends_comp rs ->
  leaves (ks_of rs) [build rs rho e] = visits T dimf (map fst rs) rho e.
Proof.
  induction rs as [|[i k] rs IH]; intros rho e H; auto.
  assert (H' : rs = [] \/ ends_comp rs).
  { destruct H as [H|H]; [discriminate|]. destruct rs; auto. right. eapply ends_comp_tl; eauto. }
  destruct H as [H|H]; [discriminate|].
  rewrite build_kids. change (ks_of ((i, k) :: rs)) with ((k, dimf i) :: ks_of rs). rewrite leaves_node.
  unfold kids_to. rewrite flat_map_flat. simpl. apply flat_map_ext_in. intros c _.
  unfold kid. destruct (restrict i (stored T rho i c) e) as [e'|]; cbv zeta.
  - rewrite <- IH by auto. destruct (dropped k rs (build rs (upd rho i c) e')) eqn:D; simpl; [|apply app_nil_r].
    unfold dropped in D. destruct k; [discriminate|]. apply andb_true_iff in D. destruct D as [D1 D2].
    destruct rs as [|[j k'] rs]; [discriminate|]. rewrite build_kids in *. simpl kids in D2.
    change (ks_of ((j, k') :: rs)) with ((k', dimf j) :: ks_of rs). rewrite leaves_node.
    destruct (kids_to _ _ _ _ _ _); [auto|discriminate].
  - destruct k; auto. simpl. rewrite app_nil_r. destruct rs as [|y rs].
    + apply ends_comp_one in H. discriminate.
    + apply leaves_empty. eapply ends_comp_tl; eauto.
Qed.

(** ** Paths *)
Fixpoint path (rs : list (ivar * kind)) (rho : ivar -> nat) (e : expr V) (xs : list nat) : option payload :=
  match rs, xs with
  | [], [] => Some (rho, e)
  | (i, _) :: rs, x :: xs =>
      match restrict i (stored T rho i x) e with Some e' => path rs (upd rho i x) e' xs | None => None end
  | _, _ => None
  end.

Lemma find_kids : forall k rs rho e i n x,
  find (fun p => fst p =? x) (kids_to k rs rho e i n) =
  if x <? n then find (fun p => fst p =? x) (kid k rs (build rs) rho e i x) else None.
Proof.
  induction n; intros x; auto. rewrite kids_to_S.
  assert (FA : forall A (f : A -> bool) l1 l2, find f (l1 ++ l2) = match find f l1 with Some y => Some y | None => find f l2 end).
  { clear. induction l1; simpl; intros; auto. destruct (f a); auto. }
  rewrite FA, IHn. destruct (x <? n) eqn:L.
  - apply Nat.ltb_lt in L. assert (L' : x <? S n = true) by (apply Nat.ltb_lt; lia). rewrite L'.
    destruct (find _ (kid k rs (build rs) rho e i x)); auto.
    destruct (find _ (kid k rs (build rs) rho e i n)) as [[c t]|] eqn:F; auto.
    apply find_some in F. destruct F as [F1 F2]. apply Nat.eqb_eq in F2. apply kid_crd in F1. simpl in *. lia.
  - apply Nat.ltb_ge in L. destruct (x <? S n) eqn:L'.
    + apply Nat.ltb_lt in L'. assert (x = n) by lia. subst. auto.
    + apply Nat.ltb_ge in L'. destruct (find _ (kid k rs (build rs) rho e i n)) as [[c t]|] eqn:F; auto.
      apply find_some in F. destruct F as [F1 F2]. apply Nat.eqb_eq in F2. apply kid_crd in F1. simpl in *. lia.
Qed.

Lemma look_empty : forall rs p xs, ends_comp rs -> look (ks_of rs) (empty rs p) xs = None.
Proof.
  induction rs as [|[i k] rs IH]; intros p xs E; [exfalso; apply ends_comp_nil; auto|].
  destruct rs as [|y rs].
  - apply ends_comp_one in E. subst. destruct xs; auto.
  - assert (E' := ends_comp_tl _ _ _ E). destruct xs as [|x xs]; auto.
    change (ks_of ((i, k) :: y :: rs)) with ((k, dimf i) :: ks_of (y :: rs)). cbn [look].
    destruct k; simpl kids; auto.
    destruct (find _ (map _ (seq 0 (dimf i)))) as [[c t]|] eqn:F; auto.
    apply find_some in F. destruct F as [F _]. apply in_map_iff in F. destruct F as (c' & X & _). inversion X; subst.
    apply (IH p xs). auto.
Qed.

Lemma look_build : forall rs rho e xs, rs = [] \/ ends_comp rs -> length xs = length rs ->
  (forall l, l < length rs -> nth l xs 0 < dimf (var_at rs l)) ->
  look (ks_of rs) (build rs rho e) xs = path rs rho e xs.
Proof.
  induction rs as [|[i k] rs IH]; intros rho e xs H LX B.
  - destruct xs; [auto|discriminate].
  - destruct xs as [|x xs]; [discriminate|].
    assert (H' : rs = [] \/ ends_comp rs).
    { destruct H as [H|H]; [discriminate|]. destruct rs; auto. right. eapply ends_comp_tl; eauto. }
    destruct H as [H|H]; [discriminate|].
    rewrite build_kids. change (ks_of ((i, k) :: rs)) with ((k, dimf i) :: ks_of rs). cbn [look path].
    assert (X : x < dimf i) by (apply (B 0); simpl; lia). apply Nat.ltb_lt in X.
    cbn [kids]. rewrite find_kids, X. unfold kid.
    destruct (restrict i (stored T rho i x) e) as [e'|]; cbv zeta.
    + assert (IH' : look (ks_of rs) (build rs (upd rho i x) e') xs = path rs (upd rho i x) e' xs).
      { apply IH; auto. intros l L. apply (B (S l)). simpl. lia. }
      destruct (dropped k rs (build rs (upd rho i x) e')) eqn:D; simpl find.
      * rewrite <- IH'. unfold dropped in D. destruct k; [discriminate|]. apply andb_true_iff in D. destruct D as [D1 D2].
        destruct rs as [|[j k'] rs]; [discriminate|]. rewrite build_kids in *. simpl kids in D2.
        destruct xs as [|y xs]; [discriminate|].
        change (ks_of ((j, k') :: rs)) with ((k', dimf j) :: ks_of rs). cbn [look kids].
        destruct (kids_to _ _ _ _ _ _); [auto|discriminate].
      * rewrite Nat.eqb_refl. auto.
    + destruct k; auto. simpl find. rewrite Nat.eqb_refl. simpl snd. destruct rs as [|y rs].
      * apply ends_comp_one in H. discriminate.
      * apply look_empty. eapply ends_comp_tl; eauto.
Qed.
End Build.
