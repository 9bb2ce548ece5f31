(** Consequences of the packing lemmas, in the form used by the properties. *)
From Coq Require Import List Arith Lia Bool Sorting.Sorted Permutation.
From Verif Require Import Storage StorageProofs.
Import ListNotations.
Local Arguments list_eq_dec : simpl never.

Section More.
Context {V : Type}.
Implicit Types (rows : list (@row V)).

Lemma lexlt_irrefl : forall a, ~ lexlt a a.
Proof. induction a; simpl; [tauto|]. intros [H|[_ H]]; [lia|auto]. Qed.

Lemma lexlt_trans : forall a b c, lexlt a b -> lexlt b c -> lexlt a c.
Proof.
  induction a; destruct b, c; simpl; intros; try tauto.
  destruct H as [H|[? H]], H0 as [H0|[? H0]]; try lia; subst; auto.
  right; split; auto. eapply IHa; eauto.
Qed.

Lemma lexlt_le : forall a b, lexlt a b -> lexle a b.
Proof. induction a; destruct b; simpl; try tauto. intros [H|[? H]]; auto. Qed.

Lemma SS_impl : forall (A : Type) (R S : A -> A -> Prop) l,
  (forall a b, R a b -> S a b) -> StronglySorted R l -> StronglySorted S l.
Proof.
  induction 2; constructor; auto. rewrite Forall_forall in *. auto.
Qed.

(** strictly sorted keys and the same elements determine the list *)
Lemma sorted_same : forall (l1 l2 : list (list nat * V)),
  StronglySorted lexlt (map fst l1) -> StronglySorted lexlt (map fst l2) ->
  (forall x, In x l1 <-> In x l2) -> l1 = l2.
Proof.
  induction l1 as [|a l1 IH]; intros l2 S1 S2 H.
  - destruct l2; auto. exfalso. apply (H p). left; auto.
  - destruct l2 as [|b l2]; [exfalso; apply (H a); left; auto|].
    simpl in S1, S2. inversion S1 as [|? ? S1' F1]; inversion S2 as [|? ? S2' F2]; subst.
    rewrite Forall_forall in F1, F2.
    assert (a = b).
    { destruct (proj1 (H a) (or_introl eq_refl)) as [->|Ha]; auto.
      destruct (proj2 (H b) (or_introl eq_refl)) as [->|Hb]; auto.
      exfalso. apply (lexlt_irrefl (fst a)).
      apply lexlt_trans with (fst b).
      - apply F1. apply in_map; auto.
      - apply F2. apply in_map; auto. }
    subst b. f_equal. apply IH; auto. intros x. split; intros Hx.
    + destruct (proj1 (H x) (or_intror Hx)) as [<-|]; auto.
      exfalso. apply (lexlt_irrefl (fst a)). apply F1. apply in_map; auto.
    + destruct (proj2 (H x) (or_intror Hx)) as [<-|]; auto.
      exfalso. apply (lexlt_irrefl (fst a)). apply F2. apply in_map; auto.
Qed.

Theorem pack_components : forall fmt (fill : V) rows,
  packable (dims_of fmt) rows ->
  StronglySorted lexlt (map fst (components fill (pack fmt fill rows))) /\
  forall cs v,
    In (cs, v) (components fill (pack fmt fill rows)) <->
    in_range (dims_of fmt) cs /\
    (comp_depth fmt = 0 \/
     exists r, In r rows /\ firstn (comp_depth fmt) (fst r) = firstn (comp_depth fmt) cs) /\
    v = row_value fill rows cs.
Proof.
  intros fmt fill rows HP.
  assert (W := pack_wf fmt fill rows HP). unfold wf_storage in W.
  split.
  - unfold components. rewrite map_map. simpl.
    eapply (enum_sorted (st_levels (pack fmt fill rows)) 1); eauto.
  - intros cs v. unfold components. rewrite in_map_iff. split.
    + intros ((cs', q) & E & Hin). simpl in E. inversion E; subst.
      apply (enum_locate _ _ _ _ 0 W) in Hin; [|lia]. destruct Hin as [R L].
      split; auto. split.
      * apply (pack_stored fmt fill rows cs); auto. congruence.
      * rewrite <- (pack_value_at fmt fill rows cs); auto. unfold value_at. rewrite L. auto.
    + intros (R & S & ->).
      assert (L := proj2 (pack_stored fmt fill rows cs HP R) S).
      destruct (locate (st_levels (pack fmt fill rows)) 0 cs) as [q|] eqn:E; [|congruence].
      exists (cs, q). split.
      * simpl. f_equal. rewrite <- (pack_value_at fmt fill rows cs); auto.
        unfold value_at. rewrite E. auto.
      * apply (enum_locate _ _ _ _ 0 W); auto.
Qed.

Lemma comp_depth_all : forall fmt, (forall kd, In kd fmt -> fst kd = KComp) -> comp_depth fmt = length fmt.
Proof.
  induction fmt as [|[k d] fmt IH]; simpl; intros; auto.
  rewrite IH by auto.
  assert (k = KComp) by (apply (H (k, d)); auto). subst. destruct (length fmt); auto.
Qed.

Lemma row_value_in : forall (fill : V) rows cs v,
  StronglySorted lexlt (map fst rows) -> In (cs, v) rows -> row_value fill rows cs = v.
Proof.
  induction rows; simpl; intros cs v HS Hin; [tauto|]. inversion HS; subst.
  destruct Hin as [->|Hin].
  - simpl. destruct (list_eq_dec Nat.eq_dec cs cs); congruence.
  - destruct (list_eq_dec Nat.eq_dec (fst a) cs); auto.
    exfalso. rewrite Forall_forall in H2. specialize (H2 cs).
    apply (lexlt_irrefl cs). subst. apply H2. apply in_map_iff. exists (fst a, v). auto.
Qed.

Lemma in_range_length : forall dims cs, in_range dims cs -> length cs = length dims.
Proof. unfold in_range. induction 1; simpl; auto. Qed.

Theorem pack_components_compressed : forall fmt (fill : V) rows,
  fmt <> [] ->
  (forall kd, In kd fmt -> fst kd = KComp) ->
  (forall r, In r rows -> in_range (dims_of fmt) (fst r)) ->
  StronglySorted lexlt (map fst rows) ->
  components fill (pack fmt fill rows) = rows.
Proof.
  intros fmt fill rows HNE HC HR HS.
  assert (HP : packable (dims_of fmt) rows).
  { split; auto. eapply SS_impl; [|eauto]. apply lexlt_le. }
  destruct (pack_components fmt fill rows HP) as [S I].
  apply sorted_same; auto.
  intros [cs v]. rewrite I. rewrite comp_depth_all by auto.
  assert (HL : forall cs, in_range (dims_of fmt) cs -> length cs = length fmt).
  { intros cs' H. apply in_range_length in H. unfold dims_of in H.
    rewrite map_length in H. auto. }
  split.
  - intros (R & S' & ->).
    assert (exists r, In r rows /\ fst r = cs).
    { destruct S' as [E|(r & Hr & E)].
      - destruct fmt; [congruence|discriminate].
      - exists r. split; auto. rewrite <- (HL (fst r)) in E at 1 by auto. rewrite <- (HL cs) in E by auto.
        rewrite !firstn_all in E. auto. }
    destruct H as ([cs' v] & Hr & E). simpl in E. subst cs'.
    rewrite (row_value_in fill rows cs v); auto.
  - intros Hin. split; [apply (HR _ Hin)|]. split.
    + right. exists (cs, v). split; auto.
    + symmetry. apply row_value_in; auto.
Qed.
End More.
