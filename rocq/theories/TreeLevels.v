(** Coordinate trees and their storage level by level (for proofs about kernels
    that append to compressed levels). *)
From Coq Require Import List Arith Lia Bool.
Import ListNotations.
From Verif Require Import Storage StorageProofs Walk.
Local Open Scope nat_scope.

(** Prefix sums. *)
Fixpoint scan (a : nat) (l : list nat) : list nat :=
  match l with [] => [a] | x :: l => a :: scan (a + x) l end.
Fixpoint sum (l : list nat) : nat := match l with [] => 0 | x :: l => x + sum l end.

Lemma scan_length : forall l a, length (scan a l) = S (length l).
Proof. induction l; simpl; intros; auto. Qed.
Lemma scan_nth : forall l a s, s <= length l -> nth s (scan a l) 0 = a + sum (firstn s l).
Proof.
  induction l as [|x l IH]; intros a s H.
  - simpl in H. assert (s = 0) by lia. subst. simpl. lia.
  - destruct s; simpl; [lia|]. rewrite IH by (simpl in H; lia). lia.
Qed.
Lemma sum_app : forall l1 l2, sum (l1 ++ l2) = sum l1 + sum l2.
Proof. induction l1; simpl; intros; auto. rewrite IHl1. lia. Qed.
Lemma scan_snoc : forall l a x, scan a (l ++ [x]) = scan a l ++ [a + sum l + x].
Proof.
  induction l as [|y l IH]; simpl; intros a x; [do 2 f_equal; lia|]. rewrite IH. do 3 f_equal. lia.
Qed.

Section Trees.
Context {L : Type}.

(** [Leaf]: what is at the end of a path; [Node]: the children, by coordinate. *)
Inductive tree := Leaf (x : L) | Node (kids : list (nat * tree)).
Definition kids (t : tree) : list (nat * tree) := match t with Leaf _ => [] | Node k => k end.
Definition leaf_of (t : tree) : list L := match t with Leaf x => [x] | Node _ => [] end.

Definition below (ts : list tree) : list tree := flat_map (fun t => map snd (kids t)) ts.
Definition lens (ts : list tree) : list nat := map (fun t => length (kids t)) ts.
Definition crds (ts : list tree) : list nat := flat_map (fun t => map fst (kids t)) ts.

(** The levels that store the trees [ts], one for each position of the level
    above; [ks]: kind and dimension of each level. *)
Fixpoint levels (ks : list (kind * nat)) (ts : list tree) : list level :=
  match ks with
  | [] => []
  | (KDense, w) :: ks => LDense w :: levels ks (below ts)
  | (KComp, _) :: ks => LComp (scan 0 (lens ts)) (crds ts) :: levels ks (below ts)
  end.
Fixpoint leaves (ks : list (kind * nat)) (ts : list tree) : list L :=
  match ks with [] => flat_map leaf_of ts | _ :: ks => leaves ks (below ts) end.

(** Trees that fit the levels. *)
Fixpoint good (ks : list (kind * nat)) (t : tree) : Prop :=
  match ks with
  | [] => exists x, t = Leaf x
  | (k, w) :: ks =>
      (match k with
       | KDense => map fst (kids t) = seq 0 w
       | KComp => (forall a b, a < b -> b < length (kids t) ->
                     nth a (map fst (kids t)) 0 < nth b (map fst (kids t)) 0) /\
                  (forall c, In c (map fst (kids t)) -> c < w)
       end) /\
      forall c t', In (c, t') (kids t) -> good ks t'
  end.

(** Following a path. *)
Fixpoint look (ks : list (kind * nat)) (t : tree) (xs : list nat) : option L :=
  match ks, xs with
  | [], [] => match t with Leaf x => Some x | Node _ => None end
  | _ :: ks, x :: xs =>
      match find (fun p => fst p =? x) (kids t) with
      | Some p => look ks (snd p) xs
      | None => None
      end
  | _, _ => None
  end.

Lemma below_app : forall a b, below (a ++ b) = below a ++ below b.
Proof. intros. apply flat_map_app. Qed.
Lemma crds_app : forall a b, crds (a ++ b) = crds a ++ crds b.
Proof. intros. apply flat_map_app. Qed.
Lemma lens_app : forall a b, lens (a ++ b) = lens a ++ lens b.
Proof. intros. apply map_app. Qed.
Lemma leaves_app : forall ks a b, leaves ks (a ++ b) = leaves ks a ++ leaves ks b.
Proof.
  induction ks as [|k ks IH]; simpl; intros; [apply flat_map_app|]. rewrite below_app. apply IH.
Qed.
Lemma leaves_nil : forall ks, leaves ks [] = [].
Proof. induction ks; simpl; auto. Qed.

Lemma crds_length : forall ts, length (crds ts) = sum (lens ts).
Proof.
  induction ts as [|t ts IH]; simpl; auto. unfold crds in *. simpl. rewrite app_length, map_length. rewrite IH. auto.
Qed.
Lemma below_length : forall ts, length (below ts) = sum (lens ts).
Proof.
  induction ts as [|t ts IH]; simpl; auto. unfold below in *. simpl. rewrite app_length, map_length. rewrite IH. auto.
Qed.

(** Position of child [q] of tree [s]. *)
Lemma split_at : forall (ts : list tree) s t, nth_error ts s = Some t ->
  exists a b, ts = a ++ t :: b /\ length a = s.
Proof. intros. apply nth_error_split. auto. Qed.

Lemma lens_firstn : forall ts s, firstn s (lens ts) = lens (firstn s ts).
Proof. intros. unfold lens. apply firstn_map. Qed.

Lemma below_at : forall ts s t q, nth_error ts s = Some t -> q < length (kids t) ->
  nth_error (below ts) (sum (firstn s (lens ts)) + q) = option_map snd (nth_error (kids t) q).
Proof.
  intros ts s t q H Q. destruct (split_at _ _ _ H) as (a & b & E & LA). subst ts.
  rewrite lens_firstn. rewrite firstn_app, LA, Nat.sub_diag, firstn_all2 by lia. simpl. rewrite app_nil_r.
  rewrite below_app. rewrite nth_error_app2 by (rewrite below_length; lia).
  rewrite below_length. replace (sum (lens a) + q - sum (lens a)) with q by lia.
  unfold below. simpl. rewrite nth_error_app1 by (rewrite map_length; auto).
  rewrite nth_error_map. auto.
Qed.
Lemma crds_at : forall ts s t q, nth_error ts s = Some t -> q < length (kids t) ->
  nth_error (crds ts) (sum (firstn s (lens ts)) + q) = option_map fst (nth_error (kids t) q).
Proof.
  intros ts s t q H Q. destruct (split_at _ _ _ H) as (a & b & E & LA). subst ts.
  rewrite lens_firstn. rewrite firstn_app, LA, Nat.sub_diag, firstn_all2 by lia. simpl. rewrite app_nil_r.
  rewrite crds_app. rewrite nth_error_app2 by (rewrite crds_length; lia).
  rewrite crds_length. replace (sum (lens a) + q - sum (lens a)) with q by lia.
  unfold crds. simpl. rewrite nth_error_app1 by (rewrite map_length; auto).
  rewrite nth_error_map. auto.
Qed.

Lemma good_below : forall k ks ts, Forall (good (k :: ks)) ts -> Forall (good ks) (below ts).
Proof.
  intros [k w] ks ts H. apply Forall_forall. intros t Ht. unfold below in Ht. apply in_flat_map in Ht.
  destruct Ht as (t0 & H0 & H1). rewrite Forall_forall in H. apply H in H0. destruct H0 as [_ H0].
  apply in_map_iff in H1. destruct H1 as ([c t'] & E & H1). simpl in E. subst. eauto.
Qed.

Lemma dense_lens : forall w ks ts, Forall (good ((KDense, w) :: ks)) ts -> lens ts = repeat w (length ts).
Proof.
  induction ts as [|t ts IH]; intros H; simpl; auto. inversion H; subst. unfold lens in *. simpl. rewrite IH by auto.
  f_equal. destruct H2 as [E _]. rewrite <- (map_length fst), E, seq_length. auto.
Qed.
Lemma sum_repeat : forall n w, sum (repeat w n) = n * w.
Proof. induction n; simpl; intros; auto. Qed.

Lemma nth_error_firstn_lt : forall A (l : list A) n q, q < n -> nth_error (firstn n l) q = nth_error l q.
Proof. induction l; destruct n, q; simpl; intros; auto; try lia. apply IHl. lia. Qed.

Theorem levels_wf : forall ks ts, Forall (good ks) ts ->
  wf_levels (length ts) (levels ks ts) (map snd ks) (length (leaves ks ts)).
Proof.
  induction ks as [|[k w] ks IH]; intros ts G.
  - simpl. clear - G. induction ts as [|t ts IH]; simpl; auto. inversion G; subst. destruct H1 as [x ->].
    simpl. rewrite IH; auto.
  - assert (GB := good_below _ _ _ G). destruct k.
    + cbn [levels leaves map snd wf_levels]. split; auto. 
      assert (E : length (below ts) = length ts * w).
      { rewrite below_length, (dense_lens _ _ _ G), sum_repeat. auto. }
      rewrite <- E. apply IH. auto.
    + cbn [levels leaves map snd wf_levels].
      assert (LL : length (lens ts) = length ts) by (unfold lens; apply map_length).
      assert (NT : forall p, p < length ts -> exists t, nth_error ts p = Some t /\
         nth (S p) (scan 0 (lens ts)) 0 = nth p (scan 0 (lens ts)) 0 + length (kids t) /\
         nth p (scan 0 (lens ts)) 0 = sum (firstn p (lens ts))).
      { intros p P. destruct (nth_error ts p) as [t|] eqn:E; [|apply nth_error_None in E; lia].
        exists t. split; auto. rewrite !scan_nth by lia. split; auto.
        assert (X : nth_error (lens ts) p = Some (length (kids t))) by (unfold lens; rewrite nth_error_map, E; auto).
        assert (Y : firstn (S p) (lens ts) = firstn p (lens ts) ++ [length (kids t)]).
        { clear - X. revert p X. induction (lens ts) as [|y l IHl]; destruct p; simpl; intros; try discriminate.
          - inversion X; auto.
          - f_equal. apply IHl. auto. }
        rewrite Y, sum_app. simpl. lia. }
      repeat split.
      * rewrite scan_length. auto.
      * destruct (lens ts); auto.
      * rewrite scan_nth by lia. rewrite firstn_all2 by lia. rewrite crds_length. auto.
      * intros p P. destruct (NT p P) as (t & _ & E & _). lia.
      * intros p i j P I1 I2 I3. destruct (NT p P) as (t & E & ES & E0). rewrite ES, E0 in *.
        assert (GT : good ((KComp, w) :: ks) t) by (rewrite Forall_forall in G; apply G; eapply nth_error_In; eauto).
        destruct GT as [[INC _] _].
        assert (CN : forall x, sum (firstn p (lens ts)) <= x -> x < sum (firstn p (lens ts)) + length (kids t) ->
           nth x (crds ts) 0 = nth (x - sum (firstn p (lens ts))) (map fst (kids t)) 0).
        { intros x X1 X2. pose proof (crds_at ts p t (x - sum (firstn p (lens ts))) E ltac:(lia)) as C.
          replace (sum (firstn p (lens ts)) + (x - sum (firstn p (lens ts)))) with x in C by lia.
          destruct (nth_error (kids t) (x - sum (firstn p (lens ts)))) as [kd|] eqn:EK.
          - simpl in C. apply nth_error_nth with (d := 0) in C. rewrite C.
            symmetry. apply nth_error_nth. rewrite nth_error_map, EK. auto.
          - apply nth_error_None in EK. lia. }
        rewrite !CN by lia. apply INC; lia.
      * intros i I. assert (IN := nth_In (crds ts) 0 I). unfold crds in IN at 2. apply in_flat_map in IN.
        destruct IN as (t & Ht & IN). rewrite Forall_forall in G. apply G in Ht. destruct Ht as [[_ B] _]. auto.
      * replace (length (crds ts)) with (length (below ts)) by (rewrite crds_length, below_length; auto). apply IH. auto.
Qed.

Lemma find_crd_seg : forall (crd : list nat) c (ps : list (nat * tree)) b,
  (forall q, q < length ps -> nth_error crd (b + q) = option_map fst (nth_error ps q)) ->
  match find_crd crd c b (length ps) with
  | Some p => exists q kd, p = b + q /\ nth_error ps q = Some kd /\ find (fun x => fst x =? c) ps = Some kd
  | None => find (fun x => fst x =? c) ps = None
  end.
Proof.
  induction ps as [|[y t] ps IH]; intros b H; simpl; auto.
  assert (H0 := H 0 ltac:(simpl; lia)). rewrite Nat.add_0_r in H0. simpl in H0. rewrite H0.
  destruct (y =? c) eqn:E.
  - exists 0, (y, t). rewrite Nat.add_0_r. auto.
  - specialize (IH (S b)). assert (X : forall q, q < length ps -> nth_error crd (S b + q) = option_map fst (nth_error ps q)).
    { intros q Q. specialize (H (S q) ltac:(simpl; lia)). simpl in H. rewrite <- H. f_equal. lia. }
    specialize (IH X). destruct (find_crd crd c (S b) (length ps)) as [p|]; auto.
    destruct IH as (q & kd & -> & N & F). exists (S q), kd. split; [lia|]. auto.
Qed.

(** Looking up a coordinate in the stored levels finds what the tree holds. *)
Theorem levels_walk : forall ks ts s t xs, Forall (good ks) ts -> nth_error ts s = Some t ->
  length xs = length ks ->
  match walk (levels ks ts) s xs with
  | Some p => exists x, nth_error (leaves ks ts) p = Some x /\ look ks t xs = Some x
  | None => look ks t xs = None
  end.
Proof.
  induction ks as [|[k w] ks IH]; intros ts s t xs G N LX.
  - destruct xs; [|discriminate]. simpl. assert (GT : good [] t) by (rewrite Forall_forall in G; apply G; eapply nth_error_In; eauto).
    destruct GT as [x ->]. exists x. split; auto. clear - G N. revert s N. induction ts as [|t ts IH]; intros s N.
    + destruct s; discriminate.
    + inversion G; subst. destruct H1 as [y ->]. destruct s; simpl in *; [inversion N; auto|]. auto.
  - destruct xs as [|x xs]; [discriminate|]. simpl in LX. injection LX as LX.
    assert (GB := good_below _ _ _ G).
    assert (GT : good ((k, w) :: ks) t) by (rewrite Forall_forall in G; apply G; eapply nth_error_In; eauto).
    destruct k.
    + cbn [levels leaves]. simpl walk. destruct GT as [GD _]. simpl look.
      assert (LK : length (kids t) = w) by (rewrite <- (map_length fst), GD, seq_length; auto).
      assert (FN : forall m c ps, map fst ps = seq m (length ps) -> m <= c -> c < m + length ps ->
         find (fun p : nat * tree => fst p =? c) ps = nth_error ps (c - m)).
      { clear. intros m c ps; revert m. induction ps as [|[y u] ps IHp]; simpl; intros m E M1 M2; [lia|].
        injection E as E1 E2. subst y. destruct (m =? c) eqn:EQ.
        - apply Nat.eqb_eq in EQ. subst. rewrite Nat.sub_diag. auto.
        - apply Nat.eqb_neq in EQ. rewrite (IHp (S m)) by (auto; lia). replace (c - m) with (S (c - S m)) by lia. auto. }
      destruct (x <? w) eqn:XW.
      * apply Nat.ltb_lt in XW. rewrite (FN 0 x) by (rewrite ?LK; auto; lia). rewrite Nat.sub_0_r.
        destruct (nth_error (kids t) x) as [kd|] eqn:EK; [|apply nth_error_None in EK; lia].
        apply IH; auto. pose proof (below_at ts s t x N ltac:(lia)) as B. rewrite EK in B. simpl in B.
        rewrite (dense_lens _ _ _ G) in B.
        assert (SS : s < length ts) by (apply nth_error_Some; congruence).
        assert (FR : firstn s (repeat w (length ts)) = repeat w s).
        { clear - SS. revert s SS. induction (length ts); intros s SS; [lia|]. destruct s; simpl; auto. rewrite IHn; auto. lia. }
        rewrite FR, sum_repeat in B. auto.
      * apply Nat.ltb_ge in XW. destruct (find _ (kids t)) as [[y u]|] eqn:F; auto.
        apply find_some in F. destruct F as [F1 F2]. apply Nat.eqb_eq in F2. simpl in F2. subst y.
        apply (in_map fst) in F1. rewrite GD in F1. apply in_seq in F1. simpl in F1. lia.
    + cbn [levels leaves]. simpl walk. simpl look.
      assert (SS : s < length ts) by (apply nth_error_Some; congruence).
      assert (LL : length (lens ts) = length ts) by (unfold lens; apply map_length).
      rewrite !scan_nth by lia.
      assert (Y : firstn (S s) (lens ts) = firstn s (lens ts) ++ [length (kids t)]).
      { assert (X : nth_error (lens ts) s = Some (length (kids t))) by (unfold lens; rewrite nth_error_map, N; auto).
        clear - X. revert s X. induction (lens ts) as [|y l IHl]; destruct s; simpl; intros; try discriminate.
        - inversion X; auto.
        - f_equal. apply IHl. auto. }
      rewrite Y, sum_app. cbn [sum]. rewrite !Nat.add_0_l.
      replace (sum (firstn s (lens ts)) + (length (kids t) + 0) - sum (firstn s (lens ts))) with (length (kids t)) by lia.
      pose proof (find_crd_seg (crds ts) x (kids t) (sum (firstn s (lens ts)))) as FC.
      destruct (find_crd _ _ _ _) as [p|].
      * destruct FC as (q & kd & -> & NK & FK).
        { intros q Q. apply crds_at; auto. }
        rewrite FK. apply IH; auto. rewrite (below_at ts s t q N), NK; auto. apply nth_error_Some. congruence.
      * rewrite FC; auto. intros q Q. apply crds_at; auto.
Qed.
End Trees.
Arguments tree L : clear implicits.
