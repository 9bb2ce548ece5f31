From Coq Require Import ZArith List Lia Bool Sorting.Sorted Ring.
From Verif Require Import Outcome CSearch CSearchProofs Eval MergeLoop MergeSpec MergeProofs GallopProofs UnionProofs.
Import ListNotations.
Local Open Scope Z_scope.

Section C.
Context {V : Type}.
Variable R : ring_ops V.
Hypothesis RT : is_ring R.
Notation iter := (@iter V). Notation cursor := (@cursor V). Notation seen := (@seen V).

(** The positions that store [c] are contiguous. *)
Lemma stored_run (k : cursor) c : stored_segment k -> has c k ->
  exists b e, snd k <= b /\ b < e /\ e <= it_end (fst k) /\ stored_at c k = positions b e /\
    (forall i, snd k <= i < it_end (fst k) -> (at_ (it_crd (fst k)) i = c <-> b <= i < e)).
Proof.
  intros S H. unfold has in H. destruct (stored_at c k) as [|b t] eqn:E; [congruence|]. clear H.
  assert (Ib : In b (stored_at c k)) by (rewrite E; left; auto).
  unfold stored_at in Ib. apply filter_In in Ib. destruct Ib as (Ib & Qb). apply positions_in in Ib. apply Z.eqb_eq in Qb.
  pose proof (seg_weak k S) as W.
  assert (BEF : forall i, snd k <= i < b -> at_ (it_crd (fst k)) i < c).
  { intros i Ii. specialize (W i b ltac:(lia) ltac:(lia) ltac:(lia)).
    destruct (Z.eq_dec (at_ (it_crd (fst k)) i) c) as [Q|]; [|lia]. exfalso.
    unfold stored_at in E. rewrite (positions_app (snd k) b) in E by lia. rewrite filter_app in E.
    assert (X : In i (filter (fun i0 => at_ (it_crd (fst k)) i0 =? c) (positions (snd k) b))).
    { apply filter_In. rewrite positions_in, Z.eqb_eq. auto. }
    destruct (filter _ (positions (snd k) b)) as [|x l] eqn:F; [destruct X|].
    cbn in E. injection E as -> _.
    assert (X' : In b (b :: l)) by (left; auto). rewrite <- F in X'. apply filter_In in X'.
    rewrite positions_in in X'. lia. }
  destruct (dropped k b S ltac:(lia)) as (S' & EQ). specialize (EQ c BEF).
  destruct (run_spec _ (fst k, b) c eq_refl S') as (B1 & B2 & B3 & B4). { intros _. cbn [fst snd]. lia. }
  cbn [fst snd] in *. exists b, (after c (fst k, b)).
  assert (LT : b < after c (fst k, b)). { unfold after. rewrite EQ, E. cbn [length snd]. lia. }
  split; [lia|]. split; [auto|]. split; [lia|]. split; [congruence|].
  intros i Ii. split; intros Q.
  - destruct (Z_lt_le_dec i b); [specialize (BEF i ltac:(lia)); lia|].
    destruct (Z_lt_le_dec i (after c (fst k, b))); [lia|]. specialize (B4 i ltac:(lia)). lia.
  - apply B3. lia.
Qed.

Lemma last_positions b e d : b < e -> last (positions b e) d = e - 1.
Proof.
  intros H. rewrite (positions_app b (e - 1)) by lia. rewrite (positions_cons (e - 1)) by lia. rewrite (positions_nil (e - 1 + 1)) by lia.
  generalize (positions b (e - 1)). induction l as [|a [|x l] IH]; cbn in *; auto.
Qed.

Lemma lexlt_cons_weak crd rest i j : lexlt (tuple (crd :: rest) i) (tuple (crd :: rest) j) -> at_ crd i <= at_ crd j.
Proof. cbn. lia. Qed.

Lemma mapM_cat {A B} (f : A -> outcome (list B)) (P : A -> list B -> Prop) (l : list A) :
  (forall x, In x l -> exists y, f x = Val y /\ P x y) ->
  exists ys, mapM f l = Val ys /\ Forall2 P l ys.
Proof.
  induction l as [|a l IH]; intros H.
  - exists []. split; [reflexivity|constructor].
  - destruct (H a (or_introl eq_refl)) as (y & E & Py).
    destruct IH as (ys & E' & F). { intros; apply H; right; auto. }
    exists (y :: ys). split; [|constructor; auto].
    change (mapM f (a :: l)) with (do y <- f a; do ys <- mapM f l; Val (y :: ys)). rewrite E. cbn [obind]. rewrite E'. reflexivity.
Qed.

Definition good_walk (crds : list (list Z)) (vals : list V) lo hi (vs : list (list Z * V)) : Prop :=
  StronglySorted lexlt (map fst vs) /\
  (forall t, In t (map fst vs) <-> exists i, lo <= i < hi /\ tuple crds i = t) /\
  (forall t v, In (t, v) vs -> v = total R vals (filter (fun i => tuple_eqb (tuple crds i) t) (positions lo hi))).

Lemma tuple_eqb_spec a b : tuple_eqb a b = true <-> a = b.
Proof. unfold tuple_eqb. destruct (list_eq_dec Z.eq_dec a b); split; congruence. Qed.

Lemma filter_ext_in' {A} (f g : A -> bool) l : (forall x, In x l -> f x = g x) -> filter f l = filter g l.
Proof. induction l; cbn; intros H; auto. rewrite H by auto. rewrite IHl by auto. reflexivity. Qed.

Lemma ss_app {A} (Rl : A -> A -> Prop) l1 l2 : StronglySorted Rl l1 -> StronglySorted Rl l2 ->
  (forall x y, In x l1 -> In y l2 -> Rl x y) -> StronglySorted Rl (l1 ++ l2).
Proof.
  induction l1 as [|a l1 IH]; cbn; intros S1 S2 H; auto. inversion S1 as [|? ? S F]; subst.
  constructor; [apply IH; auto|]. rewrite Forall_forall in *. intros x I. apply in_app_iff in I.
  destruct I; auto.
Qed.

(** Putting together the visits below each first coordinate. *)
Lemma concat_walks {X} (cs : list Z) (xs : list X) (fc : X -> Z) (ys : list (list (list Z * V))) :
  cs = map fc xs -> StronglySorted Z.lt cs ->
  Forall2 (fun x y => StronglySorted lexlt (map fst y) /\ forall t v, In (t, v) y -> exists t', t = fc x :: t') xs ys ->
  StronglySorted lexlt (map fst (concat ys)) /\
  (forall t v, In (t, v) (concat ys) <-> exists x y, In (x, y) (combine xs ys) /\ In (t, v) y).
Proof.
  intros -> S F. induction F as [|x y xs ys (P1 & P2) F IH]; cbn [concat map combine].
  - split; [constructor|]. intros. split; [intros []|intros (? & ? & [] & _)].
  - cbn [map] in S. inversion S as [|? ? S' FA]; subst. destruct (IH S') as (A & B). rewrite Forall_forall in FA. split.
    + rewrite map_app. apply ss_app; auto. intros t1 t2 I1 I2. apply in_map_iff in I1, I2.
      destruct I1 as ((t1', v1) & <- & I1), I2 as ((t2', v2) & <- & I2). cbn [fst].
      destruct (P2 _ _ I1) as (r1 & ->). apply B in I2. destruct I2 as (x2 & y2 & IC & I2).
      assert (Q : exists r2, t2' = fc x2 :: r2).
      { clear - F IC I2. induction F as [|a b xs ys (_ & P) F IH]; [destruct IC|]. destruct IC as [E|IC]; auto.
        injection E as -> ->. eauto. }
      destruct Q as (r2 & ->). cbn. left. apply FA. apply in_map. eapply in_combine_l; eauto.
    + intros t v. rewrite in_app_iff, B. split.
      * intros [I|(x2 & y2 & IC & I)]; [exists x, y; split; [left; auto|auto]|exists x2, y2; split; [right; auto|auto]].
      * intros (x2 & y2 & [E|IC] & I); [injection E as -> ->; auto|right; eauto].
Qed.

Lemma walk_ok uniq (crds : list (list Z)) (vals : list V) : crds <> [] -> forall lo hi,
  0 <= lo <= hi -> (forall crd, In crd crds -> hi <= Z.of_nat (length crd)) -> hi <= Z.of_nat (length vals) ->
  lex_sorted uniq crds lo hi ->
  exists n vs, (forall fuel, (n < fuel)%nat -> coo_walk R fuel uniq crds vals lo hi = Val vs) /\ good_walk crds vals lo hi vs.
Proof.
  induction crds as [|crd rest IH]; [congruence|]. intros _ lo hi LH LC LV SO.
  set (leaf := match rest with [] => true | _ => false end).
  set (k := (It (uniq && leaf) leaf crd vals hi (lo + 1), lo) : cursor).
  assert (SG : stored_segment k).
  { unfold k. cbn. split; [lia|]. split; [apply LC; left; auto|]. split; [auto|].
    assert (W : weak_on crd lo hi).
    { intros i j I1 I2 I3. destruct (SO i j I1 I2 I3) as [H|(_ & H)]; [apply lexlt_cons_weak in H; lia|].
      cbn in H. injection H as H _. lia. }
    destruct (uniq && leaf) eqn:UL; [|auto]. apply andb_true_iff in UL. destruct UL as (-> & LF).
    assert (rest = []) by (unfold leaf in LF; destruct rest; congruence). subst rest.
    intros i j I1 I2 I3. destruct (SO i j I1 I2 I3) as [H|(Q & _)]; [|discriminate]. cbn in H. tauto. }
  destruct (merge_ok R RT (dist [k]) (fun _ => true) [k] (le_n _)) as (cs & ks' & E & SC & CH & _).
  { discriminate. } { intros k' [<-|[]]. auto. }
  assert (HC : forall c, In c cs <-> has c k).
  { intros c. rewrite CH. split.
    - intros ((k' & [<-|[]] & H) & _). auto.
    - intros H. split; [exists k; split; [left; auto|auto]|]. intros k' [<-|[]]. exists c. split; [lia|auto]. }
  assert (RUN : forall c, In c cs -> exists b e, lo <= b /\ b < e /\ e <= hi /\ stored_at c k = positions b e /\
     (forall i, lo <= i < hi -> (at_ crd i = c <-> b <= i < e)) /\
     at_coord R c k = Some (if leaf then Value (total R vals (positions b e)) else Range b e)).
  { intros c Ic. apply HC in Ic. destruct (stored_run k c SG Ic) as (b & e & B1 & B2 & B3 & B4 & B5).
    exists b, e. unfold k in *. cbn [fst snd it_end it_crd] in *. repeat (split; [assumption|]).
    unfold at_coord. rewrite B4. cbn [fst it_leaf it_vals]. rewrite (positions_cons b e) by lia.
    rewrite <- (positions_cons b e) by lia. rewrite last_positions by lia.
    replace (e - 1 + 1) with e by lia. reflexivity. }
  (* one coordinate at a time *)
  set (xs := visits_of R (fun _ => true) [k] cs) in *.
  assert (XS : xs = map (fun c => (c, [at_coord R c k])) cs).
  { unfold xs, visits_of. generalize cs. intros l. induction l as [|c l IHl]; [reflexivity|]. cbn [flat_map]. rewrite IHl. reflexivity. }
  set (f := fun fuel (x : Z * list (option seen)) =>
                  match x with
                  | (c, [Some (Value v)]) => Val [([c], v)]
                  | (c, [Some (Range b e)]) =>
                      do l <- coo_walk R fuel uniq rest vals b e;
                      Val (map (fun y => (c :: fst y, snd y)) l)
                  | _ => Oob
                  end).
  assert (ONE : forall c, In c cs -> exists n y, (forall fuel, (n < fuel)%nat -> f fuel (c, [at_coord R c k]) = Val y) /\
     StronglySorted lexlt (map fst y) /\ (forall t v, In (t, v) y -> exists t', t = c :: t') /\
     (forall t', In (c :: t') (map fst y) <-> exists i, lo <= i < hi /\ tuple (crd :: rest) i = c :: t') /\
     (forall t v, In (t, v) y -> v = total R vals (filter (fun i => tuple_eqb (tuple (crd :: rest) i) t) (positions lo hi)))).
  { intros c Ic. destruct (RUN c Ic) as (b & e & B1 & B2 & B3 & B4 & B5 & B6).
    assert (FIL : forall t', filter (fun i => tuple_eqb (tuple (crd :: rest) i) (c :: t')) (positions lo hi) =
                             filter (fun i => tuple_eqb (tuple rest i) t') (positions b e)).
    { intros t'. rewrite (positions_app lo b), (positions_app b e) by lia. rewrite !filter_app.
      rewrite (filter_none _ (positions lo b)), (filter_none _ (positions e hi)).
      - rewrite app_nil_r. cbn [app]. apply filter_ext_in'. intros i I. apply positions_in in I.
        apply eq_true_iff_eq. rewrite !tuple_eqb_spec. cbn [tuple map].
        assert (Q : at_ crd i = c) by (apply B5; lia). rewrite Q. split; [intros H; injection H; auto|intros H; unfold tuple in *; rewrite H; auto].
      - intros i I. apply positions_in in I. apply not_true_iff_false. rewrite tuple_eqb_spec. cbn [tuple map]. intros H. injection H as H _.
        apply B5 in H; lia.
      - intros i I. apply positions_in in I. apply not_true_iff_false. rewrite tuple_eqb_spec. cbn [tuple map]. intros H. injection H as H _.
        apply B5 in H; lia. }
    destruct rest as [|crd2 rest2].
    - cbn [leaf] in B6. exists O, [([c], total R vals (positions b e))]. split; [|split; [|split; [|split]]].
      + intros fuel _. unfold f. rewrite B6. reflexivity.
      + cbn. repeat constructor.
      + intros t v [Q|[]]. injection Q as <- _. eauto.
      + intros t'. cbn [map fst In]. split.
        * intros [Q|[]]. injection Q as <-. exists b. split; [lia|]. cbn. f_equal. apply B5; lia.
        * intros (i & Ii & Q). left. cbn in Q. injection Q as _ <-. auto.
      + intros t v [Q|[]]. injection Q as <- <-. rewrite FIL. f_equal. symmetry. apply filter_all. intros; reflexivity.
    - assert (LF : leaf = false) by reflexivity. rewrite LF in B6.
      destruct (IH ltac:(discriminate) b e) as (n & l & El & G1 & G2 & G3).
      { lia. } { intros c2 I2. specialize (LC c2 (or_intror I2)). lia. } { lia. }
      { intros i j I1 I2 I3. destruct (SO i j ltac:(lia) I2 ltac:(lia)) as [H|(U & H)].
        - cbn [tuple map lexlt] in H. assert (at_ crd i = c) by (apply B5; lia). assert (at_ crd j = c) by (apply B5; lia).
          left. destruct H as [H|(_ & H)]; [lia|exact H].
        - right. split; auto. cbn [tuple map] in H. injection H as _ H1 H2. unfold tuple. cbn [map]. rewrite H1, H2. reflexivity. }
      exists n, (map (fun y => (c :: fst y, snd y)) l). split; [|split; [|split; [|split]]].
      + intros fuel F. unfold f. rewrite B6. rewrite El by auto. reflexivity.
      + rewrite map_map. cbn [fst]. rewrite <- map_map. clear - G1. induction G1 as [|a m S IHs F]; cbn; constructor; auto.
        rewrite Forall_forall in *. intros x I. apply in_map_iff in I. destruct I as (z & <- & I). cbn. right. auto.
      + intros t v I. apply in_map_iff in I. destruct I as ((t1, v1) & Q & I). injection Q as <- <-. eauto.
      + intros t'. rewrite map_map. cbn [fst]. rewrite in_map_iff. split.
        * intros ((t1, v1) & Q & I). cbn [fst] in Q. injection Q as ->.
          destruct (proj1 (G2 t')) as (i & Ii & Qi). { apply in_map_iff. exists (t', v1). auto. }
          exists i. split; [lia|]. cbn [tuple map] in *. f_equal; [apply B5; lia|]. exact Qi.
        * intros (i & Ii & Q). cbn [tuple map] in Q. injection Q as Qc Qt.
          assert (Ri : b <= i < e) by (apply B5; auto).
          assert (I' : In t' (map fst l)). { apply G2. exists i. split; [exact Ri|exact Qt]. }
          apply in_map_iff in I'. destruct I' as (y & Qy & Iy). exists y. split; [congruence|auto].
      + intros t v I. apply in_map_iff in I. destruct I as ((t1, v1) & Q & I). injection Q as <- <-. cbn [fst snd].
        rewrite FIL. apply G3. auto. }
  set (Y := fun c (y : list (list Z * V)) => StronglySorted lexlt (map fst y) /\ (forall t v, In (t, v) y -> exists t', t = c :: t') /\
     (forall t', In (c :: t') (map fst y) <-> exists i, lo <= i < hi /\ tuple (crd :: rest) i = c :: t') /\
     (forall t v, In (t, v) y -> v = total R vals (filter (fun i => tuple_eqb (tuple (crd :: rest) i) t) (positions lo hi)))).
  assert (A : forall l, incl l cs -> exists n ys, (forall fuel, (n < fuel)%nat -> mapM (f fuel) (map (fun c => (c, [at_coord R c k])) l) = Val ys) /\
     Forall2 Y l ys).
  { induction l as [|c l IHl]; intros IN.
    - exists O, []. split; [reflexivity|constructor].
    - destruct (IHl ltac:(intros x I; apply IN; right; auto)) as (n & ys & En & F).
      destruct (ONE c (IN c (or_introl eq_refl))) as (m & y & Em & Yy).
      exists (Nat.max n m), (y :: ys). split; [|constructor; auto].
      intros fuel FU. change (mapM (f fuel) (map (fun c => (c, [at_coord R c k])) (c :: l)))
        with (do y <- f fuel (c, [at_coord R c k]); do ys <- mapM (f fuel) (map (fun c => (c, [at_coord R c k])) l); Val (y :: ys)).
      rewrite Em by lia. cbn [obind]. rewrite En by lia. reflexivity. }
  destruct (A cs (incl_refl _)) as (n & ys & En & F).
  exists (Nat.max n (dist [k])), (concat ys). split.
  { intros fuel FU. cbn [coo_walk]. fold leaf. fold k. rewrite E by lia. cbn [obind fst]. rewrite XS.
    change ((do ls <- mapM (f fuel) (map (fun c => (c, [at_coord R c k])) cs); Val (concat ls)) = Val (concat ys)).
    rewrite En by lia. reflexivity. }
  destruct (concat_walks cs cs (fun c => c) ys) as (C1 & C2); auto.
  { rewrite map_id; auto. }
  { clear - F. induction F as [|c y l ys (Y1 & Y2 & _) F IH]; constructor; auto. }
  assert (IY : forall c y, In (c, y) (combine cs ys) -> In c cs /\ Y c y).
  { clear - F. induction F as [|c y l ys P F IH]; intros c' y' I; [destruct I|]. destruct I as [Q|I].
    - injection Q as <- <-. split; [left; auto|auto].
    - destruct (IH c' y' I). split; [right; auto|auto]. }
  assert (YI : forall c, In c cs -> exists y, In (c, y) (combine cs ys)).
  { clear - F. induction F as [|c y l ys P F IH]; intros c' I; [destruct I|]. destruct I as [<-|I].
    - exists y. left; auto.
    - destruct (IH c' I) as (z & Iz). exists z. right; auto. }
  split; [exact C1|]. split.
  - intros t. split.
    + intros I. apply in_map_iff in I. destruct I as ((t1, v) & <- & I). apply C2 in I. destruct I as (c & y & IC & I).
      destruct (IY c y IC) as (_ & Y1 & Y2 & Y3 & _). destruct (Y2 _ _ I) as (t' & ->). cbn [fst].
      apply Y3. apply in_map_iff. exists (c :: t', v). auto.
    + intros (i & Ii & Q). assert (Hc : has (at_ crd i) k).
      { apply stored_at_in. exists i. unfold k. cbn [fst snd it_end it_crd]. auto. }
      apply HC in Hc. destruct (YI _ Hc) as (y & IC). destruct (IY _ y IC) as (_ & Y1 & Y2 & Y3 & _).
      cbn [tuple map] in Q. subst t.
      assert (I' : In (at_ crd i :: map (fun crd => at_ crd i) rest) (map fst y)).
      { apply Y3. exists i. auto. }
      apply in_map_iff in I'. destruct I' as ((t1, v) & Q1 & I1). apply in_map_iff. exists (t1, v). split; auto. apply C2. eauto.
  - intros t v I. apply C2 in I. destruct I as (c & y & IC & I). destruct (IY c y IC) as (_ & _ & _ & _ & Y4). apply Y4. auto.
Qed.
End C.
