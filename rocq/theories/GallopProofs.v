From Coq Require Import ZArith List Lia Bool Sorting.Sorted Ring.
From Verif Require Import Outcome CSearch CSearchProofs Eval MergeLoop MergeSpec MergeProofs.
Import ListNotations.
Local Open Scope Z_scope.

Lemma sorted_same : forall l1 l2, StronglySorted Z.lt l1 -> StronglySorted Z.lt l2 ->
  (forall x, In x l1 <-> In x l2) -> l1 = l2.
Proof.
  induction l1 as [|a l1 IH]; intros l2 S1 S2 H.
  - destruct l2 as [|b l2]; auto. exfalso. apply (H b). left; auto.
  - inversion S1 as [|? ? S1' F1]; subst. rewrite Forall_forall in F1.
    destruct l2 as [|b l2]; [exfalso; apply (H a); left; auto|].
    inversion S2 as [|? ? S2' F2]; subst. rewrite Forall_forall in F2.
    assert (a = b).
    { destruct (proj1 (H a) (or_introl eq_refl)) as [|I]; auto.
      destruct (proj2 (H b) (or_introl eq_refl)) as [|J]; auto.
      apply F2 in I. apply F1 in J. lia. }
    subst b. f_equal. apply IH; auto. intros x. split; intros I.
    + destruct (proj1 (H x) (or_intror I)); auto. subst. apply F1 in I. lia.
    + destruct (proj2 (H x) (or_intror I)); auto. subst. apply F2 in I. lia.
Qed.
Lemma filter_sorted f : forall l, StronglySorted Z.lt l -> StronglySorted Z.lt (filter f l).
Proof.
  induction l as [|a l IH]; intros S; cbn; [constructor|]. inversion S as [|? ? S' F]; subst.
  destruct (f a); auto. constructor; auto. rewrite Forall_forall in *. intros x I. apply filter_In in I. apply F. tauto.
Qed.

Section G.
Context {V : Type}.
Variable R : ring_ops V.
Hypothesis RT : is_ring R.
Notation iter := (@iter V). Notation cursor := (@cursor V). Notation seen := (@seen V).
Notation cc k := (at_ (it_crd (fst k)) (snd k)).

Lemma gallop_ok (k : cursor) q c : stored_segment k -> gallops k -> snd k <= q <= it_end (fst k) ->
  exists r, taco_gallop (it_crd (fst k)) q (it_bound (fst k)) c = Val r /\ first_geq (it_crd (fst k)) q (it_end (fst k)) c r.
Proof.
  intros S (U & B & L) Q. pose proof (seg_weak k S) as W. destruct k as (it, p). destruct S as (P1 & P2 & _).
  cbn [fst snd] in *. rewrite B. destruct (Z_lt_le_dec q (it_end it)) as [H|H].
  - apply gallop_spec; try lia. intros i j; intros; apply W; lia.
  - assert (q = it_end it) by lia. subst q. exists (it_end it). split.
    + unfold taco_gallop. rewrite rd_ok by lia. cbn [obind].
      rewrite (Z.geb_leb (it_end it)), Z.leb_refl, orb_true_r. reflexivity.
    + repeat split; try lia; intros; lia.
Qed.

(** Dropping entries below [c] leaves what is stored at [c] and above. *)
Lemma dropped (k : cursor) q : stored_segment k -> snd k <= q <= it_end (fst k) ->
  stored_segment (fst k, q) /\
  (forall c, (forall i, snd k <= i < q -> at_ (it_crd (fst k)) i < c) -> stored_at c (fst k, q) = stored_at c k).
Proof.
  intros S Q. split; [apply seg_from; auto|]. intros c H.
  unfold stored_at. cbn [fst snd]. rewrite (positions_app (snd k) q) by lia. rewrite filter_app.
  rewrite (filter_none _ (positions (snd k) q)); [reflexivity|].
  intros i I. apply positions_in in I. specialize (H i I). apply Z.eqb_neq. lia.
Qed.

Definition nxt (step c : Z) (k : cursor) : Z :=
  match taco_gallop (it_crd (fst k)) (snd k + step) (it_bound (fst k)) c with Val r => r | _ => 0 end.
Definition hop (step c : Z) (k : cursor) : cursor := (fst k, nxt step c k).

Lemma hop_ok (k : cursor) step c : stored_segment k -> gallops k -> snd k < it_end (fst k) ->
  (step = 0 /\ cc k <= c \/ step = 1 /\ cc k = c) ->
  taco_gallop (it_crd (fst k)) (snd k + step) (it_bound (fst k)) c = Val (nxt step c k) /\
  snd k + step <= nxt step c k <= it_end (fst k) /\ (cc k < c -> snd k < nxt step c k) /\
  (forall i, snd k <= i < nxt step c k -> at_ (it_crd (fst k)) i < c + step) /\
  (forall i, nxt step c k <= i < it_end (fst k) -> c + step <= at_ (it_crd (fst k)) i).
Proof.
  intros S GA L ST. destruct (gallop_ok k (snd k + step) c S GA) as (r & E & F1 & F2 & F3).
  { lia. }
  unfold nxt. rewrite E. split; [auto|].
  assert (STR : strict_on (it_crd (fst k)) (snd k) (it_end (fst k))).
  { destruct k as (it, p). destruct S as (_ & _ & _ & S). destruct GA as (U & _). cbn [fst snd] in *. rewrite U in S. auto. }
  split; [lia|]. split; [|split].
  - intros H. destruct (Z_lt_le_dec (snd k) r); auto. exfalso. specialize (F3 (snd k) ltac:(lia)). lia.
  - intros i I. destruct ST as [(-> & H)|(-> & H)].
    + rewrite Z.add_0_r in *. apply F2. lia.
    + destruct (Z.eq_dec i (snd k)) as [->|]; [lia|]. specialize (F2 i ltac:(lia)). lia.
  - intros i I. destruct ST as [(-> & H)|(-> & H)].
    + specialize (F3 i I). lia.
    + specialize (STR (snd k) i ltac:(lia) ltac:(lia) ltac:(lia)). lia.
Qed.

Lemma all_seen_map c (ks : list cursor) : all_seen (map (at_coord R c) ks) = true <-> forall k, In k ks -> has c k.
Proof.
  unfold all_seen. rewrite forallb_forall. split.
  - intros H k I. specialize (H (at_coord R c k) (in_map _ _ _ I)). unfold at_coord in H. unfold has.
    destruct (stored_at c k); [discriminate|congruence].
  - intros H o I. apply in_map_iff in I. destruct I as (k & <- & I). specialize (H k I). unfold at_coord. unfold has in H.
    destruct (stored_at c k); [congruence|auto].
Qed.

Lemma gallop_iteration (ks : list cursor) : (1 < length ks)%nat ->
  (forall k, In k ks -> ready k /\ gallops k) ->
  exists c step, (exists k, In k ks /\ cc k = c) /\ (forall k, In k ks -> cc k <= c) /\
  (step = 0 /\ (exists k, In k ks /\ cc k < c) \/ step = 1 /\ (forall k, In k ks -> cc k = c)) /\
  iteration R Gallop all_seen ks =
    Val (if step =? 1 then [(c, map (at_coord R c) ks)] else [], map (hop step c) ks).
Proof.
  intros N G.
  assert (LD : mapM load_coord ks = Val (map (fun k : cursor => cc k) ks)).
  { apply mapM_ok. intros k I. unfold load_coord. destruct (G k I) as ((S & L) & _). destruct k as (it, p).
    destruct S as (P1 & P2 & _). cbn [fst snd] in *. apply rd_ok. lia. }
  set (c := resolve Gallop (map (fun k : cursor => cc k) ks)).
  destruct (resolve_max (map (fun k : cursor => cc k) ks)) as (I & M).
  { destruct ks; [cbn in N; lia|discriminate]. }
  fold c in I, M.
  assert (M' : forall k, In k ks -> cc k <= c) by (intros k Ik; apply M; apply in_map_iff; eauto).
  set (peek := fun k : cursor => if cc k =? c then at_coord R c k else None).
  set (hit := all_seen (map peek ks)).
  assert (HIT : hit = true <-> forall k, In k ks -> cc k = c).
  { unfold hit, all_seen. rewrite forallb_forall. split.
    - intros H k Ik. specialize (H (peek k) (in_map _ _ _ Ik)). unfold peek in H.
      destruct (Z.eqb_spec (cc k) c); [auto|discriminate].
    - intros H o Io. apply in_map_iff in Io. destruct Io as (k & <- & Ik). unfold peek.
      rewrite (H k Ik), Z.eqb_refl. destruct (G k Ik) as ((S & L) & _).
      unfold at_coord. rewrite (stored_eq k c S L (H k Ik)). reflexivity. }
  exists c, (if hit then 1 else 0).
  split. { apply in_map_iff in I. destruct I as (k & E & I). exists k. auto. }
  split; [exact M'|]. split.
  { destruct hit eqn:Eh.
    - right. split; auto. apply HIT; auto.
    - left. split; auto. assert (NH : ~ forall k, In k ks -> cc k = c) by (rewrite <- HIT; congruence).
      assert (D : existsb (fun k : cursor => cc k <? c) ks = true).
      { destruct (existsb _ ks) eqn:Ex; auto. exfalso. apply NH. intros k Ik.
        assert (Q : (cc k <? c) = false).
        { destruct (cc k <? c) eqn:Lt; auto. rewrite <- Ex. symmetry. apply existsb_exists. exists k. auto. }
        apply Z.ltb_ge in Q. specialize (M' k Ik). lia. }
      apply existsb_exists in D. destruct D as (k & Ik & Lt). exists k. split; auto. apply Z.ltb_lt; auto. }
  assert (N1 : Nat.eqb (length ks) 1 = false) by (apply Nat.eqb_neq; lia).
  set (tup := fun x : cursor => (x, cc x, (snd x, snd x + 1, r0 R))).
  assert (EM : mapM (look c) (map tup ks) = Val (map peek ks)).
  { rewrite mapM_map. apply mapM_ok. intros k Ik. destruct (G k Ik) as ((S & L) & GA).
    unfold tup, peek. destruct (Z.eqb_spec (cc k) c) as [E|NE].
    - pose proof (look_ok R RT false k c S (fun _ => ltac:(lia)) L) as LO. unfold deduped in LO.
      destruct GA as (U & _). rewrite U in LO. exact LO.
    - unfold look. destruct k as (it, p). cbn [fst snd] in *. destruct (Z.eqb_spec (at_ (it_crd it) p) c); [lia|reflexivity]. }
  assert (EA : mapM (fun x : (cursor * Z) * (Z * Z * V) =>
                   let '((it, _), ck, (p, segend, _)) := x in
                   advance Gallop false c it (p + (if hit then 1 else 0)) ck segend) (map tup ks)
               = Val (map (nxt (if hit then 1 else 0) c) ks)).
  { rewrite mapM_map. apply mapM_ok. intros k Ik. destruct (G k Ik) as ((S & L) & GA).
    assert (ST : (if hit then 1 else 0) = 0 /\ cc k <= c \/ (if hit then 1 else 0) = 1 /\ cc k = c).
    { destruct hit eqn:Eh; [right; split; auto; apply HIT; auto|left; auto]. }
    destruct (hop_ok k (if hit then 1 else 0) c S GA L ST) as (E & _).
    unfold tup. destruct k as (it, p). unfold advance. destruct GA as (U & _). cbn [fst snd] in *. rewrite U. exact E. }
  unfold iteration. rewrite N1, LD. cbn [obind]. fold c.
  rewrite (mapM_ok _ (fun k : cursor => (snd k, snd k + 1, r0 R))).
  2:{ intros k Ik. destruct (G k Ik) as (_ & GA). unfold dedup. destruct k as (it, p). destruct GA as (U & _).
      cbn [fst snd] in *. rewrite U. reflexivity. }
  cbn [obind]. rewrite combine_map_r, combine_map_map.
  change (fun x : cursor => (x, cc x, (snd x, snd x + 1, r0 R))) with tup.
  rewrite EM. cbn [obind]. fold hit. cbn [negb andb]. rewrite EA. cbn [obind]. rewrite combine_map_map.
  f_equal. f_equal. destruct hit eqn:Eh; [|reflexivity]. cbn. do 2 f_equal.
  apply map_ext_in. intros k Ik. unfold peek. rewrite (proj1 HIT eq_refl k Ik), Z.eqb_refl. reflexivity.
Qed.

Lemma dist_hop (ks : list cursor) step c :
  (forall k, In k ks -> snd k <= nxt step c k <= it_end (fst k)) ->
  (exists k, In k ks /\ snd k < nxt step c k) -> (dist (map (hop step c) ks) < dist ks)%nat.
Proof.
  intros B X.
  assert (W : forall ks, (forall k, In k ks -> snd k <= nxt step c k <= it_end (fst k)) -> (dist (map (hop step c) ks) <= dist ks)%nat).
  { clear. induction ks as [|k ks IH]; cbn [dist map fold_right]; intros B; [lia|].
    specialize (IH (fun x I => B x (or_intror I))). specialize (B k (or_introl eq_refl)).
    unfold dist in IH. unfold hop at 1 2. cbn [fst snd]. lia. }
  induction ks as [|k ks IH]; [destruct X as (? & [] & _)|].
  specialize (W ks (fun x I => B x (or_intror I))). pose proof (B k (or_introl eq_refl)) as Bk.
  cbn [dist map fold_right]. unfold dist in *. unfold hop at 1 2. cbn [fst snd].
  destruct X as (k' & [->|I] & X); [lia|].
  specialize (IH (fun x I => B x (or_intror I)) (ex_intro _ k' (conj I X))). lia.
Qed.

Lemma gallop_merge_ok n : forall (ks : list cursor), (dist ks <= n)%nat -> (1 < length ks)%nat ->
  (forall k, In k ks -> stored_segment k /\ gallops k) ->
  exists cs ks', (forall fuel, (n < fuel)%nat -> merge_point R fuel Gallop all_seen ks = Val (visits_of R all_seen ks cs, ks')) /\
  StronglySorted Z.lt cs /\ (forall c, In c cs <-> forall k, In k ks -> has c k).
Proof.
  induction n as [n IH] using lt_wf_ind. intros ks D N S.
  destruct (none_exhausted ks) eqn:X.
  - assert (L : forall k, In k ks -> snd k < it_end (fst k)) by (apply none_exhausted_spec; auto).
    destruct (gallop_iteration ks N) as (c & step & (k0 & I0 & C0) & M & ST & E).
    { intros k I. destruct (S k I). split; auto. split; auto. }
    assert (HO : forall k, In k ks -> 
      snd k + step <= nxt step c k <= it_end (fst k) /\ (cc k < c -> snd k < nxt step c k) /\
      (forall i, snd k <= i < nxt step c k -> at_ (it_crd (fst k)) i < c + step) /\
      (forall i, nxt step c k <= i < it_end (fst k) -> c + step <= at_ (it_crd (fst k)) i)).
    { intros k I. destruct (S k I) as (S1 & S2). eapply hop_ok; auto.
      destruct ST as [(-> & _)|(-> & Q)]; [left|right]; split; auto. }
    assert (ST' : step = 0 \/ step = 1) by (destruct ST as [(-> & _)|(-> & _)]; auto).
    assert (DM : (dist (map (hop step c) ks) < dist ks)%nat).
    { apply dist_hop. { intros k I. destruct (HO k I) as (A & _). lia. }
      destruct ST as [(-> & (k & I & LT))|(-> & Q)].
      - exists k. split; auto. apply HO; auto.
      - exists k0. split; auto. destruct (HO k0 I0) as (A & _). lia. }
    destruct (IH (dist (map (hop step c) ks)) ltac:(lia) (map (hop step c) ks)) as (cs & ks' & E' & SO & CH).
    { lia. } { rewrite map_length; auto. }
    { intros k I. apply in_map_iff in I. destruct I as (k1 & <- & I). destruct (S k1 I) as (S1 & S2). split; [|exact S2].
      apply seg_from; auto. destruct (HO k1 I) as (A & _). lia. }
    assert (EQ : forall c' k, c + step <= c' -> In k ks -> stored_at c' (hop step c k) = stored_at c' k).
    { intros c' k C I. destruct (HO k I) as (A & _ & B & _). apply dropped; [apply S; auto|lia|].
      intros i Ii. specialize (B i Ii). lia. }
    assert (GE : forall c', In c' cs -> c + step <= c').
    { intros c' I. rewrite CH in I. specialize (I (hop step c k0) (in_map _ _ _ I0)). apply stored_at_in in I.
      destruct I as (i & Ri & Q). unfold hop in *. cbn [fst snd] in *. destruct (HO k0 I0) as (_ & _ & _ & B).
      specialize (B i Ri). lia. }
    assert (VI : visits_of R all_seen (map (hop step c) ks) cs = visits_of R all_seen ks cs).
    { unfold visits_of. clear - GE EQ. induction cs as [|c1 cs IHc]; [reflexivity|]. cbn [flat_map].
      rewrite IHc by (intros; apply GE; right; auto). f_equal.
      assert (Q : map (at_coord R c1) (map (hop step c) ks) = map (at_coord R c1) ks).
      { rewrite map_map. apply map_ext_in. intros k I. unfold at_coord. rewrite EQ; auto. apply GE. left; auto. }
      rewrite Q. reflexivity. }
    assert (IN : forall c', c + step <= c' -> (In c' cs <-> forall k, In k ks -> has c' k)).
    { intros c' C. rewrite CH. split.
      - intros H k I. specialize (H (hop step c k) (in_map _ _ _ I)). unfold has in *. rewrite EQ in H; auto.
      - intros H k I. apply in_map_iff in I. destruct I as (k1 & <- & I). unfold has in *. rewrite EQ; auto. }
    assert (LOW : forall c', (forall k, In k ks -> has c' k) -> c <= c').
    { intros c' H. specialize (H k0 I0). apply stored_at_in in H. destruct H as (i & Ri & Q).
      pose proof (seg_weak k0 (proj1 (S k0 I0))) as W. destruct (Z.eq_dec i (snd k0)) as [->|]; [lia|].
      specialize (W (snd k0) i ltac:(lia) ltac:(lia) ltac:(lia)). lia. }
    destruct ST as [(-> & _)|(-> & Q)].
    + exists cs, ks'. split; [|split; auto].
      * intros fuel F. destruct fuel as [|fuel]; [lia|]. cbn [merge_point]. rewrite X, E. cbn [obind].
        rewrite E' by lia. cbn [obind]. rewrite VI. reflexivity.
      * intros c'. split; intros H.
        { apply IN; auto. }
        { apply IN; auto. specialize (LOW c' H). lia. }
    + assert (HC : forall k, In k ks -> has c k).
      { intros k I. apply stored_at_in. exists (snd k). specialize (L k I). split; [lia|auto]. }
      exists (c :: cs), ks'. split; [|split; auto].
      * intros fuel F. destruct fuel as [|fuel]; [lia|]. cbn [merge_point]. rewrite X, E. cbn [obind].
        rewrite E' by lia. cbn [obind]. rewrite VI. unfold visits_of at 2. cbn [flat_map].
        rewrite (proj2 (all_seen_map c ks) HC). reflexivity.
      * constructor; auto. apply Forall_forall. intros c' I. specialize (GE c' I). lia.
      * intros c'. split.
        { intros [<-|I]; auto. apply IN; auto. }
        { intros H. specialize (LOW c' H). destruct (Z.eq_dec c c'); [left; auto|right]. apply IN; auto. lia. }
  - exists [], ks. split; [|split].
    + intros fuel F. destruct fuel as [|fuel]; [lia|]. cbn [merge_point]. rewrite X. reflexivity.
    + constructor.
    + intros c. split; [intros []|]. intros AL.
      assert (Y : none_exhausted ks = true); [|congruence]. apply none_exhausted_spec. intros k I.
      specialize (AL k I). apply stored_at_in in AL. destruct AL as (i & Ri & _). lia.
Qed.

(** Visits in which everything is seen do not depend on the other coordinates. *)
Lemma visits_filter (ks : list cursor) cs :
  visits_of R all_seen ks cs = visits_of R all_seen ks (filter (fun c => all_seen (map (at_coord R c) ks)) cs).
Proof.
  unfold visits_of. induction cs as [|c cs IH]; [reflexivity|]. cbn [flat_map filter].
  destruct (all_seen (map (at_coord R c) ks)) eqn:E; cbn [flat_map]; rewrite ?E, IH; reflexivity.
Qed.

Theorem same_visits (ks : list cursor) : (1 < length ks)%nat ->
  (forall k, In k ks -> stored_segment k /\ gallops k) ->
  exists cs ks1 ks2,
    (forall fuel, (dist ks < fuel)%nat ->
       merge_point R fuel TwoFinger all_seen ks = Val (visits_of R all_seen ks cs, ks1) /\
       merge_point R fuel Gallop all_seen ks = Val (visits_of R all_seen ks cs, ks2)) /\
    StronglySorted Z.lt cs /\ (forall c, In c cs <-> forall k, In k ks -> has c k).
Proof.
  intros N S.
  destruct (gallop_merge_ok (dist ks) ks (le_n _) N S) as (cs & ks2 & E2 & SO & CH).
  destruct (merge_ok R RT (dist ks) all_seen ks (le_n _)) as (cs1 & ks1 & E1 & SO1 & CH1 & _).
  { destruct ks; [cbn in N; lia|discriminate]. } { intros; apply S; auto. }
  exists cs, ks1, ks2. split; [|split; auto].
  intros fuel F. split; [|apply E2; auto]. rewrite E1 by auto. rewrite visits_filter. do 3 f_equal.
  apply sorted_same; auto using filter_sorted. intros c. rewrite filter_In, CH, CH1, all_seen_map.
  split; [tauto|]. intros H. split; [|auto]. split.
  - destruct ks as [|k ks]; [cbn in N; lia|]. exists k. split; [left; auto|apply H; left; auto].
  - intros k I. exists c. split; [lia|auto].
Qed.
End G.
