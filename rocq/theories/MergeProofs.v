From Coq Require Import ZArith List Lia Bool Sorting.Sorted Ring.
From Verif Require Import Outcome CSearch CSearchProofs Eval MergeLoop MergeSpec.
Import ListNotations.
Local Open Scope Z_scope.

(** * Positions *)
Lemma positions_nil : forall p e, e <= p -> positions p e = [].
Proof. intros. unfold positions. replace (Z.to_nat (e - p)) with O by lia. reflexivity. Qed.
Lemma positions_cons : forall p e, p < e -> positions p e = p :: positions (p + 1) e.
Proof.
  intros p e H. unfold positions.
  replace (Z.to_nat (e - p)) with (S (Z.to_nat (e - (p + 1)))) by lia.
  cbn [seq map]. f_equal; [lia|]. rewrite <- seq_shift, map_map. apply map_ext. intros. lia.
Qed.
Lemma positions_in : forall p e i, In i (positions p e) <-> p <= i < e.
Proof.
  intros p e i. unfold positions. rewrite in_map_iff. split.
  - intros (k & <- & I). apply in_seq in I. lia.
  - intros H. exists (Z.to_nat (i - p)). split; [lia|]. apply in_seq. lia.
Qed.
Lemma positions_app : forall p m e, p <= m <= e -> positions p e = positions p m ++ positions m e.
Proof.
  intros p m e H. remember (Z.to_nat (m - p)) as n. revert p Heqn H.
  induction n; intros p E H.
  - assert (p = m) by lia. subst. rewrite (positions_nil m m) by lia. reflexivity.
  - rewrite (positions_cons p e), (positions_cons p m) by lia. cbn. f_equal. apply IHn; lia.
Qed.
Lemma positions_len : forall p e, length (positions p e) = Z.to_nat (e - p).
Proof. intros. unfold positions. rewrite map_length, seq_length. reflexivity. Qed.

Lemma filter_all {A} (f : A -> bool) l : (forall x, In x l -> f x = true) -> filter f l = l.
Proof. induction l; cbn; intros H; auto. rewrite H by auto. f_equal. auto. Qed.
Lemma filter_none {A} (f : A -> bool) l : (forall x, In x l -> f x = false) -> filter f l = [].
Proof. induction l; cbn; intros H; auto. rewrite H by auto. auto. Qed.

Lemma mapM_ok {A B} (f : A -> outcome B) (g : A -> B) l :
  (forall x, In x l -> f x = Val (g x)) -> mapM f l = Val (map g l).
Proof.
  induction l as [|a l IH]; intros H; [reflexivity|].
  change (mapM f (a :: l)) with (do y <- f a; do ys <- mapM f l; Val (y :: ys)).
  rewrite H by (left; auto). cbn [obind]. rewrite IH by (intros; apply H; right; auto). reflexivity.
Qed.
Lemma mapM_map {A B C} (f : B -> outcome C) (g : A -> B) l : mapM f (map g l) = mapM (fun x => f (g x)) l.
Proof. induction l as [|a l IH]; [reflexivity|]. cbn in *. rewrite IH. reflexivity. Qed.
Lemma combine_map_map {A B C} (f : A -> B) (g : A -> C) l :
  combine (map f l) (map g l) = map (fun x => (f x, g x)) l.
Proof. induction l; cbn; congruence. Qed.
Lemma combine_map_r {A B} (g : A -> B) l : combine l (map g l) = map (fun x => (x, g x)) l.
Proof. induction l; cbn; congruence. Qed.
Lemma combine_map_l {A B C} (f : A -> B) (l : list (A * C)) :
  combine (map (fun x => f (fst x)) l) (map snd l) = map (fun x => (f (fst x), snd x)) l.
Proof. induction l; cbn; congruence. Qed.

Lemma fold_min_le : forall cs c, fold_left Z.min cs c <= c /\ (forall x, In x cs -> fold_left Z.min cs c <= x).
Proof.
  induction cs as [|a cs IH]; intros c; cbn; [split; [lia|tauto]|].
  destruct (IH (Z.min c a)) as (H1 & H2). split; [lia|]. intros x [<-|I]; [lia|auto].
Qed.
Lemma fold_min_in : forall cs c, In (fold_left Z.min cs c) (c :: cs).
Proof.
  induction cs as [|a cs IH]; intros c; cbn; [auto|].
  destruct (IH (Z.min c a)) as [E|I]; [|auto].
  rewrite <- E. destruct (Z.min_spec c a) as [(_ & ->)|(_ & ->)]; auto.
Qed.
Lemma fold_max_ge : forall cs c, c <= fold_left Z.max cs c /\ (forall x, In x cs -> x <= fold_left Z.max cs c).
Proof.
  induction cs as [|a cs IH]; intros c; cbn; [split; [lia|tauto]|].
  destruct (IH (Z.max c a)) as (H1 & H2). split; [lia|]. intros x [<-|I]; [lia|auto].
Qed.
Lemma fold_max_in : forall cs c, In (fold_left Z.max cs c) (c :: cs).
Proof.
  induction cs as [|a cs IH]; intros c; cbn; [auto|].
  destruct (IH (Z.max c a)) as [E|I]; [|auto].
  rewrite <- E. destruct (Z.max_spec c a) as [(_ & ->)|(_ & ->)]; auto.
Qed.
Lemma resolve_min cs : cs <> [] -> In (resolve TwoFinger cs) cs /\ forall x, In x cs -> resolve TwoFinger cs <= x.
Proof.
  destruct cs as [|c cs]; [congruence|]. intros _. unfold resolve.
  split; [apply fold_min_in|]. intros x [<-|I]; [exact (proj1 (fold_min_le cs c))|exact (proj2 (fold_min_le cs c) x I)].
Qed.
Lemma resolve_max cs : cs <> [] -> In (resolve Gallop cs) cs /\ forall x, In x cs -> x <= resolve Gallop cs.
Proof.
  destruct cs as [|c cs]; [congruence|]. intros _. unfold resolve.
  split; [apply fold_max_in|]. intros x [<-|I]; [exact (proj1 (fold_max_ge cs c))|exact (proj2 (fold_max_ge cs c) x I)].
Qed.

Section P.
Context {V : Type}.
Variable R : ring_ops V.
Hypothesis RT : is_ring R.
Notation iter := (@iter V). Notation cursor := (@cursor V). Notation seen := (@seen V).
Notation cc k := (at_ (it_crd (fst k)) (snd k)).      (* current coordinate *)

Lemma seg_weak (k : cursor) : stored_segment k -> weak_on (it_crd (fst k)) (snd k) (it_end (fst k)).
Proof.
  destruct k as (it, p). intros (_ & _ & _ & H). cbn. destruct (it_unique it); auto using strict_weak.
Qed.
Lemma seg_from (k : cursor) q : stored_segment k -> snd k <= q <= it_end (fst k) -> stored_segment (fst k, q).
Proof.
  destruct k as (it, p). cbn. intros (H1 & H2 & H3 & H) Q. repeat split; auto; try lia.
  destruct (it_unique it); intros i j; intros; apply H; lia.
Qed.

(** [stored_at c] in a sorted segment that starts at or above [c] is its first run. *)
Lemma stored_gt (k : cursor) c : stored_segment k -> (snd k < it_end (fst k) -> c < cc k) -> stored_at c k = [].
Proof.
  intros S H. unfold stored_at. apply filter_none. intros i I. apply positions_in in I.
  pose proof (seg_weak k S) as W. apply Z.eqb_neq.
  destruct (Z.eq_dec i (snd k)) as [->|]; [lia|].
  specialize (W (snd k) i ltac:(lia) ltac:(lia) ltac:(lia)). lia.
Qed.
Lemma stored_eq (k : cursor) c : stored_segment k -> snd k < it_end (fst k) -> cc k = c ->
  stored_at c k = snd k :: stored_at c (fst k, snd k + 1).
Proof.
  intros S H E. unfold stored_at. rewrite positions_cons by lia. cbn [filter fst snd].
  rewrite E, Z.eqb_refl. reflexivity.
Qed.
(** The position after the run of [c]. *)
Definition after (c : Z) (k : cursor) : Z := snd k + Z.of_nat (length (stored_at c k)).

Definition starts (c : Z) (k : cursor) : Prop := snd k < it_end (fst k) -> c <= cc k.

Lemma starts_next (k : cursor) c : stored_segment k -> starts c k -> snd k < it_end (fst k) -> starts c (fst k, snd k + 1).
Proof.
  intros S H L Q. cbn [fst snd] in *. pose proof (seg_weak k S (snd k) (snd k + 1)). specialize (H L). lia.
Qed.

(** The run: its positions, and what comes after it. *)
Lemma run_spec n (k : cursor) c : n = Z.to_nat (it_end (fst k) - snd k) -> stored_segment k -> starts c k ->
  snd k <= after c k <= it_end (fst k) /\ stored_at c k = positions (snd k) (after c k) /\
  (forall i, snd k <= i < after c k -> at_ (it_crd (fst k)) i = c) /\
  (forall i, after c k <= i < it_end (fst k) -> c < at_ (it_crd (fst k)) i).
Proof.
  revert k. induction n; intros k N S H.
  - destruct k as (it, p). pose proof S as (P & _). unfold after, stored_at. cbn [fst snd] in *.
    rewrite positions_nil by lia. cbn [filter length]. rewrite positions_nil by lia. repeat split; auto; intros; lia.
  - pose proof S as S'. assert (L : snd k < it_end (fst k)) by lia. specialize (H L) as H'.
    destruct (Z.eq_dec (cc k) c) as [E|NE].
    + set (k' := (fst k, snd k + 1)).
      assert (A : after c k = after c k').
      { unfold after. rewrite (stored_eq k c S L E). subst k'. cbn [length snd fst]. lia. }
      destruct (IHn k') as (B1 & B2 & B3 & B4).
      * subst k'. cbn. lia.
      * apply seg_from; auto. subst k'. lia.
      * apply starts_next; auto.
      * rewrite A. subst k'. cbn [fst snd] in *. split; [lia|]. split; [|split; auto].
        -- rewrite (stored_eq k c S L E), B2. symmetry. apply positions_cons. lia.
        -- intros i I. destruct (Z.eq_dec i (snd k)) as [->|]; [auto|]. apply B3. lia.
    + assert (Q : stored_at c k = []) by (apply stored_gt; auto; lia).
      unfold after. rewrite Q. cbn [length]. rewrite positions_nil by lia.
      repeat split; try lia.
      intros i I. pose proof (seg_weak k S (snd k) i) as W.
      destruct (Z.eq_dec i (snd k)) as [->|]; lia.
Qed.

(** * The de-duplication loop *)
Lemma rdv (a : list V) i : 0 <= i < Z.of_nat (length a) -> rd a i = Val (nth (Z.to_nat i) a (r0 R)).
Proof.
  intros H. unfold rd. destruct (Z.ltb_spec i 0); [lia|].
  rewrite nth_error_nth' with (d := r0 R) by lia. reflexivity.
Qed.

Definition gather (k : cursor) (ps : list Z) (acc : V) : V :=
  if it_leaf (fst k) then fold_left (radd R) (map (fun i => nth (Z.to_nat i) (it_vals (fst k)) (r0 R)) ps) acc else acc.
Lemma add_0_l v : radd R (r0 R) v = v. Proof. apply RT. Qed.
Lemma add_0_r v : radd R v (r0 R) = v.
Proof. rewrite (Radd_comm RT). apply RT. Qed.

Lemma dedup_loop_ok n (k : cursor) c acc fuel :
  n = Z.to_nat (it_end (fst k) - snd k) -> (n < fuel)%nat -> stored_segment k -> starts c k ->
  dedup_loop R fuel (fst k) c (snd k) acc = Val (after c k, gather k (stored_at c k) acc).
Proof.
  revert k acc fuel. induction n; intros k acc fuel N F S H;
    (destruct fuel as [|fuel]; [lia|]); cbn [dedup_loop]; pose proof S as S';
    destruct k as (it, p); cbn [fst snd] in *; destruct S' as (P1 & P2 & P3 & _).
  - destruct (Z.ltb_spec p (it_end it)); [lia|].
    assert (Q : stored_at c (it, p) = []) by (unfold stored_at; cbn [fst snd]; rewrite positions_nil by lia; reflexivity).
    unfold after, gather. rewrite Q. cbn. destruct (it_leaf it); repeat f_equal; lia.
  - destruct (Z.ltb_spec p (it_end it)) as [L|]; [|lia].
    rewrite rd_ok by lia. cbn [obind].
    destruct (Z.eqb_spec (at_ (it_crd it) p) c) as [E|NE].
    + assert (Q := stored_eq (it, p) c S L E). cbn [fst snd] in Q.
      assert (IH : forall a, dedup_loop R fuel it c (p + 1) a = Val (after c (it, p + 1), gather (it, p + 1) (stored_at c (it, p + 1)) a)).
      { intros a. apply (IHn (it, p + 1)); cbn [fst snd]; try lia.
        - apply (seg_from (it, p)); auto. cbn. lia.
        - apply (starts_next (it, p)); auto. }
      assert (A : after c (it, p) = after c (it, p + 1)).
      { unfold after. rewrite Q. cbn [length snd fst]. lia. }
      rewrite A, Q. unfold gather in *. cbn [fst map fold_left] in *.
      destruct (it_leaf it) eqn:LF.
      * rewrite rdv by (specialize (P3 eq_refl); lia). cbn [obind]. apply IH.
      * cbn [obind]. rewrite IH. f_equal. f_equal. apply add_0_r.
    + assert (Q : stored_at c (it, p) = []) by (apply stored_gt; auto; intros; cbn [fst snd] in *; specialize (H L); cbn [fst snd] in *; lia).
      unfold after, gather. rewrite Q. cbn. destruct (it_leaf it); repeat f_equal; lia.
Qed.

(** What [dedup] returns. *)
Definition deduped (always : bool) (c : Z) (k : cursor) : Z * Z * V :=
  if it_unique (fst k) then (snd k, snd k + 1, r0 R)
  else ((if it_leaf (fst k) then after c k else snd k), after c k, gather k (stored_at c k) (r0 R)).

Lemma dedup_ok always (k : cursor) c : stored_segment k -> starts c k -> snd k < it_end (fst k) ->
  (always = true -> cc k = c) ->
  dedup R always c k = Val (deduped always c k).
Proof.
  intros S H L A. unfold dedup, deduped. destruct k as (it, p). cbn [fst snd] in *.
  destruct (it_unique it) eqn:U; [reflexivity|].
  pose proof S as (P1 & P2 & P3 & _).
  destruct always.
  - specialize (A eq_refl).
    assert (Q := stored_eq (it, p) c S L A). cbn [fst snd] in Q.
    assert (IH : forall a, dedup_loop R (Datatypes.S (Z.to_nat (it_end it - p))) it c (p + 1) a = Val (after c (it, p + 1), gather (it, p + 1) (stored_at c (it, p + 1)) a)).
    { intros a. apply (dedup_loop_ok (Z.to_nat (it_end it - (p + 1))) (it, p + 1)); cbn [fst snd]; try lia.
      - apply (seg_from (it, p)); auto. cbn. lia.
      - apply (starts_next (it, p)); auto. }
    assert (AF : after c (it, p) = after c (it, p + 1)).
    { unfold after. rewrite Q. cbn [length snd fst]. lia. }
    rewrite AF, Q. cbn [andb]. destruct (it_leaf it) eqn:LF.
    + rewrite rdv by (specialize (P3 eq_refl); lia). cbn [obind]. rewrite IH. cbn [obind].
      unfold gather. cbn [fst map fold_left]. rewrite LF, add_0_l. reflexivity.
    + cbn [obind]. rewrite IH. cbn [obind]. unfold gather. cbn [fst]. rewrite LF. reflexivity.
  - cbn [andb obind].
    pose proof (dedup_loop_ok (Z.to_nat (it_end it - p)) (it, p) c (r0 R) (Datatypes.S (Z.to_nat (it_end it - p)))) as D.
    cbn [fst snd] in D. rewrite D by (auto; lia). cbn [obind]. reflexivity.
Qed.

(** What is seen. *)
Lemma look_ok always (k : cursor) c : stored_segment k -> starts c k -> snd k < it_end (fst k) ->
  look c ((k, cc k), deduped always c k) = Val (at_coord R c k).
Proof.
  intros S H L. destruct (run_spec _ k c eq_refl S H) as (B1 & B2 & B3 & B4).
  unfold look, deduped, at_coord. destruct k as (it, p). cbn [fst snd] in *.
  pose proof S as (P1 & P2 & P3 & ST).
  destruct (Z.eqb_spec (at_ (it_crd it) p) c) as [E|NE].
  - assert (Q := stored_eq (it, p) c S L E). cbn [fst snd] in Q.
    destruct (it_unique it) eqn:U.
    + assert (Q1 : stored_at c (it, p + 1) = []).
      { unfold stored_at. apply filter_none. intros i I. apply positions_in in I. cbn [fst snd] in *.
        apply Z.eqb_neq. specialize (ST p i ltac:(lia) ltac:(lia) ltac:(lia)). lia. }
      rewrite Q, Q1. destruct (it_leaf it) eqn:LF.
      * rewrite rdv by (specialize (P3 eq_refl); lia). cbn [obind].
        unfold total. cbn. rewrite add_0_l. reflexivity.
      * cbn. reflexivity.
    + destruct (stored_at c (it, p)) as [|i0 t] eqn:SA; [congruence|].
      injection Q as -> QT. destruct (it_leaf it) eqn:LF.
      * unfold gather, total. cbn [fst]. rewrite LF. reflexivity.
      * do 3 f_equal.
        assert (LL : forall l (x d : Z), last (l ++ [x]) d = x) by (induction l as [|a [|b l] IH]; intros; cbn in *; auto).
        rewrite B2. rewrite (positions_app p (after c (it, p) - 1)).
        -- rewrite (positions_cons (after c (it, p) - 1)) by lia. rewrite (positions_nil (after c (it, p) - 1 + 1)) by lia. rewrite LL. lia.
        -- unfold after. rewrite SA. cbn [length snd]. lia.
  - assert (Q : stored_at c (it, p) = []) by (apply stored_gt; auto; intros; cbn [fst snd] in *; specialize (H L); cbn [fst snd] in *; lia).
    rewrite Q. destruct (it_unique it); reflexivity.
Qed.

(** The next position of the two-finger strategy. *)
Lemma advance_ok n1 (k : cursor) c : stored_segment k -> starts c k -> snd k < it_end (fst k) ->
  (n1 = true -> cc k = c) ->
  (let '(p, segend, _) := deduped n1 c k in advance TwoFinger n1 c (fst k) (p + 0) (cc k) segend) = Val (after c k).
Proof.
  intros S H L A. unfold advance, deduped. destruct k as (it, p). cbn [fst snd] in *.
  pose proof S as (P1 & P2 & P3 & ST).
  destruct (it_unique it) eqn:U.
  - assert (X : p + (if at_ (it_crd it) p =? c then 1 else 0) = after c (it, p)).
    { unfold after. destruct (Z.eqb_spec (at_ (it_crd it) p) c) as [E|NE].
      - assert (Q := stored_eq (it, p) c S L E). cbn [fst snd] in Q.
        assert (Q1 : stored_at c (it, p + 1) = []).
        { unfold stored_at. apply filter_none. intros i I. apply positions_in in I. cbn [fst snd] in *.
          apply Z.eqb_neq. specialize (ST p i ltac:(lia) ltac:(lia) ltac:(lia)). lia. }
        rewrite Q, Q1. cbn. lia.
      - assert (Q : stored_at c (it, p) = []) by (apply stored_gt; auto; intros; cbn [fst snd] in *; specialize (H L); cbn [fst snd] in *; lia).
        rewrite Q. cbn. lia. }
    destruct n1.
    + rewrite (A eq_refl), Z.eqb_refl in X. f_equal. lia.
    + rewrite Z.add_0_r. congruence.
  - destruct (it_leaf it); [rewrite Z.add_0_r|]; reflexivity.
Qed.

Definition moved (c : Z) (k : cursor) : cursor := (fst k, after c k).
Definition ready (k : cursor) : Prop := stored_segment k /\ snd k < it_end (fst k).

Lemma iteration_ok cases (ks : list cursor) : ks <> [] -> (forall k, In k ks -> ready k) ->
  exists c, (exists k, In k ks /\ cc k = c) /\ (forall k, In k ks -> c <= cc k) /\
  iteration R TwoFinger cases ks = Val (visits_of R cases ks [c], map (moved c) ks).
Proof.
  intros NE G.
  assert (LD : mapM load_coord ks = Val (map (fun k : cursor => cc k) ks)).
  { apply mapM_ok. intros k I. unfold load_coord. destruct (G k I) as (S & L). destruct k as (it, p).
    destruct S as (P1 & P2 & _). cbn [fst snd] in *. apply rd_ok. lia. }
  set (c := resolve TwoFinger (map (fun k : cursor => cc k) ks)).
  destruct (resolve_min (map (fun k : cursor => cc k) ks)) as (I & M).
  { destruct ks; [congruence|discriminate]. }
  exists c. split.
  { apply in_map_iff in I. destruct I as (k & E & I). exists k. auto. }
  assert (M' : forall k, In k ks -> c <= cc k) by (intros k Ik; apply M; apply in_map_iff; eauto).
  split; [exact M'|].
  assert (A1 : Nat.eqb (length ks) 1 = true -> forall k, In k ks -> cc k = c).
  { intros E k Ik. apply Nat.eqb_eq in E. destruct ks as [|k0 [|]]; try discriminate.
    destruct Ik as [->|[]]. reflexivity. }
  set (n1 := Nat.eqb (length ks) 1) in *.
  set (tup := fun x : cursor => (x, cc x, deduped n1 c x)).
  assert (EM : mapM (look c) (map tup ks) = Val (map (at_coord R c) ks)).
  { rewrite mapM_map. apply mapM_ok. intros k Ik. destruct (G k Ik) as (S & L).
    unfold tup. apply look_ok; auto. intros _; auto. }
  assert (EA : mapM (fun x : (cursor * Z) * (Z * Z * V) =>
                   let '((it, _), ck, (p, segend, _)) := x in
                   advance TwoFinger n1 c it (p + 0) ck segend) (map tup ks) = Val (map (after c) ks)).
  { rewrite mapM_map. apply mapM_ok. intros k Ik. destruct (G k Ik) as (S & L).
    unfold tup. pose proof (advance_ok n1 k c S (fun _ => M' k Ik) L (fun e => A1 e k Ik)) as A.
    destruct k as (it, p). exact A. }
  unfold iteration. fold n1. rewrite LD. cbn [obind]. fold c.
  rewrite (mapM_ok _ (deduped n1 c)).
  2:{ intros k Ik. destruct (G k Ik) as (S & L). apply dedup_ok; auto. intros _; auto. }
  cbn [obind]. rewrite combine_map_r, combine_map_map. fold tup.
  change (fun x : cursor => (x, cc x, deduped n1 c x)) with tup.
  rewrite EM. cbn [obind]. rewrite EA. cbn [obind]. rewrite combine_map_map.
  f_equal. f_equal. unfold visits_of. cbn [flat_map]. rewrite app_nil_r. reflexivity.
Qed.

(** The rest of the trace is about greater coordinates, which the cursors that
    were moved see as before. *)
Lemma moved_ok (k : cursor) c : stored_segment k -> starts c k ->
  stored_segment (moved c k) /\ (forall c', c < c' -> stored_at c' (moved c k) = stored_at c' k) /\
  (forall c', c' <= c -> stored_at c' (moved c k) = []) /\
  (forall i, snd k <= i < after c k -> at_ (it_crd (fst k)) i = c) /\
  snd k <= after c k <= it_end (fst k).
Proof.
  intros S H. destruct (run_spec _ k c eq_refl S H) as (B1 & B2 & B3 & B4). unfold moved.
  split; [apply seg_from; auto|]. split; [|split; [|split; auto]].
  - intros c' C. unfold stored_at. cbn [fst snd]. rewrite (positions_app (snd k) (after c k)) by lia.
    rewrite filter_app. rewrite (filter_none _ (positions (snd k) (after c k))); [reflexivity|].
    intros i I. apply positions_in in I. rewrite B3 by auto. apply Z.eqb_neq. lia.
  - intros c' C. unfold stored_at. cbn [fst snd]. apply filter_none. intros i I. apply positions_in in I.
    specialize (B4 i I). apply Z.eqb_neq. lia.
Qed.
Lemma at_coord_moved (k : cursor) c c' : stored_segment k -> starts c k -> c < c' ->
  at_coord R c' (moved c k) = at_coord R c' k.
Proof.
  intros S H C. destruct (moved_ok k c S H) as (_ & E & _). unfold at_coord. rewrite E by auto. reflexivity.
Qed.

Lemma stored_at_in (k : cursor) c : has c k <-> exists i, snd k <= i < it_end (fst k) /\ at_ (it_crd (fst k)) i = c.
Proof.
  unfold has, stored_at. split.
  - intros H. destruct (filter _ _) as [|i t] eqn:E; [congruence|].
    assert (I : In i (i :: t)) by (left; auto). rewrite <- E in I. apply filter_In in I. destruct I as (I & Q).
    exists i. apply positions_in in I. apply Z.eqb_eq in Q. auto.
  - intros (i & I & Q) E. assert (X : In i []) by (rewrite <- E; apply filter_In; rewrite positions_in, Z.eqb_eq; auto).
    destruct X.
Qed.

Definition dist (ks : list cursor) : nat :=
  fold_right (fun (k : cursor) n => (Z.to_nat (it_end (fst k) - snd k) + n)%nat) O ks.

Lemma dist_moved ks c : (forall k, In k ks -> stored_segment k) -> (forall k, In k ks -> starts c k) ->
  (exists k, In k ks /\ has c k) -> (dist (map (moved c) ks) < dist ks)%nat.
Proof.
  intros S H X.
  assert (W : forall ks, (forall k, In k ks -> stored_segment k) -> (forall k, In k ks -> starts c k) -> (dist (map (moved c) ks) <= dist ks)%nat).
  { clear. induction ks as [|k ks IH]; cbn [dist map fold_right]; intros S H; [lia|].
    destruct (moved_ok k c (S k (or_introl eq_refl)) (H k (or_introl eq_refl))) as (_ & _ & _ & _ & B).
    specialize (IH (fun x I => S x (or_intror I)) (fun x I => H x (or_intror I))). unfold dist in IH. unfold moved at 1 2. cbn [fst snd]. lia. }
  induction ks as [|k ks IH]; [destruct X as (? & [] & _)|].
  destruct (moved_ok k c (S k (or_introl eq_refl)) (H k (or_introl eq_refl))) as (_ & _ & _ & _ & B).
  specialize (W ks (fun x I => S x (or_intror I)) (fun x I => H x (or_intror I))).
  cbn [dist map fold_right]. unfold dist in *. unfold moved at 1 2. cbn [fst snd].
  destruct X as (k' & [->|I] & X).
  - assert (L : (0 < length (stored_at c k'))%nat) by (unfold has in X; destruct (stored_at c k'); [congruence|cbn; lia]).
    unfold after in *. lia.
  - specialize (IH (fun x I => S x (or_intror I)) (fun x I => H x (or_intror I)) (ex_intro _ k' (conj I X))). lia.
Qed.

Lemma none_exhausted_spec (ks : list cursor) : none_exhausted ks = true <-> forall k, In k ks -> snd k < it_end (fst k).
Proof.
  unfold none_exhausted. rewrite forallb_forall. split; intros H k I; specialize (H k I); [apply Z.ltb_lt|apply Z.ltb_lt]; auto.
Qed.

(** [k'] is where cursor [k] is after everything up to the last of [cs]. *)
Definition passed (cs : list Z) (k k' : cursor) : Prop :=
  fst k' = fst k /\ snd k <= snd k' <= it_end (fst k) /\
  (forall i, snd k <= i < snd k' -> In (at_ (it_crd (fst k)) i) cs) /\
  (forall i c, snd k' <= i < it_end (fst k) -> In c cs -> c < at_ (it_crd (fst k)) i).

Lemma merge_ok n : forall cases (ks : list cursor), (dist ks <= n)%nat -> ks <> [] -> (forall k, In k ks -> stored_segment k) ->
  exists cs ks', (forall fuel, (n < fuel)%nat -> merge_point R fuel TwoFinger cases ks = Val (visits_of R cases ks cs, ks')) /\
  StronglySorted Z.lt cs /\
  (forall c, In c cs <-> (exists k, In k ks /\ has c k) /\ (forall k, In k ks -> exists c', c <= c' /\ has c' k)) /\
  Forall2 (passed cs) ks ks' /\ none_exhausted ks' = false.
Proof.
  induction n as [n IH] using lt_wf_ind. intros cases ks D NE S.
  destruct (none_exhausted ks) eqn:X.
  - assert (L : forall k, In k ks -> snd k < it_end (fst k)) by (apply none_exhausted_spec; auto).
    destruct (iteration_ok cases ks NE (fun k I => conj (S k I) (L k I))) as (c & (k0 & I0 & C0) & M & E).
    assert (ST : forall k, In k ks -> starts c k) by (intros k I _; auto).
    assert (H0 : has c k0). { apply stored_at_in. exists (snd k0). split; [specialize (L k0 I0); lia|auto]. }
    assert (DM := dist_moved ks c S ST (ex_intro _ k0 (conj I0 H0))).
    destruct (IH (dist (map (moved c) ks)) ltac:(lia) cases (map (moved c) ks)) as (cs & ks' & E' & SO & CH & PA & EX).
    { lia. } { destruct ks; [congruence|discriminate]. }
    { intros k I. apply in_map_iff in I. destruct I as (k1 & <- & I). apply moved_ok; auto. }
    exists (c :: cs), ks'.
    assert (GT : forall c', In c' cs -> c < c').
    { intros c' I. apply CH in I. destruct I as ((k & I & Hk) & _). apply in_map_iff in I. destruct I as (k1 & <- & I).
      destruct (Z_lt_le_dec c c'); auto. destruct (moved_ok k1 c (S k1 I) (ST k1 I)) as (_ & _ & Z0 & _).
      exfalso. apply Hk. apply Z0. auto. }
    split; [|split; [|split; [|split]]]; auto.
    + intros fuel F. destruct fuel as [|fuel]; [lia|]. cbn [merge_point]. rewrite X, E. cbn [obind].
      rewrite E' by lia. cbn [obind]. f_equal. f_equal.
      unfold visits_of at 3. cbn [flat_map]. unfold visits_of at 1. cbn [flat_map]. rewrite app_nil_r. f_equal.
      unfold visits_of. clear - GT S ST. induction cs as [|c1 cs IHc]; [reflexivity|]. cbn [flat_map].
      rewrite IHc by (intros; apply GT; right; auto). f_equal.
      assert (EQ : map (at_coord R c1) (map (moved c) ks) = map (at_coord R c1) ks).
      { rewrite map_map. apply map_ext_in. intros k I. apply at_coord_moved; auto. apply GT. left; auto. }
      rewrite EQ. reflexivity.
    + constructor; auto. apply Forall_forall. auto.
    + intros c'. split.
      * intros [<-|I].
        { split; [eauto|]. intros k I. exists (cc k). split; [auto|]. apply stored_at_in. exists (snd k). specialize (L k I). split; [lia|auto]. }
        specialize (GT c' I). apply CH in I. destruct I as ((k & I & Hk) & AL). split.
        { apply in_map_iff in I. destruct I as (k1 & <- & I). exists k1. split; auto.
          destruct (moved_ok k1 c (S k1 I) (ST k1 I)) as (_ & Q & _). unfold has in *. rewrite <- Q by auto. auto. }
        { intros k1 I1. destruct (AL (moved c k1)) as (c2 & LE & Hc). { apply in_map; auto. }
          exists c2. split; auto. destruct (moved_ok k1 c (S k1 I1) (ST k1 I1)) as (_ & Q & _). unfold has in *. rewrite <- Q by lia. auto. }
      * intros ((k1 & I1 & H1) & AL).
        assert (LE : c <= c').
        { apply stored_at_in in H1. destruct H1 as (i & Ri & Q). destruct (run_spec _ k1 c eq_refl (S k1 I1) (ST k1 I1)) as (B1 & B2 & B3 & B4).
          destruct (Z_lt_le_dec i (after c k1)); [rewrite B3 in Q by lia; lia|]. specialize (B4 i ltac:(lia)). lia. }
        destruct (Z.eq_dec c c') as [->|NQ]; [left; auto|right]. apply CH. split.
        { exists (moved c k1). split; [apply in_map; auto|]. destruct (moved_ok k1 c (S k1 I1) (ST k1 I1)) as (_ & Q & _). unfold has in *. rewrite Q by lia. auto. }
        { intros k I. apply in_map_iff in I. destruct I as (k2 & <- & I). destruct (AL k2 I) as (c2 & LE2 & H2).
          exists c2. split; auto. destruct (moved_ok k2 c (S k2 I) (ST k2 I)) as (_ & Q & _). unfold has in *. rewrite Q by lia. auto. }
    + clear - PA S ST. remember (map (moved c) ks) as ms. revert ks Heqms S ST.
      induction PA as [|m k' ms ks' P PA IHP]; intros ks E S ST.
      * destruct ks; [constructor|discriminate].
      * destruct ks as [|k ks]; [discriminate|]. injection E as -> E. constructor; [|apply IHP; auto; intros; [apply S|apply ST]; right; auto].
        destruct (moved_ok k c (S k (or_introl eq_refl)) (ST k (or_introl eq_refl))) as (_ & _ & _ & B3 & B1).
        destruct (run_spec _ k c eq_refl (S k (or_introl eq_refl)) (ST k (or_introl eq_refl))) as (_ & _ & _ & B4).
        destruct P as (P1 & P2 & P3 & P4). unfold moved in *. cbn [fst snd] in *. split; [auto|]. split; [lia|]. split.
        { intros i I. destruct (Z_lt_le_dec i (after c k)); [left; symmetry; apply B3; lia|right; apply P3; lia]. }
        { intros i c' I [<-|I']; [apply B4; lia|apply P4; auto]. }
  - exists [], ks. split; [|split; [|split; [|split]]]; auto.
    + intros fuel F. destruct fuel as [|fuel]; [lia|]. cbn [merge_point]. rewrite X. reflexivity.
    + constructor.
    + intros c. split; [intros []|]. intros (_ & AL).
      assert (Y : none_exhausted ks = true); [|congruence]. apply none_exhausted_spec. intros k I.
      destruct (AL k I) as (c' & _ & H). apply stored_at_in in H. destruct H as (i & Ri & _). lia.
    + clear - S. induction ks as [|k ks IHk]; constructor; [|apply IHk; intros; apply S; right; auto].
      specialize (S k (or_introl eq_refl)). destruct k as (it, p). destruct S as (P & _).
      split; [auto|]. cbn [fst snd]. split; [lia|]. split; [intros; lia|intros ? ? ? []].
Qed.
End P.
