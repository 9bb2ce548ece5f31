(** Proofs about loops over fused positions (C61). *)
From Coq Require Import ZArith List Bool Lia Permutation.
From Verif Require Import Outcome CSearch CSearchProofs FusedPos FusedPosSpec.
Import ListNotations.
Local Open Scope Z_scope.

(** ** Ranges *)
Lemma range_nil lo n : n <= 0 -> range lo n = [].
Proof. intros H. unfold range. replace (Z.to_nat n) with O by lia. reflexivity. Qed.
Lemma range_cons lo n : 0 < n -> range lo n = lo :: range (lo + 1) (n - 1).
Proof.
  intros H. unfold range. replace (Z.to_nat n) with (S (Z.to_nat (n - 1))) by lia. cbn [seq map].
  f_equal; [lia|]. rewrite <- seq_shift, map_map. apply map_ext. intros k. lia.
Qed.
Lemma range_In lo n x : In x (range lo n) <-> lo <= x < lo + n.
Proof.
  unfold range. rewrite in_map_iff. setoid_rewrite in_seq. split.
  - intros (k & <- & h). lia.
  - intros h. exists (Z.to_nat (x - lo)). lia.
Qed.
Lemma range_app lo a b : 0 <= a -> 0 <= b -> range lo (a + b) = range lo a ++ range (lo + a) b.
Proof.
  intros Ha Hb. revert lo b Hb. pattern a. apply natlike_ind; [| |exact Ha].
  - intros lo b _. rewrite (range_nil lo 0) by lia. cbn. f_equal; lia.
  - intros x Hx IH lo b Hb. rewrite (range_cons lo (Z.succ x + b)), (range_cons lo (Z.succ x)) by lia.
    cbn [app]. f_equal. replace (Z.succ x + b - 1) with (x + b) by lia. rewrite IH by lia.
    f_equal; f_equal; lia.
Qed.
Lemma range_shift lo d n : map (fun x => d + x) (range lo n) = range (d + lo) n.
Proof. unfold range. rewrite map_map. apply map_ext. intros k. lia. Qed.
Lemma range_filter m n : 0 <= m <= n -> filter (fun p => p <? m) (range 0 n) = range 0 m.
Proof.
  intros H. replace n with (m + (n - m)) by lia. rewrite range_app by lia. rewrite filter_app.
  assert (filter (fun p => p <? m) (range 0 m) = range 0 m) as ->.
  { assert (forall l, (forall x, In x l -> x < m) -> filter (fun p => p <? m) l = l) as G.
    { induction l as [|x l IH]; intros h; [reflexivity|]. cbn. destruct (Z.ltb_spec x m).
      - f_equal. apply IH. intros y hy. apply h. right. exact hy.
      - specialize (h x (or_introl eq_refl)). lia. }
    apply G. intros x hx. apply range_In in hx. lia. }
  assert (filter (fun p => p <? m) (range (0 + m) (n - m)) = []) as ->; [|apply app_nil_r].
  assert (forall l, (forall x, In x l -> m <= x) -> filter (fun p => p <? m) l = []) as G.
  { induction l as [|x l IH]; intros h; [reflexivity|]. cbn. destruct (Z.ltb_spec x m).
    - specialize (h x (or_introl eq_refl)). lia.
    - apply IH. intros y hy. apply h. right. exact hy. }
  apply G. intros x hx. apply range_In in hx. lia.
Qed.
Lemma flat_range (f : Z -> Z) n : 0 <= n -> f 0 = 0 -> (forall p, 0 <= p < n -> f p <= f (p + 1)) ->
  flat_map (fun q => range (f q) (f (q + 1) - f q)) (range 0 n) = range 0 (f n) /\ 0 <= f n.
Proof.
  intros Hn H0. pattern n. apply natlike_ind; [| |exact Hn].
  - intros _. rewrite !range_nil by lia. split; [reflexivity|lia].
  - intros x Hx IH Hm. destruct IH as (IH & P); [intros; apply Hm; lia|].
    unfold Z.succ. rewrite range_app by lia. rewrite flat_map_app, IH.
    rewrite (range_cons (0 + x)), (range_nil (0 + x + 1)) by lia. cbn [flat_map]. rewrite app_nil_r.
    specialize (Hm x ltac:(lia)). split; [|lia].
    transitivity (range 0 (f x + (f (x + 1) - f x))); [|f_equal; lia].
    rewrite range_app by lia. rewrite !Z.add_0_l. reflexivity.
Qed.

(** ** Well-formed chains of levels, the innermost first *)
Fixpoint sz (up : list level) : Z := match up with [] => 1 | l :: up' => count l (sz up') end.
Definition nonempty (l : level) (n : Z) : Prop :=
  match l with Compressed pos _ => forall p, 0 <= p < n -> at_ pos p < at_ pos (p + 1) | _ => True end.
Fixpoint okr (all : bool) (up : list level) : Prop :=
  match up with
  | [] => True
  | l :: up' =>
      level_ok l (sz up') /\
      match up' with
      | [] => True
      | l' :: _ => is_dense l = false /\ (all = true \/ is_dense l' = false -> nonempty l (sz up'))
      end /\ okr all up'
  end.

Definition counts (ls : list level) (n : Z) : Z := fold_left (fun n l => count l n) ls n.
Lemma counts_rev up : counts (rev up) 1 = sz up.
Proof. unfold counts. rewrite <- fold_left_rev_right, rev_involutive. induction up; cbn; congruence. Qed.
Lemma well_formed_app a b n : well_formed (a ++ b) n <-> well_formed a n /\ well_formed b (counts a n).
Proof. revert n. induction a as [|l a IH]; intros n; cbn; [tauto|]. rewrite IH. unfold counts. cbn. tauto. Qed.
Lemma nowhere_empty_app a b n : nowhere_empty (a ++ b) n <-> nowhere_empty a n /\ nowhere_empty b (counts a n).
Proof. revert n. induction a as [|l a IH]; intros n; cbn; [tauto|]. rewrite IH. unfold counts. cbn. tauto. Qed.

Lemma pos_mono pos crd n : level_ok (Compressed pos crd) n ->
  forall a b, 0 <= a -> a <= b -> b <= n -> at_ pos a <= at_ pos b.
Proof.
  intros (_ & _ & M & _) a b Ha Hab Hb.
  replace b with (a + (b - a)) in * by lia. revert Hb. pattern (b - a). apply natlike_ind; [| |lia].
  - intros _. rewrite Z.add_0_r. lia.
  - intros x Hx IH Hb. specialize (IH ltac:(lia)). specialize (M (a + x) ltac:(lia)).
    replace (a + Z.succ x) with (a + x + 1) by lia. lia.
Qed.
Lemma sz_nonneg all up : okr all up -> 0 <= sz up.
Proof.
  induction up as [|l up IH]; cbn [okr sz]; [lia|]. intros (H1 & _ & H2). specialize (IH H2).
  destruct l as [w|pos crd|crd]; cbn [count level_ok] in *; [nia| |lia].
  pose proof (pos_mono _ _ _ H1 0 (sz up) ltac:(lia) ltac:(lia) ltac:(lia)). destruct H1 as (_ & h & _). lia.
Qed.
Lemma size_of_app a b n : size_of (a ++ b) n = (do s <- size_of a n; size_of b s).
Proof.
  revert n. induction a as [|l a IH]; intros n; [reflexivity|].
  destruct l; cbn [size_of app]; rewrite ?IH; try reflexivity.
  destruct (rd pos n); cbn [obind]; rewrite ?IH; reflexivity.
Qed.
Lemma size_of_rev all up : okr all up -> size_of (rev up) 1 = Val (sz up).
Proof.
  induction up as [|l up IH]; [reflexivity|]. intros H. pose proof (sz_nonneg all up) as P.
  cbn [okr] in H. destruct H as (H1 & _ & H2). cbn [rev]. rewrite size_of_app, (IH H2). cbn [obind sz].
  specialize (P H2). destruct l as [w|pos crd|crd]; cbn [size_of count]; [reflexivity| |reflexivity].
  destruct H1 as (h & _). rewrite rd_ok by lia. reflexivity.
Qed.

(** ** The variables of a position *)
Definition owner (child : level) (p q : Z) : Prop :=
  match child with
  | Dense _ => False
  | Compressed pos _ => at_ pos q <= p < at_ pos (q + 1)
  | Singleton _ => p = q
  end.
Fixpoint located (up : list level) (child : level) (p : Z) (st : state) : Prop :=
  match up, st with
  | [], [] => True
  | l :: up', (q, c) :: st' =>
      owner child p q /\ 0 <= q < sz (l :: up') /\ coordinate l q = Val c /\ located up' l q st'
  | _, _ => False
  end.

Lemma owner_unique child n p q q' : level_ok child n -> 0 <= q < n -> 0 <= q' < n ->
  owner child p q -> owner child p q' -> q = q'.
Proof.
  intros L Hq Hq' O O'. destruct child as [w|pos crd|crd]; cbn [owner] in *; [easy| |lia].
  destruct (Z.lt_trichotomy q q') as [h|[h|h]]; [|exact h|].
  - pose proof (pos_mono _ _ _ L (q + 1) q' ltac:(lia) ltac:(lia) ltac:(lia)). lia.
  - pose proof (pos_mono _ _ _ L (q' + 1) q ltac:(lia) ltac:(lia) ltac:(lia)). lia.
Qed.
Lemma located_unique all up : forall child p st st', okr all (child :: up) ->
  located up child p st -> located up child p st' -> st = st'.
Proof.
  induction up as [|l up IH]; intros child p st st' K H H'.
  - destruct st, st'; cbn in *; tauto || reflexivity.
  - destruct st as [|(q, c) st], st' as [|(q', c') st']; cbn [located] in *; try tauto.
    destruct H as (O & R & C & T), H' as (O' & R' & C' & T').
    assert (q = q').
    { cbn [okr] in K. destruct K as (L & _). eapply owner_unique; [exact L|exact R|exact R'|exact O|exact O']. }
    subst q'. rewrite C in C'. injection C' as <-. f_equal. apply (IH l q); [|exact T|exact T'].
    cbn [okr] in K |- *. tauto.
Qed.

Lemma coordinate_ok l n q : level_ok l n -> 0 <= q < count l n -> exists c, coordinate l q = Val c.
Proof.
  intros L H. destruct l as [w|pos crd|crd]; cbn [coordinate count level_ok] in *; [eauto| |].
  - rewrite rd_ok by lia. eauto.
  - rewrite rd_ok by lia. eauto.
Qed.
Lemma upper_ok child n q : is_dense child = false -> level_ok child n -> 0 <= q < n ->
  exists u, upper child q = Val u /\ (forall p, owner child p q -> p < u) /\
    (forall p, owner child p q -> p + 1 <> u -> owner child (p + 1) q) /\
    match child with Compressed pos _ => u = at_ pos (q + 1) | _ => u = q + 1 end.
Proof.
  intros D L H. destruct child as [w|pos crd|crd]; [discriminate| |]; cbn [upper owner].
  - destruct L as (h & _). rewrite rd_ok by lia. eexists. split; [reflexivity|]. repeat split; intros; lia.
  - eexists. split; [reflexivity|]. repeat split; intros; lia.
Qed.
(** The next position is in the next segment. *)
Lemma owner_next child n p q : level_ok child n -> nonempty child n -> 0 <= q < n ->
  is_dense child = false -> p + 1 < count child n -> owner child p q -> upper child q = Val (p + 1) ->
  q + 1 < n /\ owner child (p + 1) (q + 1).
Proof.
  intros L NE H D Hp O U. destruct child as [w|pos crd|crd]; [discriminate| |]; cbn [owner upper count nonempty] in *.
  - assert (E : at_ pos (q + 1) = p + 1).
    { destruct L as (h & _). rewrite rd_ok in U by lia. congruence. }
    assert (q + 1 < n). { destruct (Z.eq_dec (q + 1) n) as [h|h]; [rewrite h in E; lia|lia]. }
    specialize (NE (q + 1) ltac:(lia)). replace (q + 1 + 1) with (q + 2) in * by lia. lia.
  - injection U as U. lia.
Qed.

(** ** Tracking *)
Definition near (child : level) (t q : Z) : Prop :=
  match child with
  | Dense _ => False
  | Compressed pos _ => at_ pos q <= t <= at_ pos (q + 1)
  | Singleton _ => t = q \/ t = q + 1
  end.
Definition row_body (w : Z) (st : state) : outcome state :=
  match st with
  | [] => Oob
  | (p, _) :: st' => do c <- coordinate (Dense w) (p + 1); do st'' <- Val st'; Val ((p + 1, c) :: st'')
  end.
Lemma while_rows child w fuel : forall t q,
  is_dense child = false -> level_ok child w -> 0 <= q < w -> 0 <= t < count child w -> near child t q ->
  w - q < Z.of_nat fuel ->
  exists q', while_loop fuel (at_end child t) (row_body w) [(q, q)] = Val [(q', q')] /\
             owner child t q' /\ 0 <= q' < w.
Proof.
  induction fuel as [|fuel IH]; intros t q D L Hq Ht N F; [lia|].
  destruct (upper_ok child w q D L Hq) as (u & U & _ & _ & Eu). cbn [while_loop at_end]. rewrite U. cbn [obind].
  destruct (Z.eqb_spec t u) as [E|E].
  - cbn [row_body coordinate obind].
    assert (q + 1 < w /\ near child t (q + 1)) as (h1 & h2).
    { destruct child as [w'|pos crd|crd]; [discriminate| |]; cbn [count near] in *.
      - assert (q + 1 < w). { destruct (Z.eq_dec (q + 1) w) as [h|h]; [rewrite <- h in Ht; lia|lia]. }
        split; [exact H|]. split; [lia|]. subst t u. apply (pos_mono _ _ _ L); lia.
      - lia. }
    apply IH; auto; lia.
  - exists q. split; [reflexivity|]. split; [|exact Hq].
    destruct child as [w'|pos crd|crd]; [discriminate| |]; cbn [owner near] in *; lia.
Qed.
Lemma fuel_enough child n : is_dense child = false -> level_ok child n -> 0 <= n -> n < Z.of_nat (fuel_of child).
Proof. intros D L H. destruct child; [discriminate| |]; cbn [fuel_of level_ok] in *; lia. Qed.

Lemma track_rows child w t q : is_dense child = false -> level_ok child w -> 0 <= q < w ->
  0 <= t < count child w -> near child t q ->
  exists q', track [Dense w] child t [(q, q)] = Val [(q', q')] /\ owner child t q' /\ 0 <= q' < w.
Proof.
  intros D L Hq Ht N. apply (while_rows child w (fuel_of child) t q D L Hq Ht N).
  pose proof (fuel_enough child w D L ltac:(lia)). lia.
Qed.

Definition if_body (up' : list level) (l : level) (st : state) : outcome state :=
  match st with
  | [] => Oob
  | (p, _) :: st' =>
      do c <- coordinate l (p + 1);
      do st'' <- track up' l (p + 1) st';
      Val ((p + 1, c) :: st'')
  end.
Lemma track_if l up' child known st : is_dense l = false ->
  track (l :: up') child known st = (do b <- at_end child known st; if b then if_body up' l st else Val st).
Proof. intros D. destruct l; [discriminate| |]; reflexivity. Qed.
Lemma okr_tail all l up : okr all (l :: up) -> okr all up.
Proof. cbn [okr]. tauto. Qed.
Lemma dense_top all w child up : okr all (child :: Dense w :: up) -> up = [].
Proof. destruct up as [|l up]; [reflexivity|]. cbn [okr is_dense]. intros (_ & _ & _ & (h & _) & _). discriminate. Qed.

(** The end of the segment is not reached: nothing changes. *)
Lemma track_same up child t st : up <> [] -> is_dense child = false -> at_end child t st = Val false ->
  track up child t st = Val st.
Proof.
  intros Hu D E. destruct up as [|l up]; [easy|]. destruct (is_dense l) eqn:Dl.
  - destruct l; [|discriminate|discriminate]. cbn [track].
    assert (exists k, fuel_of child = S k) as (k & ->) by (destruct child; cbn; [discriminate|eauto|eauto]).
    cbn [while_loop]. rewrite E. reflexivity.
  - rewrite track_if by exact Dl. rewrite E. reflexivity.
Qed.
Lemma at_end_ok all l up child p st : okr all (child :: l :: up) -> located (l :: up) child p st -> forall t,
  exists u, upper child (match st with (q, _) :: _ => q | [] => 0 end) = Val u /\ at_end child t st = Val (t =? u) /\ p < u.
Proof.
  intros K H t. destruct st as [|(q, c) st]; [destruct H|]. cbn [located] in H. destruct H as (O & R & _).
  cbn [okr] in K. destruct K as (L & (D & _) & _).
  destruct (upper_ok child _ q D L R) as (u & U & h & _). exists u. split; [exact U|]. cbn [at_end]. rewrite U. cbn [obind].
  split; [reflexivity|]. apply h. exact O.
Qed.
Lemma track_stay all up child p st : okr all (child :: up) -> located up child p st -> track up child p st = Val st.
Proof.
  intros K H. destruct up as [|l up]; [reflexivity|].
  destruct (at_end_ok all l up child p st K H p) as (u & _ & E & Hu).
  apply track_same; [discriminate|cbn [okr] in K; tauto|]. rewrite E. f_equal. apply Z.eqb_neq. lia.
Qed.
Lemma track_step all up : forall child p st, okr all (child :: up) -> located up child p st ->
  0 <= p -> p + 1 < sz (child :: up) ->
  exists st', track up child (p + 1) st = Val st' /\ located up child (p + 1) st'.
Proof.
  induction up as [|l up IH]; intros child p st K H Hp Hs.
  - exists st. split; [reflexivity|]. destruct st; exact H.
  - destruct (at_end_ok all l up child p st K H (p + 1)) as (u & U & E & Hu).
    destruct st as [|(q, c) st]; [destruct H|]. pose proof H as H0. cbn [located] in H. destruct H as (O & R & C & T).
    pose proof K as K0. cbn [okr] in K. destruct K as (L & (D & NE) & K).
    change (sz (child :: l :: up)) with (count child (sz (l :: up))) in Hs.
    destruct (is_dense l) eqn:Dl.
    + destruct l as [w| |]; [|discriminate|discriminate].
      assert (up = []) by (apply (dense_top all w child up K0)). subst up.
      destruct st as [|? st]; [|destruct T]. cbn [coordinate] in C. injection C as <-.
      assert (EW : sz [Dense w] = w) by (cbn [sz count]; lia). rewrite EW in *.
      destruct (track_rows child w (p + 1) q D L R ltac:(lia)) as (q' & h1 & h2 & h3).
      { destruct child as [w'|pos crd|crd]; [discriminate| |]; cbn [owner near] in *; lia. }
      exists [(q', q')]. split; [exact h1|]. cbn [located coordinate]. rewrite EW. auto.
    + rewrite track_if by exact Dl. rewrite E. cbn [obind]. destruct (Z.eqb_spec (p + 1) u) as [Eu|Eu].
      * subst u. destruct (owner_next child _ p q L (NE (or_intror eq_refl)) R D Hs O U) as (h1 & h2).
        cbn [if_body]. cbn [okr] in K. destruct (coordinate_ok l (sz up) (q + 1) (proj1 K)) as (c' & C').
        { change (count l (sz up)) with (sz (l :: up)). lia. }
        rewrite C'. cbn [obind].
        destruct (IH l q st) as (st' & T1 & T2); [exact (okr_tail _ _ _ K0)|exact T|lia|lia|].
        rewrite T1. cbn [obind]. eexists. split; [reflexivity|]. cbn [located]. repeat split; auto; lia.
      * eexists. split; [reflexivity|]. cbn [located]. repeat split; auto; try lia.
        destruct (upper_ok child _ q D L R) as (u' & U' & _ & h & _). rewrite U in U'. injection U' as <-.
        apply h; auto.
Qed.

(** ** The loop *)
Definition total (up : list level) (child : level) : Z := sz (child :: up).
Definition located_visit (up : list level) (child : level) (v : visit) : Prop :=
  exists st c, located up child (snd v) st /\ coordinate child (snd v) = Val c /\ 0 <= snd v < total up child /\
               fst v = rev (map snd st) ++ [c].
Lemma located_visit_unique all up child v v' : okr all (child :: up) -> snd v = snd v' ->
  located_visit up child v -> located_visit up child v' -> v = v'.
Proof.
  intros K E (st & c & H1 & H2 & _ & H3) (st' & c' & H1' & H2' & _ & H3'). destruct v as (cs, p), v' as (cs', p').
  cbn [fst snd] in *. subst p'. assert (st = st') by (eapply located_unique; eauto). subst. congruence.
Qed.
Lemma located_visits_unique all up child : okr all (child :: up) -> forall vs vs',
  map snd vs = map snd vs' -> Forall (located_visit up child) vs -> Forall (located_visit up child) vs' -> vs = vs'.
Proof.
  intros K. induction vs as [|v vs IH]; intros [|v' vs'] E F F'; try discriminate; [reflexivity|].
  injection E as E1 E2. inversion F; inversion F'; subst. f_equal; [|auto].
  eapply located_visit_unique; eauto.
Qed.

(** The variables lead to those of position [a]. *)
Definition tracks (up : list level) (child : level) (a : Z) (st : state) : Prop :=
  a < total up child -> exists st', track up child a st = Val st' /\ located up child a st'.

Lemma loop_range all up child k : okr all (child :: up) -> forall a st, 0 <= a ->
  tracks up child a st ->
  exists st' vs, loop up child (total up child) st (range a (Z.of_nat k)) = Val (st', vs) /\
    map snd vs = filter (fun p => p <? total up child) (range a (Z.of_nat k)) /\
    Forall (located_visit up child) vs.
Proof.
  intros K. induction k as [|k IH]; intros a st Ha T.
  - exists st, []. rewrite range_nil by lia. cbn. auto.
  - rewrite range_cons by lia. replace (Z.of_nat (S k) - 1) with (Z.of_nat k) by lia. cbn [loop filter]. unfold iteration.
    destruct (Z.ltb_spec a (total up child)) as [h|h].
    + replace (a >=? total up child) with false by (symmetry; apply Z.geb_leb in h || (rewrite Z.geb_leb; apply Z.leb_gt; lia)).
      destruct (T h) as (st1 & T1 & T2).
      destruct (coordinate_ok child (sz up) a) as (c & C); [cbn [okr] in K; tauto|exact (conj Ha h)|].
      rewrite C. cbn [obind]. rewrite T1. cbn [obind].
      destruct (IH (a + 1) st1 ltac:(lia)) as (st2 & vs & L1 & L2 & L3).
      { intros h'. apply (track_step all); auto. }
      rewrite L1. cbn [obind]. exists st2, ((rev (map snd st1) ++ [c], a) :: vs). split; [reflexivity|]. cbn [map snd].
      split; [congruence|]. constructor; [|exact L3]. exists st1, c. cbn [fst snd]. auto.
    + replace (a >=? total up child) with true by (symmetry; rewrite Z.geb_leb; apply Z.leb_le; lia).
      cbn [obind]. destruct (IH (a + 1) st ltac:(lia)) as (st2 & vs & L1 & L2 & L3); [intros h'; lia|].
      rewrite L1. cbn [obind]. exists st2, vs. auto.
Qed.

(** ** What is stored *)
Lemma stored_snoc ls l p :
  stored (ls ++ [l]) p =
  flat_map (fun '(cs, q) => map (fun '(c, r) => (cs ++ [c], r)) (children l q)) (stored ls p).
Proof.
  revert p. induction ls as [|m ls IH]; intros p.
  - cbn [app stored flat_map]. rewrite app_nil_r. generalize (children l p). intros r.
    induction r as [|(c, q) r IHr]; [reflexivity|].
    cbn [flat_map map app]. f_equal. exact IHr.
  - cbn [app stored]. generalize (children m p). intros r.
    induction r as [|(c, q) r IHr]; [reflexivity|].
    cbn [flat_map]. rewrite flat_map_app. f_equal; [|exact IHr]. rewrite IH.
    generalize (stored ls q). intros vs. induction vs as [|(cs, z) vs IHv]; [reflexivity|].
    cbn [flat_map map]. rewrite map_app, map_map. f_equal; [|exact IHv].
    apply map_ext. intros (c', z'). reflexivity.
Qed.

Lemma levels_cons l up child : levels (l :: up) child = levels up l ++ [child].
Proof. reflexivity. Qed.

Lemma map_flat_map {A B C} (g : B -> C) (f : A -> list B) l :
  map g (flat_map f l) = flat_map (fun x => map g (f x)) l.
Proof. induction l as [|x l IH]; [reflexivity|]. cbn. rewrite map_app, IH. reflexivity. Qed.
Lemma flat_map_map' {A B C} (f : B -> list C) (g : A -> B) l :
  flat_map f (map g l) = flat_map (fun x => f (g x)) l.
Proof. induction l as [|x l IH]; [reflexivity|]. cbn. rewrite IH. reflexivity. Qed.

Lemma children_snd l p : map snd (children l p) =
  match l with
  | Dense n => range (p * n) n
  | Compressed pos _ => range (at_ pos p) (at_ pos (p + 1) - at_ pos p)
  | Singleton _ => [p]
  end.
Proof.
  destruct l as [w|pos crd|crd]; cbn [children]; [| |reflexivity].
  - rewrite map_map. cbn [snd]. rewrite range_shift. f_equal. lia.
  - rewrite map_map. cbn [snd]. apply map_id.
Qed.
Lemma children_owner child n q c r : is_dense child = false -> level_ok child n -> 0 <= q < n ->
  In (c, r) (children child q) -> owner child r q /\ coordinate child r = Val c /\ 0 <= r < count child n.
Proof.
  intros D L Hq H. destruct child as [w|pos crd|crd]; [discriminate| |]; cbn [children owner coordinate count] in *.
  - apply in_map_iff in H. destruct H as (x & E & H). injection E as <- <-. apply range_In in H.
    pose proof (pos_mono _ _ _ L 0 q ltac:(lia) ltac:(lia) ltac:(lia)).
    pose proof (pos_mono _ _ _ L (q + 1) n ltac:(lia) ltac:(lia) ltac:(lia)).
    destruct L as (h1 & h2 & h3 & h4). rewrite rd_ok by lia. repeat split; lia || reflexivity.
  - destruct H as [H|[]]. injection H as <- <-. cbn [level_ok] in L. rewrite rd_ok by lia.
    repeat split; lia || reflexivity.
Qed.

Lemma stored_located all up : forall child, okr all (child :: up) ->
  map snd (stored (levels up child) 0) = range 0 (total up child) /\
  Forall (located_visit up child) (stored (levels up child) 0).
Proof.
  induction up as [|l up IH]; intros child K; unfold total.
  - unfold levels. cbn [rev app stored]. rewrite map_flat_map.
    assert (E : flat_map (fun x => map snd (let '(c, q) := x in map (fun '(cs, z) => (c :: cs, z)) [([], q)])) (children child 0)
                = map snd (children child 0)).
    { generalize (children child 0). intros r. induction r as [|(c, q) r IHr]; [reflexivity|]. cbn in *. f_equal. exact IHr. }
    rewrite E, children_snd. cbn [sz okr] in *. destruct K as (L & _). split.
    + destruct child as [w|pos crd|crd]; cbn [count].
      * f_equal; lia.
      * destruct L as (_ & h & _). change (0 + 1) with 1. f_equal; lia.
      * reflexivity.
    + apply Forall_forall. intros v Hv. apply in_flat_map in Hv. destruct Hv as ((c, q) & H1 & H2).
      destruct H2 as [H2|[]]. subst v. exists [], c. cbn [snd fst located total sz rev map app].
      assert (coordinate child q = Val c /\ 0 <= q < count child 1) as (h1 & h2); [|auto].
      destruct (is_dense child) eqn:D.
      * destruct child as [w| |]; [|discriminate|discriminate]. cbn [children coordinate count] in *.
        apply in_map_iff in H1. destruct H1 as (x & E1 & H1). injection E1 as <- <-. apply range_In in H1.
        split; [f_equal; lia|lia].
      * apply (children_owner child 1 0 c q D L); [lia|exact H1].
  - destruct (IH l (okr_tail _ _ _ K)) as (P & F). rewrite levels_cons, stored_snoc.
    pose proof (sz_nonneg all (l :: up) (okr_tail _ _ _ K)) as NN. pose proof K as K0.
    cbn [okr] in K. destruct K as (L & (D & _) & K). unfold total in *. split.
    + rewrite map_flat_map.
      assert (E : flat_map (fun x => map snd (let '(cs, q) := x in map (fun '(c, r) => (cs ++ [c], r)) (children child q)))
                    (stored (levels up l) 0)
                  = flat_map (fun q => map snd (children child q)) (range 0 (sz (l :: up)))).
      { rewrite <- P, flat_map_map'. apply flat_map_ext. intros (cs, q). cbn [snd]. rewrite map_map.
        apply map_ext. intros (c, r). reflexivity. }
      rewrite E. change (sz (child :: l :: up)) with (count child (sz (l :: up))).
      destruct child as [w|pos crd|crd]; [discriminate| |].
      * erewrite flat_map_ext; [|intros q; apply children_snd]. cbv beta iota. cbn [count].
        destruct L as (_ & h2 & h3 & _).
        exact (proj1 (flat_range (at_ pos) (sz (l :: up)) NN h2 h3)).
      * erewrite flat_map_ext; [|intros q; apply children_snd]. cbv beta iota. cbn [count].
        generalize (range 0 (sz (l :: up))). intros r. induction r as [|x r IHr]; [reflexivity|]. cbn. f_equal. exact IHr.
    + apply Forall_forall. intros v Hv. apply in_flat_map in Hv. destruct Hv as ((cs, q) & H1 & H2).
      apply in_map_iff in H2. destruct H2 as ((c, r) & <- & H2).
      rewrite Forall_forall in F. destruct (F _ H1) as (st & c1 & G1 & G2 & G3 & G4). cbn [fst snd] in *. unfold total in G3.
      destruct (children_owner child _ q c r D L G3 H2) as (O & C & R).
      exists ((q, c1) :: st), c. cbn [fst snd]. cbn [located map snd rev].
      change (total (l :: up) child) with (count child (sz (l :: up))).
      rewrite G4. auto 10.
Qed.

(** ** Operands *)
Definition filled (all : bool) (ls : list level) : Prop :=
  if all then no_empty_rows ls
  else match ls with
       | Dense w :: l :: r => nowhere_empty r (count l w)
       | l :: r => nowhere_empty r (count l 1)
       | [] => True
       end.
Lemma okr_of all up : well_formed (rev up) 1 -> forallb (fun l => negb (is_dense l)) (tl (rev up)) = true ->
  filled all (rev up) -> okr all up.
Proof.
  induction up as [|l up IH]; [easy|]. cbn [rev]. intros W T E.
  apply well_formed_app in W. destruct W as (W1 & W2). rewrite counts_rev in W2. cbn [well_formed] in W2.
  destruct up as [|l' up']; [cbn [okr]; tauto|].
  assert (T' : forallb (fun l => negb (is_dense l)) (tl (rev (l' :: up'))) = true /\ is_dense l = false).
  { destruct (rev (l' :: up')) as [|a r] eqn:R.
    - apply (f_equal (@length _)) in R. rewrite rev_length in R. discriminate.
    - cbn [app tl] in T |- *. rewrite forallb_app in T. apply andb_true_iff in T. destruct T as (T1 & T2).
      split; [exact T1|]. cbn in T2. destruct (is_dense l); [discriminate|reflexivity]. }
  destruct T' as (T1 & T2).
  assert (E' : filled all (rev (l' :: up')) /\ (all = true \/ is_dense l' = false -> nonempty l (sz (l' :: up')))).
  { pose proof (counts_rev (l' :: up')) as CR. destruct (rev (l' :: up')) as [|a r] eqn:R.
    - apply (f_equal (@length _)) in R. rewrite rev_length in R. discriminate.
    - destruct r as [|b r].
      + assert (up' = [] /\ l' = a) as (-> & ->).
        { cbn [rev] in R. destruct up' as [|x up']; [cbn in R; split; congruence|].
          apply (f_equal (@length _)) in R. cbn [rev] in R. rewrite !app_length in R. cbn in R. lia. }
        split; [destruct all, a; exact I|]. intros D.
        destruct all; [|destruct D as [D|D]; [discriminate|]].
        * cbn [app filled no_empty_rows nowhere_empty] in E. destruct E as (E & _). exact E.
        * destruct a; [discriminate| |]; cbn [app filled nowhere_empty] in E; destruct E as (E & _); exact E.
      + unfold counts in CR. cbn [fold_left] in CR. cbn [app] in E.
        assert (G : nowhere_empty (b :: r) (count a 1) /\ nonempty l (sz (l' :: up')) \/
                    is_dense a = true /\ all = false /\ nowhere_empty r (count b (count a 1)) /\ nonempty l (sz (l' :: up'))).
        { rewrite <- CR. destruct (is_dense a && negb all) eqn:Da.
          - right. apply andb_true_iff in Da. destruct Da as (Da & Db). destruct all; [discriminate|].
            destruct a as [w| |]; [|discriminate|discriminate]. cbn [filled] in E.
            apply nowhere_empty_app in E. unfold counts in E. cbn [nowhere_empty] in E.
            replace (count (Dense w) 1) with w by (cbn [count]; lia).
            destruct E as (E1 & E2 & _). repeat split; [exact E1|]. exact E2.
          - left. assert (E3 : nowhere_empty ((b :: r) ++ [l]) (count a 1)).
            { destruct all; [exact E|]. destruct a; [discriminate|exact E|exact E]. }
            apply nowhere_empty_app in E3. unfold counts in E3. cbn [fold_left] in E3.
            destruct E3 as (E1 & E2 & _). split; [exact E1|exact E2]. }
        destruct G as [(G1 & G2)|(G1 & -> & G2 & G3)].
        * split; [|intros _; exact G2]. destruct all; [exact G1|]. cbn [filled]. destruct a as [w| |]; try exact G1.
          cbn [nowhere_empty] in G1. replace (count (Dense w) 1) with w in G1 by (cbn [count]; lia). apply G1.
        * split; [|intros _; exact G3]. destruct a as [w| |]; [|discriminate|discriminate]. cbn [filled].
          replace (count (Dense w) 1) with w in G2 by (cbn [count]; lia). exact G2. }
  destruct E' as (E1 & E2).
  change (okr all (l :: l' :: up')) with
    (level_ok l (sz (l' :: up')) /\ (is_dense l = false /\ (all = true \/ is_dense l' = false -> nonempty l (sz (l' :: up')))) /\
     okr all (l' :: up')).
  split; [apply W2|]. split; [split; [exact T2|exact E2]|]. apply IH; assumption.
Qed.
Lemma fusible_tail ls : fusible ls -> forallb (fun l => negb (is_dense l)) (tl ls) = true.
Proof. destruct ls as [|a [|b r]]; cbn [fusible tl]; tauto. Qed.
Lemma operand_okr up child : operand (levels up child) -> okr false (child :: up).
Proof. intros (F & W & E). apply okr_of; [exact W|apply fusible_tail, F|exact E]. Qed.
Lemma operand_full up child : operand (levels up child) -> no_empty_rows (levels up child) -> okr true (child :: up).
Proof. intros (F & W & _) E. apply okr_of; [exact W|apply fusible_tail, F|exact E]. Qed.
Lemma operand_up up child : operand (levels up child) -> up <> [].
Proof. intros (F & _) ->. exact F. Qed.
Lemma levels_size all up child : okr all (child :: up) -> size_of (levels up child) 1 = Val (total up child).
Proof. apply size_of_rev. Qed.

(** ** Chunks *)
Lemma chunks_range factors : nested factors -> forall n, 0 <= n ->
  exists M, flat_map positions_of (chunks n factors) = range 0 M /\ n <= M /\
            (match factors with [] => True | s :: _ => (s | n) end -> M = n).
Proof.
  induction factors as [|s r IH]; intros N n Hn.
  - exists n. cbn. rewrite app_nil_r. auto with zarith.
  - cbn [nested] in N. destruct N as (Hs & Hd & N). destruct (IH N s ltac:(lia)) as (M & E & _ & EM).
    assert (M = s) by (apply EM; destruct r; [exact I|exact Hd]). subst M.
    set (k := (n + (s - 1)) / s).
    assert (Hk : n <= k * s /\ k * s < n + s).
    { unfold k. pose proof (Z.div_mod (n + (s - 1)) s ltac:(lia)).
      pose proof (Z.mod_pos_bound (n + (s - 1)) s ltac:(lia)). lia. }
    exists (k * s). cbn [chunks]. fold k. split; [|split; [lia|]].
    + assert (E2 : flat_map positions_of
                (flat_map (fun o => map (fun '(b, k0) => (o * s + b, k0)) (chunks s r)) (range 0 k)) =
              flat_map (fun o => range (o * s) ((o + 1) * s - o * s)) (range 0 k)).
      { generalize (range 0 k). intros os. induction os as [|o os IHo]; [reflexivity|].
        cbn [flat_map]. rewrite flat_map_app, IHo. f_equal.
        replace ((o + 1) * s - o * s) with s by lia.
        replace (range (o * s) s) with (map (fun x => o * s + x) (range 0 s)) by (rewrite range_shift; f_equal; lia).
        rewrite <- E. rewrite map_flat_map, flat_map_map'. apply flat_map_ext. intros (b, j).
        unfold positions_of. cbn [fst snd]. rewrite range_shift. reflexivity. }
      rewrite E2. apply (flat_range (fun q => q * s) k); nia.
    + intros (d & ->). assert (Ek : k = d) by (clearbody k; nia). rewrite Ek. lia.
Qed.

(** ** The serial loop *)
Lemma located_zero all up : forall child st, okr all (child :: up) -> 
  located up child 0 st -> (forall c, In c (map snd st) -> c = 0) -> st = initial up.
Proof.
  induction up as [|l up IH]; intros child st K H Z.
  - destruct st; [reflexivity|destruct H].
  - destruct st as [|(q, c) st]; [destruct H|]. cbn [located] in H. destruct H as (O & R & C & T).
    assert (c = 0) by (apply Z; left; reflexivity). subst c.
    pose proof K as K0. cbn [okr] in K. destruct K as (L & (D & NE) & K).
    assert (q = 0) as ->.
    { destruct (is_dense l) eqn:Dl.
      - destruct l; [|discriminate|discriminate]. cbn [coordinate] in C. congruence.
      - specialize (NE (or_intror eq_refl)). destruct child as [w|pos crd|crd]; [discriminate| |]; cbn [owner nonempty] in *.
        + destruct (Z.eq_dec q 0) as [h|h]; [exact h|].
          pose proof (pos_mono _ _ _ L 1 q ltac:(lia) ltac:(lia) ltac:(lia)).
          specialize (NE 0 ltac:(lia)). destruct L as (_ & L & _). change (0 + 1) with 1 in NE. lia.
        + lia. }
    cbn [initial map]. f_equal. apply (IH l); [exact (okr_tail _ _ _ K0)|exact T|].
    intros c Hc. apply Z. right. exact Hc.
Qed.

Lemma serial_positions up child factors : operand (levels up child) -> nested factors ->
  exists k, flat_map positions_of (chunks (total up child) factors) = range 0 (Z.of_nat k) /\
            total up child <= Z.of_nat k /\
            serial up child factors = loop up child (total up child) (initial up) (range 0 (Z.of_nat k)).
Proof.
  intros O N. pose proof (operand_okr _ _ O) as K. unfold serial. rewrite (levels_size _ _ _ K). cbn [obind].
  pose proof (sz_nonneg _ _ K) as P. destruct (chunks_range factors N (total up child) P) as (M & E & HM & _).
  fold (total up child) in P. exists (Z.to_nat M). rewrite Z2Nat.id by lia. rewrite E. auto.
Qed.

Lemma serial_of_tracks up child factors : operand (levels up child) -> nested factors ->
  tracks up child 0 (initial up) ->
  exists st, serial up child factors = Val (st, stored (levels up child) 0).
Proof.
  intros O N T. pose proof (operand_okr _ _ O) as K.
  destruct (serial_positions up child factors O N) as (k & _ & Hk & ->).
  destruct (loop_range false up child k K 0 (initial up) ltac:(lia) T) as (st & vs & -> & E & F).
  exists st. f_equal. f_equal. destruct (stored_located false up child K) as (E' & F').
  apply (located_visits_unique false up child K); [|exact F|exact F'].
  rewrite E, E'. apply range_filter. pose proof (sz_nonneg _ _ K). unfold total in *. lia.
Qed.

Lemma map_cons_inv {A B} (f : A -> B) l b r : map f l = b :: r -> exists a l', l = a :: l' /\ f a = b /\ map f l' = r.
Proof. destruct l as [|a l]; [discriminate|]. intros E. injection E as E1 E2. eauto. Qed.

Lemma rows_up up child : rows_of (levels up child) = true -> exists w, up = [Dense w].
Proof.
  intros H. destruct up as [|l [|l2 up]]; [unfold levels in H; cbn in H; destruct child; discriminate| |].
  - unfold levels in H. cbn in H. destruct l; try discriminate. eauto.
  - unfold levels in H. remember (rev (child :: l :: l2 :: up)) as r eqn:R.
    assert (length r = length (child :: l :: l2 :: up)) as E by (subst r; apply rev_length).
    cbn in E. destruct r as [|[] [|? [|? r]]]; cbn in E, H; try discriminate.
Qed.

Lemma near_zero child n : is_dense child = false -> level_ok child n -> 0 < n -> near child 0 0.
Proof.
  intros D L H. destruct child as [w|pos crd|crd]; [discriminate| |]; cbn [near]; [|lia].
  destruct L as (_ & h & M & _). specialize (M 0 ltac:(lia)). lia.
Qed.

Lemma initial_rows w child : okr false [child; Dense w] -> tracks [Dense w] child 0 (initial [Dense w]).
Proof.
  intros K H. cbn [okr] in K. destruct K as (L & (D & _) & (Hw & _)). cbn [level_ok] in Hw.
  unfold total in H. cbn [sz] in *. replace (count (Dense w) 1) with w in * by (cbn [count]; lia).
  assert (w <> 0).
  { intros ->. destruct child as [w|pos crd|crd]; [discriminate| |]; cbn [count level_ok] in *; lia. }
  destruct (track_rows child w 0 0 D L ltac:(lia) ltac:(lia) (near_zero child w D L ltac:(lia))) as (q & T & O & R).
  exists [(q, q)]. split; [exact T|]. cbn [located coordinate sz]. replace (count (Dense w) 1) with w by (cbn [count]; lia). auto.
Qed.

Lemma removelast_last {A} (l : list A) a : removelast (l ++ [a]) = l.
Proof. apply removelast_last. Qed.

Theorem serial_iff up child factors : operand (levels up child) -> nested factors ->
  ((exists st, serial up child factors = Val (st, stored (levels up child) 0)) <->
   (rows_of (levels up child) = true \/
    forall v, hd_error (stored (levels up child) 0) = Some v -> outer_zero v)).
Proof.
  intros O N. pose proof (operand_okr _ _ O) as K. destruct (stored_located false up child K) as (E & F). split.
  - intros (st & S). destruct (rows_of (levels up child)) eqn:Rw; [left; reflexivity|right].
    intros v Hv. destruct (stored (levels up child) 0) as [|v' vs] eqn:St; [discriminate|].
    injection Hv as ->.
    assert (P : 0 < total up child).
    { inversion F as [|? ? (? & ? & _ & _ & G & _)]; subst. lia. }
    destruct (serial_positions up child factors O N) as (k & _ & Hk & Es). rewrite Es in S. clear Es.
    rewrite range_cons in S by lia. cbn [loop] in S. unfold iteration at 1 in S.
    replace (0 >=? total up child) with false in S by (symmetry; rewrite Z.geb_leb; apply Z.leb_gt; lia).
    destruct (coordinate child 0) as [c| |]; [|discriminate|discriminate]. cbn [obind] in S.
    assert (T : track up child 0 (initial up) = Val (initial up)).
    { destruct up as [|l up]; [reflexivity|]. 
      pose proof K as K0. cbn [okr] in K. destruct K as (L & (D & NE) & K).
      apply track_same; [discriminate|exact D|]. cbn [initial map at_end].
      assert (Dl : is_dense l = false).
      { destruct (is_dense l) eqn:Dl; [|reflexivity]. destruct l as [w| |]; [|discriminate|discriminate].
        assert (up = []) by (exact (dense_top _ _ _ _ K0)). subst up. discriminate Rw. }
      specialize (NE (or_intror Dl)). pose proof (sz_nonneg _ _ (okr_tail _ _ _ K0)) as NN.
      unfold total in P. change (sz (child :: l :: up)) with (count child (sz (l :: up))) in P.
      destruct child as [w|pos crd|crd]; [discriminate| |]; cbn [upper obind count nonempty level_ok] in *; [|reflexivity].
      destruct L as (L1 & L2 & L3 & L4).
      assert (0 < sz (l :: up)). { destruct (Z.eq_dec (sz (l :: up)) 0) as [h|h]; [rewrite h in P; lia|lia]. }
      rewrite rd_ok by lia. cbn [obind]. f_equal. apply Z.eqb_neq. specialize (NE 0 ltac:(lia)). lia. }
    rewrite T in S. cbn [obind] in S.
    destruct (loop up child (total up child) (initial up) (range (0 + 1) (Z.of_nat k - 1))) as [(st2, v2)| |]; [|discriminate|discriminate].
    cbn [obind app] in S. injection S as _ S _. subst v. intros x Hx. cbn [fst] in Hx. rewrite removelast_last in Hx.
    apply in_rev in Hx. unfold initial in Hx. rewrite map_map in Hx. apply in_map_iff in Hx. destruct Hx as (? & h & _). exact (eq_sym h).
  - intros [Rw|Z]; apply serial_of_tracks; auto.
    + destruct (rows_up up child Rw) as (w & ->). apply initial_rows. exact K.
    + intros P. destruct (stored (levels up child) 0) as [|v vs] eqn:St.
      { rewrite range_cons in E by lia. discriminate. }
      specialize (Z v eq_refl). rewrite range_cons in E by lia. injection E as E1 E2.
      inversion F as [|? ? (st & c & G1 & G2 & G3 & G4)]; subst. rewrite E1 in *.
      assert (st = initial up).
      { apply (located_zero false up child st K G1). intros x Hx. apply Z. rewrite G4, removelast_last. apply in_rev in Hx. exact Hx. }
      subst st. exists (initial up). split; [|exact G1]. apply (track_stay false); assumption.
Qed.

(** ** Chunks of parallel loops *)
Fixpoint compressed_below (up : list level) (child : level) : Prop :=
  match up with [] => True | l :: up' => is_compressed child = true /\ compressed_below up' l end.
Lemma compressed_levels up : forall child, forallb is_compressed (tl (levels up child)) = true -> compressed_below up child.
Proof.
  induction up as [|l up IH]; intros child H; [exact I|]. rewrite levels_cons in H. cbn [compressed_below].
  assert (levels up l <> []) as NN. { unfold levels. cbn [rev]. intros E. apply app_eq_nil in E. destruct E as (_ & E). discriminate. }
  destruct (levels up l) as [|a r] eqn:E; [easy|]. cbn [app tl] in H. rewrite forallb_app in H.
  apply andb_true_iff in H. destruct H as (H1 & H2). split.
  - cbn in H2. destruct (is_compressed child); [reflexivity|discriminate].
  - apply IH. rewrite E. exact H1.
Qed.

Lemma search_pos pos crd n t : level_ok (Compressed pos crd) n -> 0 <= n -> 0 <= t ->
  exists r, taco_binarySearchBefore pos 0 n t = Val r /\ 0 <= r <= n /\ at_ pos r <= t /\
    (at_ pos r = t \/ forall i, r < i <= n -> t < at_ pos i).
Proof.
  intros L Hn Ht. pose proof (pos_mono _ _ _ L) as M. destruct L as (L1 & L2 & L3 & L4).
  destruct (search_before_weak_spec pos 0 n t) as (r & E & R1 & R2 & R3); try lia.
  - unfold weak_on. intros i j Hi Hij Hj. apply M; lia.
  - exists r. repeat split; auto; lia.
Qed.

Lemma search_located up : forall child t, okr true (child :: up) -> compressed_below up child ->
  0 <= t < total up child -> exists st, search [] up child t = Val st /\ located up child t st.
Proof.
  induction up as [|l up IH]; intros child t K C Ht; [exists []; split; [reflexivity|exact I]|].
  cbn [compressed_below] in C. destruct C as (C & Cr).
  pose proof K as K0. cbn [okr] in K. destruct K as (L & (D & NE) & K). specialize (NE (or_introl eq_refl)).
  destruct child as [w|pos crd|crd]; [discriminate| |discriminate].
  pose proof (sz_nonneg _ _ (okr_tail _ _ _ K0)) as NN.
  cbn [search app]. rewrite (size_of_rev true (l :: up) (okr_tail _ _ _ K0)). cbn [obind].
  destruct (search_pos pos crd _ t L NN ltac:(lia)) as (r & E & R1 & R2 & R3). rewrite E. cbn [obind].
  unfold total in Ht. change (sz (Compressed pos crd :: l :: up)) with (at_ pos (sz (l :: up))) in Ht.
  assert (R : r < sz (l :: up)).
  { destruct (Z.eq_dec r (sz (l :: up))) as [h|h]; [rewrite h in R2; lia|lia]. }
  cbn [nonempty] in NE. specialize (NE r ltac:(lia)).
  destruct (coordinate_ok l (sz up) r) as (c & Hc); [apply K|exact (conj (proj1 R1) R)|].
  rewrite Hc. cbn [obind].
  destruct (IH l r (okr_tail _ _ _ K0) Cr) as (st & S & T); [unfold total; lia|].
  rewrite S. cbn [obind]. exists ((r, c) :: st). split; [reflexivity|]. cbn [located owner].
  repeat split; auto; try lia. destruct R3 as [R3|R3]; [lia|]. apply R3. lia.
Qed.

Lemma search_rows pos crd w t : okr false [Compressed pos crd; Dense w] -> 0 <= t ->
  exists st, search [] [Dense w] (Compressed pos crd) t = Val st /\
    tracks [Dense w] (Compressed pos crd) t st.
Proof.
  intros K Ht. cbn [okr] in K. destruct K as (L & (D & _) & (Hw & _)). cbn [level_ok] in Hw.
  assert (EW : sz [Dense w] = w) by (cbn [sz count]; lia). rewrite EW in L.
  cbn [search app rev size_of obind]. replace (1 * w) with w by lia.
  destruct (search_pos pos crd w t L Hw Ht) as (r & E & R1 & R2 & R3). rewrite E. cbn [obind coordinate].
  exists [(r, r)]. split; [reflexivity|]. intros P. unfold total in P.
  change (sz [Compressed pos crd; Dense w]) with (at_ pos (sz [Dense w])) in P. rewrite EW in P.
  assert (R : r < w). { destruct (Z.eq_dec r w) as [h|h]; [subst r; lia|lia]. }
  destruct (track_rows (Compressed pos crd) w t r D L ltac:(lia)) as (q & T & O & Rq).
  - cbn [count]. lia.
  - cbn [near]. split; [lia|]. destruct R3 as [R3|R3].
    + destruct L as (_ & _ & M & _). specialize (M r ltac:(lia)). lia.
    + specialize (R3 (r + 1) ltac:(lia)). lia.
  - exists [(q, q)]. split; [exact T|]. cbn [located]. rewrite EW. cbn [coordinate]. auto.
Qed.

Lemma search_tracks up child t : operand (levels up child) -> searchable (levels up child) -> 0 <= t ->
  rows_of (levels up child) = true \/ t < total up child ->
  exists st, search [] up child t = Val st /\ tracks up child t st.
Proof.
  intros O (C & S) Ht R. apply compressed_levels in C. destruct (rows_of (levels up child)) eqn:Rw.
  - destruct (rows_up _ _ Rw) as (w & ->). destruct C as (C & _). destruct child as [|pos crd|]; [discriminate| |discriminate].
    apply search_rows; [|exact Ht]. apply operand_okr. exact O.
  - destruct S as [S|S]; [discriminate|]. destruct R as [R|R]; [discriminate|].
    pose proof (operand_full _ _ O S) as K.
    destruct (search_located up child t K C (conj Ht R)) as (st & E & L). exists st. split; [exact E|].
    intros _. exists st. split; [|exact L]. apply (track_stay true); assumption.
Qed.

Lemma firstn_range k lo n : firstn k (range lo n) = range lo (Z.min (Z.of_nat k) n).
Proof.
  unfold range. rewrite firstn_map. f_equal.
  assert (forall a b m, firstn a (seq m b) = seq m (Nat.min a b)) as G.
  { induction a as [|a IH]; intros [|b] m; cbn; try reflexivity. f_equal. apply IH. }
  rewrite G. f_equal. lia.
Qed.
Lemma skipn_range k lo n : skipn k (range lo n) = range (lo + Z.of_nat k) (n - Z.of_nat k).
Proof.
  revert lo n. induction k as [|k IH]; intros lo n; [cbn [skipn]; f_equal; lia|].
  destruct (Z.leb_spec n 0).
  - rewrite !range_nil by lia. reflexivity.
  - rewrite range_cons by lia. cbn [skipn]. rewrite IH. f_equal; lia.
Qed.
Lemma filter_range_slice a k m : 0 <= a -> 0 <= k -> 0 <= m ->
  filter (fun p => p <? m) (range a k) = firstn (Z.to_nat k) (skipn (Z.to_nat a) (range 0 m)).
Proof.
  intros Ha Hk Hm. rewrite skipn_range, firstn_range. rewrite !Z2Nat.id by lia. rewrite Z.add_0_l.
  revert a Ha. pattern k. apply natlike_ind; [| |exact Hk].
  - intros a Ha. rewrite !range_nil by lia. reflexivity.
  - intros x Hx IH a Ha. rewrite (range_cons a (Z.succ x)) by lia. cbn [filter].
    replace (Z.succ x - 1) with x by lia. rewrite IH by lia. destruct (Z.ltb_spec a m).
    + rewrite (range_cons a (Z.min (Z.succ x) (m - a))) by lia. f_equal. f_equal. lia.
    + rewrite !range_nil by lia. reflexivity.
Qed.
Lemma Forall_firstn' {A} (P : A -> Prop) k l : Forall P l -> Forall P (firstn k l).
Proof. intros H. revert k. induction H; intros [|k]; cbn; constructor; auto. Qed.
Lemma Forall_skipn' {A} (P : A -> Prop) k l : Forall P l -> Forall P (skipn k l).
Proof. intros H. revert k. induction H; intros [|k]; cbn; auto. Qed.

Lemma map_slice {A B} (f : A -> B) chunk vs : map f (slice chunk vs) = slice chunk (map f vs).
Proof. unfold slice. rewrite <- firstn_map, <- skipn_map. reflexivity. Qed.

Lemma loop_slice all up child a k st : okr all (child :: up) -> 0 <= a -> 0 <= k -> tracks up child a st ->
  exists st', loop up child (total up child) st (range a k) = Val (st', slice (a, k) (stored (levels up child) 0)).
Proof.
  intros K Ha Hk T. destruct (stored_located all up child K) as (E' & F').
  destruct (loop_range all up child (Z.to_nat k) K a st Ha T) as (st' & vs & L & E & F).
  rewrite Z2Nat.id in L, E by lia. exists st'. rewrite L. f_equal. f_equal.
  apply (located_visits_unique all up child K); [|exact F|apply Forall_firstn', Forall_skipn', F'].
  rewrite E. etransitivity; [|symmetry; exact (map_slice snd _ _)]. rewrite E'. apply filter_range_slice; [exact Ha|exact Hk|].
  exact (sz_nonneg _ _ K).
Qed.

Lemma stored_length all up child : okr all (child :: up) ->
  Z.of_nat (length (stored (levels up child) 0)) = total up child.
Proof.
  intros K. destruct (stored_located _ _ _ K) as (E & _). pose proof (sz_nonneg _ _ K) as P. fold (total up child) in P.
  assert (length (stored (levels up child) 0) = length (range 0 (total up child))) as ->.
  { rewrite <- E. symmetry. apply map_length. }
  unfold range. rewrite map_length, seq_length. lia.
Qed.

Theorem chunk_exact up child chunk : operand (levels up child) -> searchable (levels up child) ->
  0 <= fst chunk -> 0 <= snd chunk ->
  rows_of (levels up child) = true \/ fst chunk < Z.of_nat (length (stored (levels up child) 0)) ->
  chunk_loop [] up child chunk = Val (slice chunk (stored (levels up child) 0)).
Proof.
  intros O S Ha Hk R. pose proof (operand_okr _ _ O) as K.
  pose proof (stored_length _ _ _ K) as EN.
  rewrite EN in R. destruct (search_tracks up child (fst chunk) O S Ha R) as (st & E & T).
  unfold chunk_loop. cbn [app]. rewrite (levels_size _ _ _ K). cbn [obind]. rewrite E. cbn [obind].
  unfold positions_of. destruct (loop_slice false up child (fst chunk) (snd chunk) st K Ha Hk T) as (st' & ->).
  cbn [obind]. destruct chunk. reflexivity.
Qed.

Lemma all_chunks_slices up child cs : operand (levels up child) -> searchable (levels up child) ->
  (forall c, In c cs -> 0 <= fst c /\ 0 <= snd c /\
     (rows_of (levels up child) = true \/ fst c < Z.of_nat (length (stored (levels up child) 0)))) ->
  all_chunks [] up child cs = Val (flat_map (fun c => slice c (stored (levels up child) 0)) cs).
Proof.
  intros O S. induction cs as [|c cs IH]; intros H; [reflexivity|]. cbn [all_chunks flat_map].
  destruct (H c (or_introl eq_refl)) as (h1 & h2 & h3). rewrite (chunk_exact up child c O S h1 h2 h3). cbn [obind].
  rewrite IH by (intros x hx; apply H; right; exact hx). reflexivity.
Qed.

Lemma chunks_nonneg factors : nested factors -> forall n, 0 <= n -> forall c, In c (chunks n factors) -> 0 <= fst c /\ 0 <= snd c.
Proof.
  induction factors as [|s r IH]; intros N n Hn c H.
  - destruct H as [<-|[]]. cbn. lia.
  - cbn [nested] in N. destruct N as (Hs & _ & N). cbn [chunks] in H. apply in_flat_map in H.
    destruct H as (o & Ho & H). apply range_In in Ho. apply in_map_iff in H. destruct H as ((b, k) & <- & H).
    specialize (IH N s ltac:(lia) _ H). cbn [fst snd] in *. nia.
Qed.

Lemma slices_all up child factors : operand (levels up child) -> nested factors ->
  flat_map (fun c => slice c (stored (levels up child) 0))
           (chunks (Z.of_nat (length (stored (levels up child) 0))) factors)
  = stored (levels up child) 0.
Proof.
  intros O N. pose proof (operand_okr _ _ O) as K. destruct (stored_located _ _ _ K) as (E & F).
  set (vs := stored (levels up child) 0) in *. pose proof (sz_nonneg _ _ K) as P. fold (total up child) in P.
  pose proof (stored_length _ _ _ K) as EN. fold vs in EN.
  rewrite EN. apply (located_visits_unique false up child K); [| |exact F].
  - rewrite map_flat_map, E. destruct (chunks_range factors N (total up child) P) as (M & EM & HM & _).
    pose proof (chunks_nonneg factors N (total up child) P) as NN.
    transitivity (filter (fun p => p <? total up child) (flat_map positions_of (chunks (total up child) factors))).
    + revert NN. generalize (chunks (total up child) factors). intros cs. induction cs as [|c cs IH]; intros NN; [reflexivity|].
      cbn [flat_map]. rewrite filter_app. f_equal; [|apply IH; intros; apply NN; right; assumption].
      destruct (NN c (or_introl eq_refl)) as (h1 & h2). unfold positions_of.
      etransitivity; [exact (map_slice snd _ _)|]. rewrite E. symmetry. apply filter_range_slice; assumption.
    + rewrite EM. apply range_filter. lia.
  - apply Forall_forall. intros v Hv. apply in_flat_map in Hv. destruct Hv as (c & _ & Hv).
    unfold slice in Hv. rewrite Forall_forall in F. apply F.
    rewrite <- (firstn_skipn (Z.to_nat (fst c)) vs). apply in_or_app. right.
    rewrite <- (firstn_skipn (Z.to_nat (snd c)) (skipn _ vs)). apply in_or_app. left. exact Hv.
Qed.

Theorem chunks_exact up child factors order : operand (levels up child) -> searchable (levels up child) ->
  nested factors ->
  let n := Z.of_nat (length (stored (levels up child) 0)) in
  rows_of (levels up child) = true \/ (forall c, In c (chunks n factors) -> fst c < n) ->
  Permutation order (chunks n factors) ->
  exists vs, all_chunks [] up child order = Val vs /\ Permutation vs (stored (levels up child) 0).
Proof.
  intros O S N n R P. exists (flat_map (fun c => slice c (stored (levels up child) 0)) order). split.
  - apply all_chunks_slices; auto. intros c Hc.
    assert (Hc' : In c (chunks n factors)) by (eapply Permutation_in; eauto).
    destruct (chunks_nonneg factors N n ltac:(lia) c Hc') as (h1 & h2). repeat split; auto.
    destruct R as [R|R]; auto.
  - rewrite (Permutation_flat_map _ P). unfold n. rewrite slices_all by assumption. reflexivity.
Qed.

Theorem in_chunks_exact up child factors : operand (levels up child) -> searchable (levels up child) ->
  nested factors ->
  let n := Z.of_nat (length (stored (levels up child) 0)) in
  rows_of (levels up child) = true \/ (forall c, In c (chunks n factors) -> fst c < n) ->
  in_chunks up child factors = Val (stored (levels up child) 0).
Proof.
  intros O S N n R. pose proof (operand_okr _ _ O) as K. unfold in_chunks. rewrite (levels_size _ _ _ K). cbn [obind].
  assert (EN : n = total up child) by exact (stored_length _ _ _ K).
  rewrite <- EN. rewrite all_chunks_slices; auto.
  - unfold n. rewrite slices_all by assumption. reflexivity.
  - intros c Hc. destruct (chunks_nonneg factors N n ltac:(lia) c Hc) as (h1 & h2). repeat split; auto.
    destruct R as [R|R]; auto.
Qed.

Lemma one_split_inside n s c : 0 < s -> In c (chunks n [s]) -> fst c < n.
Proof.
  intros Hs H. cbn [chunks] in H. apply in_flat_map in H. destruct H as (o & Ho & [<-|[]]). apply range_In in Ho. cbn [fst].
  pose proof (Z.div_mod (n + (s - 1)) s ltac:(lia)). pose proof (Z.mod_pos_bound (n + (s - 1)) s ltac:(lia)). nia.
Qed.

(** ** Reductions *)
Lemma skipn_cons {A} k (l : list A) : (k < length l)%nat -> exists v, skipn k l = v :: skipn (S k) l /\ In v l.
Proof.
  revert l. induction k as [|k IH]; intros [|x l] H; cbn in H; try lia.
  - exists x. split; [reflexivity|left; reflexivity].
  - destruct (IH l ltac:(lia)) as (v & E & I). exists v. split; [exact E|right; exact I].
Qed.
Lemma slice_cons all up child a k : okr all (child :: up) -> 0 <= a -> 0 < k -> a < total up child ->
  exists v, slice (a, k) (stored (levels up child) 0) = v :: slice (a + 1, k - 1) (stored (levels up child) 0) /\
    snd v = a /\ In v (stored (levels up child) 0) /\ located_visit up child v.
Proof.
  intros K Ha Hk H. pose proof (stored_length _ _ _ K) as EN. destruct (stored_located _ _ _ K) as (E & F).
  destruct (skipn_cons (Z.to_nat a) (stored (levels up child) 0) ltac:(lia)) as (v & E1 & I). exists v.
  unfold slice. cbn [fst snd]. rewrite E1. replace (Z.to_nat k) with (S (Z.to_nat (k - 1))) by lia.
  replace (Z.to_nat (a + 1)) with (S (Z.to_nat a)) by lia. split; [reflexivity|].
  rewrite Forall_forall in F. split; [|auto].
  assert (E2 : map snd (skipn (Z.to_nat a) (stored (levels up child) 0)) = skipn (Z.to_nat a) (range 0 (total up child))).
  { rewrite <- E. symmetry. apply skipn_map. }
  rewrite E1, skipn_range, range_cons in E2 by lia. cbn [map] in E2. injection E2 as E2 _.
  etransitivity; [exact E2|]. lia.
Qed.

Lemma at_end_some all up child p st : up <> [] -> okr all (child :: up) -> located up child p st -> forall t,
  exists b, at_end child t st = Val b.
Proof.
  intros Hu K L t. destruct up as [|l up]; [easy|].
  destruct (at_end_ok all l up child p st K L t) as (u & _ & E & _). eauto.
Qed.

Section Reduce.
  Variable all : bool.
  Variable up : list level.
  Variable child : level.
  Hypothesis K : okr all (child :: up).
  Hypothesis Hup : up <> [].
  Variable Y : Type.
  Variable value : visit -> Z.
  Variable consume : list Z -> Z -> Y -> outcome Y.
  Let vs := stored (levels up child) 0.
  Variable ok : Y -> Prop.
  Hypothesis A : adds ok consume vs.

  Lemma located_adds a st : 0 <= a < total up child -> located up child a st ->
    exists v, In v vs /\ removelast (fst v) = rev (map snd st).
  Proof using K.
    intros Ha L. destruct (slice_cons all up child a 1 K ltac:(lia) ltac:(lia) ltac:(lia)) as (v & _ & E & I & st' & c & G1 & _ & _ & G4).
    exists v. split; [exact I|]. rewrite G4, removelast_last. rewrite E in G1.
    assert (st' = st) by (eapply located_unique; eauto). congruence.
  Qed.
  Lemma consume_zero a st y : 0 <= a < total up child -> located up child a st -> ok y ->
    consume (rev (map snd st)) 0 y = Val y.
  Proof using K A. intros Ha L O. destruct (located_adds a st Ha L) as (v & I & <-). apply (A v y I O). Qed.
  Lemma consume_add a st x y : 0 <= a < total up child -> located up child a st -> ok y ->
    exists y1, consume (rev (map snd st)) x y = Val y1 /\ ok y1 /\
      forall z, consume (rev (map snd st)) z y1 = consume (rev (map snd st)) (x + z) y.
  Proof using K A. intros Ha L O. destruct (located_adds a st Ha L) as (v & I & <-). apply (A v y I O). Qed.

  Lemma reduce_past k : forall a st t y, total up child <= a ->
    reduce_loop Y value consume up child (total up child) st t y (range a (Z.of_nat k)) = Val (st, t, y).
  Proof using Type.
    induction k as [|k IH]; intros a st t y H; [rewrite range_nil by lia; reflexivity|].
    rewrite range_cons by lia. cbn [reduce_loop]. unfold iteration at 1.
    replace (a >=? total up child) with true by (symmetry; rewrite Z.geb_leb; apply Z.leb_le; lia).
    cbn [obind]. replace (Z.of_nat (S k) - 1) with (Z.of_nat k) by lia. apply IH. lia.
  Qed.

  Let finish (r : outcome (state * Z * Y)) : outcome Y :=
    do (st, t, y) <- r; consume (rev (map snd st)) t y.

  Lemma finish_bind {B} (o : outcome B) k : finish (do b <- o; k b) = (do b <- o; finish (k b)).
  Proof using Type. destruct o; reflexivity. Qed.
  Lemma bind_assoc {B C D} (o : outcome B) (f : B -> outcome C) (g : C -> outcome D) :
    (do x <- (do b <- o; f b); g x) = (do b <- o; do x <- f b; g x).
  Proof using Type. destruct o; reflexivity. Qed.

  Lemma ends_at_end st a : ends_segment child st a = at_end child (a + 1) st.
  Proof using Type. destruct st as [|(q, c) st]; reflexivity. Qed.

  (** One visited position, with the sum that is pending. *)
  Lemma reduce_visit k a st st1 t y :
    (forall t y, ok y -> t = 0 \/ at_end child (a + 1) st1 = Val false ->
       finish (reduce_loop Y value consume up child (total up child) st1 t y (range (a + 1) (Z.of_nat k))) =
       (do y1 <- consume (rev (map snd st1)) t y;
        one_by_one value consume (slice (a + 1, Z.of_nat k) vs) y1)) ->
    0 <= a < total up child -> track up child a st = Val st1 -> located up child a st1 -> ok y ->
    finish (reduce_loop Y value consume up child (total up child) st t y (range a (Z.of_nat (S k)))) =
    (do y1 <- consume (rev (map snd st1)) t y;
     one_by_one value consume (slice (a, Z.of_nat (S k)) vs) y1).
  Proof using K Hup A.
    intros IH Ha T L Oy.
    rewrite range_cons by lia. replace (Z.of_nat (S k) - 1) with (Z.of_nat k) by lia.
    cbn [reduce_loop]. unfold iteration at 1.
    replace (a >=? total up child) with false by (symmetry; rewrite Z.geb_leb; apply Z.leb_gt; lia).
    destruct (slice_cons all up child a (Z.of_nat (S k)) K ltac:(lia) ltac:(lia) ltac:(lia)) as (v & Es & E & I & st' & c & G1 & G2 & G3 & G4).
    fold vs in Es, I. rewrite Es. replace (Z.of_nat (S k) - 1) with (Z.of_nat k) by lia.
    rewrite E in *. assert (st' = st1) by (eapply located_unique; eauto). subst st'.
    rewrite G2. cbn [obind]. rewrite T. cbn [obind].
    assert (Ev : (rev (map snd st1) ++ [c], a) = v) by (destruct v as (cs, p); cbn [fst snd] in *; congruence).
    rewrite Ev. cbn [one_by_one]. rewrite G4, removelast_last.
    destruct (consume_add a st1 t y Ha L Oy) as (y1 & C1 & Oy1 & C2). rewrite C1. cbn [obind]. rewrite (C2 (value v)).
    rewrite ends_at_end. destruct (at_end_some all up child a st1 Hup K L (a + 1)) as (b & Eu).
    rewrite Eu in IH |- *. cbn [obind]. destruct b.
    - rewrite finish_bind. destruct (consume_add a st1 (t + value v) y Ha L Oy) as (y2 & C3 & Oy2 & _). rewrite C3. cbn [obind].
      rewrite IH by (auto). rewrite (consume_zero a st1 y2 Ha L Oy2). reflexivity.
    - apply IH; [exact Oy|]. right. reflexivity.
  Qed.

  Lemma reduce_rest k : forall a st t y, 0 <= a < total up child -> located up child a st -> ok y ->
    t = 0 \/ at_end child (a + 1) st = Val false ->
    finish (reduce_loop Y value consume up child (total up child) st t y (range (a + 1) (Z.of_nat k))) =
    (do y1 <- consume (rev (map snd st)) t y;
     one_by_one value consume (slice (a + 1, Z.of_nat k) vs) y1).
  Proof using K Hup A.
    induction k as [|k IH]; intros a st t y Ha L Oy P.
    - rewrite range_nil by lia. unfold slice. cbn [reduce_loop finish obind fst snd Z.of_nat Z.to_nat firstn one_by_one].
      unfold finish. cbn [obind]. destruct (consume (rev (map snd st)) t y); reflexivity.
    - destruct (Z.leb_spec (total up child) (a + 1)) as [h|h].
      + rewrite reduce_past by lia. unfold finish. cbn [obind].
        assert (slice (a + 1, Z.of_nat (S k)) vs = []) as ->.
        { unfold slice. cbn [fst snd]. rewrite skipn_all2; [apply firstn_nil|].
          pose proof (stored_length _ _ _ K) as EN. fold vs in EN. lia. }
        cbn [one_by_one]. destruct (consume (rev (map snd st)) t y); reflexivity.
      + destruct (track_step all up child a st K L ltac:(lia) h) as (st1 & T & L1).
        rewrite (reduce_visit k (a + 1) st st1 t y); [|intros t' y' O' P'; apply IH; [lia|exact L1|exact O'|exact P']|lia|exact T|exact L1|exact Oy].
        destruct P as [->|P].
        * rewrite (consume_zero (a + 1) st1 y ltac:(lia) L1 Oy), (consume_zero a st y Ha L Oy). reflexivity.
        * assert (D : is_dense child = false).
          { destruct up as [|l up']; [congruence|]. cbn [okr] in K. apply K. }
          rewrite (track_same up child (a + 1) st Hup D P) in T. injection T as <-. reflexivity.
  Qed.

  Lemma reduce_all a k st y : 0 <= a < total up child -> 0 < k -> tracks up child a st -> ok y ->
    finish (reduce_loop Y value consume up child (total up child) st 0 y (range a k)) =
    one_by_one value consume (slice (a, k) vs) y.
  Proof using K Hup A.
    intros Ha Hk T Oy. destruct (T (proj2 Ha)) as (st1 & T1 & L1).
    replace k with (Z.of_nat (S (Z.to_nat (k - 1)))) by lia.
    rewrite (reduce_visit (Z.to_nat (k - 1)) a st st1 0 y); auto.
    - rewrite (consume_zero a st1 y Ha L1 Oy). reflexivity.
    - intros t' y' O' P'. apply reduce_rest; auto.
  Qed.
End Reduce.

Theorem reduce_exact Y (ok : Y -> Prop) value consume up child chunk y :
  operand (levels up child) -> searchable (levels up child) ->
  0 <= fst chunk < Z.of_nat (length (stored (levels up child) 0)) -> 0 < snd chunk ->
  adds ok consume (stored (levels up child) 0) -> ok y ->
  reduce_chunk Y value consume up child chunk y =
  one_by_one value consume (slice chunk (stored (levels up child) 0)) y.
Proof.
  intros O S Ha Hk A Oy. pose proof (operand_okr _ _ O) as K. rewrite (stored_length _ _ _ K) in Ha.
  destruct (search_tracks up child (fst chunk) O S ltac:(lia) (or_intror (proj2 Ha))) as (st & E & T).
  unfold reduce_chunk. rewrite (levels_size _ _ _ K). cbn [obind]. rewrite E. cbn [obind]. unfold positions_of.
  pose proof (reduce_all false up child K (operand_up _ _ O) Y value consume ok A (fst chunk) (snd chunk) st y Ha Hk T Oy) as R.
  destruct chunk. exact R.
Qed.
