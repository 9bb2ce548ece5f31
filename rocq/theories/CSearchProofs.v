From Coq Require Import ZArith List Lia Bool.
From Verif Require Import Outcome CSearch.
Import ListNotations.
Open Scope Z_scope.

(** [a] is strictly increasing on positions [lo, hi). *)
Definition strict_on (a : list Z) (lo hi : Z) : Prop :=
  forall i j, lo <= i -> i < j -> j < hi -> at_ a i < at_ a j.

(** [a] is non-decreasing on positions [lo, hi). *)
Definition weak_on (a : list Z) (lo hi : Z) : Prop :=
  forall i j, lo <= i -> i < j -> j < hi -> at_ a i <= at_ a j.

(** [r] is the first position of [lo,hi) whose entry is not below [t] (or [hi]). *)
Definition first_geq (a : list Z) (lo hi t r : Z) : Prop :=
  lo <= r <= hi /\ (forall i, lo <= i < r -> at_ a i < t) /\
  (forall i, r <= i < hi -> t <= at_ a i).

Lemma strict_weak : forall a lo hi, strict_on a lo hi -> weak_on a lo hi.
Proof. intros a lo hi H i j ? ? ?. specialize (H i j). lia. Qed.

Lemma mid_bounds : forall l u, u - l > 1 -> l < (u + l) / 2 < u.
Proof. intros. Z.div_mod_to_equations. lia. Qed.

Lemma bsearch_loop_spec : forall fuel a t lo hi,
  (Z.to_nat (hi - lo) < fuel)%nat ->
  0 <= lo -> lo < hi -> hi <= Z.of_nat (length a) ->
  exists r, bsearch_loop fuel a t lo hi = Val r /\
    match r with
    | inl mid => lo < mid < hi /\ at_ a mid = t
    | inr (l, u) => u = l + 1 /\ lo <= l /\ u <= hi /\
                    (l = lo \/ at_ a l < t) /\ (u = hi \/ at_ a u > t)
    end.
Proof.
  induction fuel; intros a t lo hi Hf H0 H1 H2; [lia|].
  simpl. rewrite Z.gtb_ltb.
  destruct (Z.ltb_spec 1 (hi - lo)).
  - assert (B := mid_bounds lo hi ltac:(lia)).
    set (mid := (hi + lo) / 2) in *. clearbody mid.
    rewrite rd_ok by lia. simpl. rewrite Z.gtb_ltb.
    destruct (Z.ltb_spec (at_ a mid) t).
    + destruct (IHfuel a t mid hi) as [r [E R]]; try lia.
      exists r; split; [exact E|]. destruct r as [m|[l u]].
      * lia.
      * destruct R as (?&?&?&[?|?]&[?|?]); subst; repeat split; try lia; auto.
    + destruct (Z.ltb_spec t (at_ a mid)).
      * destruct (IHfuel a t lo mid) as [r [E R]]; try lia.
        exists r; split; [exact E|]. destruct r as [m|[l u]].
        -- lia.
        -- destruct R as (?&?&?&[?|?]&[?|?]); subst; repeat split; try lia; auto;
             right; lia.
      * eexists; split; [reflexivity|]. simpl. lia.
  - eexists; split; [reflexivity|]. simpl. repeat split; try lia; auto.
Qed.

Lemma search_after_spec : forall a lo hi t,
  0 <= lo -> lo < hi -> hi <= Z.of_nat (length a) -> strict_on a lo hi ->
  exists r, taco_binarySearchAfter a lo hi t = Val r /\ first_geq a lo hi t r.
Proof.
  intros a lo hi t H0 H1 H2 S. unfold taco_binarySearchAfter.
  rewrite rd_ok by lia. cbn [obind]. rewrite Z.geb_leb.
  destruct (Z.leb_spec t (at_ a lo)).
  - exists lo. split; [reflexivity|]. split; [lia|]. split; [intros; lia|].
    intros i Hi. destruct (Z.eq_dec i lo); [subst; lia|].
    assert (at_ a lo < at_ a i) by (apply S; lia). lia.
  - destruct (bsearch_loop_spec (Datatypes.S (Z.to_nat (hi - lo))) a t lo hi)
      as [r [E R]]; try lia.
    rewrite E. cbn [obind]. destruct r as [m|[l u]].
    + exists m. split; [reflexivity|]. destruct R as [R1 R2].
      split; [lia|]. split.
      * intros. assert (at_ a i < at_ a m) by (apply S; lia). lia.
      * intros. destruct (Z.eq_dec i m); [subst; lia|].
        assert (at_ a m < at_ a i) by (apply S; lia). lia.
    + exists u. split; [reflexivity|]. destruct R as (E1 & E2 & E3 & E4 & E5).
      split; [lia|]. split.
      * intros. assert (at_ a l < t) by (destruct E4; subst; auto; lia).
        destruct (Z.eq_dec i l); [subst; lia|].
        assert (at_ a i < at_ a l) by (apply S; lia). lia.
      * intros. destruct E5; [lia|].
        destruct (Z.eq_dec i u); [subst; lia|].
        assert (at_ a u < at_ a i) by (apply S; lia). lia.
Qed.

(** [r] is the last position of [lo,hi] whose entry does not exceed [t]. *)
Definition last_leq (a : list Z) (lo hi t r : Z) : Prop :=
  lo <= r <= hi /\ (forall i, lo <= i <= r -> at_ a i <= t) /\
  (forall i, r < i <= hi -> t < at_ a i).

Lemma search_before_spec : forall a lo hi t,
  0 <= lo -> lo <= hi -> hi < Z.of_nat (length a) -> strict_on a lo (hi + 1) ->
  at_ a lo <= t ->
  exists r, taco_binarySearchBefore a lo hi t = Val r /\ last_leq a lo hi t r.
Proof.
  intros a lo hi t H0 H1 H2 S HL. unfold taco_binarySearchBefore.
  rewrite rd_ok by lia. cbn [obind].
  destruct (Z.leb_spec (at_ a hi) t).
  - exists hi. split; [reflexivity|]. split; [lia|]. split; [|intros; lia].
    intros i Hi. destruct (Z.eq_dec i hi); [subst; lia|].
    assert (at_ a i < at_ a hi) by (apply S; lia). lia.
  - assert (lo < hi) by (destruct (Z.eq_dec lo hi); [subst; lia|lia]).
    destruct (bsearch_loop_spec (Datatypes.S (Z.to_nat (hi - lo))) a t lo hi)
      as [r [E R]]; try lia.
    rewrite E. cbn [obind]. destruct r as [m|[l u]].
    + exists m. split; [reflexivity|]. destruct R as [R1 R2].
      split; [lia|]. split.
      * intros. destruct (Z.eq_dec i m); [subst; lia|].
        assert (at_ a i < at_ a m) by (apply S; lia). lia.
      * intros. assert (at_ a m < at_ a i) by (apply S; lia). lia.
    + exists l. split; [reflexivity|]. destruct R as (E1 & E2 & E3 & E4 & E5).
      split; [lia|]. split.
      * intros. assert (at_ a l <= t) by (destruct E4; subst; auto; lia).
        destruct (Z.eq_dec i l); [subst; lia|].
        assert (at_ a i < at_ a l) by (apply S; lia). lia.
      * intros. assert (t < at_ a u) by (destruct E5; subst; auto; lia).
        destruct (Z.eq_dec i u); [subst; lia|].
        assert (at_ a u < at_ a i) by (apply S; lia). lia.
Qed.

(** With repeated entries (pos arrays) the search returns some position whose
    entry is the target if the target occurs, else the last one below it. *)
Lemma search_before_weak_spec : forall a lo hi t,
  0 <= lo -> lo <= hi -> hi < Z.of_nat (length a) -> weak_on a lo (hi + 1) ->
  at_ a lo <= t ->
  exists r, taco_binarySearchBefore a lo hi t = Val r /\ lo <= r <= hi /\
            at_ a r <= t /\ (at_ a r = t \/ forall i, r < i <= hi -> t < at_ a i).
Proof.
  intros a lo hi t H0 H1 H2 S HL. unfold taco_binarySearchBefore.
  rewrite rd_ok by lia. cbn [obind].
  destruct (Z.leb_spec (at_ a hi) t).
  - exists hi. split; [reflexivity|]. split; [lia|]. split; [lia|].
    right; intros; lia.
  - assert (lo < hi) by (destruct (Z.eq_dec lo hi); [subst; lia|lia]).
    destruct (bsearch_loop_spec (Datatypes.S (Z.to_nat (hi - lo))) a t lo hi)
      as [r [E R]]; try lia.
    rewrite E. cbn [obind]. destruct r as [m|[l u]].
    + exists m. split; [reflexivity|]. destruct R as [R1 R2].
      split; [lia|]. split; [lia|]. left; lia.
    + exists l. split; [reflexivity|]. destruct R as (E1 & E2 & E3 & E4 & E5).
      split; [lia|]. split; [destruct E4; subst; auto; lia|].
      right. intros. assert (t < at_ a u) by (destruct E5; subst; auto; lia).
        destruct (Z.eq_dec i u); [subst; lia|].
        assert (at_ a u <= at_ a i) by (apply S; lia). lia.
Qed.

(** [1] or an even power: what [step] looks like in the gallop loops. *)
Inductive pow2 : Z -> Prop :=
| pow2_1 : pow2 1
| pow2_d : forall s, pow2 s -> pow2 (s * 2).

Lemma pow2_pos : forall s, pow2 s -> 1 <= s.
Proof. induction 1; lia. Qed.

Lemma gallop_up_spec : forall fuel a lo hi t curr step,
  (Z.to_nat (hi - curr) < fuel)%nat ->
  0 <= lo -> lo <= curr -> curr < hi -> hi <= Z.of_nat (length a) ->
  at_ a curr < t -> pow2 step ->
  exists c s, gallop_up fuel a hi t curr step = Val (c, s) /\
    lo <= c < hi /\ at_ a c < t /\ pow2 s /\ (hi <= c + s \/ t <= at_ a (c + s)).
Proof.
  induction fuel; intros a lo hi t curr step Hf H0 H1 H2 H3 H4 P; [lia|].
  assert (PP := pow2_pos _ P).
  simpl. destruct (Z.ltb_spec (curr + step) hi).
  - rewrite rd_ok by lia. simpl.
    destruct (Z.ltb_spec (at_ a (curr + step)) t).
    + apply IHfuel; try lia. constructor; auto.
    + exists curr, step. repeat split; auto; lia.
  - exists curr, step. repeat split; auto; lia.
Qed.

Lemma half_pow2 : forall s, pow2 s -> (s = 1 /\ s / 2 = 0) \/ (exists h, s = h * 2 /\ s / 2 = h /\ pow2 h).
Proof.
  intros s H. inversion H; subst.
  - left; split; reflexivity.
  - right. exists s0. rewrite Z.div_mul by lia. auto.
Qed.

(** the down loop, entered with [step = s/2] for [s] a power of two *)
Lemma gallop_down_spec : forall fuel a lo hi t curr s,
  (Z.to_nat s < fuel)%nat ->
  0 <= lo -> lo <= curr -> curr < hi -> hi <= Z.of_nat (length a) ->
  at_ a curr < t -> pow2 s -> weak_on a lo hi ->
  (hi <= curr + s \/ t <= at_ a (curr + s)) ->
  exists c, gallop_down fuel a hi t curr (s / 2) = Val c /\
    lo <= c < hi /\ at_ a c < t /\ (hi <= c + 1 \/ t <= at_ a (c + 1)).
Proof.
  induction fuel; intros a lo hi t curr s Hf H0 H1 H2 H3 H4 P S B; [lia|].
  assert (PP := pow2_pos _ P).
  destruct (half_pow2 s P) as [[-> E]|[h (E & E1 & Ph)]].
  - rewrite E. cbn [obind]. exists curr. repeat split; auto; lia.
  - rewrite E1. assert (Pp := pow2_pos _ Ph). subst s.
    simpl. rewrite Z.gtb_ltb. destruct (Z.ltb_spec 0 h); [|lia].
    destruct (Z.ltb_spec (curr + h) hi).
    + rewrite rd_ok by lia. simpl.
      destruct (Z.ltb_spec (at_ a (curr + h)) t).
      * apply (IHfuel a lo hi t (curr + h) h); auto; try lia.
        replace (curr + h + h) with (curr + h * 2) by lia. exact B.
      * apply (IHfuel a lo hi t curr h); auto; try lia.
    + apply (IHfuel a lo hi t curr h); auto; try lia.
Qed.

Lemma gallop_spec : forall a lo hi t,
  0 <= lo -> lo < hi -> hi <= Z.of_nat (length a) -> weak_on a lo hi ->
  exists r, taco_gallop a lo hi t = Val r /\ first_geq a lo hi t r.
Proof.
  intros a lo hi t H0 H1 H2 S. unfold taco_gallop.
  rewrite rd_ok by lia. cbn [obind]. rewrite !Z.geb_leb.
  destruct (Z.leb_spec t (at_ a lo)); simpl orb.
  - exists lo. split; [reflexivity|]. split; [lia|]. split; [intros; lia|].
    intros i Hi. destruct (Z.eq_dec i lo); [subst; lia|].
    assert (at_ a lo <= at_ a i) by (apply S; lia). lia.
  - destruct (Z.leb_spec hi lo); [lia|].
    destruct (gallop_up_spec (Datatypes.S (Datatypes.S (Z.to_nat (hi - lo)))) a lo hi t lo 1)
      as (c & s & E & Hc & Hl & P & B); try lia. { constructor. }
    rewrite E. cbn [obind].
    destruct (gallop_down_spec (Datatypes.S (Datatypes.S (Z.to_nat s))) a lo hi t c s)
      as (c' & E' & Hc' & Hl' & B'); auto; try lia.
    rewrite E'. cbn [obind]. exists (c' + 1). split; [reflexivity|].
    split; [lia|]. split.
    + intros. destruct (Z.eq_dec i c'); [subst; lia|].
      assert (at_ a i <= at_ a c') by (apply S; lia). lia.
    + intros. destruct B'; [lia|].
      destruct (Z.eq_dec i (c' + 1)); [subst; lia|].
      assert (at_ a (c' + 1) <= at_ a i) by (apply S; lia). lia.
Qed.
