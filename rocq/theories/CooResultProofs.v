(** Proofs about results assembled by appending coordinates (CooResult.v). *)

From Coq Require Import List Arith Bool Lia.
From Verif Require Import CooResult CooResultSpec.
Import ListNotations.

Section P.
Context {V : Type} (zero : V).

(** * Arrays *)

Lemma length_put : forall A (a : arr A) i x, length (put a i x) = length a.
Proof. induction a; intros [|i] x; cbn; auto. Qed.

Lemma aget_put_same : forall A (a : arr A) i x, i < length a -> aget (put a i x) i = Some x.
Proof.
  unfold aget. induction a; intros [|i] x Hi; cbn in *; try lia; auto. apply IHa; lia.
Qed.

Lemma aget_put_other : forall A (a : arr A) i j x, i <> j -> aget (put a i x) j = aget a j.
Proof.
  unfold aget. induction a; intros [|i] [|j] x Hi; cbn in *; try lia; auto.
Qed.

Lemma aget_repeat : forall A n i, aget (repeat (@None A) n) i = None.
Proof. unfold aget. induction n; intros [|i]; cbn; auto. Qed.

Lemma aget_resize : forall A (a : arr A) n i, length a <= n -> aget (resize a n) i = aget a i.
Proof.
  intros A a n i H. unfold resize. rewrite firstn_all2 by lia. unfold aget.
  destruct (Nat.lt_ge_cases i (length a)).
  - now rewrite nth_error_app1 by lia.
  - rewrite nth_error_app2 by lia.
    assert (nth_error a i = None) as -> by (apply nth_error_None; lia).
    exact (aget_repeat A (n - length a) (i - length a)).
Qed.

Lemma length_resize : forall A (a : arr A) n, length a <= n -> length (resize a n) = n.
Proof. intros. unfold resize. rewrite app_length, firstn_length, repeat_length. lia. Qed.

Definition grown {A} (a a' : arr A) (p : nat) :=
  p < length a' /\ length a <= length a' /\ forall i, aget a' i = aget a i.

Lemma grown_double : forall A (a : arr A) p, p <= length a -> 0 < length a ->
  grown a (double_if_full a p) p.
Proof.
  intros A a p Hp H0. unfold grown, double_if_full.
  destruct (Nat.leb_spec (length a) p).
  - rewrite length_resize by lia. repeat split; try lia. intros. apply aget_resize. lia.
  - repeat split; try lia.
Qed.

Lemma grown_at_least : forall A (a : arr A) p,
  grown a (at_least_double_if_full a p) p.
Proof.
  intros A a p. unfold grown, at_least_double_if_full.
  destruct (Nat.leb_spec (length a) p).
  - rewrite length_resize by lia. repeat split; try lia. intros. apply aget_resize. lia.
  - repeat split; try lia.
Qed.

Lemma aget_lt : forall A (a : arr A) i x, aget a i = Some x -> i < length a.
Proof.
  unfold aget. intros A a i x H. apply nth_error_Some. destruct (nth_error a i); congruence.
Qed.

Lemma aset_ok : forall A (a : arr A) i x, i < length a -> aset a i x = Ok (put a i x).
Proof. intros. unfold aset. now destruct (Nat.ltb_spec i (length a)); [|lia]. Qed.

Lemma upd_same : forall A (f : nat -> A) l x, upd f l x l = x.
Proof. intros. unfold upd. now rewrite Nat.eqb_refl. Qed.
Lemma upd_other : forall A (f : nat -> A) l x m, m <> l -> upd f l x m = f m.
Proof. intros. unfold upd. now destruct (Nat.eqb_spec m l). Qed.

(** * Appending the coordinates of a group of levels *)

Lemma append_up_group : forall (K : list kind) co p d g (st : state V),
  (forall j, g < j <= g + d -> branchless_at K j = true) ->
  (branchless_at K g = false) ->
  (forall j, g <= j <= g + d -> p <= length (crd st j) /\ 0 < length (crd st j)) ->
  exists st', append_up K co p (g + d) st = Ok st' /\
    pv st' = pv st /\ bg st' = bg st /\ pos st' = pos st /\ vals st' = vals st /\
    (forall j, g <= j <= g + d ->
       p < length (crd st' j) /\ aget (crd st' j) p = Some (co j) /\
       forall i, i <> p -> aget (crd st' j) i = aget (crd st j) i) /\
    (forall j, ~ (g <= j <= g + d) -> crd st' j = crd st j).
Proof.
  intros K co p d. induction d as [|d IH]; intros g st Hb Hg Hr.
  - rewrite Nat.add_0_r in *.
    assert (Hrg := Hr g ltac:(lia)).
    destruct (grown_double _ (crd st g) p (proj1 Hrg) (proj2 Hrg)) as (G1 & G2 & G3).
    assert (E : append_coord K g p (co g) st =
                Ok (set_crd st g (put (double_if_full (crd st g) p) p (co g)))).
    { unfold append_coord. rewrite Hg, aset_ok by lia. reflexivity. }
    exists (set_crd st g (put (double_if_full (crd st g) p) p (co g))).
    split.
    { destruct g; cbn [append_up]; rewrite E; cbn [bind]; [reflexivity|]. now rewrite Hg. }
    repeat split; cbn [set_crd crd].
    + assert (j = g) as -> by lia. rewrite upd_same, length_put. lia.
    + assert (j = g) as -> by lia. rewrite upd_same. now apply aget_put_same.
    + intros i Hi. assert (j = g) as -> by lia. rewrite upd_same, aget_put_other by lia. apply G3.
    + intros j Hj. apply upd_other. lia.
  - replace (g + S d) with (S (g + d)) by lia. cbn [append_up].
    destruct (grown_at_least _ (crd st (S (g + d))) p) as (G1 & G2 & G3).
    assert (HbS : branchless_at K (S (g + d)) = true) by (apply Hb; lia).
    unfold append_coord. rewrite HbS, aset_ok by lia. cbn [bind].
    set (st1 := set_crd st (S (g + d)) _).
    destruct (IH g st1) as (st' & E & P1 & P2 & P3 & P4 & P5 & P6).
    { intros. apply Hb; lia. } { exact Hg. }
    { intros j Hj. unfold st1. cbn [set_crd crd]. rewrite upd_other by lia. apply Hr. lia. }
    exists st'. split; [exact E|].
    unfold st1 in P1, P2, P3, P4. cbn [set_crd pv bg pos vals] in *.
    split; [exact P1|]. split; [exact P2|]. split; [exact P3|]. split; [exact P4|]. split.
    + intros j Hj. destruct (Nat.eq_dec j (S (g + d))) as [->|Hne].
      * rewrite P6 by lia. unfold st1. cbn [set_crd crd]. rewrite upd_same, length_put.
        split; [lia|]. split; [now apply aget_put_same|].
        intros i Hi. rewrite aget_put_other by lia. apply G3.
      * destruct (P5 j ltac:(lia)) as (Q1 & Q2 & Q3). split; [lia|]. split; [exact Q2|].
        intros i Hi. rewrite Q3 by lia. unfold st1. cbn [set_crd crd]. now rewrite upd_other by lia.
    + intros j Hj. rewrite P6 by lia. unfold st1. cbn [set_crd crd]. now apply upd_other; lia.
Qed.

(** * Invariants of the levels below a position *)

Variable compute : bool.

(** The levels from [l] on, [n] of them, hold what was appended so far. *)
Fixpoint below (n l : nat) (st : state V) : Prop :=
  match n with
  | 0 => compute = true -> pv st (l - 1) <= length (vals st) /\ 0 < length (vals st)
  | S n =>
      (forall i, i <= pv st (l - 1) -> exists x, aget (pos st l) i = Some x /\ x <= pv st l) /\
      (forall i, i < pv st (l - 1) -> exists x y,
         aget (pos st l) i = Some x /\ aget (pos st l) (i + 1) = Some y /\ x < y) /\
      aget (pos st l) (pv st (l - 1)) = Some (pv st l) /\
      pv st l <= length (crd st l) /\ 0 < length (crd st l) /\
      below n (S l) st
  end.

Fixpoint ag (n l : nat) (st st' : state V) : Prop :=
  pv st (l - 1) <= pv st' (l - 1) /\
  match n with
  | 0 => compute = true -> forall i, i < pv st (l - 1) -> aget (vals st') i = aget (vals st) i
  | S n =>
      (forall i, i <= pv st (l - 1) -> aget (pos st' l) i = aget (pos st l) i) /\
      (forall i, i < pv st l -> aget (crd st' l) i = aget (crd st l) i) /\
      ag n (S l) st st'
  end.

Lemma ag_refl : forall n l st, ag n l st st.
Proof. induction n; intros; cbn; auto. Qed.

Lemma ag_pv : forall n l a b, ag n l a b -> pv a (l - 1) <= pv b (l - 1).
Proof. intros [|n] l a b H; cbn in H; tauto. Qed.

Lemma ag_trans : forall n l a b c, ag n l a b -> ag n l b c -> ag n l a c.
Proof.
  induction n as [|n IH]; intros l a b c H1 H2; cbn in *.
  - destruct H1 as [A1 A2], H2 as [B1 B2]. split; [lia|]. intros Hc i Hi.
    rewrite B2 by (auto; lia). auto.
  - destruct H1 as (A1 & A2 & A3 & A4), H2 as (B1 & B2 & B3 & B4).
    split; [lia|]. split; [intros; rewrite B2 by lia; apply A2; lia|].
    split.
    + intros i Hi. rewrite B3; [apply A3; lia|].
      pose proof (ag_pv _ _ _ _ A4) as Hp. replace (S l - 1) with l in Hp by lia. lia.
    + eapply IH; eauto.
Qed.

(** Only levels from [l] on matter. *)
Definition same_from (l : nat) (st st' : state V) : Prop :=
  (forall j, l <= j -> pos st' j = pos st j /\ crd st' j = crd st j) /\
  (forall j, l <= j -> pv st' j = pv st j) /\ vals st' = vals st.

Lemma below_same : forall n l st st', same_from l st st' ->
  pv st' (l - 1) = pv st (l - 1) -> below n l st -> below n l st'.
Proof.
  induction n as [|n IH]; intros l st st' (S1 & S2 & S3) Hp H; cbn in *.
  - now rewrite S3, Hp.
  - destruct (S1 l (le_n l)) as [E1 E2]. rewrite E1, E2, Hp, (S2 l (le_n l)).
    destruct H as (A & AN & B & C & D & E). repeat (split; [assumption|]).
    apply (IH (S l) st st'); auto.
    + split; [|split]; auto; intros; [apply S1|apply S2]; lia.
    + replace (S l - 1) with l by lia. apply S2; lia.
Qed.

Lemma ag_same : forall n l st a b, same_from l a b ->
  pv a (l - 1) <= pv b (l - 1) -> ag n l st a -> ag n l st b.
Proof.
  induction n as [|n IH]; intros l st a b (S1 & S2 & S3) Hp H; cbn in *.
  - rewrite S3. destruct H. split; [lia|auto].
  - destruct (S1 l (le_n l)) as [E1 E2]. rewrite E1, E2. destruct H as (A & B & C & D).
    split; [lia|]. split; [auto|]. split; [auto|].
    apply (IH (S l) st a b); auto.
    + split; [|split]; auto; intros; [apply S1|apply S2]; lia.
    + replace (S l - 1) with l by lia. rewrite S2; lia.
Qed.

(** What was stored stays readable. *)
Lemma stored_ag : forall us l st st' q,
  below (length us) l st -> ag (length us) l st st' -> q < pv st (l - 1) ->
  stored (map Comp us) l st' q = stored (map Comp us) l st q.
Proof.
  induction us as [|u us IH]; intros l st st' q HB HA Hq; [reflexivity|].
  cbn [length below ag map stored] in *.
  destruct HB as (B1 & BN & B2 & B3 & B4 & B5), HA as (A1 & A2 & A3 & A4).
  rewrite !A2 by lia.
  destruct (B1 q ltac:(lia)) as (lo & E1 & Hlo). rewrite E1.
  destruct (B1 (q + 1) ltac:(lia)) as (hi & E2 & Hhi). rewrite E2.
  f_equal. apply map_ext_in. intros i Hi. apply in_seq in Hi.
  rewrite A3 by lia. rewrite (IH (S l) st st'); auto. replace (S l - 1) with l by lia. lia.
Qed.

(** No empty slices. *)
Lemma no_empty_below : forall us l st p,
  below (length us) l st -> p < pv st (l - 1) -> 0 < l -> no_empty (map Comp us) l st p.
Proof.
  induction us as [|u us IH]; intros l st p HB Hp Hl; [exact I|].
  cbn [length below map no_empty] in *. destruct HB as (B1 & BN & B2 & B3 & B4 & B5).
  destruct (BN p Hp) as (x & y & E1 & E2 & Hxy). exists x, y.
  split; [exact E1|]. split; [exact E2|]. split; [auto|].
  intros q Hq. apply IH; [exact B5| |lia]. replace (S l - 1) with l by lia.
  destruct (B1 (p + 1) ltac:(lia)) as (z & E3 & Hz). rewrite E2 in E3. injection E3 as ->. lia.
Qed.

Lemma no_empty_group : forall us rest l (st : state V) p,
  no_empty (map Sing us ++ rest) l st p = no_empty rest (l + length us) st p.
Proof.
  induction us as [|u us IH]; intros rest l st p; cbn [map app no_empty length].
  - now rewrite Nat.add_0_r.
  - rewrite IH. f_equal. lia.
Qed.

(** * Levels of a group *)

(** Coordinates of [k] levels from [g] on at position [q]. *)
Fixpoint tup (st : state V) (g k q : nat) : option (list nat) :=
  match k with
  | 0 => Some []
  | S k => match aget (crd st g) q, tup st (S g) k q with
           | Some c, Some r => Some (c :: r) | _, _ => None end
  end.

Definition entry (ks : list kind) (g k : nat) (st : state V) (q : nat)
    : option (list (list nat * nat)) :=
  match tup st g k q, stored ks (g + k) st q with
  | Some c, Some r => Some (map (fun x => (c ++ fst x, snd x)) r)
  | _, _ => None
  end.

Lemma tup_ext : forall k g st st' q,
  (forall j, g <= j < g + k -> aget (crd st' j) q = aget (crd st j) q) ->
  tup st' g k q = tup st g k q.
Proof.
  induction k as [|k IH]; intros g st st' q H; cbn; auto.
  rewrite H by lia. now rewrite (IH (S g) st st') by (intros; apply H; lia).
Qed.

Lemma tup_co : forall k g st q (co : nat -> nat),
  (forall j, g <= j < g + k -> aget (crd st j) q = Some (co j)) ->
  tup st g k q = Some (map co (seq g k)).
Proof.
  induction k as [|k IH]; intros g st q co H; cbn; auto.
  rewrite H by lia. now rewrite (IH (S g) st q co) by (intros; apply H; lia).
Qed.

(** Reading a group of a compressed level and singletons. *)
Lemma stored_group : forall (us : list bool) rest g st q,
  stored (map Sing us ++ rest) g st q =
  match tup st g (length us) q, stored rest (g + length us) st q with
  | Some c, Some r => Some (map (fun x => (c ++ fst x, snd x)) r)
  | _, _ => None
  end.
Proof.
  induction us as [|u us IH]; intros rest g st q; cbn [map app stored length tup].
  - rewrite Nat.add_0_r. destruct (stored rest g st q); auto. f_equal.
    rewrite <- (map_id l) at 1. apply map_ext. now intros [].
  - rewrite IH. replace (g + S (length us)) with (S g + length us) by lia.
    destruct (aget (crd st g) q); [|reflexivity].
    destruct (tup st (S g) (length us) q); [|reflexivity].
    destruct (stored rest (S g + length us) st q); [|reflexivity].
    f_equal. rewrite map_map. apply map_ext. now intros [].
Qed.

Lemma all_some_app : forall A (xs ys : list (option (list A))) a b,
  all_some xs = Some a -> all_some ys = Some b -> all_some (xs ++ ys) = Some (a ++ b).
Proof.
  induction xs as [|[x|] xs IH]; intros ys a b Ha Hb; cbn in *; try discriminate.
  - injection Ha as <-. exact Hb.
  - destruct (all_some xs) as [r|]; [|discriminate]. injection Ha as <-.
    rewrite (IH ys r b) by auto. now rewrite app_assoc.
Qed.


Lemma entry_ag : forall us g d st st' q,
  below (length us) (S (g + d)) st -> ag (length us) (S (g + d)) st st' -> q < pv st (g + d) ->
  (forall j, g <= j <= g + d -> aget (crd st' j) q = aget (crd st j) q) ->
  entry (map Comp us) g (S d) st' q = entry (map Comp us) g (S d) st q.
Proof.
  intros us g d st st' q HB HA Hq Hc. unfold entry.
  rewrite (tup_ext (S d) g st st' q) by (intros; apply Hc; lia).
  replace (g + S d) with (S (g + d)) by lia.
  rewrite (stored_ag us _ st st' q HB HA); [reflexivity|].
  replace (S (g + d) - 1) with (g + d) by lia. exact Hq.
Qed.

Lemma ag_vals : forall n l a b, ag n l a b -> compute = true ->
  forall i, i < pv a (l + n - 1) -> aget (vals b) i = aget (vals a) i.
Proof.
  induction n as [|n IH]; intros l a b H Hc i Hi.
  - cbn in H. rewrite Nat.add_0_r in Hi. now apply H.
  - cbn [ag] in H. apply (IH (S l)); [tauto|auto|]. now replace (S l + n - 1) with (l + S n - 1) by lia.
Qed.

Lemma combine_seq_app : forall A (a b : list A) c,
  combine (a ++ b) (seq c (length (a ++ b))) =
  combine a (seq c (length a)) ++ combine b (seq (c + length a) (length b)).
Proof.
  induction a as [|x a IH]; intros b c; cbn.
  - now rewrite Nat.add_0_r.
  - rewrite IH. do 3 f_equal. f_equal. lia.
Qed.

Lemma combine_map_left : forall A B C (f : A -> C) (xs : list A) (ys : list B),
  map (fun x => (f (fst x), snd x)) (combine xs ys) = combine (map f xs) ys.
Proof.
  induction xs as [|x xs IH]; intros [|y ys]; cbn; auto. now rewrite IH.
Qed.

(** * The loops *)

Section Kernel.
Variable K : list kind.
Variable m last : nat.
Hypothesis Hlast : length K = S last.
Hypothesis Hm : m <= last.
Hypothesis Hb0 : branchless_at K 0 = false.
Hypothesis Hb1 : forall j, 0 < j <= m -> branchless_at K j = true.
Hypothesis Hb2 : forall j, m < j -> branchless_at K j = false.
Hypothesis Hs : forall j, m < j -> shared K j = j.

Definition step (ks : list kind) (e : nat) (ct : (nat -> nat) * tree V) (st : state V) : res (state V) :=
  bind (level zero K compute ks (S e) (fst ct) (snd ct) st) (append_coordinate K (fst ct) e).

Definition group_visited (g d n : nat) (ct : (nat -> nat) * tree V) : list (list nat * V) :=
  map (fun v => (map (fst ct) (seq g (S d)) ++ fst v, snd v)) (visited zero n (snd ct)).

(** What appending [vs] to a group of levels [g] to [g + d] does. *)
Definition appended (us : list bool) (g d : nat) (vs : list (list nat * V)) (st st' : state V) : Prop :=
  let n := length us in let e := g + d in
  (forall j, j < e -> pv st' j = pv st j) /\
  (forall j, j <= e -> pos st' j = pos st j /\ bg st' j = bg st j) /\
  (forall j, j < g -> crd st' j = crd st j) /\
  below n (S e) st' /\ ag n (S e) st st' /\
  (forall j, g <= j <= e -> pv st' e <= length (crd st' j) /\ 0 < length (crd st' j) /\
                            forall i, i < pv st e -> aget (crd st' j) i = aget (crd st j) i) /\
  pv st' last = pv st last + length vs /\
  (compute = true -> forall i v, nth_error (map snd vs) i = Some v ->
                                 aget (vals st') (pv st last + i) = Some v) /\
  (vs = [] -> pv st' e = pv st e) /\
  (vs <> [] -> pv st e < pv st' e) /\
  all_some (map (entry (map Comp us) g (S d) st') (seq (pv st e) (pv st' e - pv st e))) =
    Some (combine (map fst vs) (seq (pv st last) (length vs))).

Definition step_ok (us : list bool) (g d : nat) : Prop :=
  forall co t st,
    below (length us) (S (g + d)) st ->
    (forall j, g <= j <= g + d -> pv st (g + d) <= length (crd st j) /\ 0 < length (crd st j)) ->
    exists st', step (map Comp us) (g + d) (co, t) st = Ok st' /\
                appended us g d (group_visited g d (length us) (co, t)) st st'.

Lemma appended_nil : forall us g d st,
  below (length us) (S (g + d)) st ->
  (forall j, g <= j <= g + d -> pv st (g + d) <= length (crd st j) /\ 0 < length (crd st j)) ->
  appended us g d [] st st.
Proof.
  intros us g d st HB HC. unfold appended. cbn [length map].
  split; [auto|]. split; [auto|]. split; [auto|]. split; [auto|]. split; [apply ag_refl|].
  split. { intros j Hj. destruct (HC j Hj). auto. }
  split; [lia|]. split. { intros _ [|i] v; discriminate. }
  split; [auto|]. split; [congruence|]. now rewrite Nat.sub_diag.
Qed.

Lemma appended_app : forall us g d vs ws a b c,
  g + d + length us = last ->
  appended us g d vs a b -> appended us g d ws b c -> appended us g d (vs ++ ws) a c.
Proof.
  intros us g d vs ws a b c Hl
    (A1 & A2 & A3 & A4 & A5 & A6 & A7 & A8 & A9 & A10 & A11)
    (B1 & B2 & B3 & B4 & B5 & B6 & B7 & B8 & B9 & B10 & B11).
  pose proof (ag_pv _ _ _ _ A5) as PA. pose proof (ag_pv _ _ _ _ B5) as PB.
  replace (S (g + d) - 1) with (g + d) in PA, PB by lia.
  unfold appended.
  split. { intros j Hj. rewrite B1, A1; auto. }
  split. { intros j Hj. destruct (A2 j Hj), (B2 j Hj). split; congruence. }
  split. { intros j Hj. rewrite B3, A3; auto. }
  split; [exact B4|]. split; [eapply ag_trans; eauto|].
  split.
  { intros j Hj. destruct (A6 j Hj) as (P1 & P2 & P3), (B6 j Hj) as (Q1 & Q2 & Q3).
    split; [auto|]. split; [auto|]. intros i Hi. rewrite Q3 by lia. auto. }
  split. { rewrite B7, A7, app_length. lia. }
  split.
  { intros Hc i v Hi. rewrite map_app in Hi.
    destruct (Nat.lt_ge_cases i (length (map snd vs))) as [Hlt|Hge].
    - rewrite nth_error_app1 in Hi by auto. rewrite map_length in Hlt.
      rewrite (ag_vals _ _ _ _ B5 Hc).
      + apply A8; auto.
      + replace (S (g + d) + length us - 1) with last by lia. rewrite A7. lia.
    - rewrite nth_error_app2 in Hi by auto. rewrite map_length in *.
      specialize (B8 Hc _ _ Hi). rewrite A7 in B8.
      now replace (pv a last + length vs + (i - length vs)) with (pv a last + i) in B8 by lia. }
  split. { intros He. apply app_eq_nil in He as [-> ->]. rewrite B9, A9; auto. }
  split. { intros He. destruct vs; [|specialize (A10 ltac:(discriminate)); lia].
           specialize (B10 He). lia. }
  replace (pv c (g + d) - pv a (g + d)) with
    ((pv b (g + d) - pv a (g + d)) + (pv c (g + d) - pv b (g + d))) by lia.
  rewrite seq_app, map_app.
  replace (pv a (g + d) + (pv b (g + d) - pv a (g + d))) with (pv b (g + d)) by lia.
  rewrite map_app.
  assert (EL : length (vs ++ ws) = length (map fst vs ++ map fst ws)) by (now rewrite !app_length, !map_length).
  rewrite EL, combine_seq_app. rewrite !map_length.
  apply all_some_app.
  - rewrite <- A11. f_equal. apply map_ext_in. intros q Hq. apply in_seq in Hq.
    apply entry_ag; auto; [lia|]. intros j Hj. apply (B6 j Hj). lia.
  - rewrite <- A7. exact B11.
Qed.

Lemma steps_ok : forall us g d, g + d + length us = last -> step_ok us g d ->
  forall xs st,
    below (length us) (S (g + d)) st ->
    (forall j, g <= j <= g + d -> pv st (g + d) <= length (crd st j) /\ 0 < length (crd st j)) ->
    exists st', fold_res (step (map Comp us) (g + d)) xs st = Ok st' /\
                appended us g d (flat_map (group_visited g d (length us)) xs) st st'.
Proof.
  intros us g d Hl HS. induction xs as [|[co t] xs IH]; intros st HB HC.
  - exists st. split; [reflexivity|]. now apply appended_nil.
  - destruct (HS co t st HB HC) as (st1 & E1 & A1).
    destruct (IH st1) as (st2 & E2 & A2).
    { apply A1. } { intros j Hj. destruct A1 as (_ & _ & _ & _ & _ & A & _). destruct (A j Hj) as (? & ? & _). auto. }
    exists st2. split.
    + cbn [fold_res]. rewrite E1. exact E2.
    + cbn [flat_map]. eapply appended_app; eauto.
Qed.

Lemma fold_res_ext : forall A (f f' : A -> state V -> res (state V)) xs st,
  (forall x s, f x s = f' x s) -> fold_res f xs st = fold_res f' xs st.
Proof.
  intros A f f' xs. induction xs as [|x xs IH]; intros st H; cbn [fold_res]; auto.
  rewrite H. destruct (f' x st); cbn [bind]; auto.
Qed.

Lemma fold_res_map : forall A B (h : A -> B) (f : B -> state V -> res (state V)) xs st,
  fold_res f (map h xs) st = fold_res (fun x => f (h x)) xs st.
Proof.
  intros A B h f xs. induction xs as [|x xs IH]; intros st; cbn [fold_res map]; auto.
  destruct (f (h x) st); cbn [bind]; auto.
Qed.

(** A compressed level below the group. *)
Definition level_done (us : list bool) (l : nat) (vs : list (list nat * V)) (st st' : state V) : Prop :=
  let n := length us in
  (forall j, j < l -> pv st' j = pv st j /\ bg st' j = bg st j /\ pos st' j = pos st j /\ crd st' j = crd st j) /\
  (forall i, i <= pv st (l - 1) -> aget (pos st' l) i = aget (pos st l) i) /\
  aget (pos st' l) (pv st (l - 1) + 1) = Some (pv st' l) /\
  bg st' l = pv st l /\
  pv st' l <= length (crd st' l) /\ 0 < length (crd st' l) /\
  (forall i, i < pv st l -> aget (crd st' l) i = aget (crd st l) i) /\
  below n (S l) st' /\ ag n (S l) st st' /\
  pv st' last = pv st last + length vs /\
  (compute = true -> forall i v, nth_error (map snd vs) i = Some v ->
                                 aget (vals st') (pv st last + i) = Some v) /\
  (vs = [] -> pv st' l = pv st l) /\
  (vs <> [] -> pv st l < pv st' l) /\
  all_some (map (entry (map Comp us) l 1 st') (seq (pv st l) (pv st' l - pv st l))) =
    Some (combine (map fst vs) (seq (pv st last) (length vs))).

Lemma group_visited_one : forall n l co t,
  flat_map (group_visited l 0 n) (map (fun ct => (upd co l (fst ct), snd ct)) (kids t)) =
  visited zero (S n) t.
Proof.
  intros n l co t. cbn [visited]. induction (kids t) as [|[c s] ts IH]; [reflexivity|].
  cbn [map flat_map fst snd]. rewrite IH. f_equal.
  unfold group_visited. cbn [fst snd seq map app]. now rewrite upd_same.
Qed.

Lemma level_from_step : forall u us l, m < l -> l + length us = last -> step_ok us l 0 ->
  forall co t st, below (S (length us)) l st ->
  exists st', level zero K compute (map Comp (u :: us)) l co t st = Ok st' /\
              level_done us l (visited zero (S (length us)) t) st st'.
Proof.
  intros u us l Hml Hl HS co t st HB.
  cbn [below] in HB. destruct HB as (B1 & BN & B2 & B3 & B4 & B5).
  destruct l as [|l']; [lia|]. replace (S l' - 1) with l' in * by lia.
  set (l := S l') in *.
  assert (Hbl : branchless_at K l = false) by (apply Hb2; lia).
  pose proof (aget_lt _ _ _ _ B2) as Hlen.
  destruct (grown_double _ (pos st l) (pv st l' + 1) ltac:(lia) ltac:(lia)) as (G1 & G2 & G3).
  assert (Ebef : before K l st =
    set_pos (set_bg st l (pv st l)) l (double_if_full (pos st l) (pv st l' + 1))).
  { unfold before. rewrite Hbl. unfold l. rewrite Hs by (unfold l in Hml; lia). reflexivity. }
  set (st0 := before K l st) in *.
  assert (S0 : same_from (S l) st st0).
  { rewrite Ebef. unfold same_from. cbn [set_pos set_bg pos crd pv vals].
    split; [|split; auto]. intros j Hj. split; [|auto]. apply upd_other. lia. }
  assert (P0 : pv st0 = pv st) by (rewrite Ebef; reflexivity).
  assert (C0 : crd st0 = crd st) by (rewrite Ebef; reflexivity).
  assert (V0 : vals st0 = vals st) by (rewrite Ebef; reflexivity).
  assert (Q0 : forall j, j <> l -> pos st0 j = pos st j)
    by (intros; rewrite Ebef; cbn [set_pos set_bg pos]; now apply upd_other).
  assert (Ql : pos st0 l = double_if_full (pos st l) (pv st l' + 1))
    by (rewrite Ebef; cbn [set_pos set_bg pos]; apply upd_same).
  assert (G0 : forall j, j <> l -> bg st0 j = bg st j)
    by (intros; rewrite Ebef; cbn [set_pos set_bg bg]; now apply upd_other).
  assert (Gl : bg st0 l = pv st l)
    by (rewrite Ebef; cbn [set_pos set_bg bg]; apply upd_same).
  destruct (steps_ok us l 0 ltac:(lia) HS
              (map (fun ct => (upd co l (fst ct), snd ct)) (kids t)) st0)
    as (st1 & E1 & A).
  { rewrite Nat.add_0_r. apply (below_same _ _ st); auto.
    replace (S l - 1) with l by lia. now rewrite P0. }
  { intros j Hj. assert (j = l) as -> by lia. rewrite Nat.add_0_r, P0, C0. auto. }
  rewrite group_visited_one in A. unfold appended in A. rewrite Nat.add_0_r in A.
  destruct A as (A1 & A2 & A3 & A4 & A5 & A6 & A7 & A8 & A9 & A10 & A11).
  rewrite P0, C0 in *.
  destruct (A6 l ltac:(lia)) as (R1 & R2 & R3).
  destruct (A2 l ltac:(lia)) as (T1 & T2).
  exists (set_pos st1 l (put (pos st1 l) (pv st l' + 1) (pv st1 l))).
  split.
  { cbn [map level]. fold l. fold st0.
    rewrite fold_res_map in E1. rewrite Nat.add_0_r in E1.
    assert (EF : fold_res (fun ct s => bind (level zero K compute (map Comp us) (S l) (upd co l (fst ct)) (snd ct) s)
                  (append_coordinate K (upd co l (fst ct)) l)) (kids t) st0 = Ok st1).
    { rewrite <- E1. apply fold_res_ext. intros. reflexivity. }
    cbv zeta. rewrite EF. cbn [bind]. unfold after. rewrite Hbl.
    unfold l at 2. cbn [parent_pos]. rewrite A1 by (unfold l; lia).
    rewrite aset_ok by (rewrite T1, Ql; lia). cbn [bind].
    rewrite Hs by lia. reflexivity. }
  unfold level_done. cbv zeta. set (st2 := set_pos st1 l _).
  assert (PV2 : pv st2 = pv st1) by reflexivity.
  assert (CR2 : crd st2 = crd st1) by reflexivity.
  assert (BG2 : bg st2 = bg st1) by reflexivity.
  assert (VA2 : vals st2 = vals st1) by reflexivity.
  assert (PO2 : forall j, j <> l -> pos st2 j = pos st1 j)
    by (intros; unfold st2; cbn [set_pos pos]; now apply upd_other).
  assert (PL2 : pos st2 l = put (pos st1 l) (pv st l' + 1) (pv st1 l))
    by (unfold st2; cbn [set_pos pos]; apply upd_same).
  assert (S2 : same_from (S l) st1 st2).
  { split; [|split]; auto. intros j Hj. split; [apply PO2; lia|now rewrite CR2]. }
  replace (S l - 1) with l by lia. replace (l - 1) with l' by (unfold l; lia).
  rewrite PV2, CR2, BG2, VA2, PL2.
  split.
  { intros j Hj. rewrite PO2 by lia. rewrite A1 by lia. destruct (A2 j ltac:(lia)) as [U1 U2].
    rewrite U1, U2, Q0, G0 by lia. rewrite A3 by lia. auto. }
  split. { intros i Hi. rewrite aget_put_other by lia. rewrite T1, Ql. apply G3. }
  split. { apply aget_put_same. rewrite T1, Ql. exact G1. }
  split. { rewrite T2. exact Gl. }
  split; [exact R1|]. split; [exact R2|]. split; [exact R3|].
  split. { apply (below_same _ _ st1); auto. }
  split.
  { apply (ag_same _ _ st st1); [exact S2|rewrite PV2; lia|].
    apply (ag_trans _ _ _ st0); [|exact A5].
    apply (ag_same _ _ st st); [exact S0|rewrite P0; lia|apply ag_refl]. }
  split; [exact A7|]. split; [exact A8|]. split; [exact A9|]. split; [exact A10|].
  rewrite <- A11. f_equal. apply map_ext_in. intros q Hq. apply in_seq in Hq.
  apply entry_ag; rewrite ?Nat.add_0_r; auto.
  - apply (ag_same _ _ st1 st1); [exact S2|rewrite PV2; lia|apply ag_refl].
  - lia.
Qed.

Lemma steps_all : forall us g d,
  g + d + length us = last -> m <= g + d ->
  (forall j, g < j <= g + d -> branchless_at K j = true) ->
  branchless_at K g = false ->
  step_ok us g d.
Proof.
  induction us as [|u us IH]; intros g d Hl Hmg HB1 HB2 co t st HB HC.
  - (* values *)
    cbn [length] in *. rewrite Nat.add_0_r in Hl.
    unfold step. cbn [map level fst snd]. replace (S (g + d) - 1) with (g + d) by lia.
    cbn [below] in HB. replace (S (g + d) - 1) with (g + d) in HB by lia.
    assert (Hst1 : exists st1, store_value zero compute (g + d) t st = Ok st1 /\
              pv st1 = pv st /\ bg st1 = bg st /\ pos st1 = pos st /\ crd st1 = crd st /\
              (compute = true -> S (pv st (g + d)) <= length (vals st1) /\
                 aget (vals st1) (pv st (g + d)) = Some (value zero t) /\
                 forall i, i < pv st (g + d) -> aget (vals st1) i = aget (vals st) i)).
    { unfold store_value. destruct compute.
      - destruct (HB eq_refl) as [H1 H2].
        destruct (grown_double _ (vals st) (pv st (g + d)) H1 H2) as (G1 & G2 & G3).
        rewrite aset_ok by auto. cbn [bind]. eexists. split; [reflexivity|].
        cbn [set_vals pv bg pos crd vals]. repeat (split; [reflexivity|]).
        intros _. rewrite length_put. split; [lia|]. split; [now apply aget_put_same|].
        intros i Hi. rewrite aget_put_other by lia. apply G3.
      - exists st. repeat (split; [reflexivity|]). discriminate. }
    destruct Hst1 as (st1 & E1 & P1 & P2 & P3 & P4 & P5). rewrite E1. cbn [bind].
    unfold append_coordinate. rewrite (Hb2 (S (g + d))) by lia.
    destruct (Nat.ltb_spec (S (g + d)) (length K)); [lia|].
    destruct (append_up_group K co (pv st1 (g + d)) d g st1 HB1 HB2) as
      (st2 & E2 & Q1 & Q2 & Q3 & Q4 & Q5 & Q6).
    { intros j Hj. rewrite P1, P4. now apply HC. }
    rewrite E2. cbn [bind]. eexists. split; [reflexivity|].
    unfold appended, group_visited. cbn [length visited fst snd map].
    set (st3 := set_pv st2 (g + d) _).
    assert (W1 : pv st3 (g + d) = S (pv st (g + d)))
      by (unfold st3; cbn [set_pv pv]; rewrite upd_same, Q1, P1; lia).
    assert (W2 : forall j, j <> g + d -> pv st3 j = pv st j)
      by (intros; unfold st3; cbn [set_pv pv]; rewrite upd_other, Q1, P1 by auto; auto).
    assert (W3 : crd st3 = crd st2) by reflexivity.
    assert (W4 : pos st3 = pos st) by (unfold st3; cbn [set_pv pos]; congruence).
    assert (W5 : bg st3 = bg st) by (unfold st3; cbn [set_pv bg]; congruence).
    assert (W6 : vals st3 = vals st1) by (unfold st3; cbn [set_pv vals]; congruence).
    rewrite W3, W4, W5, W6, W1, <- Hl, W1. rewrite P1, P4 in *.
    split. { intros j Hj. apply W2. lia. }
    split; [auto|]. split. { intros j Hj. apply Q6. lia. }
    cbn [below ag]. replace (S (g + d) - 1) with (g + d) by lia. rewrite W1, W6.
    split. { intros Hc. destruct (P5 Hc) as (? & _). lia. }
    split. { split; [lia|]. intros Hc. apply (P5 Hc). }
    split. { intros j Hj. destruct (Q5 j Hj) as (? & ? & Z). split; [lia|]. split; [lia|].
             intros i Hi. apply Z. lia. }
    split; [lia|].
    split. { intros Hc [|[|i]] v Hv; cbn in Hv; try discriminate. injection Hv as <-.
             rewrite Nat.add_0_r. apply (P5 Hc). }
    split; [discriminate|]. split; [lia|].
    replace (S (pv st (g + d)) - pv st (g + d)) with 1 by lia.
    cbn [seq map all_some]. unfold entry. rewrite (tup_co (S d) g st3 _ co).
    + cbn [stored map]. cbn [map fst snd seq combine app]. reflexivity.
    + intros j Hj. rewrite W3. apply (Q5 j). lia.
  - (* a level below *)
    unfold step. cbn [fst snd].
    set (e := g + d) in *.
    assert (HSl : step_ok us (S e) 0).
    { cbn [length] in Hl. apply IH; [lia|lia| |apply Hb2; lia].
      intros j Hj. exfalso. lia. }
    cbn [length] in Hl.
    destruct (level_from_step u us (S e) ltac:(lia) ltac:(lia) HSl co t st HB) as (st1 & E1 & A).
    rewrite E1. cbn [bind].
    unfold level_done in A. replace (S e - 1) with e in A by lia.
    destruct A as (A1 & A2 & A3 & A4 & A5 & A6 & A7 & A8 & A9 & A10 & A11 & A12 & A13 & A14).
    unfold append_coordinate. rewrite (Hb2 (S e)) by lia.
    destruct (Nat.ltb_spec (S e) (length K)); [|lia]. rewrite A4.
    assert (Pe : pv st1 e = pv st e) by (apply A1; lia).
    cbn [length below] in HB. replace (S e - 1) with e in HB by lia.
    destruct HB as (B1 & BN & B2 & B3 & B4 & B5).
    cbn [length]. set (vs := visited zero (S (length us)) t) in *.
    pose proof (ag_pv _ _ _ _ A9) as Mono. replace (S (S e) - 1) with (S e) in Mono by lia.
    assert (Hgv : length (group_visited g d (S (length us)) (co, t)) = length vs)
      by (unfold group_visited; now rewrite map_length).
    assert (Hsnd : map snd (group_visited g d (S (length us)) (co, t)) = map snd vs)
      by (unfold group_visited; rewrite map_map; reflexivity).
    destruct (Nat.ltb_spec (pv st (S e)) (pv st1 (S e))) as [Hlt|Hge].
    + destruct (append_up_group K co (pv st1 e) d g st1 HB1 HB2) as
        (st2 & E2 & Q1 & Q2 & Q3 & Q4 & Q5 & Q6).
      { intros j Hj. rewrite Pe. destruct (A1 j ltac:(lia)) as (_ & _ & _ & ->). now apply HC. }
      fold e in E2, Q5, Q6. rewrite E2. cbn [bind]. eexists. split; [reflexivity|].
      set (st3 := set_pv st2 e _).
      assert (W1 : pv st3 e = S (pv st e))
        by (unfold st3; cbn [set_pv pv]; rewrite upd_same, Q1, Pe; lia).
      assert (W2 : forall j, j <> e -> pv st3 j = pv st1 j)
        by (intros; unfold st3; cbn [set_pv pv]; rewrite upd_other, Q1 by auto; auto).
      assert (W3 : crd st3 = crd st2) by reflexivity.
      assert (W4 : pos st3 = pos st1) by (unfold st3; cbn [set_pv pos]; congruence).
      assert (W5 : bg st3 = bg st1) by (unfold st3; cbn [set_pv bg]; congruence).
      assert (W6 : vals st3 = vals st1) by (unfold st3; cbn [set_pv vals]; congruence).
      assert (SF : same_from (S e) st1 st3).
      { split; [|split]; auto.
        - intros j Hj. rewrite W4, W3, Q6 by lia. auto.
        - intros j Hj. apply W2. lia. }
      assert (SF2 : same_from (S (S e)) st1 st3).
      { split; [|split]; auto; intros; try apply SF; try apply W2; lia. }
      unfold appended. cbv zeta. fold e. rewrite Hgv, Hsnd, W1.
      split. { intros j Hj. rewrite W2 by lia. apply A1. lia. }
      split. { intros j Hj. rewrite W4, W5. destruct (A1 j ltac:(lia)) as (_ & ? & ? & _). auto. }
      split. { intros j Hj. rewrite W3, Q6 by lia. apply A1. lia. }
      split.
      { cbn [length below]. replace (S e - 1) with e by lia. rewrite W1, W4, W3, Q6, W2 by lia.
        split.
        { intros i Hi. destruct (Nat.eq_dec i (S (pv st e))) as [->|].
          - exists (pv st1 (S e)). split; [|lia]. rewrite <- A3. f_equal. lia.
          - rewrite A2 by lia. destruct (B1 i ltac:(lia)) as (x & Hx1 & Hx2). exists x. split; [auto|lia]. }
        split.
        { intros i Hi. destruct (Nat.eq_dec i (pv st e)) as [->|].
          - exists (pv st (S e)), (pv st1 (S e)). rewrite A2 by lia. auto.
          - rewrite !A2 by lia. apply BN. lia. }
        split. { rewrite <- A3. f_equal. lia. }
        split; [exact A5|]. split; [exact A6|].
        apply (below_same _ _ st1); auto. replace (S (S e) - 1) with (S e) by lia. apply W2. lia. }
      split.
      { cbn [length ag]. replace (S e - 1) with e by lia. rewrite W1, W4, W3, Q6 by lia.
        split; [lia|]. split; [exact A2|]. split; [exact A7|].
        apply (ag_same _ _ st st1); auto. replace (S (S e) - 1) with (S e) by lia. rewrite W2; lia. }
      split.
      { intros j Hj. rewrite W3. destruct (Q5 j Hj) as (? & ? & Z). split; [lia|]. split; [lia|].
        intros i Hi. rewrite Z by lia. destruct (A1 j ltac:(lia)) as (_ & _ & _ & ->). auto. }
      split. { rewrite W2 by lia. exact A10. }
      split. { rewrite W6. exact A11. }
      split. { intros He. rewrite (A12) in Hlt; [lia|].
               destruct vs; auto. apply (f_equal (@length _)) in He. rewrite Hgv in He. discriminate. }
      split; [lia|].
      replace (S (pv st e) - pv st e) with 1 by lia.
      cbn [seq map all_some]. unfold entry. rewrite (tup_co (S d) g st3 _ co).
      2: { intros j Hj. rewrite W3. rewrite <- Pe. apply (Q5 j). unfold e. lia. }
      replace (g + S d) with (S e) by (unfold e; lia).
      cbn [stored]. rewrite W4, A2, B2, A3 by lia.
      assert (EA : map (fun q : nat =>
          match aget (crd st3 (S e)) q with
          | Some c => match stored (map Comp us) (S (S e)) st3 q with
                      | Some r => Some (map (fun x : list nat * nat => (c :: fst x, snd x)) r)
                      | None => None end
          | None => None end) (seq (pv st (S e)) (pv st1 (S e) - pv st (S e))) =
        map (entry (map Comp us) (S e) 1 st1) (seq (pv st (S e)) (pv st1 (S e) - pv st (S e)))).
      { apply map_ext_in. intros q Hq. apply in_seq in Hq.
        unfold entry. cbn [tup]. rewrite W3, Q6 by lia.
        replace (S e + 1) with (S (S e)) by lia.
        rewrite (stored_ag us (S (S e)) st1 st3 q A8).
        - destruct (aget (crd st1 (S e)) q); [|reflexivity].
          destruct (stored (map Comp us) (S (S e)) st1 q); reflexivity.
        - apply (ag_same _ _ st1 st1); auto; [|apply ag_refl].
          replace (S (S e) - 1) with (S e) by lia. rewrite W2; lia.
        - replace (S (S e) - 1) with (S e) by lia. lia. }
      rewrite EA, A14. f_equal. rewrite app_nil_r.
      unfold group_visited. fold vs. cbn [fst snd]. rewrite map_map. cbn [fst].
      rewrite <- (map_map fst (fun y => map co (seq g (S d)) ++ y)).
      apply combine_map_left.
    + eexists. split; [reflexivity|].
      assert (Hvs : vs = []) by (destruct vs; auto; specialize (A13 ltac:(discriminate)); lia).
      assert (Hg0 : group_visited g d (S (length us)) (co, t) = [])
        by (apply length_zero_iff_nil; rewrite Hgv, Hvs; reflexivity).
      rewrite Hg0. specialize (A12 Hvs). rewrite Hvs in A10. cbn [length] in A10.
      unfold appended. cbv zeta. fold e. rewrite Pe, Nat.sub_diag. cbn [length map seq].
      split. { intros j Hj. apply A1. lia. }
      split. { intros j Hj. destruct (A1 j ltac:(lia)) as (_ & ? & ? & _). auto. }
      split. { intros j Hj. apply A1. lia. }
      split.
      { cbn [below]. replace (S e - 1) with e by lia. rewrite Pe.
        split. { intros i Hi. rewrite A2 by lia. destruct (B1 i Hi) as (x & ? & ?). exists x. split; [auto|lia]. }
        split. { intros i Hi. rewrite !A2 by lia. now apply BN. }
        split. { rewrite A2, A12 by lia. exact B2. }
        auto. }
      split. { cbn [ag]. replace (S e - 1) with e by lia. rewrite Pe. auto. }
      split.
      { intros j Hj. destruct (A1 j ltac:(lia)) as (_ & _ & _ & ->). destruct (HC j Hj). auto. }
      split; [exact A10|]. split. { intros _ [|i] v; discriminate. }
      split; [auto|]. split; [congruence|]. reflexivity.
Qed.


(** * The loops of the group, flattened *)

Fixpoint tuples (k j : nat) (co : nat -> nat) (t : tree V) : list ((nat -> nat) * tree V) :=
  match k with
  | 0 => map (fun ct => (upd co j (fst ct), snd ct)) (kids t)
  | S k => flat_map (fun ct => tuples k (S j) (upd co j (fst ct)) (snd ct)) (kids t)
  end.

Lemma fold_res_app : forall A (f : A -> state V -> res (state V)) xs ys st,
  fold_res f (xs ++ ys) st = bind (fold_res f xs st) (fold_res f ys).
Proof.
  intros A f xs ys. induction xs as [|x xs IH]; intros st; cbn [fold_res app bind]; auto.
  destruct (f x st); cbn [bind]; auto.
Qed.

Lemma fold_res_flat_map : forall A B (h : A -> list B) (f : B -> state V -> res (state V)) xs st,
  fold_res f (flat_map h xs) st = fold_res (fun x => fold_res f (h x)) xs st.
Proof.
  intros A B h f xs. induction xs as [|x xs IH]; intros st; cbn [fold_res flat_map]; auto.
  rewrite fold_res_app. destruct (fold_res f (h x) st); cbn [bind]; auto.
Qed.

Lemma bind_ok : forall A (x : res A), bind x Ok = x.
Proof. now intros A []. Qed.

Lemma group_loops : forall us vs j co t st, j + length us = m ->
  fold_res (fun ct s => bind (level zero K compute (map Sing us ++ map Comp vs) (S j) (upd co j (fst ct)) (snd ct) s)
                             (append_coordinate K (upd co j (fst ct)) j)) (kids t) st =
  fold_res (step (map Comp vs) m) (tuples (length us) j co t) st.
Proof.
  induction us as [|u us IH]; intros vs j co t st Hj; cbn [length] in Hj.
  - rewrite Nat.add_0_r in Hj. subst j. cbn [map app length tuples]. rewrite fold_res_map.
    apply fold_res_ext. intros. reflexivity.
  - cbn [length tuples]. rewrite fold_res_flat_map. apply fold_res_ext. intros [c s] st1.
    cbn [map app level fst snd].
    assert (HB : branchless_at K (S j) = true) by (apply Hb1; lia).
    unfold before, after, append_coordinate. rewrite HB. cbv zeta.
    rewrite !bind_ok. apply IH. lia.
Qed.

Lemma visited_tuples : forall k n j co t,
  flat_map (group_visited 0 (j + k) n) (tuples k j co t) =
  map (fun v => (map co (seq 0 j) ++ fst v, snd v)) (visited zero (S k + n) t).
Proof.
  induction k as [|k IH]; intros n j co t; cbn [tuples Nat.add].
  - cbn [visited]. induction (kids t) as [|[c s] ts IHt]; [reflexivity|].
    cbn [map flat_map fst snd]. rewrite IHt, map_app. f_equal.
    unfold group_visited. cbn [fst snd]. rewrite map_map. apply map_ext. intros v. cbn [fst snd].
    f_equal. rewrite Nat.add_0_r, seq_S, map_app. cbn [map Nat.add]. rewrite upd_same, <- app_assoc. cbn [app].
    f_equal. apply map_ext_in. intros i Hi. apply in_seq in Hi. apply upd_other. lia.
  - change (visited zero (S (S (k + n))) t) with
      (flat_map (fun ct => map (fun p => (fst ct :: fst p, snd p)) (visited zero (S k + n) (snd ct))) (kids t)).
    induction (kids t) as [|[c s] ts IHt]; [reflexivity|].
    cbn [flat_map fst snd]. rewrite flat_map_app, IHt, map_app. f_equal.
    replace (j + S k) with (S j + k) by lia. rewrite IH, map_map. apply map_ext. intros v. cbn [fst snd].
    f_equal. rewrite seq_S, map_app. cbn [map Nat.add]. rewrite upd_same, <- app_assoc. cbn [app].
    f_equal. apply map_ext_in. intros i Hi. apply in_seq in Hi. apply upd_other. lia.
Qed.

Variable alloc : nat.
Hypothesis Halloc : 0 < alloc.

Lemma below_init : forall n l, 0 < l -> below n l (@init V alloc).
Proof.
  induction n as [|n IH]; intros l Hl; cbn [below init pv pos crd vals].
  - intros _. rewrite repeat_length. lia.
  - destruct l as [|l]; [lia|]. rewrite repeat_length.
    split. { intros i Hi. assert (i = 0) as -> by lia. exists 0. split; auto. }
    split. { intros i Hi. lia. }
    split; [reflexivity|]. split; [lia|]. split; [lia|]. apply IH. lia.
Qed.

Lemma level_top : forall u us vs co t,
  K = Comp u :: map Sing us ++ map Comp vs -> length us = m -> shared K 0 = m ->
  exists st, level zero K compute K 0 co t (init alloc) = Ok st /\
    let v := visited zero (length K) t in
    stored K 0 st 0 = Some (combine (map fst v) (seq 0 (length v))) /\
    pv st last = length v /\
    no_empty K 0 st 0 /\
    (compute = true -> forall i x, nth_error (map snd v) i = Some x -> aget (vals st) i = Some x).
Proof.
  intros u us vs co t HK Hus Hsh.
  assert (Hlen : length K = S (m + length vs))
    by (rewrite HK; cbn [length]; now rewrite app_length, !map_length, Hus).
  assert (Hvs : 0 + m + length vs = last) by lia.
  assert (HS : step_ok vs 0 m).
  { apply steps_all; auto. }
  set (st0 := set_bg (@init V alloc) 0 0).
  destruct (steps_ok vs 0 m Hvs HS (tuples m 0 co t) st0) as (st1 & E1 & A).
  { apply (below_same _ _ (init alloc)); [|reflexivity|apply below_init; lia].
    repeat split; auto. }
  { intros j Hj. unfold st0. cbn. rewrite repeat_length. lia. }
  pose proof (visited_tuples m (length vs) 0 co t) as EV. cbn [Nat.add seq map app] in EV.
  cbn [Nat.add] in E1, A.
  assert (EV' : flat_map (group_visited 0 m (length vs)) (tuples m 0 co t) = visited zero (length K) t).
  { rewrite EV, Hlen. rewrite <- (map_id (visited zero (S (m + length vs)) t)) at 2.
    apply map_ext. now intros []. }
  rewrite EV' in A. unfold appended in A. cbn [Nat.add] in A.
  destruct A as (A1 & A2 & A3 & A4 & A5 & A6 & A7 & A8 & A9 & A10 & A11).
  destruct (A2 0 ltac:(lia)) as (T1 & T2).
  assert (I0 : pos st0 0 = [Some 0; None]) by reflexivity.
  rewrite I0 in T1.
  exists (set_pos st1 0 [Some 0; Some (pv st1 m)]).
  split.
  { rewrite HK at 2. cbn [level]. cbv zeta.
    unfold before. rewrite Hb0, Hsh. change (set_bg (init alloc) 0 (pv (init alloc) m)) with st0.
    pose proof (group_loops us vs 0 co t st0 ltac:(lia)) as GL. cbn in GL.
    rewrite Hus in GL. rewrite E1 in GL. rewrite GL. cbn [bind].
    unfold after. rewrite Hb0, Hsh, T1. cbn [parent_pos Nat.add]. reflexivity. }
  cbv zeta. set (st2 := set_pos st1 0 _).
  assert (P2 : pv st2 = pv st1) by reflexivity.
  assert (C2 : crd st2 = crd st1) by reflexivity.
  assert (V2 : vals st2 = vals st1) by reflexivity.
  assert (O2 : forall j, 0 < j -> pos st2 j = pos st1 j)
    by (intros; unfold st2; cbn [set_pos pos]; apply upd_other; lia).
  change (pv st0 last) with 0 in A7, A8, A11. change (pv st0 m) with 0 in A11.
  split.
  { rewrite HK at 1. cbn [stored].
    change (pos st2 0) with [Some 0; Some (pv st1 m)]. cbn [Nat.add].
    change (aget [Some 0; Some (pv st1 m)] 0) with (Some 0).
    change (aget [Some 0; Some (pv st1 m)] 1) with (Some (pv st1 m)).
    rewrite <- A11. f_equal. rewrite Nat.sub_0_r. apply map_ext_in. intros q Hq.
    rewrite <- (entry_ag vs 0 m st1 st2 q).
    - unfold entry. cbn [tup]. rewrite stored_group.
      destruct (aget (crd st2 0) q) as [c|]; [|reflexivity].
      rewrite Hus. cbn [Nat.add].
      destruct (tup st2 1 m q) as [r|]; [|reflexivity].
      destruct (stored (map Comp vs) (S m) st2 q) as [w|]; [|reflexivity].
      f_equal. rewrite map_map. apply map_ext. now intros [].
    - exact A4.
    - apply (ag_same _ _ st1 st1); [|rewrite P2; lia|apply ag_refl].
      split; [|split]; auto. intros j Hj. split; [apply O2; lia|auto].
    - cbn [Nat.add]. apply in_seq in Hq. lia.
    - intros j Hj. now rewrite C2. }
  split. { rewrite P2, A7. reflexivity. }
  split.
  { rewrite HK at 1. cbn [no_empty]. exists 0, (pv st1 m).
    split; [reflexivity|]. split; [reflexivity|]. split; [lia|].
    intros q Hq. rewrite no_empty_group. rewrite Hus. apply no_empty_below; [| |lia].
    - apply (below_same _ _ st1); auto.
      split; [|split]; auto. intros j Hj. split; [apply O2; lia|auto].
    - replace (1 + m - 1) with m by lia. rewrite P2. lia. }
  rewrite V2. exact A8.
Qed.

End Kernel.

(** * Formats *)

Lemma run_sings : forall us vs, run (map Sing us ++ map Comp vs) = length us.
Proof. induction us as [|u us IH]; intros vs; cbn; [now destruct vs|now rewrite IH]. Qed.

Lemma run_comps : forall vs, run (map Comp vs) = 0.
Proof. now intros [|v vs]. Qed.

Section Formats.
Variables (u : bool) (us vs : list bool).
Let K := Comp u :: map Sing us ++ map Comp vs.

Lemma fmt_branchless : forall j, 0 < j <= length us -> branchless_at K j = true.
Proof.
  intros [|j] Hj; [lia|]. unfold branchless_at, K. cbn [nth_error].
  rewrite nth_error_app1 by (rewrite map_length; lia). rewrite nth_error_map.
  destruct (nth_error us j) eqn:E; [reflexivity|]. apply nth_error_None in E. lia.
Qed.

Lemma fmt_comp : forall j, length us < j -> branchless_at K j = false.
Proof.
  intros [|j] Hj; [lia|]. unfold branchless_at, K. cbn [nth_error].
  rewrite nth_error_app2 by (rewrite map_length; lia). rewrite nth_error_map.
  now destruct (nth_error vs _).
Qed.

Lemma fmt_shared0 : shared K 0 = length us.
Proof. unfold shared, K. cbn [skipn Nat.add]. apply run_sings. Qed.

Lemma fmt_shared : forall j, length us < j -> shared K j = j.
Proof.
  intros j Hj. unfold shared, K. cbn [skipn].
  rewrite skipn_app, skipn_all2 by (rewrite map_length; lia). cbn [app].
  rewrite skipn_map, run_comps. lia.
Qed.

Lemma fmt_declared : all_levels K (guard_declared K) = true.
Proof.
  apply forallb_forall. intros l Hl. apply in_seq in Hl. unfold guard_declared.
  destruct (branchless_at K (S l)) eqn:E; auto.
  destruct (Nat.ltb_spec (S l) (length K)); auto. unfold declared.
  destruct (Nat.ltb_spec (S l) (length K)); [|lia]. cbn [andb].
  rewrite fmt_comp; auto.
  destruct (Nat.le_gt_cases (S l) (length us)); [|lia].
  rewrite fmt_branchless in E by lia. discriminate.
Qed.

Lemma fmt_accepted :
  match us with [] => True | _ => u = false /\ forall x, In x (removelast us) -> x = false end ->
  all_levels K (parent_accepted K) = true.
Proof.
  intros H. apply forallb_forall. intros l Hl. destruct l as [|l]; [reflexivity|].
  cbn [parent_accepted]. destruct (branchless_at K (S l)) eqn:E; auto.
  destruct (Nat.le_gt_cases (S l) (length us)) as [Hle|Hgt]; [|rewrite fmt_comp in E by lia; discriminate].
  assert (us <> []) as Hne by (intros ->; cbn in Hle; lia).
  assert (u = false /\ forall x, In x (removelast us) -> x = false) as [Hu Hx]
    by (destruct us; [congruence|exact H]).
  clear H. unfold unique_at, K. destruct l as [|l]; cbn [nth_error]; [now rewrite Hu|].
  rewrite nth_error_app1 by (rewrite map_length; lia). rewrite nth_error_map.
  destruct (nth_error us l) as [x|] eqn:En; [|reflexivity]. cbn [option_map is_unique].
  rewrite (Hx x); auto.
  destruct (exists_last Hne) as (us0 & z & Ez). rewrite Ez in En, Hle |- *.
  rewrite removelast_last. rewrite app_length in Hle. cbn [length] in Hle.
  rewrite nth_error_app1 in En by lia. eapply nth_error_In; eauto.
Qed.
End Formats.

Theorem kernel_ok : forall K alloc t, coo_then_compressed K -> 0 < alloc ->
  exists st, kernel zero K alloc compute t = Ok st /\
    let v := visited zero (length K) t in
    stored K 0 st 0 = Some (combine (map fst v) (seq 0 (length v))) /\
    pv st (length K - 1) = length v /\
    no_empty K 0 st 0 /\
    (compute = true -> forall i x, nth_error (map snd v) i = Some x -> aget (vals st) i = Some x).
Proof.
  intros K alloc t (u & us & vs & HK & HU) Ha.
  assert (Hlen : length K = S (length us + length vs))
    by (rewrite HK; cbn [length]; now rewrite app_length, !map_length).
  assert (EA : all_levels K (parent_accepted K) = true) by (rewrite HK; now apply fmt_accepted).
  assert (ED : all_levels K (guard_declared K) = true) by (rewrite HK; apply fmt_declared).
  unfold kernel. rewrite EA, ED. cbn [negb].
  destruct (level_top K (length us) (length us + length vs)) with (alloc := alloc) (u := u) (us := us) (vs := vs) (co := fun _ : nat => 0) (t := t)
    as (st & E & S1 & S2 & S4 & S3); auto; try lia.
  - now rewrite HK.
  - intros. rewrite HK. now apply fmt_branchless.
  - intros. rewrite HK. now apply fmt_comp.
  - intros. rewrite HK. now apply fmt_shared.
  - rewrite HK. apply fmt_shared0.
  - exists st. split; [exact E|]. split; [exact S1|]. split; [|split; [exact S4|exact S3]].
    now replace (length K - 1) with (length us + length vs) by lia.
Qed.

(** * Values *)

Lemma all_some_values : forall (v : list (list nat * V)) (vs : arr V) c,
  (forall i x, nth_error (map snd v) i = Some x -> aget vs (c + i) = Some x) ->
  all_some (map (fun x => match aget vs (snd x) with Some y => Some [(fst x, y)] | None => None end)
                (combine (map fst v) (seq c (length v)))) = Some v.
Proof.
  induction v as [|[a x] v IH]; intros vs c H; [reflexivity|].
  cbn [map combine seq length fst snd all_some].
  pose proof (H 0 x eq_refl) as H0. rewrite Nat.add_0_r in H0. rewrite H0.
  rewrite (IH vs (S c)); [reflexivity|].
  intros i y Hi. specialize (H (S i) y Hi). now replace (S c + i) with (c + S i) by lia.
Qed.

Lemma compute_level_ok : forall n t c (a : arr V),
  c + length (visited zero n t) <= length a ->
  exists a', compute_level zero n t (c, a) = Ok (c + length (visited zero n t), a') /\
    length a' = length a /\
    (forall i, i < c -> aget a' i = aget a i) /\
    (forall i x, nth_error (map snd (visited zero n t)) i = Some x -> aget a' (c + i) = Some x).
Proof.
  induction n as [|n IH]; intros t c a H.
  - cbn [visited length map] in *. cbn [compute_level fst snd]. rewrite aset_ok by lia. cbn [bind].
    eexists. split; [do 2 f_equal; lia|]. split; [apply length_put|]. split.
    + intros i Hi. apply aget_put_other. lia.
    + intros [|[|i]] x Hx; cbn in Hx; try discriminate. injection Hx as <-.
      rewrite Nat.add_0_r. apply aget_put_same. lia.
  - cbn [visited compute_level] in *. revert c a H.
    induction (kids t) as [|[k s] ts IHt]; intros c a H.
    + cbn [flat_map length]. exists a. rewrite Nat.add_0_r. repeat split; auto. intros [|i] x; discriminate.
    + cbn [flat_map fst snd] in *. rewrite app_length, map_length in H.
      destruct (IH s c a ltac:(lia)) as (a1 & E1 & L1 & K1 & N1). rewrite E1. cbn [bind].
      destruct (IHt (c + length (visited zero n s)) a1) as (a2 & E2 & L2 & K2 & N2); [lia|].
      rewrite E2. exists a2. rewrite app_length, map_length. split; [do 2 f_equal; lia|].
      split; [lia|]. split.
      { intros i Hi. rewrite K2 by lia. apply K1. lia. }
      intros i x Hx. rewrite map_app, map_map in Hx. cbn [snd] in Hx.
      destruct (Nat.lt_ge_cases i (length (visited zero n s))) as [Hlt|Hge].
      * rewrite nth_error_app1 in Hx by (rewrite map_length; lia). rewrite K2 by lia. now apply N1.
      * rewrite nth_error_app2 in Hx by (rewrite map_length; lia). rewrite map_length in Hx.
        apply N2 in Hx. now replace (c + i) with (c + length (visited zero n s) + (i - length (visited zero n s))) by lia.
Qed.

End P.

(** * Every format *)

Lemma classify : forall (ks : list kind) u,
  (forall l, parent_accepted (Comp u :: ks) l = true) ->
  (forall l, S l < length (Comp u :: ks) -> branchless_at (Comp u :: ks) (S l) = false ->
             branchless_at (Comp u :: ks) (S (S l)) = false) ->
  coo_then_compressed (Comp u :: ks).
Proof.
  intros ks u HA HG.
  assert (HS : exists us vs, ks = map Sing us ++ map Comp vs).
  { clear HA. revert u HG. induction ks as [|[w|w] ks IH]; intros u HG.
    - exists [], []. reflexivity.
    - assert (HC : forall j, j < length ks -> exists b, nth_error ks j = Some (Comp b)).
      { induction j as [|j IHj]; intros Hj.
        - specialize (HG 0 ltac:(cbn; lia) eq_refl).
          change (match nth_error ks 0 with Some k => branchless k | None => false end = false) in HG.
          destruct (nth_error ks 0) as [[b|b]|] eqn:E; [eauto|discriminate|].
          apply nth_error_None in E. lia.
        - destruct (IHj ltac:(lia)) as [b Hb].
          specialize (HG (S j) ltac:(cbn; lia)).
          change (match nth_error ks j with Some k => branchless k | None => false end = false ->
                  match nth_error ks (S j) with Some k => branchless k | None => false end = false) in HG.
          rewrite Hb in HG. specialize (HG eq_refl).
          destruct (nth_error ks (S j)) as [[b'|b']|] eqn:E; [eauto|discriminate|].
          apply nth_error_None in E. lia. }
      clear IH HG. exists []. cbn [map app].
      assert (exists vs, ks = map Comp vs) as [vs ->].
      { clear w u. induction ks as [|k ks IHk]; [now exists []|].
        destruct (HC 0 ltac:(cbn; lia)) as [b Hb]. injection Hb as ->.
        destruct IHk as [vs ->]. { intros j Hj. apply (HC (S j)). cbn [length]. lia. }
        now exists (b :: vs). }
      now exists (w :: vs).
    - destruct (IH u) as (us & vs & ->).
      { intros l Hl Hb. destruct l as [|l].
        - specialize (HG 1 ltac:(cbn in *; lia)). exact (HG Hb).
        - specialize (HG (S (S l)) ltac:(cbn in *; lia)). exact (HG Hb). }
      exists (w :: us), vs. reflexivity. }
  destruct HS as (us & vs & ->). exists u, us, vs. split; [reflexivity|].
  destruct us as [|w us]; [exact I|]. split.
  - specialize (HA 1). cbn in HA. now destruct u.
  - intros x Hx. apply In_nth_error in Hx as [i Hi].
    assert (Hlen : length (removelast (w :: us)) = length us).
    { clear. revert w. induction us as [|a us IH]; intros w; [reflexivity|]. cbn [removelast length] in *. now rewrite IH. }
    assert (Hlt : i < length us).
    { rewrite <- Hlen. apply nth_error_Some. congruence. }
    assert (Hn : nth_error (w :: us) i = Some x).
    { assert (Hne : w :: us <> []) by discriminate.
      rewrite (app_removelast_last x Hne). rewrite nth_error_app1 by lia. exact Hi. }
    specialize (HA (S (S i))). cbn [parent_accepted] in HA.
    rewrite fmt_branchless in HA by (cbn [length]; lia).
    unfold unique_at in HA. cbn [nth_error] in HA.
    change (Sing w :: map Sing us ++ map Comp vs) with (map Sing (w :: us) ++ map Comp vs) in HA.
    rewrite nth_error_app1 in HA by (rewrite map_length; cbn [length]; lia).
    rewrite nth_error_map, Hn in HA. cbn in HA. now destruct x.
Qed.
