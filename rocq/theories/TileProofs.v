(** Proofs about loops over split coordinates of sparse operands. *)
From Coq Require Import ZArith List Bool Lia.
From Verif Require Import Outcome CSearch CSearchProofs Tile TileSpec.
Import ListNotations.
Local Open Scope Z_scope.

Lemma zrange_in : forall a b x, In x (zrange a b) <-> a <= x < b.
Proof.
  intros a b x. unfold zrange. rewrite in_map_iff. split.
  - intros (k & <- & H). apply in_seq in H. lia.
  - intros H. exists (Z.to_nat (x - a)). split; [lia|]. apply in_seq. lia.
Qed.
Lemma zrange_nil : forall a b, b <= a -> zrange a b = [].
Proof. intros a b H. unfold zrange. replace (Z.to_nat (b - a)) with O by lia. reflexivity. Qed.
Lemma zrange_cons : forall a b, a < b -> zrange a b = a :: zrange (a + 1) b.
Proof.
  intros a b H. unfold zrange. replace (Z.to_nat (b - a)) with (S (Z.to_nat (b - (a + 1)))) by lia.
  cbn [seq map]. f_equal; [lia|]. rewrite <- seq_shift, map_map. apply map_ext. intros; lia.
Qed.
Lemma zrange_app : forall b a c, a <= b -> b <= c -> zrange a c = zrange a b ++ zrange b c.
Proof.
  intros b a c H H'. remember (Z.to_nat (b - a)) as n eqn:E. revert a H E. induction n; intros a H E.
  - assert (a = b) by lia. subst. rewrite (zrange_nil b b) by lia. reflexivity.
  - rewrite (zrange_cons a c), (zrange_cons a b) by lia. cbn [app]. f_equal. apply IHn; lia.
Qed.

Lemma visits_app : forall ks cases b a c, a <= b -> b <= c ->
  visits ks cases a c = visits ks cases a b ++ visits ks cases b c.
Proof. intros. unfold visits. rewrite (zrange_app b a c) by assumption. apply flat_map_app. Qed.
Lemma visits_nil : forall ks cases a b, (forall c, a <= c < b -> cases (map (position_of c) ks) = false) ->
  visits ks cases a b = [].
Proof.
  intros ks cases a b H. unfold visits.
  assert (G : forall l, (forall c, In c l -> cases (map (position_of c) ks) = false) ->
    flat_map (fun c => let l := map (position_of c) ks in if cases l then [(c, l)] else []) l = []).
  { induction l; intros K; [reflexivity|]. cbn [flat_map]. cbv zeta. rewrite K by (left; reflexivity).
    apply IHl. intros; apply K; right; assumption. }
  apply G. intros c Hc. apply H, zrange_in, Hc.
Qed.
Lemma visits_one : forall ks cases c, visits ks cases c (c + 1) =
  let l := map (position_of c) ks in if cases l then [(c, l)] else [].
Proof.
  intros. unfold visits. rewrite (zrange_cons c (c + 1)), (zrange_nil (c + 1)) by lia.
  cbn [flat_map]. cbv zeta. apply app_nil_r.
Qed.

Lemma position_none : forall c k, (forall p, l_begin k <= p < l_end k -> at_ (l_crd k) p <> c) -> position_of c k = None.
Proof.
  intros c k H. unfold position_of.
  destruct (find _ _) eqn:E; [|reflexivity]. apply find_some in E. destruct E as [E F].
  apply zrange_in in E. apply Z.eqb_eq in F. exfalso. exact (H _ E F).
Qed.
Lemma position_some : forall n c k p, stored n k -> l_begin k <= p < l_end k -> at_ (l_crd k) p = c -> position_of c k = Some p.
Proof.
  intros n c k p (_ & _ & S & _) H E. unfold position_of.
  destruct (find _ _) as [q|] eqn:F.
  - apply find_some in F. destruct F as [F G]. apply zrange_in in F. apply Z.eqb_eq in G.
    destruct (Z.lt_trichotomy p q) as [L|[L|L]]; [|subst; reflexivity|].
    + specialize (S p q). lia.
    + specialize (S q p). lia.
  - exfalso. pose proof (find_none _ _ F p) as G. cbv beta in G.
    rewrite (proj2 (Z.eqb_eq _ _) E) in G. discriminate G. apply zrange_in, H.
Qed.

Lemma fold_min : forall l a, (fold_left Z.min l a = a \/ In (fold_left Z.min l a) l) /\
  fold_left Z.min l a <= a /\ (forall x, In x l -> fold_left Z.min l a <= x).
Proof.
  induction l; intros b; cbn [fold_left].
  - split; [left; reflexivity|]. split; [lia|]. intros x [].
  - destruct (IHl (Z.min b a)) as (A & B & C). split; [|split].
    + destruct A as [A|A]; [|right; right; exact A]. rewrite A. destruct (Z.min_spec b a) as [[_ E]|[_ E]]; rewrite E; auto.
      right. left. reflexivity.
    + lia.
    + intros x [<-|Hx]; [lia|exact (C x Hx)].
Qed.

Section OneTile.
Variables (ks : list level) (n lim : Z) (inner : Z -> Z) (g : Z) (cases : list (option Z) -> bool).
Hypothesis Hst : forall k, In k ks -> stored n k.
Hypothesis Hin : forall i, (inner i <? g) = (i <? lim).
Hypothesis Hcases : forall x, cases (map (position_of x) ks) = true -> somewhere (map (position_of x) ks).

Lemma stored_lev : forall k, (k < length ks)%nat -> stored n (lev ks k).
Proof. intros k H. apply Hst, nth_In, H. Qed.

Definition raw (ps : posns) (k : nat) : Z := at_ (l_crd (lev ks k)) (ps k).
Definition live (ps : posns) (k : nat) : Prop := ps k < l_end (lev ks k).
Definition frontier (c : Z) (ps : posns) : Prop :=
  forall k, (k < length ks)%nat ->
    l_begin (lev ks k) <= ps k <= l_end (lev ks k) /\
    (forall p, l_begin (lev ks k) <= p < ps k -> at_ (l_crd (lev ks k)) p < c) /\
    (forall p, ps k <= p < l_end (lev ks k) -> c <= at_ (l_crd (lev ks k)) p).
Definition beyond (m : Z) (ps : posns) (k : nat) : Prop :=
  forall p, ps k <= p < l_end (lev ks k) -> m <= at_ (l_crd (lev ks k)) p.

Lemma beyond_raw : forall c ps k, frontier c ps -> (k < length ks)%nat -> beyond (raw ps k) ps k.
Proof.
  intros c ps k F Hk p Hp. destruct (stored_lev k Hk) as (_ & _ & S & _). destruct (F k Hk) as (R & _ & _).
  unfold raw. destruct (Z.eq_dec (ps k) p) as [->|Ne]; [lia|]. specialize (S (ps k) p). lia.
Qed.
Lemma beyond_none : forall c m ps k x, frontier c ps -> (k < length ks)%nat -> beyond m ps k -> c <= x < m ->
  position_of x (lev ks k) = None.
Proof.
  intros c m ps k x F Hk B Hx. apply position_none. intros p Hp E. destruct (F k Hk) as (R & L & _).
  destruct (Z.lt_ge_cases p (ps k)).
  - specialize (L p). lia.
  - specialize (B p). lia.
Qed.

Lemma positions_of : forall x, map (position_of x) ks = map (fun k => position_of x (lev ks k)) (seq 0 (length ks)).
Proof.
  intros x. rewrite <- (map_map (lev ks) (position_of x)). f_equal. unfold lev. clear.
  induction ks as [|a l IH]; [reflexivity|]. cbn [length seq map nth]. f_equal.
  rewrite <- seq_shift, map_map. exact IH.
Qed.
Lemma none_false : forall x, (forall k, (k < length ks)%nat -> position_of x (lev ks k) = None) ->
  cases (map (position_of x) ks) = false.
Proof.
  intros x H. destruct (cases _) eqn:E; [|reflexivity]. apply Hcases in E. destruct E as (o & I & Ne).
  exfalso. apply Ne. rewrite positions_of in I. apply in_map_iff in I. destruct I as (k & <- & I).
  apply in_seq in I. apply H. lia.
Qed.

Lemma load_ok : forall c ps pt, frontier c ps -> (forall k, In k pt -> (k < length ks)%nat) ->
  load ks ps pt = Val (map (fun k => (k, raw ps k)) pt).
Proof.
  intros c ps pt F. induction pt as [|k r IH]; intros H; [reflexivity|]. cbn [load map].
  assert (Hk : (k < length ks)%nat) by (apply H; left; reflexivity).
  destruct (F k Hk) as (R & _ & _). destruct (stored_lev k Hk) as (S1 & S2 & _).
  rewrite rd_ok by lia. cbn [obind]. rewrite IH by (intros; apply H; right; assumption). reflexivity.
Qed.
Lemma resolve_ok : forall ps pt, pt <> [] ->
  (exists k, In k pt /\ resolve (map (fun k => (k, raw ps k)) pt) = raw ps k) /\
  (forall k, In k pt -> resolve (map (fun k => (k, raw ps k)) pt) <= raw ps k).
Proof.
  intros ps [|k0 r] H; [contradiction|]. cbn [map resolve snd]. rewrite map_map. cbn [snd].
  destruct (fold_min (map (fun k => raw ps k) r) (raw ps k0)) as (A & B & C). split.
  - destruct A as [A|A].
    + exists k0. split; [left; reflexivity|exact A].
    + apply in_map_iff in A. destruct A as (k & E & I). exists k. split; [right; exact I|]. rewrite E. reflexivity.
  - intros k [<-|I]; [exact B|]. apply C. apply in_map_iff. exists k. auto.
Qed.
Lemma here_ok : forall ps pt i k, here (map (fun k => (k, raw ps k)) pt) i k = true <-> In k pt /\ raw ps k = i.
Proof.
  intros ps pt i k. unfold here. rewrite existsb_exists. split.
  - intros ((k', c) & I & E). apply in_map_iff in I. destruct I as (j & Ej & I). inversion Ej; subst.
    apply andb_prop in E. cbn [fst snd] in E. destruct E as [E1 E2]. apply Nat.eqb_eq in E1. apply Z.eqb_eq in E2. subst. auto.
  - intros [I E]. exists (k, raw ps k). split; [apply in_map_iff; eauto|]. cbn [fst snd].
    rewrite Nat.eqb_refl, (proj2 (Z.eqb_eq _ _) E). reflexivity.
Qed.
Lemma live_dec : forall ps pt, forallb (fun k => ps k <? l_end (lev ks k)) pt = true <-> (forall k, In k pt -> live ps k).
Proof.
  intros. rewrite forallb_forall. unfold live. split; intros H k I; specialize (H k I); [apply Z.ltb_lt in H|apply Z.ltb_lt]; exact H.
Qed.

Definition remaining (ps : posns) (ns : list nat) : nat :=
  fold_right (fun k m => (Z.to_nat (l_end (lev ks k) - ps k) + m)%nat) O ns.
Lemma remaining_le : forall ps ps' ns, (forall k, In k ns -> ps k <= ps' k) -> (remaining ps' ns <= remaining ps ns)%nat.
Proof.
  induction ns; intros H; [reflexivity|]. cbn [remaining fold_right].
  assert (ps a <= ps' a) by (apply H; left; reflexivity).
  assert (remaining ps' ns <= remaining ps ns)%nat by (apply IHns; intros; apply H; right; assumption).
  unfold remaining in *. lia.
Qed.
Lemma remaining_lt : forall ps ps' ns k, (forall k, In k ns -> ps k <= ps' k) -> In k ns -> live ps k -> ps k < ps' k ->
  (remaining ps' ns < remaining ps ns)%nat.
Proof.
  induction ns; intros k H I L Lt; [destruct I|]. cbn [remaining fold_right].
  assert (A : ps a <= ps' a) by (apply H; left; reflexivity).
  destruct I as [->|I].
  - assert (remaining ps' ns <= remaining ps ns)%nat by (apply remaining_le; intros; apply H; right; assumption).
    unfold remaining, live in *. lia.
  - assert (remaining ps' ns < remaining ps ns)%nat by (apply (IHns k); auto; intros; apply H; right; assumption).
    unfold remaining in *. lia.
Qed.

Lemma loop_ok : forall pt, pt <> [] -> (forall k, In k pt -> (k < length ks)%nat) ->
  forall fuel ps i c,
  frontier c ps -> c <= lim -> (remaining ps (seq 0 (length ks)) < fuel)%nat ->
  ((forall k, In k pt -> live ps k) -> i < lim ->
     i = resolve (map (fun k => (k, raw ps k)) pt) /\
     (forall k, (k < length ks)%nat -> ~ In k pt -> beyond lim ps k)) ->
  exists ps' i' vs c', point_loop fuel ks inner g pt cases ps i = Val (ps', i', vs) /\
    frontier c' ps' /\ c' <= lim /\
    visits ks cases c lim = vs ++ visits ks cases c' lim /\
    ((exists k, In k pt /\ ps' k = l_end (lev ks k)) \/ lim <= i') /\
    (forall k, (k < length ks)%nat -> ps k <= ps' k) /\
    ((ps' = ps /\ i' = i) \/
     (i < lim /\ i' = resolve (map (fun k => (k, raw ps' k)) pt) /\
      (forall k, (k < length ks)%nat -> ~ In k pt -> beyond lim ps' k))).
Proof.
  intros pt Hne Hpt. induction fuel; intros ps i c F Hc Hf Hi; [lia|]. cbn [point_loop]. rewrite Hin.
  destruct (forallb _ pt) eqn:L; cbn [andb].
  2:{ exists ps, i, [], c. split; [reflexivity|]. split; [exact F|]. split; [exact Hc|]. split; [reflexivity|].
      split; [|split; [intros; lia|left; auto]].
      left. destruct (existsb (fun k => negb (ps k <? l_end (lev ks k))) pt) eqn:X.
      - apply existsb_exists in X. destruct X as (k & I & E). exists k. split; [exact I|].
        apply negb_true_iff, Z.ltb_ge in E. destruct (F k (Hpt k I)) as (R & _). lia.
      - exfalso. assert (forallb (fun k => ps k <? l_end (lev ks k)) pt = true); [|congruence].
        apply forallb_forall. intros k I. destruct (ps k <? _) eqn:E; [reflexivity|].
        rewrite <- X. apply existsb_exists. exists k. rewrite E. auto. }
  rewrite live_dec in L. destruct (Z.ltb_spec i lim) as [Hl|Hl].
  2:{ exists ps, i, [], c. split; [reflexivity|]. split; [exact F|]. split; [exact Hc|]. split; [reflexivity|].
      split; [right; lia|split; [intros; lia|left; auto]]. }
  destruct (Hi L Hl) as [Ei Hb]. clear Hi.
  rewrite (load_ok c ps pt F Hpt). cbn [obind]. cbv zeta.
  rewrite <- Ei. destruct (resolve_ok ps pt Hne) as [(k0 & I0 & E0) Hmin]. rewrite <- Ei in E0, Hmin.
  set (hr := here (map (fun k => (k, raw ps k)) pt) i).
  set (ps' := fun k => if hr k then ps k + 1 else ps k).
  assert (Hhr : forall k, hr k = true <-> In k pt /\ raw ps k = i) by (intros; apply here_ok).
  assert (Hci : c <= i).
  { rewrite E0. destruct (F k0 (Hpt _ I0)) as (R & _ & U). apply U. specialize (L k0 I0). unfold live in L. lia. }
  assert (Bi : forall k, (k < length ks)%nat -> beyond i ps k).
  { intros k Hk p Hp. destruct (in_dec Nat.eq_dec k pt) as [Ip|Np].
    - specialize (Hmin k Ip). pose proof (beyond_raw c ps k F Hk p Hp). lia.
    - specialize (Hb k Hk Np p Hp). lia. }
  assert (F' : frontier (i + 1) ps').
  { intros k Hk. destruct (F k Hk) as (R & Lw & U). destruct (stored_lev k Hk) as (_ & _ & S & _). unfold ps'.
    destruct (hr k) eqn:E.
    - apply Hhr in E. destruct E as [Ik Ek]. pose proof (L k Ik) as Lk. unfold live in Lk. unfold raw in Ek.
      split; [lia|]. split; intros p Hp.
      + destruct (Z.eq_dec p (ps k)) as [->|Ne]; [lia|]. specialize (Lw p). lia.
      + specialize (S (ps k) p). lia.
    - split; [lia|]. split; intros p Hp.
      + specialize (Lw p). lia.
      + destruct (in_dec Nat.eq_dec k pt) as [Ip|Np].
        * assert (Nr : raw ps k <> i) by (intros X; assert (hr k = true) by (apply Hhr; auto); congruence).
          specialize (Hmin k Ip). pose proof (beyond_raw c ps k F Hk p Hp). lia.
        * specialize (Hb k Hk Np p Hp). lia. }
  assert (Mono : forall k, (k < length ks)%nat -> ps k <= ps' k) by (intros; unfold ps'; destruct (hr k); lia).
  rewrite (load_ok _ ps' pt F' Hpt). cbn [obind].
  assert (H0' : hr k0 = true) by (apply Hhr; auto).
  assert (Rm : (remaining ps' (seq 0 (length ks)) < remaining ps (seq 0 (length ks)))%nat).
  { apply (remaining_lt ps ps' _ k0).
    - intros k I. apply in_seq in I. apply Mono. lia.
    - apply in_seq. specialize (Hpt k0 I0). lia.
    - exact (L k0 I0).
    - unfold ps'. rewrite H0'. lia. }
  assert (Hb' : forall k, (k < length ks)%nat -> ~ In k pt -> beyond lim ps' k).
  { intros k Hk Np p Hp. apply (Hb k Hk Np). specialize (Mono k Hk). lia. }
  destruct (IHfuel ps' (resolve (map (fun k => (k, raw ps' k)) pt)) (i + 1) F' ltac:(lia) ltac:(lia))
    as (q & j & vs & c' & E & Fq & Hcl & Ev & Ex & Mq & Cs).
  { intros _ _. split; [reflexivity|exact Hb']. }
  rewrite E. cbn [obind].
  eexists q, j, _, c'. split; [reflexivity|]. split; [exact Fq|]. split; [exact Hcl|]. split; [|split; [exact Ex|split]].
  - rewrite (visits_app ks cases i c lim) by lia. rewrite (visits_app ks cases (i + 1) i lim) by lia.
    rewrite (visits_nil ks cases c i).
    2:{ intros x Hx. apply none_false. intros k Hk. exact (beyond_none c i ps k x F Hk (Bi k Hk) Hx). }
    cbn [app]. rewrite visits_one, Ev. cbv zeta. rewrite positions_of.
    assert (EP : map (fun k => position_of i (lev ks k)) (seq 0 (length ks)) =
                 map (fun k => if hr k then Some (ps k) else None) (seq 0 (length ks))).
    { apply map_ext_in. intros k I. apply in_seq in I. assert (Hk : (k < length ks)%nat) by lia.
      destruct (F k Hk) as (R & _). destruct (hr k) eqn:Eh.
      - apply Hhr in Eh. destruct Eh as [Ik Ek]. specialize (L k Ik). unfold live in L.
        apply (position_some n); [apply stored_lev; exact Hk|lia|exact Ek].
      - apply (beyond_none i (i + 1) ps k i); [|exact Hk| |lia].
        + intros k' Hk'. destruct (F k' Hk') as (R' & Lw & _).
          split; [lia|]. split; [intros p Hp; specialize (Lw p Hp); lia|exact (Bi k' Hk')].
        + destruct (F' k Hk) as (_ & _ & U). unfold ps' in U. rewrite Eh in U. exact U. }
    rewrite EP. rewrite app_assoc. reflexivity.
  - intros k Hk. specialize (Mono k Hk). specialize (Mq k Hk). lia.
  - right. split; [exact Hl|]. destruct Cs as [[-> ->]|(_ & A & B)]; auto.
Qed.

Lemma fuel_enough : forall c ps, frontier c ps -> (remaining ps (seq 0 (length ks)) < fuel_of ks)%nat.
Proof.
  intros c ps F. unfold fuel_of, remaining.
  assert (E : fold_right (fun k m => (Z.to_nat (l_end k - l_begin k) + m)%nat) O ks =
              fold_right (fun k m => (Z.to_nat (l_end (lev ks k) - l_begin (lev ks k)) + m)%nat) O (seq 0 (length ks))).
  { unfold lev. clear. induction ks as [|a l IH]; [reflexivity|].
    cbn [length seq fold_right nth]. f_equal. rewrite IH. rewrite <- seq_shift. clear.
    generalize (seq 0 (length l)). intros s. induction s; [reflexivity|]. cbn [map fold_right nth]. rewrite IHs. reflexivity. }
  rewrite E. assert (H : forall k, In k (seq 0 (length ks)) -> l_begin (lev ks k) <= ps k).
  { intros k I. apply in_seq in I. destruct (F k) as (R & _); lia. }
  clear E. induction (seq 0 (length ks)) as [|a l IH]; cbn [fold_right]; [lia|].
  assert (l_begin (lev ks a) <= ps a) by (apply H; left; reflexivity).
  specialize (IH (fun k I => H k (or_intror I))). lia.
Qed.

(** All operands: one loop. *)
Lemma product_ok : forall ps c, ks <> [] -> (forall l, cases l = true -> everywhere l) -> frontier c ps -> c <= lim ->
  merge_from ks (map ps (seq 0 (length ks))) inner g [seq 0 (length ks)] cases = Val (visits ks cases c lim).
Proof.
  intros ps0 c Hne Hev F0 Hc. unfold merge_from.
  set (ps := fun k => nth k (map ps0 (seq 0 (length ks))) 0).
  assert (Eps : forall k, (k < length ks)%nat -> ps k = ps0 k).
  { intros k Hk. unfold ps. rewrite nth_indep with (d' := ps0 O) by (rewrite map_length, seq_length; lia).
    rewrite map_nth, seq_nth by exact Hk. reflexivity. }
  assert (F : frontier c ps) by (intros k Hk; rewrite (Eps k Hk); exact (F0 k Hk)).
  cbn [hd]. set (pt := seq 0 (length ks)).
  assert (Hpt : forall k, In k pt -> (k < length ks)%nat) by (intros k I; apply in_seq in I; lia).
  assert (Npt : pt <> []).
  { unfold pt. destruct ks; [contradiction|discriminate]. }
  assert (Apt : forall k, (k < length ks)%nat -> In k pt) by (intros k I; apply in_seq; lia).
  rewrite (load_ok c ps pt F Hpt). cbn [obind point_loops].
  destruct (loop_ok pt Npt Hpt (fuel_of ks) ps (resolve (map (fun k => (k, raw ps k)) pt)) c F Hc (fuel_enough c ps F))
    as (q & j & vs & c' & E & Fq & Hcl & Ev & Ex & Mq & Cs).
  { intros _ _. split; [reflexivity|]. intros k Hk Np. destruct (Np (Apt k Hk)). }
  rewrite E. cbn [obind]. rewrite app_nil_r. f_equal. rewrite Ev.
  rewrite visits_nil; [rewrite app_nil_r; reflexivity|].
  assert (Ej : j = resolve (map (fun k => (k, raw q k)) pt)).
  { destruct Cs as [[-> ->]|(_ & A & _)]; [reflexivity|exact A]. }
  intros x Hx. destruct Ex as [(k & I & Ek)|Hl].
  - destruct (cases _) eqn:Ec; [|reflexivity]. exfalso. apply Hev in Ec.
    apply (Ec (position_of x (lev ks k))).
    + apply in_map, nth_In. auto.
    + apply (beyond_none c' (x + 1) q k x Fq (Hpt k I)); [|lia]. intros p Hp. lia.
  - apply none_false. intros k Hk. apply (beyond_none c' lim q k x Fq Hk); [|lia].
    intros p Hp. destruct (resolve_ok q pt Npt) as [_ Hmin]. specialize (Hmin k (Apt k Hk)).
    pose proof (beyond_raw c' q k Fq Hk p Hp). lia.
Qed.

(** Several loops. *)
Hypothesis Hafter : forall k, In k ks -> followed_by lim k.
Lemma beyond_all : forall c ps k m, m <= lim -> frontier c ps -> (k < length ks)%nat -> beyond m ps k -> m <= raw ps k.
Proof.
  intros c ps k m Hm F Hk B. destruct (F k Hk) as (R & _). unfold raw.
  destruct (Z.eq_dec (ps k) (l_end (lev ks k))) as [->|Ne].
  - pose proof (Hafter (lev ks k) (nth_In _ _ Hk)) as A. unfold followed_by in A. lia.
  - apply B. lia.
Qed.

Lemma loops_ok : forall all, addition ks all cases -> forall pts before ps i c,
  all = before ++ pts -> frontier c ps -> c <= lim ->
  (forall k, (k < length ks)%nat -> Z.min i lim <= raw ps k) ->
  (i < lim -> exists k, (k < length ks)%nat /\ raw ps k = i) ->
  (forall q, In q before -> lim <= i \/ exists j, In j q /\ ps j = l_end (lev ks j)) ->
  point_loops ks inner g pts cases ps i = Val (visits ks cases c lim).
Proof.
  intros all (A1 & A2 & A3 & _). induction pts as [|pt r IH]; intros before ps i c Ea F Hc J1 J2 K.
  - cbn [point_loops]. f_equal. symmetry. apply visits_nil. intros x Hx. apply none_false. intros k Hk.
    rewrite app_nil_r in Ea. destruct (K [k]) as [Hl|(j & Ij & Ej)].
    + rewrite <- Ea. apply A2, Hk.
    + apply (beyond_none c lim ps k x F Hk); [|lia]. intros p Hp. pose proof (beyond_raw c ps k F Hk p Hp).
      specialize (J1 k Hk). lia.
    + destruct Ij as [<-|[]]. apply (beyond_none c (x + 1) ps k x F Hk); [|lia]. intros p Hp. lia.
  - cbn [point_loops]. destruct (A1 pt) as [Npt Hpt]; [rewrite Ea; apply in_elt|].
    assert (Hb : (forall k, In k pt -> live ps k) -> i < lim ->
      forall k, (k < length ks)%nat -> ~ In k pt -> beyond lim ps k).
    { intros L Hl k Hk Np. destruct (A3 before pt r k Ea Hk Np) as (q & Iq & Ikq & Sq).
      destruct (K q Iq) as [Hx|(j & Ij & Ej)]; [lia|]. destruct (Sq j Ij) as [->|Ip].
      - intros p Hp. lia.
      - specialize (L j Ip). unfold live in L. lia. }
    destruct (loop_ok pt Npt Hpt (fuel_of ks) ps i c F Hc (fuel_enough c ps F))
      as (q & j & vs & c' & E & Fq & Hcl & Ev & Ex & Mq & Cs).
    { intros L Hl. pose proof (Hb L Hl) as B. split; [|exact B].
      destruct (resolve_ok ps pt Npt) as [(k0 & I0 & E0) Hmin].
      destruct (J2 Hl) as (k & Hk & Ek).
      assert (Ip : In k pt).
      { destruct (in_dec Nat.eq_dec k pt) as [X|X]; [exact X|].
        pose proof (beyond_all c ps k lim ltac:(lia) F Hk (B k Hk X)). lia. }
      specialize (Hmin k Ip). specialize (J1 k0 (Hpt k0 I0)). lia. }
    rewrite E. cbn [obind].
    rewrite (IH (before ++ [pt]) q j c').
    + cbn [obind]. rewrite Ev. reflexivity.
    + rewrite <- app_assoc. exact Ea.
    + exact Fq.
    + exact Hcl.
    + intros k Hk. destruct Cs as [[-> ->]|(Hl & Ej & B)]; [exact (J1 k Hk)|].
      destruct (in_dec Nat.eq_dec k pt) as [Ip|Np].
      * destruct (resolve_ok q pt Npt) as [_ Hmin]. specialize (Hmin k Ip). lia.
      * pose proof (beyond_all c' q k lim ltac:(lia) Fq Hk (B k Hk Np)). lia.
    + intros Hl. destruct Cs as [[-> ->]|(Hl' & Ej & B)]; [exact (J2 Hl)|].
      destruct (resolve_ok q pt Npt) as [(k0 & I0 & E0) _]. exists k0. split; [exact (Hpt k0 I0)|lia].
    + intros q0 I. apply in_app_or in I. destruct I as [I|[<-|[]]].
      * destruct Cs as [[-> ->]|(Hl & _ & _)]; [exact (K q0 I)|].
        destruct (K q0 I) as [X|(j0 & Ij & Ej)]; [lia|]. right. exists j0. split; [exact Ij|].
        assert (Hj : (j0 < length ks)%nat).
        { destruct (A1 q0) as [_ H]; [rewrite Ea; apply in_or_app; left; exact I|exact (H j0 Ij)]. }
        specialize (Mq j0 Hj). destruct (Fq j0 Hj) as (R & _). lia.
      * destruct Ex as [X|X]; [right; exact X|left; exact X].
Qed.

Lemma addition_ok : forall pts ps c, addition ks pts cases -> frontier c ps -> c <= lim ->
  merge_from ks (map ps (seq 0 (length ks))) inner g pts cases = Val (visits ks cases c lim).
Proof.
  intros pts ps0 c Ad F0 Hc. unfold merge_from.
  set (ps := fun k => nth k (map ps0 (seq 0 (length ks))) 0).
  assert (Eps : forall k, (k < length ks)%nat -> ps k = ps0 k).
  { intros k Hk. unfold ps. rewrite nth_indep with (d' := ps0 O) by (rewrite map_length, seq_length; lia).
    rewrite map_nth, seq_nth by exact Hk. reflexivity. }
  assert (F : frontier c ps) by (intros k Hk; rewrite (Eps k Hk); exact (F0 k Hk)).
  pose proof Ad as (A1 & A2 & A3 & A4).
  destruct pts as [|pt r].
  - cbn [hd load obind point_loops]. f_equal. symmetry. apply visits_nil. intros x Hx. apply none_false. intros k Hk.
    destruct (A2 k Hk).
  - cbn [hd]. destruct (A1 pt) as [Npt Hpt]; [left; reflexivity|].
    rewrite (load_ok c ps pt F Hpt). cbn [obind].
    assert (All : forall k, (k < length ks)%nat -> In k pt).
    { intros k Hk. destruct (in_dec Nat.eq_dec k pt) as [X|X]; [exact X|].
      destruct (A3 [] pt r k eq_refl Hk X) as (q & [] & _). }
    destruct (resolve_ok ps pt Npt) as [(k0 & I0 & E0) Hmin].
    apply (loops_ok (pt :: r) Ad (pt :: r) [] ps); auto.
    + intros k Hk. specialize (Hmin k (All k Hk)). lia.
    + intros _. exists k0. split; [exact (Hpt k0 I0)|symmetry; exact E0].
    + intros q [].
Qed.
End OneTile.

(** Finding the start. *)
Lemma search_ok : forall n ks start, (forall k, In k ks -> stored n k) ->
  exists ps, search_all ks start = Val (map ps (seq 0 (length ks))) /\ frontier ks start ps.
Proof.
  intros n ks start. induction ks as [|k r IH]; intros H.
  - exists (fun _ => 0). split; [reflexivity|]. intros k Hk. inversion Hk.
  - destruct IH as (ps & E & F); [intros; apply H; right; assumption|].
    destruct (H k (or_introl eq_refl)) as (S1 & S2 & S3 & S4).
    assert (X : exists p, taco_binarySearchAfter (l_crd k) (l_begin k) (l_end k) start = Val p /\
                          first_geq (l_crd k) (l_begin k) (l_end k) start p).
    { destruct (Z.lt_ge_cases (l_begin k) (l_end k)) as [L|L].
      - apply search_after_spec; try lia. intros i j ? ? ?. apply S3; assumption.
      - assert (Eb : l_begin k = l_end k) by lia. unfold taco_binarySearchAfter. rewrite rd_ok by lia. cbn [obind].
        destruct (_ >=? _).
        + exists (l_begin k). split; [reflexivity|]. split; [lia|]. split; intros; lia.
        + cbn [bsearch_loop]. replace (l_end k - l_begin k >? 1) with false by (symmetry; rewrite Z.gtb_ltb; apply Z.ltb_ge; lia).
          cbn [obind]. exists (l_end k). split; [reflexivity|]. split; [lia|]. split; intros; lia. }
    destruct X as (p & Ep & (G1 & G2 & G3)).
    exists (fun j => match j with O => p | S j => ps j end). split.
    + cbn [search_all length seq map]. rewrite Ep. cbn [obind]. rewrite E. cbn [obind]. do 2 f_equal.
      rewrite <- seq_shift, map_map. reflexivity.
    + intros [|j] Hj; [exact (conj G1 (conj G2 G3))|]. cbn [length] in Hj. apply (F j). lia.
Qed.

Lemma start_shift : forall outs b, fold_left (fun b (of : Z * Z) => b + fst of * snd of) outs b = b + tile_start outs.
Proof.
  unfold tile_start. induction outs as [|[o f] r IH]; intros b; cbn [fold_left fst snd]; [lia|].
  rewrite IH, (IH (0 + o * f)). lia.
Qed.
Lemma recover_ok : forall outs i, recover_inner outs i = i - tile_start outs.
Proof.
  unfold recover_inner. induction outs as [|[o f] r IH]; intros i; cbn [fold_left fst snd]; [unfold tile_start; cbn; lia|].
  rewrite IH. unfold tile_start at 2. cbn [fold_left fst snd]. rewrite start_shift. lia.
Qed.
Lemma start_app : forall outs o f, tile_start (outs ++ [(o, f)]) = tile_start outs + o * f.
Proof. intros. unfold tile_start. rewrite fold_left_app. reflexivity. Qed.

Lemma product_somewhere : forall ks pts cases, product ks pts cases ->
  forall x, cases (map (position_of x) ks) = true -> somewhere (map (position_of x) ks).
Proof.
  intros ks pts cases (N & _ & H) x E. apply H in E. destruct ks as [|k r]; [contradiction|].
  exists (position_of x k). split; [left; reflexivity|]. apply E. left. reflexivity.
Qed.

Lemma test_shift : forall outs g i, (recover_inner outs i <? g) = (i <? tile_start outs + g).
Proof.
  intros. rewrite recover_ok. destruct (Z.ltb_spec (i - tile_start outs) g), (Z.ltb_spec i (tile_start outs + g)); lia.
Qed.

Lemma tile_product : forall ks n pts cases, (forall k, In k ks -> stored n k) -> product ks pts cases ->
  forall outs g, 0 <= g ->
  tile ks outs g pts cases = Val (visits ks cases (tile_start outs) (tile_start outs + g)).
Proof.
  intros ks n pts cases Hst Hp outs g Hg. pose proof Hp as (N & -> & Hev). unfold tile.
  destruct (search_ok n ks (tile_start outs) Hst) as (ps & E & F). rewrite E. cbn [obind].
  apply (product_ok ks n (tile_start outs + g) (recover_inner outs) g cases Hst (test_shift outs g)
           (product_somewhere ks _ cases Hp)); auto. lia.
Qed.
Lemma tile_addition : forall ks n m pts cases, (forall k, In k ks -> stored n k) -> addition ks pts cases ->
  (forall k, In k ks -> followed_by m k) ->
  forall outs g, 0 <= g -> tile_start outs + g <= m ->
  tile ks outs g pts cases = Val (visits ks cases (tile_start outs) (tile_start outs + g)).
Proof.
  intros ks n m pts cases Hst Ha Hf outs g Hg Hm. unfold tile.
  destruct (search_ok n ks (tile_start outs) Hst) as (ps & E & F). rewrite E. cbn [obind].
  apply (addition_ok ks n (tile_start outs + g) (recover_inner outs) g cases Hst (test_shift outs g)).
  - intros x. apply (proj2 (proj2 (proj2 Ha))).
  - intros k I. specialize (Hf k I). unfold followed_by in *. lia.
  - exact Ha.
  - exact F.
  - lia.
Qed.

Lemma for_each_visits : forall ks cases s f h m,
  0 < f -> (forall o, 0 <= o < Z.of_nat m -> h o = Val (visits ks cases (s + o * f) (s + o * f + f))) ->
  for_each (zrange 0 (Z.of_nat m)) h = Val (visits ks cases s (s + Z.of_nat m * f)).
Proof.
  intros ks cases s f h m Hf H.
  assert (G : forall d a, (a + d = m)%nat ->
    for_each (zrange (Z.of_nat a) (Z.of_nat m)) h = Val (visits ks cases (s + Z.of_nat a * f) (s + Z.of_nat m * f))).
  { induction d; intros a E.
    - assert (a = m) by lia. subst. rewrite zrange_nil by lia. cbn [for_each]. f_equal. symmetry. apply visits_nil. intros; lia.
    - rewrite zrange_cons by lia. cbn [for_each]. rewrite H by lia. cbn [obind].
      replace (Z.of_nat a + 1) with (Z.of_nat (S a)) by lia. rewrite IHd by lia. cbn [obind]. f_equal.
      rewrite (visits_app ks cases (s + Z.of_nat (S a) * f) (s + Z.of_nat a * f) (s + Z.of_nat m * f)) by nia.
      replace (s + Z.of_nat a * f + f) with (s + Z.of_nat (S a) * f) by lia. reflexivity. }
  specialize (G m O). rewrite Nat.add_0_l in G. specialize (G eq_refl). rewrite Z.mul_0_l, Z.add_0_r in G. exact G.
Qed.

Definition rounded (extent : Z) (fs : list Z) : Z := match fs with [] => extent | f :: _ => tiled_end extent f end.

Lemma rounded_divides : forall f r, 0 < f -> match r with [] => True | g :: _ => (g | f) end -> nested r -> rounded f r = f.
Proof.
  intros f [|g r] Hf D N; [reflexivity|]. cbn [rounded]. destruct N as (Hg & _). destruct D as (q & ->).
  unfold tiled_end. replace (q * g + (g - 1)) with (q * g + (g - 1)) by lia.
  rewrite Z.div_add_l by lia. rewrite (Z.div_small (g - 1) g) by lia. lia.
Qed.

Lemma tiles_ok : forall ks pts cases m,
  (forall outs g, 0 <= g -> tile_start outs + g <= m ->
     tile ks outs g pts cases = Val (visits ks cases (tile_start outs) (tile_start outs + g))) ->
  forall fs extent outs, nested fs -> 0 <= extent -> tile_start outs + rounded extent fs <= m ->
  tiles ks pts cases extent fs outs = Val (visits ks cases (tile_start outs) (tile_start outs + rounded extent fs)).
Proof.
  intros ks pts cases m H. induction fs as [|f r IH]; intros extent outs N He Hm.
  - cbn [tiles rounded] in *. apply H; assumption.
  - cbn [tiles]. cbn [rounded] in *. destruct N as (Hf & D & N). unfold tiled_end in *.
    assert (Q : 0 <= (extent + (f - 1)) / f) by (apply Z.div_pos; lia).
    set (q := (extent + (f - 1)) / f) in *. rewrite <- (Z2Nat.id q Q) in *.
    apply for_each_visits; [exact Hf|]. intros o Ho.
    rewrite IH; [|exact N|lia|].
    + rewrite start_app, (rounded_divides f r Hf D N). reflexivity.
    + rewrite start_app, (rounded_divides f r Hf D N). nia.
Qed.

Lemma visits_end : forall ks n cases e, (forall k, In k ks -> stored n k) -> (forall l, cases l = true -> somewhere l) ->
  n <= e -> 0 <= n -> visits ks cases 0 e = visits ks cases 0 n.
Proof.
  intros ks n cases e Hst Hc He Hn. rewrite (visits_app ks cases n 0 e) by lia. rewrite (visits_nil ks cases n e); [apply app_nil_r|].
  intros c H. destruct (cases _) eqn:E; [|reflexivity]. apply Hc in E. destruct E as (o & I & Ne). exfalso. apply Ne.
  apply in_map_iff in I. destruct I as (k & <- & I). apply position_none. intros p Hp.
  destruct (Hst k I) as (_ & _ & _ & B). specialize (B p Hp). lia.
Qed.
Lemma tiled_end_ge : forall n f, 0 < f -> n <= tiled_end n f.
Proof. intros n f H. unfold tiled_end. pose proof (Z.div_mod (n + (f - 1)) f ltac:(lia)). pose proof (Z.mod_pos_bound (n + (f - 1)) f H). nia. Qed.

Lemma tiles_product : forall ks n pts cases f fs, (forall k, In k ks -> stored n k) -> product ks pts cases ->
  nested (f :: fs) -> 0 <= n -> tiles ks pts cases n (f :: fs) [] = Val (visits ks cases 0 n).
Proof.
  intros ks n pts cases f fs Hst Hp N Hn.
  rewrite (tiles_ok ks pts cases (tiled_end n f)).
  - cbn [rounded]. change (tile_start []) with 0. rewrite Z.add_0_l. f_equal.
    rewrite (visits_app ks cases n 0 (tiled_end n f)) by (try apply tiled_end_ge; destruct N; lia).
    rewrite (visits_nil ks cases n); [apply app_nil_r|]. intros c Hc.
    destruct (cases _) eqn:E; [|reflexivity]. apply (product_somewhere ks pts cases Hp) in E.
    destruct E as (o & I & Ne). exfalso. apply Ne. apply in_map_iff in I. destruct I as (k & <- & I).
    apply position_none. intros p Hpp. destruct (Hst k I) as (_ & _ & _ & B). specialize (B p Hpp). lia.
  - intros outs g Hg _. exact (tile_product ks n pts cases Hst Hp outs g Hg).
  - exact N.
  - exact Hn.
  - cbn [rounded]. change (tile_start []) with 0. lia.
Qed.
Lemma tiles_addition : forall ks n pts cases f fs, (forall k, In k ks -> stored n k) -> addition ks pts cases ->
  (forall k, In k ks -> followed_by (tiled_end n f) k) ->
  nested (f :: fs) -> 0 <= n -> tiles ks pts cases n (f :: fs) [] = Val (visits ks cases 0 n).
Proof.
  intros ks n pts cases f fs Hst Ha Hf N Hn.
  rewrite (tiles_ok ks pts cases (tiled_end n f)).
  - cbn [rounded]. change (tile_start []) with 0. rewrite Z.add_0_l. f_equal.
    apply visits_end; auto; [exact (proj2 (proj2 (proj2 Ha)))|apply tiled_end_ge; destruct N; lia].
  - intros outs g Hg Hm. exact (tile_addition ks n _ pts cases Hst Ha Hf outs g Hg Hm).
  - exact N.
  - exact Hn.
  - cbn [rounded]. change (tile_start []) with 0. lia.
Qed.

(** An array that ends with the segment. *)
Lemma exact_loop : forall k inner g lim cases, (forall i, (inner i <? g) = (i <? lim)) ->
  l_end k = Z.of_nat (length (l_crd k)) -> (forall p, 0 <= p < l_end k -> l_begin k <= p -> at_ (l_crd k) p < lim) ->
  forall fuel ps i, 0 <= l_begin k -> l_begin k <= ps O < l_end k -> i = at_ (l_crd k) (ps O) ->
  forall v, point_loop fuel [k] inner g [O] cases ps i <> Val v.
Proof.
  intros k inner g lim cases Hin He Hl. induction fuel; intros ps i Hb Hp Ei v; [discriminate|]. cbn [point_loop].
  rewrite Hin. cbn [forallb]. unfold lev. cbn [nth].
  destruct (Z.ltb_spec (ps O) (l_end k)); [|lia]. destruct (Z.ltb_spec i lim) as [L|L]; [|specialize (Hl (ps O)); lia].
  cbn [andb load]. unfold lev. cbn [nth]. rewrite rd_ok by lia. cbn [obind]. cbv zeta. cbn [resolve map fold_left snd].
  unfold here at 1. cbn [existsb fst snd]. rewrite Nat.eqb_refl, Z.eqb_refl. cbn [andb orb].
  destruct (Z.eq_dec (ps O + 1) (l_end k)) as [E|E].
  - unfold rd. destruct (Z.ltb_spec (ps O + 1) 0); [lia|].
    destruct (nth_error (l_crd k) (Z.to_nat (ps O + 1))) eqn:X; [|discriminate].
    exfalso. assert (Z.to_nat (ps O + 1) < length (l_crd k))%nat by (apply nth_error_Some; congruence). lia.
  - rewrite rd_ok by lia. cbn [obind resolve map fold_left snd].
    destruct (point_loop fuel _ _ _ _ _ _ _) as [[[a b] c]| |] eqn:X; try discriminate.
    exfalso. revert X. apply IHfuel; try lia; cbn beta; unfold here; cbn [existsb fst snd];
      rewrite Nat.eqb_refl, Z.eqb_refl; cbn [andb orb]; try lia.
Qed.
Lemma exact_tile : forall k outs g cases,
  0 <= l_begin k <= l_end k -> l_end k = Z.of_nat (length (l_crd k)) ->
  (forall p q, l_begin k <= p -> p < q -> q < l_end k -> at_ (l_crd k) p < at_ (l_crd k) q) ->
  (forall p, l_begin k <= p < l_end k -> at_ (l_crd k) p < tile_start outs + g) ->
  forall v, tile [k] outs g [[O]] cases <> Val v.
Proof.
  intros k outs g cases Hb He Hs Hl v. unfold tile. cbn [search_all].
  destruct (Z.eq_dec (l_begin k) (l_end k)) as [E|E].
  - unfold taco_binarySearchAfter. unfold rd. destruct (Z.ltb_spec (l_begin k) 0); [lia|].
    destruct (nth_error (l_crd k) _) eqn:X; [|discriminate].
    exfalso. assert (Z.to_nat (l_begin k) < length (l_crd k))%nat by (apply nth_error_Some; congruence). lia.
  - destruct (search_after_spec (l_crd k) (l_begin k) (l_end k) (tile_start outs)) as (p & Ep & R & _); try lia.
    { intros i j ? ? ?. apply Hs; assumption. }
    rewrite Ep. cbn [obind]. unfold merge_from. cbn [hd load]. unfold lev. cbn [nth].
    destruct (Z.eq_dec p (l_end k)) as [Eq|Ne].
    + unfold rd. destruct (Z.ltb_spec p 0); [lia|].
      destruct (nth_error (l_crd k) _) eqn:X; [|discriminate].
      exfalso. assert (Z.to_nat p < length (l_crd k))%nat by (apply nth_error_Some; congruence). lia.
    + rewrite rd_ok by lia. cbn [obind point_loops resolve map fold_left snd].
      destruct (point_loop _ _ _ _ _ _ _ _) as [[[a b] c]| |] eqn:X; try discriminate.
      exfalso. revert X. eapply (exact_loop k (recover_inner outs) g (tile_start outs + g) cases (test_shift outs g));
        cbn [nth]; try lia; auto.
      intros p0 A B. apply Hl. lia.
Qed.
Lemma for_each_not : forall A (xs : list Z) (h : Z -> outcome (list A)) x, In x xs -> (forall v, h x <> Val v) ->
  forall v, for_each xs h <> Val v.
Proof.
  intros A xs h x. induction xs as [|y r IH]; intros I N v; [destruct I|]. cbn [for_each].
  destruct I as [->|I].
  - destruct (h x) eqn:E; try discriminate. exfalso. exact (N _ eq_refl).
  - destruct (h y); try discriminate. cbn [obind]. destruct (for_each r h) eqn:E; try discriminate.
    exfalso. exact (IH I N _ eq_refl).
Qed.
Lemma exact_tiles : forall k n f cases, 0 < n -> 0 < f ->
  0 <= l_begin k <= l_end k -> l_end k = Z.of_nat (length (l_crd k)) ->
  (forall p q, l_begin k <= p -> p < q -> q < l_end k -> at_ (l_crd k) p < at_ (l_crd k) q) ->
  (forall p, l_begin k <= p < l_end k -> at_ (l_crd k) p < n) ->
  forall v, tiles [k] [[O]] cases n [f] [] <> Val v.
Proof.
  intros k n f cases Hn Hf Hb He Hs Hl v. cbn [tiles].
  pose proof (tiled_end_ge n f Hf) as T. unfold tiled_end in T.
  assert (P : 0 < (n + (f - 1)) / f) by nia.
  apply (for_each_not _ _ _ ((n + (f - 1)) / f - 1)).
  - apply zrange_in. lia.
  - intros w. apply exact_tile; auto. intros p Hp. specialize (Hl p Hp).
    cbn [app tile_start fold_left fst snd]. nia.
Qed.
