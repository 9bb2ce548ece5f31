(** Proofs about loop transformations. *)
From Coq Require Import List Arith Bool Lia Permutation.
From Verif Require Import Schedule ScheduleSpec.
Import ListNotations.

Lemma mem_In : forall v l, mem v l = true <-> In v l.
Proof.
  intros. unfold mem. rewrite existsb_exists. split.
  - intros (x & Hx & E). apply Nat.eqb_eq in E. subst; auto.
  - intros H. exists v. split; auto. apply Nat.eqb_refl.
Qed.
Lemma upd_same : forall A (s : var -> A) v x, upd s v x v = x.
Proof. intros. unfold upd. rewrite Nat.eqb_refl. reflexivity. Qed.
Lemma upd_other : forall A (s : var -> A) v x w, w <> v -> upd s v x w = s w.
Proof. intros. unfold upd. destruct (Nat.eqb_spec w v); congruence. Qed.

Lemma in_replace : forall L r v, In v (replace_loops L r) <-> (In v L /\ ~ In v (parents r)) \/ In v (children r).
Proof.
  intros. unfold replace_loops. rewrite in_app_iff, filter_In.
  rewrite negb_true_iff. change (existsb (Nat.eqb v) (parents r)) with (mem v (parents r)).
  split; intros [H|H]; auto; left; destruct H as [H1 H2]; split; auto.
  - intros C. apply mem_In in C. congruence.
  - destruct (mem v (parents r)) eqn:E; auto. apply mem_In in E. contradiction.
Qed.
Lemma nodup_replace : forall L r, NoDup L -> NoDup (children r) -> (forall c, In c (children r) -> ~ In c L) ->
  NoDup (replace_loops L r).
Proof.
  intros. unfold replace_loops.
  assert (G : forall l1 l2 : list var, NoDup l1 -> NoDup l2 -> (forall x, In x l2 -> ~ In x l1) -> NoDup (l1 ++ l2)).
  { clear. induction l1; simpl; intros; auto. inversion H; subst. constructor.
    - rewrite in_app_iff. intros [C|C]; auto. apply (H1 _ C). auto.
    - apply IHl1; auto. intros x Hx C. apply (H1 x Hx). auto. }
  apply G; auto. { apply NoDup_filter; auto. }
  intros x Hx C. apply filter_In in C. apply (H1 x Hx), C.
Qed.

(** ** Variables that are no loop any more do not occur in later relations *)
Lemma wf_gone : forall rels L used v, incl L used -> well_formed L used rels -> In v used -> ~ In v L ->
  forall r, In r rels -> ~ In v (parents r) /\ ~ In v (children r).
Proof.
  induction rels as [|r rest IH]; simpl; intros L used v Hi W Hu Hl r' Hr; [contradiction|].
  destruct W as (W1 & W2 & W3 & W4 & W5).
  destruct Hr as [<-|Hr].
  - split. { intros C. apply Hl. auto. } { intros C. apply (W4 v C Hu). }
  - apply (IH (replace_loops L r) (used ++ children r) v); auto.
    + intros x Hx. apply in_replace in Hx. rewrite in_app_iff. destruct Hx as [[Hx _]|Hx]; auto.
    + rewrite in_app_iff; auto.
    + rewrite in_replace. intros [[C _]|C]; [auto|]. apply (W4 v C Hu).
Qed.

Lemma recover_other : forall B s r v, ~ In v (parents r) -> recover B s r v = s v.
Proof.
  intros B s r v H. destruct r; simpl in *; rewrite ?upd_other; auto;
  intros C; apply H; subst; auto.
Qed.
Lemma recover_all_other : forall B rels s v, (forall r, In r rels -> ~ In v (parents r)) -> recover_all B rels s v = s v.
Proof.
  induction rels; simpl; intros; auto. rewrite recover_other by auto. auto.
Qed.

(** Bounds that fit the relations. *)
Definition fits (B : bounds) (r : rel) : Prop := forall c, In c (children r) -> B c = derive_bounds B r c.

Lemma derive_other : forall B r v, ~ In v (children r) -> derive_bounds B r v = B v.
Proof.
  intros B r v H. destruct r; simpl in *; rewrite ?upd_other; auto;
  intros C; apply H; subst; auto.
Qed.
Lemma all_bounds_other : forall rels B v, (forall r, In r rels -> ~ In v (children r)) -> all_bounds B rels v = B v.
Proof.
  induction rels; simpl; intros; auto. unfold all_bounds in *. simpl. rewrite IHrels by auto.
  apply derive_other; auto.
Qed.
Lemma derive_ext : forall B B' r, (forall p, In p (parents r) -> B p = B' p) ->
  forall c, In c (children r) -> derive_bounds B r c = derive_bounds B' r c.
Proof.
  intros B B' r H c Hc. destruct r; simpl in *; unfold lo, hi, upd;
  try (rewrite (H p) by auto); try (rewrite (H a), (H b) by auto);
  repeat match goal with |- context [c =? ?y] => destruct (Nat.eqb_spec c y) end; auto; intuition congruence.
Qed.
Lemma fits_all : forall rels L used B, incl L used -> well_formed L used rels ->
  (forall r, In r rels -> fits (all_bounds B rels) r) /\ (forall v, In v used -> all_bounds B rels v = B v).
Proof.
  induction rels as [|r rest IH]; simpl; intros L used B Hi W; [split; [contradiction|reflexivity]|].
  destruct W as (W1 & W2 & W3 & W4 & W5).
  assert (Hi' : incl (replace_loops L r) (used ++ children r)).
  { intros x Hx. apply in_replace in Hx. rewrite in_app_iff. destruct Hx as [[Hx _]|Hx]; auto. }
  destruct (IH _ _ (derive_bounds B r) Hi' W5) as [F U].
  change (all_bounds B (r :: rest)) with (all_bounds (derive_bounds B r) rest).
  split.
  - intros r' [<-|Hr]; auto. intros c Hc.
    rewrite U by (rewrite in_app_iff; auto).
    apply derive_ext; auto. intros p Hp. rewrite U by (rewrite in_app_iff; left; apply Hi; auto).
    rewrite derive_other; auto. intros C. apply (W4 p C). apply Hi; auto.
  - intros v Hv. rewrite U by (rewrite in_app_iff; auto). apply derive_other.
    intros C. apply (W4 v C Hv).
Qed.

(** ** The correspondence between the loops and the variables they replace *)
Definition inbox (B : bounds) (L : list var) (s : env) : Prop := forall v, In v L -> lo B v <= s v < hi B v.
Definition dg (B : bounds) (rels : list rel) (s : env) : Prop := forall r, In r rels -> divide_guard B s r = true.

Lemma divide_guard_ext : forall B s s' r, (forall v, In v (parents r) \/ In v (children r) -> s v = s' v) ->
  divide_guard B s r = divide_guard B s' r.
Proof. intros. destruct r; simpl in *; auto. rewrite !H by auto. reflexivity. Qed.

(** The guards of the later relations do not see the parents of this one. *)
Lemma dg_rest : forall B L used r rest s, incl L used -> well_formed L used (r :: rest) ->
  dg B rest (recover B s r) <-> dg B rest s.
Proof.
  intros B L used r rest s Hi W.
  assert (E : forall r', In r' rest -> divide_guard B (recover B s r) r' = divide_guard B s r').
  { intros r' Hr. destruct W as (W1 & W2 & W3 & W4 & W5).
    apply divide_guard_ext. intros v Hv. apply recover_other. intros C.
    assert (G := wf_gone rest (replace_loops L r) (used ++ children r) v).
    destruct (G) with (r := r') as [G1 G2]; auto.
    - intros x Hx. apply in_replace in Hx. rewrite in_app_iff. destruct Hx as [[Hx _]|Hx]; auto.
    - rewrite in_app_iff; auto.
    - rewrite in_replace. intros [[_ D]|D]; [auto|]. apply (W4 v D). apply Hi; auto.
    - tauto. }
  split; intros H r' Hr; [rewrite <- E|rewrite E]; auto.
Qed.

Lemma div_ceil : forall x f, 0 < f -> x <= ((x + (f - 1)) / f) * f.
Proof.
  intros x f H. pose proof (Nat.div_mod (x + (f - 1)) f ltac:(lia)).
  pose proof (Nat.mod_upper_bound (x + (f - 1)) f ltac:(lia)). nia.
Qed.
Lemma div_ceil_exact : forall x f, 0 < f -> x mod f = 0 -> ((x + (f - 1)) / f) * f = x.
Proof.
  intros x f H E. pose proof (Nat.div_mod x f ltac:(lia)) as D. rewrite E in D.
  rewrite D at 1. replace (f * (x / f) + 0 + (f - 1)) with ((f - 1) + (x / f) * f) by lia.
  rewrite Nat.div_add by lia. rewrite Nat.div_small by lia. lia.
Qed.
Lemma div_exact_lo : forall x f, 0 < f -> x mod f = 0 -> (x / f) * f = x.
Proof. intros x f H E. pose proof (Nat.div_mod x f ltac:(lia)) as D. lia. Qed.
Lemma div_unique2 : forall a b a' b' f, b < f -> b' < f -> a * f + b = a' * f + b' -> a = a' /\ b = b'.
Proof. intros. assert (a = a') by nia. subst. lia. Qed.

Section Suffix.
Variable B : bounds.
Variable roots : list var.

(** What holds of a list of relations applied to the loops [L]. *)
Definition onto L rels := forall t, inbox B L t ->
  exists s, inbox B (loop_vars L rels) s /\ (forall v, In v L -> recover_all B rels s v = t v) /\
            dg B rels (recover_all B rels s).
Definition within L tol rels := forall s, inbox B (loop_vars L rels) s -> dg B rels (recover_all B rels s) ->
  forall v, In v L -> ~ In v tol -> lo B v <= recover_all B rels s v < hi B v.
Definition one_to_one L rels := forall s s', inbox B (loop_vars L rels) s -> inbox B (loop_vars L rels) s' ->
  dg B rels (recover_all B rels s) -> dg B rels (recover_all B rels s') ->
  (forall v, In v L -> recover_all B rels s v = recover_all B rels s' v) ->
  forall v, In v (loop_vars L rels) -> s v = s' v.

Lemma inherit_in : forall p c tol v, In v (inherit p c tol) <-> (v = c /\ In p tol) \/ In v tol.
Proof.
  intros. unfold inherit. destruct (mem p tol) eqn:E.
  - apply mem_In in E. simpl. intuition.
  - split; auto. intros [[_ C]|C]; auto. apply mem_In in C. congruence.
Qed.

Lemma recover_ext : forall r s s', (forall c, In c (children r) -> s c = s' c) ->
  forall p, In p (parents r) -> recover B s r p = recover B s' r p.
Proof.
  intros r s s' H p Hp. destruct r; simpl in *; unfold upd;
  rewrite ?(H o), ?(H i), ?(H c), ?(H b) by auto;
  repeat match goal with |- context [p =? ?y] => destruct (Nat.eqb_spec p y) end; auto; intuition congruence.
Qed.

(** What has to be shown of one relation. *)
Record step_ok (r : rel) (tol tol1 : list var) : Prop := {
  st_onto : forall t, (forall p, In p (parents r) -> lo B p <= t p < hi B p) ->
    exists t1, (forall v, ~ In v (children r) -> t1 v = t v) /\
      (forall c, In c (children r) -> lo B c <= t1 c < hi B c) /\
      (forall p, In p (parents r) -> recover B t1 r p = t p) /\ divide_guard B (recover B t1 r) r = true;
  st_within : forall s, (forall c, In c (children r) -> ~ In c tol1 -> lo B c <= s c < hi B c) ->
    divide_guard B (recover B s r) r = true ->
    forall p, In p (parents r) -> ~ In p tol -> lo B p <= recover B s r p < hi B p;
  st_one : forall s s', (forall c, In c (children r) -> ~ In c tol1 -> lo B c <= s c < hi B c) ->
    (forall c, In c (children r) -> ~ In c tol1 -> lo B c <= s' c < hi B c) ->
    divide_guard B (recover B s r) r = true -> divide_guard B (recover B s' r) r = true ->
    (forall p, In p (parents r) -> recover B s r p = recover B s' r p) ->
    forall c, In c (children r) -> s c = s' c }.

Lemma step_compose : forall L used r rest tol tol1, incl L used -> well_formed L used (r :: rest) -> incl tol used ->
  (forall v, In v tol1 -> In v tol \/ In v (children r)) -> step_ok r tol tol1 ->
  let L1 := replace_loops L r in
  onto L1 rest /\ within L1 tol1 rest /\ one_to_one L1 rest ->
  onto L (r :: rest) /\ within L tol (r :: rest) /\ one_to_one L (r :: rest).
Proof.
  intros L used r rest tol tol1 Hi W Ht Ht1 K L1 (I1 & I2 & I3).
  assert (HW := W). destruct W as (W1 & W2 & W3 & W4 & W5).
  assert (CP : forall c, In c (children r) -> ~ In c (parents r)).
  { intros c Hc Hp. apply (W4 c Hc). apply Hi; auto. }
  assert (CL : forall c, In c (children r) -> In c L1) by (intros; apply in_replace; auto).
  split; [|split].
  - intros t T.
    destruct (st_onto _ _ _ K t) as (t1 & E1 & E2 & E3 & E4). { intros; apply T; auto. }
    destruct (I1 t1) as (s & S1 & S2 & S3).
    { intros v Hv. apply in_replace in Hv. destruct Hv as [[Hv Hp]|Hv]; auto.
      rewrite E1; auto. intros C. apply (W4 v C). auto. }
    exists s. split; auto. split.
    + intros v Hv. simpl. destruct (in_dec Nat.eq_dec v (parents r)) as [Hp|Hp].
      * rewrite (recover_ext r _ t1); auto.
      * rewrite recover_other, S2, E1; auto. { intros C. apply (W4 v C). auto. } apply in_replace; auto.
    + intros r' [<-|Hr].
      * simpl. rewrite <- E4. apply divide_guard_ext. intros v [Hv|Hv].
        -- apply recover_ext; auto.
        -- rewrite !recover_other; auto.
      * simpl. apply (proj2 (dg_rest B L used r rest _ Hi HW)); auto.
  - intros s S1 S2 v Hv Hvt. simpl.
    assert (D : dg B rest (recover_all B rest s)).
    { apply (dg_rest B L used r rest _ Hi HW). intros r' Hr. apply S2. simpl; auto. }
    destruct (in_dec Nat.eq_dec v (parents r)) as [Hp|Hp].
    + apply (st_within _ _ _ K); auto. apply S2. simpl; auto.
    + rewrite recover_other by auto. apply I2; auto. { apply in_replace; auto. }
      intros C. destruct (Ht1 v C) as [C'|C']; auto. apply (W4 v C'). auto.
  - intros s s' S S' D D' E.
    assert (D1 : dg B rest (recover_all B rest s)).
    { apply (dg_rest B L used r rest _ Hi HW). intros r' Hr. apply D. simpl; auto. }
    assert (D1' : dg B rest (recover_all B rest s')).
    { apply (dg_rest B L used r rest _ Hi HW). intros r' Hr. apply D'. simpl; auto. }
    apply I3; auto. intros v Hv. apply in_replace in Hv. destruct Hv as [[Hv Hp]|Hv].
    + generalize (E v Hv). simpl. rewrite !recover_other by auto. auto.
    + revert v Hv. apply (st_one _ _ _ K).
      * intros c Hc Hn. apply I2; auto.
      * intros c Hc Hn. apply I2; auto.
      * apply D. simpl; auto.
      * apply D'. simpl; auto.
      * intros p Hp. apply E. auto.
Qed.

Ltac vars := repeat match goal with
  | |- context [upd _ ?v _ ?v] => rewrite upd_same
  | H : context [upd _ ?v _ ?v] |- _ => rewrite upd_same in H
  | |- context [upd _ ?v _ ?w] => rewrite upd_other by (auto; congruence)
  | H : context [upd _ ?v _ ?w] |- _ => rewrite upd_other in H by (auto; congruence)
  end.

Lemma fit_of : forall r c, fits B r -> In c (children r) -> lo B c = fst (derive_bounds B r c) /\ hi B c = snd (derive_bounds B r c).
Proof. intros r c F H. unfold lo, hi. rewrite (F c H). auto. Qed.

Lemma split_ok : forall p o i f tol, fits B (Split p o i f) -> p <> o -> p <> i -> o <> i ->
  0 < f -> mem p tol = true \/ (lo B p mod f = 0 /\ hi B p mod f = 0) -> ~ In o tol -> ~ In i tol ->
  step_ok (Split p o i f) tol (inherit p o tol).
Proof.
  intros p o i f tol F po pi oi Hf Hd to ti.
  destruct (fit_of _ o F) as [Lo Ho]. { simpl; auto. } destruct (fit_of _ i F) as [Li Hi_]. { simpl; auto. }
  simpl in Lo, Ho, Li, Hi_. vars. simpl in Lo, Ho, Li, Hi_.
  assert (NI : ~ In i (inherit p o tol)). { rewrite inherit_in. intros [[C _]|C]; congruence. }
  assert (IR : forall s : env, (forall c, In c [o; i] -> ~ In c (inherit p o tol) -> lo B c <= s c < hi B c) -> s i < f).
  { intros s H. assert (G := H i (or_intror (or_introl eq_refl)) NI). lia. }
  constructor; cbn [parents children].
  - intros t T. assert (G := T p (or_introl eq_refl)).
    pose proof (Nat.div_mod (t p) f ltac:(lia)) as DM. pose proof (Nat.mod_upper_bound (t p) f ltac:(lia)) as MB.
    exists (upd (upd t o (t p / f)) i (t p mod f)). split; [|split; [|split]].
    + intros v Hv. simpl in Hv. unfold upd. destruct (Nat.eqb_spec v i); [subst; tauto|]. destruct (Nat.eqb_spec v o); [subst; tauto|]. auto.
    + intros c [<-|[<-|[]]]; vars.
      * rewrite Lo, Ho. split. { apply Nat.div_le_mono; lia. }
        pose proof (div_ceil (hi B p) f Hf). nia.
      * lia.
    + intros q [<-|[]]. simpl. vars. lia.
    + reflexivity.
  - intros s H _ q [<-|[]] Hq. simpl. vars.
    destruct Hd as [Hd|[D1 D2]]; [apply mem_In in Hd; contradiction|].
    assert (Gi := IR s H).
    assert (NO : ~ In o (inherit p o tol)). { rewrite inherit_in. intros [[_ C]|C]; congruence. }
    assert (Go := H o (or_introl eq_refl) NO). rewrite Lo, Ho in Go.
    pose proof (div_ceil_exact _ f Hf D2). pose proof (div_exact_lo _ f Hf D1). nia.
  - intros s s' H H' _ _ E. assert (Gi := IR s H). assert (Gi' := IR s' H').
    assert (E' := E p (or_introl eq_refl)). simpl in E'. vars.
    destruct (div_unique2 _ _ _ _ _ Gi Gi' E'). intros c [<-|[<-|[]]]; auto.
Qed.

Lemma divide_ok : forall p o i f tol, fits B (Divide p o i f) -> p <> o -> p <> i -> o <> i ->
  0 < f -> lo B p = 0 -> mem p tol = true \/ hi B p mod f = 0 -> ~ In o tol -> ~ In i tol ->
  step_ok (Divide p o i f) tol (i :: inherit p o tol).
Proof.
  intros p o i f tol F po pi oi Hf L0 Hd to ti.
  destruct (fit_of _ o F) as [Lo Ho]. { simpl; auto. } destruct (fit_of _ i F) as [Li Hi_]. { simpl; auto. }
  simpl in Lo, Ho, Li, Hi_. vars. simpl in Lo, Ho, Li, Hi_. rewrite L0 in Li.
  rewrite Nat.div_0_l in Li by lia.
  set (w := (hi B p + (f - 1)) / f) in *.
  assert (GE : forall s : env, divide_guard B (recover B s (Divide p o i f)) (Divide p o i f) = true <-> s o * w + s i < (s o + 1) * w).
  { intros s. simpl. vars. rewrite Nat.ltb_lt, L0, Li, Hi_, !Nat.sub_0_r. fold w. reflexivity. }
  constructor; cbn [parents children].
  - intros t T. assert (G := T p (or_introl eq_refl)).
    assert (WF := div_ceil (hi B p) f Hf). fold w in WF.
    assert (W0 : 0 < w) by nia.
    pose proof (Nat.div_mod (t p) w ltac:(lia)) as DM. pose proof (Nat.mod_upper_bound (t p) w ltac:(lia)) as MB.
    exists (upd (upd t o (t p / w)) i (t p mod w)). split; [|split; [|split]].
    + intros v Hv. simpl in Hv. unfold upd. destruct (Nat.eqb_spec v i); [subst; tauto|]. destruct (Nat.eqb_spec v o); [subst; tauto|]. auto.
    + intros c [<-|[<-|[]]]; vars; [|lia]. rewrite Lo, Ho. split; [lia|]. apply Nat.div_lt_upper_bound; nia.
    + intros q [<-|[]]. simpl. vars. rewrite L0, Nat.sub_0_r. fold w. lia.
    + apply GE. vars. lia.
  - intros s H G q [<-|[]] Hq. apply GE in G. simpl. vars. rewrite L0, Nat.sub_0_r. fold w.
    destruct Hd as [Hd|D]; [apply mem_In in Hd; contradiction|].
    assert (NO : ~ In o (i :: inherit p o tol)). { simpl. rewrite inherit_in. intros [C|[[_ C]|C]]; congruence. }
    assert (Go := H o (or_introl eq_refl) NO). rewrite Lo, Ho in Go.
    pose proof (div_ceil_exact _ f Hf D) as X. fold w in X. nia.
  - intros s s' H H' G G' E. apply GE in G. apply GE in G'.
    assert (E' := E p (or_introl eq_refl)). simpl in E'. vars. rewrite L0, Nat.sub_0_r in E'. fold w in E'.
    destruct (div_unique2 (s o) (s i) (s' o) (s' i) w) as [A1 A2]; try nia. intros c [<-|[<-|[]]]; auto.
Qed.

Lemma fuse_ok : forall a b c tol, fits B (Fuse a b c) -> a <> b -> a <> c -> b <> c ->
  lo B b = 0 -> 0 < hi B b -> ~ In c tol -> step_ok (Fuse a b c) tol (inherit a c tol).
Proof.
  intros a b c tol F ab ac bc L0 H0 tc.
  destruct (fit_of _ c F) as [Lc Hc]. { simpl; auto. }
  simpl in Lc, Hc. vars. simpl in Lc, Hc. rewrite L0, Nat.sub_0_r, Nat.add_0_r in Lc, Hc.
  set (d := hi B b) in *.
  constructor; cbn [parents children].
  - intros t T. assert (Ga := T a (or_introl eq_refl)). assert (Gb := T b (or_intror (or_introl eq_refl))). fold d in Gb.
    exists (upd t c (t a * d + t b)). split; [|split; [|split]].
    + intros v Hv. simpl in Hv. rewrite upd_other; auto.
    + intros v [<-|[]]. vars. rewrite Lc, Hc. nia.
    + intros q [<-|[<-|[]]]; simpl; vars; rewrite L0, Nat.sub_0_r; fold d.
      * rewrite Nat.div_add_l by lia. rewrite Nat.div_small by lia. lia.
      * rewrite Nat.add_comm, Nat.mod_add by lia. apply Nat.mod_small. lia.
    + reflexivity.
  - intros s H _ q [<-|[<-|[]]] Hq; simpl; vars; rewrite L0, Nat.sub_0_r; fold d.
    + assert (NC : ~ In c (inherit a c tol)). { rewrite inherit_in. intros [[_ C]|C]; congruence. }
      assert (G := H c (or_introl eq_refl) NC). rewrite Lc, Hc in G. split.
      * apply Nat.div_le_lower_bound; lia.
      * apply Nat.div_lt_upper_bound; lia.
    + split; [lia|]. apply Nat.mod_upper_bound. lia.
  - intros s s' _ _ _ _ E v [<-|[]].
    assert (Ea := E a (or_introl eq_refl)). assert (Eb := E b (or_intror (or_introl eq_refl))).
    simpl in Ea, Eb. vars. rewrite L0, Nat.sub_0_r in Ea, Eb. fold d in Ea, Eb.
    rewrite (Nat.div_mod (s c) d), (Nat.div_mod (s' c) d) by lia. congruence.
Qed.

Lemma rename_ok : forall r p c tol, (r = Precompute p c \/ exists n, r = Bound p c n) -> fits B r -> p <> c -> B c = B p ->
  ~ In c tol -> step_ok r tol (inherit p c tol).
Proof.
  intros r p c tol Hr F pc E tc.
  assert (P : parents r = [p]) by (destruct Hr as [->|[n ->]]; reflexivity).
  assert (C : children r = [c]) by (destruct Hr as [->|[n ->]]; reflexivity).
  assert (V : forall s, recover B s r = upd s p (s c)) by (intros; destruct Hr as [->|[n ->]]; reflexivity).
  assert (G : forall s, divide_guard B s r = true) by (intros; destruct Hr as [->|[n ->]]; reflexivity).
  assert (LE : lo B c = lo B p) by (unfold lo; rewrite E; auto). assert (HE : hi B c = hi B p) by (unfold hi; rewrite E; auto).
  constructor; rewrite P, C.
  - intros t T. exists (upd t c (t p)). split; [|split; [|split]]; auto.
    + intros v Hv. simpl in Hv. rewrite upd_other; auto.
    + intros v [<-|[]]. vars. rewrite LE, HE. apply T. simpl; auto.
    + intros q [<-|[]]. rewrite V. vars. auto.
  - intros s H _ q [<-|[]] Hq. rewrite V. vars. rewrite <- LE, <- HE. apply H; simpl; auto.
    rewrite inherit_in. intros [[_ D]|D]; congruence.
  - intros s s' _ _ _ _ H v [<-|[]]. generalize (H p (or_introl eq_refl)). rewrite !V. vars. auto.
Qed.

Lemma suffix : forall rels L used tol, incl L used -> incl roots used -> well_formed L used rels -> incl tol used ->
  (forall r, In r rels -> fits B r) -> exact B roots tol rels ->
  onto L rels /\ within L tol rels /\ one_to_one L rels.
Proof.
  induction rels as [|r rest IH]; intros L used tol Hi Hr W Ht F X.
  - split; [|split].
    + intros t T. exists t. simpl. split; auto. split; auto. intros r [].
    + intros s H _ v Hv _. apply H. auto.
    + intros s s' _ _ _ _ E v Hv. apply E. auto.
  - assert (HW := W). destruct W as (W1 & W2 & W3 & W4 & W5).
    assert (Hi' : incl (replace_loops L r) (used ++ children r)).
    { intros x Hx. apply in_replace in Hx. rewrite in_app_iff. destruct Hx as [[Hx _]|Hx]; auto. }
    assert (Fr : fits B r) by (apply F; simpl; auto).
    assert (CP : forall c p, In c (children r) -> In p (parents r) -> p <> c).
    { intros c p Hc Hp ->. apply (W4 c Hc). auto. }
    assert (CT : forall c, In c (children r) -> ~ In c tol). { intros c Hc C. apply (W4 c Hc). auto. }
    assert (K : exists tol1, (forall v, In v tol1 -> In v tol \/ In v (children r)) /\ step_ok r tol tol1 /\ exact B roots tol1 rest).
    { destruct r; cbn [exact] in X; cbn [parents children] in *.
      - destruct X as (X1 & X2 & X3). exists (inherit p o tol). split; [|split; auto].
        + intros v. rewrite inherit_in. simpl. intuition.
        + inversion W3; subst. apply split_ok; auto; try (apply CP; simpl; auto; fail); try (apply CT; simpl; auto; fail); simpl in H1; intuition.
      - destruct X as (X1 & X2 & X3 & X4). exists (i :: inherit p o tol). split; [|split; auto].
        + intros v. simpl. rewrite inherit_in. intuition.
        + inversion W3; subst. apply divide_ok; auto; try (apply CP; simpl; auto; fail); try (apply CT; simpl; auto; fail); simpl in H1; intuition.
      - destruct X as (X1 & X2 & X3). exists (inherit a c tol). split; [|split; auto].
        + intros v. rewrite inherit_in. simpl. intuition.
        + inversion W2; subst. apply fuse_ok; auto; try (apply CP; simpl; auto; fail); try (apply CT; simpl; auto; fail); simpl in H1; intuition.
      - destruct X as (X1 & X2 & X3). exists (inherit p b tol). split; [|split; auto].
        + intros v. rewrite inherit_in. simpl. intuition.
        + apply (rename_ok _ p b); auto; [right; eauto| apply CP; simpl; auto| |apply CT; simpl; auto].
          rewrite (Fr b) by (simpl; auto). simpl. rewrite upd_same. subst n. unfold lo, hi. destruct (B p); auto.
      - exists (inherit p c tol). split; [|split; auto].
        + intros v. rewrite inherit_in. simpl. intuition.
        + apply (rename_ok _ p c); auto; [apply CP; simpl; auto| |apply CT; simpl; auto].
          rewrite (Fr c) by (simpl; auto). simpl. rewrite upd_same. auto. }
    destruct K as (tol1 & K1 & K2 & K3).
    eapply step_compose; eauto. apply IH with (used := used ++ children r); auto.
    + intros x Hx. rewrite in_app_iff; auto.
    + intros x Hx. rewrite in_app_iff. destruct (K1 x Hx); auto.
    + intros; apply F; simpl; auto.
Qed.
End Suffix.

(** ** The loop nest *)
Lemma recover_all_ext : forall B rels L s s', (forall v, In v (loop_vars L rels) -> s v = s' v) ->
  forall v, In v L \/ (exists r, In r rels /\ (In v (parents r) \/ In v (children r))) ->
  recover_all B rels s v = recover_all B rels s' v.
Proof.
  induction rels as [|r rest IH]; simpl; intros L s s' H v Hv.
  - destruct Hv as [Hv|(r & [] & _)]. auto.
  - assert (I := IH (replace_loops L r) s s' H).
    destruct (in_dec Nat.eq_dec v (parents r)) as [Hp|Hp].
    + apply recover_ext; auto. intros c Hc. apply I. left. apply in_replace; auto.
    + rewrite !recover_other by auto. apply I. destruct Hv as [Hv|(r' & [<-|Hr] & Hv)].
      * left. apply in_replace; auto.
      * left. apply in_replace. destruct Hv; [contradiction|auto].
      * right. eauto.
Qed.

Lemma loops_other : forall B order s0 s v, In s (loops B order s0) -> ~ In v order -> s v = s0 v.
Proof.
  induction order as [|w r IH]; simpl; intros s0 s v H Hv.
  - destruct H as [<-|[]]. auto.
  - apply in_flat_map in H. destruct H as (x & _ & H). rewrite (IH _ _ _ H) by tauto.
    apply upd_other. intros ->. tauto.
Qed.
Lemma loops_iterations : forall B order s0, NoDup order ->
  map (fun s : env => map s order) (loops B order s0) = iterations B order.
Proof.
  induction order as [|w r IH]; simpl; intros s0 N; auto. inversion N; subst.
  induction (seq (lo B w) (hi B w - lo B w)) as [|x l IHl]; simpl; auto.
  rewrite map_app. f_equal; [|exact IHl]. rewrite <- (IH (upd s0 w x)) by auto. rewrite map_map.
  apply map_ext_in. intros s Hs. rewrite (loops_other _ _ _ _ w Hs) by auto. rewrite upd_same. auto.
Qed.
Lemma in_iterations : forall B L t, In t (iterations B L) <->
  length t = length L /\ forall k v, nth_error L k = Some v -> exists x, nth_error t k = Some x /\ lo B v <= x < hi B v.
Proof.
  induction L as [|u r IH]; simpl; intros t.
  - split.
    + intros [<-|[]]. split; auto. intros [|k] v H; discriminate.
    + intros [H _]. destruct t; [auto|discriminate].
  - rewrite in_flat_map. split.
    + intros (x & Hx & H). apply in_map_iff in H. destruct H as (t' & <- & H). apply IH in H. destruct H as [H1 H2].
      apply in_seq in Hx. split; [simpl; congruence|]. intros [|k] v Hv; simpl in *; [|auto].
      inversion Hv; subst. exists x. split; auto. lia.
    + intros [H1 H2]. destruct t as [|x t]; [discriminate|].
      destruct (H2 0 u eq_refl) as (y & E & Hy). simpl in E. inversion E; subst.
      exists y. split; [apply in_seq; lia|]. apply in_map. apply IH. split; [simpl in H1; lia|].
      intros k v Hv. apply (H2 (S k) v Hv).
Qed.
Lemma iterations_nodup : forall B L, NoDup (iterations B L).
Proof.
  induction L as [|u r IH]; simpl. { constructor; auto. constructor. }
  assert (G : NoDup (seq (lo B u) (hi B u - lo B u))) by apply seq_NoDup.
  induction G as [|x l Hx G IHG]; simpl; [constructor|].
  assert (A : forall l1 l2 : list (list nat), NoDup l1 -> NoDup l2 -> (forall x, In x l2 -> ~ In x l1) -> NoDup (l1 ++ l2)).
  { clear. induction l1; simpl; intros; auto. inversion H; subst. constructor.
    - rewrite in_app_iff. intros [C|C]; auto. apply (H1 _ C). auto.
    - apply IHl1; auto. intros x Hx C. apply (H1 x Hx). auto. }
  apply A; auto.
  - apply FinFun.Injective_map_NoDup; auto. intros a b E. congruence.
  - intros t Ht C. apply in_map_iff in C. destruct C as (t1 & <- & _).
    apply in_flat_map in Ht. destruct Ht as (y & Hy & Ht). apply in_map_iff in Ht. destruct Ht as (t2 & E & _).
    inversion E; subst. contradiction.
Qed.
Lemma in_iterations_map : forall B L (s : env), In (map s L) (iterations B L) <-> inbox B L s.
Proof.
  intros. rewrite in_iterations, map_length. unfold inbox. split.
  - intros [_ H] v Hv. apply In_nth_error in Hv. destruct Hv as [k Hk]. destruct (H k v Hk) as (x & E & Hx).
    rewrite nth_error_map, Hk in E. simpl in E. inversion E; subst. auto.
  - intros H. split; auto. intros k v Hk. exists (s v). rewrite nth_error_map, Hk. split; auto.
    apply H. apply nth_error_In in Hk. auto.
Qed.
Lemma env_of : forall L (t : list nat), NoDup L -> length t = length L -> exists s : env, map s L = t.
Proof.
  induction L as [|u r IH]; intros [|x t] N E; try discriminate. { exists (fun _ => 0). auto. }
  inversion N; subst. destruct (IH t) as (s & Hs); auto. exists (upd s u x). simpl. rewrite upd_same. f_equal.
  rewrite <- Hs. apply map_ext_in. intros v Hv. apply upd_other. intros ->. contradiction.
Qed.
Lemma map_eq_in : forall (L : list var) (s s' : env), map s L = map s' L -> forall v, In v L -> s v = s' v.
Proof.
  induction L; simpl; intros s s' E v Hv; [contradiction|]. inversion E. destruct Hv as [<-|Hv]; auto.
Qed.

Lemma nodup_map_finer : forall A C D (g : A -> C) (f : A -> D) l, NoDup (map g l) ->
  (forall x y, In x l -> In y l -> f x = f y -> g x = g y) -> NoDup (map f l).
Proof.
  induction l as [|x l IH]; simpl; intros N H; [constructor|]. inversion N; subst. constructor.
  - intros C0. apply in_map_iff in C0. destruct C0 as (y & E & Hy). apply H2.
    rewrite <- (H y x); auto. apply in_map; auto.
  - apply IH; auto.
Qed.
Lemma nodup_map_filter : forall A C (g : A -> C) P l, NoDup (map g l) -> NoDup (map g (filter P l)).
Proof.
  induction l as [|x l IH]; simpl; intros N; auto. inversion N; subst. destruct (P x); simpl; auto. constructor; auto.
  intros C0. apply in_map_iff in C0. destruct C0 as (y & E & Hy). apply filter_In in Hy. apply H1.
  rewrite <- E. apply in_map. tauto.
Qed.
Lemma filter_map_comm : forall A C (f : A -> C) P l, filter P (map f l) = map f (filter (fun x => P (f x)) l).
Proof. induction l as [|x l IH]; simpl; auto. destruct (P (f x)); simpl; congruence. Qed.

Lemma loop_vars_nodup : forall rels L used, incl L used -> NoDup L -> well_formed L used rels -> NoDup (loop_vars L rels).
Proof.
  induction rels as [|r rest IH]; simpl; intros L used Hi N W; auto.
  destruct W as (W1 & W2 & W3 & W4 & W5). apply (IH _ (used ++ children r)); auto.
  - intros x Hx. apply in_replace in Hx. rewrite in_app_iff. destruct Hx as [[Hx _]|Hx]; auto.
  - apply nodup_replace; auto. intros c Hc C. apply (W4 c Hc). auto.
Qed.

Lemma guards_true : forall B g rels s, guards B g rels s = true <-> (forall v, In v g -> lo B v <= s v < hi B v) /\ dg B rels s.
Proof.
  intros. unfold guards. rewrite andb_true_iff, !forallb_forall. unfold dg.
  split; intros [H1 H2]; split; auto; intros v Hv; specialize (H1 v Hv); unfold in_range in *.
  - apply andb_true_iff in H1. rewrite Nat.leb_le, Nat.ltb_lt in H1. lia.
  - apply andb_true_iff. rewrite Nat.leb_le, Nat.ltb_lt. lia.
Qed.

Lemma visits : forall B0 roots rels order g, NoDup roots -> well_formed roots roots rels ->
  incl g roots -> exact (all_bounds B0 rels) roots g rels -> Permutation order (loop_vars roots rels) ->
  let B := all_bounds B0 rels in
  Permutation (map (fun s => map s roots) (filter (guards B g rels) (map (recover_all B rels) (loops B order (fun _ => 0)))))
              (iterations B0 roots).
Proof.
  intros B0 roots rels order g N W G X P B.
  destruct (fits_all rels roots roots B0 (incl_refl _) W) as [F U]. fold B in F, U, X.
  assert (NL := loop_vars_nodup rels roots roots (incl_refl _) N W).
  assert (NO : NoDup order). { eapply Permutation_NoDup; [apply Permutation_sym, P|auto]. }
  destruct (suffix B roots rels roots roots g (incl_refl _) (incl_refl _) W G F X) as (S1 & S2 & S3).
  assert (IT : iterations B0 roots = iterations B roots).
  { clear - U. induction roots as [|u r IH]; simpl; auto. rewrite <- IH by (intros; apply U; simpl; auto).
    unfold lo, hi. rewrite (U u) by (simpl; auto). auto. }
  assert (IO : forall s : env, inbox B order s <-> inbox B (loop_vars roots rels) s).
  { intros s. unfold inbox. split; intros H v Hv; apply H; [apply (Permutation_in v (Permutation_sym P) Hv)|apply (Permutation_in v P Hv)]. }
  assert (IL : forall s, In s (loops B order (fun _ => 0)) -> inbox B (loop_vars roots rels) s).
  { intros s Hs. apply IO, in_iterations_map. rewrite <- (loops_iterations B order (fun _ => 0) NO). apply in_map_iff. eauto. }
  rewrite IT, filter_map_comm, map_map. apply NoDup_Permutation.
  - apply nodup_map_finer with (g := fun s : env => map s order).
    + apply nodup_map_filter. rewrite loops_iterations by auto. apply iterations_nodup.
    + intros s s' Hs Hs' E. apply filter_In in Hs. apply filter_In in Hs'.
      destruct Hs as [Hs Gs]. destruct Hs' as [Hs' Gs']. apply guards_true in Gs. apply guards_true in Gs'.
      apply map_ext_in. intros v Hv. apply S3; try tauto; auto.
      * intros w Hw. apply (map_eq_in roots _ _ E w Hw).
      * apply (Permutation_in v P Hv).
  - apply iterations_nodup.
  - intros t. split.
    + intros Ht. apply in_map_iff in Ht. destruct Ht as (s & <- & Hs). apply filter_In in Hs. destruct Hs as [Hs Gs].
      apply guards_true in Gs. destruct Gs as [G1 G2]. apply in_iterations_map. intros v Hv.
      destruct (in_dec Nat.eq_dec v g) as [Hg|Hg]; auto.
    + intros Ht. assert (Ht' := Ht). apply in_iterations in Ht'. destruct Ht' as [Ht' _].
      destruct (env_of roots t N Ht') as (e & <-). apply in_iterations_map in Ht.
      destruct (S1 e Ht) as (s & A1 & A2 & A3).
      assert (A1' := A1). apply IO, in_iterations_map in A1'. rewrite <- (loops_iterations B order (fun _ => 0) NO) in A1'.
      apply in_map_iff in A1'. destruct A1' as (s' & E & Hs').
      assert (EX : forall v, In v (loop_vars roots rels) -> s' v = s v).
      { intros v Hv. apply (map_eq_in order _ _ E v). apply (Permutation_in v (Permutation_sym P) Hv). }
      assert (RX := recover_all_ext B rels roots s' s EX).
      apply in_map_iff. exists s'. split.
      * apply map_ext_in. intros v Hv. rewrite RX; auto.
      * apply filter_In. split; auto. apply guards_true. split.
        -- intros v Hv. rewrite RX, A2; auto.
        -- intros r Hr. rewrite <- (A3 r Hr). apply divide_guard_ext. intros v Hv. apply RX. right. eauto.
Qed.

Lemma guarded_roots_incl : forall rels order roots g, guarded_roots rels order roots = Some g -> incl g roots.
Proof.
  induction roots as [|u r IH]; simpl; intros g H. { inversion H. apply incl_refl. }
  destruct (underived_guard rels order u) as [[|]|]; try discriminate;
  destruct (guarded_roots rels order r) as [g'|]; try discriminate; inversion H; subst.
  - intros x [<-|Hx]; simpl; auto. right. apply (IH g' eq_refl x Hx).
  - intros x Hx. right. apply (IH g eq_refl x Hx).
Qed.

(** ** Without bounds every variable that is replaced is guarded *)
Lemma exact_mono : forall B roots rels tol tol', (forall v, In v tol -> (exists r, In r rels /\ In v (parents r)) -> In v tol') ->
  exact B roots tol rels -> exact B roots tol' rels.
Proof.
  induction rels as [|r rest IH]; intros tol tol' H X; [exact I|].
  assert (HP : forall p, In p (parents r) -> In p tol -> In p tol').
  { intros p Hp Ht. apply H; auto. exists r. simpl; auto. }
  assert (HI : forall p c, In p (parents r) -> forall v, In v (inherit p c tol) -> (exists r, In r rest /\ In v (parents r)) -> In v (inherit p c tol')).
  { intros p c Hp v Hv (r' & Hr & Hv'). rewrite inherit_in in *. destruct Hv as [[-> Ht]|Ht]; auto. right. apply H; auto. exists r'. simpl; auto. }
  destruct r; simpl in *; repeat match goal with H : _ /\ _ |- _ => destruct H end; repeat split; auto;
  try (eapply IH; [|eassumption]; auto; fail).
  - destruct H1; auto. left. rewrite mem_In in *. auto.
  - destruct H2; auto. left. rewrite mem_In in *. auto.
  - eapply IH; [|eassumption]. intros v [<-|Hv] Hx; simpl; auto.
Qed.

Lemma gone_forever : forall rels L used v, incl L used -> well_formed L used rels -> In v used -> ~ In v L -> ~ In v (loop_vars L rels).
Proof.
  induction rels as [|r rest IH]; simpl; intros L used v Hi W Hu Hl; auto.
  destruct W as (W1 & W2 & W3 & W4 & W5). apply (IH _ (used ++ children r)); auto.
  - intros x Hx. apply in_replace in Hx. rewrite in_app_iff. destruct Hx as [[Hx _]|Hx]; auto.
  - rewrite in_app_iff; auto.
  - rewrite in_replace. intros [[C _]|C]; auto. apply (W4 v C Hu).
Qed.
Lemma parent_gone : forall rels L used r v, incl L used -> well_formed L used rels -> In r rels -> In v (parents r) -> ~ In v (loop_vars L rels).
Proof.
  induction rels as [|r0 rest IH]; simpl; intros L used r v Hi W Hr Hv; [contradiction|].
  destruct W as (W1 & W2 & W3 & W4 & W5).
  assert (Hi' : incl (replace_loops L r0) (used ++ children r0)).
  { intros x Hx. apply in_replace in Hx. rewrite in_app_iff. destruct Hx as [[Hx _]|Hx]; auto. }
  destruct Hr as [<-|Hr].
  - apply (gone_forever _ _ (used ++ children r0)); auto.
    + rewrite in_app_iff; auto.
    + rewrite in_replace. intros [[_ C]|C]; auto. apply (W4 v C). auto.
  - apply (IH _ (used ++ children r0) r); auto.
Qed.

Lemma descends_loop : forall rels L vs, (exists v, In v L /\ In v vs) ->
  exists v, In v (loop_vars L rels) /\ In v (fold_left (fun vs r => descends1 r vs) rels vs).
Proof.
  induction rels as [|r rest IH]; simpl; intros L vs (v & H1 & H2); [eauto|].
  apply IH. destruct (in_dec Nat.eq_dec v (parents r)) as [Hp|Hp].
  - assert (HC : exists c, In c (children r)) by (destruct r; simpl; eauto).
    destruct HC as [c Hc]. exists c. split; [apply in_replace; auto|]. unfold descends1.
    replace (existsb _ (parents r)) with true. { apply in_app_iff; auto. }
    symmetry. apply existsb_exists. exists v. split; auto. apply existsb_exists. exists v. split; auto. apply Nat.eqb_refl.
  - exists v. split; [apply in_replace; auto|]. unfold descends1. destruct (existsb _ _); auto. apply in_app_iff; auto.
Qed.
Lemma fold_last : forall D order acc, (exists v, In v order /\ In v D) \/ (exists v, acc = Some v /\ In v order) ->
  exists v, fold_left (fun acc v => if existsb (Nat.eqb v) D then Some v else acc) order acc = Some v /\ (In v order \/ acc = Some v).
Proof.
  induction order as [|w r IH]; simpl; intros acc H.
  - destruct H as [(v & [] & _)|(v & -> & [])].
  - change (existsb (Nat.eqb w) D) with (mem w D). destruct (mem w D) eqn:E.
    + destruct (in_dec Nat.eq_dec w r) as [Hw|Hw].
      * destruct (IH (Some w)) as (v & A & Bv). { right. eauto. } exists v. split; auto. left.
        destruct Bv as [Bv|Bv]; auto. inversion Bv; auto.
      * assert (G : forall l x, exists v, fold_left (fun acc v => if existsb (Nat.eqb v) D then Some v else acc) l (Some x) = Some v /\ (In v l \/ v = x)).
        { clear. induction l; simpl; intros x; [eauto|]. destruct (existsb (Nat.eqb a) D).
          - destruct (IHl a) as (v & A & [C|C]); exists v; intuition.
          - destruct (IHl x) as (v & A & [C|C]); exists v; intuition. }
        destruct (G r w) as (v & A & [C|C]); exists v; split; auto; left; auto.
    + assert (NW : ~ In w D) by (intros C; apply mem_In in C; congruence).
      destruct H as [(v & [<-|Hv] & Hd)|(v & Ha & [<-|Hv])]; [contradiction| | |].
      * destruct (IH acc) as (x & A & C); [left; eauto|]. exists x. intuition.
      * subst. assert (G : forall l x, exists v, fold_left (fun acc v => if existsb (Nat.eqb v) D then Some v else acc) l (Some x) = Some v /\ (In v l \/ v = x)).
        { clear. induction l; simpl; intros x; [eauto|]. destruct (existsb (Nat.eqb a) D).
          - destruct (IHl a) as (v & A & [C|C]); exists v; intuition.
          - destruct (IHl x) as (v & A & [C|C]); exists v; intuition. }
        destruct (G r w) as (v & A & [C|C]); exists v; split; auto.
      * destruct (IH acc) as (x & A & C); [right; eauto|]. exists x. intuition.
Qed.

Definition no_bounds (rels : list rel) : Prop := forall p b n, ~ In (Bound p b n) rels.
Lemma no_exact_bound : forall rels v, no_bounds rels -> hasExactBound rels v = false.
Proof.
  intros rels v H. unfold hasExactBound. destruct (existsb _ rels) eqn:E; auto.
  apply existsb_exists in E. destruct E as (r & Hr & E). destruct r; try discriminate. exfalso. eapply H; eauto.
Qed.
Lemma no_bound_child : forall rels u acc, no_bounds rels ->
  fold_left (fun acc r => match r with Bound p _ n => if p =? u then Some n else acc | _ => acc end) rels acc = acc.
Proof.
  induction rels as [|r rest IH]; simpl; intros u acc H; auto.
  assert (H' : no_bounds rest) by (intros p b n C; apply (H p b n); simpl; auto).
  destruct r; try (apply IH; auto). exfalso. eapply H. simpl; eauto.
Qed.

Lemma guard_no_bounds : forall rels roots order u, no_bounds rels -> NoDup roots -> well_formed roots roots rels ->
  Permutation order (loop_vars roots rels) -> In u roots ->
  exists b, underived_guard rels order u = Some b /\ ((exists r, In r rels /\ In u (parents r)) -> b = true).
Proof.
  intros rels roots order u NB N W P Hu. unfold underived_guard.
  destruct (descends_loop rels roots [u]) as (v & V1 & V2). { exists u. simpl; auto. }
  destruct (fold_last (descendants rels u) order None) as (x & A & [C|C]); [|unfold recovered_at; rewrite A|discriminate].
  { left. exists v. split; auto. apply (Permutation_in v (Permutation_sym P) V1). }
  destruct (Nat.eqb_spec x u).
  - exists false. split; auto. intros (r & Hr & Hp). subst x. exfalso.
    apply (parent_gone rels roots roots r u); auto. { apply incl_refl. } apply (Permutation_in u P C).
  - rewrite no_exact_bound by auto. unfold bound_child. rewrite no_bound_child by auto. eauto.
Qed.
Lemma guarded_no_bounds : forall rels roots0 order roots, no_bounds rels -> NoDup roots0 -> well_formed roots0 roots0 rels ->
  Permutation order (loop_vars roots0 rels) -> incl roots roots0 ->
  exists g, guarded_roots rels order roots = Some g /\ forall v, In v roots -> (exists r, In r rels /\ In v (parents r)) -> In v g.
Proof.
  induction roots as [|u r IH]; simpl; intros NB N W P Hi. { exists []. split; auto. }
  destruct IH as (g & E & G); auto. { intros x Hx; apply Hi; simpl; auto. }
  destruct (guard_no_bounds rels roots0 order u) as (b & Eb & Gb); auto. { apply Hi; simpl; auto. }
  rewrite Eb, E. destruct b.
  - exists (u :: g). split; auto. intros v [<-|Hv] Hx; simpl; auto.
  - exists g. split; auto. intros v [<-|Hv] Hx; auto. discriminate (Gb Hx).
Qed.
