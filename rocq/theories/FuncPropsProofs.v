(** Proofs about functions that declare properties (FuncProps.v). *)
From Coq Require Import List Arith Bool Lia.
From Verif Require Import Checks ChecksSpec FuncProps FuncPropsSpec.
Import ListNotations.
Local Open Scope nat_scope.

Lemma rbind_ok {A B} (r : res A) (f : A -> res B) b : rbind r f = Ok b -> exists a, r = Ok a /\ f a = Ok b.
Proof. destruct r; cbn; intros H; try discriminate. eauto. Qed.
Ltac rinv := repeat match goal with
  | H : rbind _ _ = Ok _ |- _ => let a := fresh "a" in let H1 := fresh "R" in
      apply rbind_ok in H; destruct H as (a & H1 & H)
  | H : Ok _ = Ok _ |- _ => injection H as H
  end.

Section Ind.
Context {V : Type} (P : fexpr V -> Prop).
Hypotheses (Hlit : forall l, P (FLit l)) (Hacc : forall t, P (FAcc t))
  (Hneg : forall a, P a -> P (FNeg a)) (Hadd : forall a b, P a -> P b -> P (FAdd a b))
  (Hsub : forall a b, P a -> P b -> P (FSub a b)) (Hmul : forall a b, P a -> P b -> P (FMul a b))
  (Hdiv : forall a b, P a -> P b -> P (FDiv a b)) (Hcast : forall ty a, P a -> P (FCast ty a))
  (Hcall : forall f p x args, (forall a, In a args -> P a) -> P (FCall f p x args)).
Fixpoint fexpr_ind' (e : fexpr V) : P e :=
  match e with
  | FLit l => Hlit l
  | FAcc t => Hacc t
  | FNeg a => Hneg a (fexpr_ind' a)
  | FAdd a b => Hadd a b (fexpr_ind' a) (fexpr_ind' b)
  | FSub a b => Hsub a b (fexpr_ind' a) (fexpr_ind' b)
  | FMul a b => Hmul a b (fexpr_ind' a) (fexpr_ind' b)
  | FDiv a b => Hdiv a b (fexpr_ind' a) (fexpr_ind' b)
  | FCast ty a => Hcast ty a (fexpr_ind' a)
  | FCall f p x args => Hcall f p x args
      ((fix go (l : list (fexpr V)) : forall a, In a l -> P a :=
          match l with
          | [] => fun a (h : In a []) => match h with end
          | b :: l => fun a (h : In a (b :: l)) =>
              match h with or_introl q => match q in _ = y return P y with eq_refl => fexpr_ind' b end | or_intror h => go l a h end
          end) args)
  end.
End Ind.

Lemma inside_intersects (m : nat -> Prop) l x :
  inside m (fold_left (fun x j => Intersect x (Region j)) l x) <-> inside m x /\ forall k, In k l -> m k.
Proof.
  revert x; induction l as [|j l IH]; intros x; cbn [fold_left].
  - split; [intros H; split; [exact H|intros k []]|tauto].
  - rewrite IH. cbn [inside In]. split.
    + intros ((h1 & h2) & h3). split; [exact h1|]. intros k [<-|h]; auto.
    + intros (h1 & h2). repeat split; auto.
Qed.
Lemma inside_unions (m : nat -> Prop) l x :
  inside m (fold_left (fun x j => Union x (Region j)) l x) <-> inside m x \/ exists k, In k l /\ m k.
Proof.
  revert x; induction l as [|j l IH]; intros x; cbn [fold_left].
  - split; [tauto|]. intros [H|(k & [] & _)]; exact H.
  - rewrite IH. cbn [inside In]. split.
    + intros [[h|h]|(k & h & h2)]; [left; exact h|right; exists j; auto|right; exists k; auto].
    + intros [h|(k & [<-|h] & h2)]; [left; left; exact h|left; right; exact h2|right; exists k; auto].
Qed.
Lemma inside_unionAll (m : nat -> Prop) n : 0 < n -> (inside m (unionAll n) <-> exists k, k < n /\ m k).
Proof.
  intros Hn. unfold unionAll. rewrite inside_unions. cbn [inside]. split.
  - intros [h|(k & h & h2)]; [exists 0; auto|]. apply in_seq in h. exists k. split; [lia|exact h2].
  - intros (k & h & h2). destruct k as [|k]; [left; exact h2|]. right. exists (S k). split; [apply in_seq; lia|exact h2].
Qed.

Lemma inside_dec {R} (m : R -> Prop) x : (forall k, m k \/ ~ m k) -> inside m x \/ ~ inside m x.
Proof. intros Hm. induction x as [k|y IH|y IH z IH2|y IH z IH2]; cbn [inside] in *; [apply Hm|tauto..]. Qed.
Lemma about_in {V} (p : property V) n k :
  k < n -> (In k (all_positions (p_positions p) n) <-> about p k).
Proof.
  intros Hk. unfold all_positions, about. destruct (p_positions p) as [|q l].
  - rewrite in_seq. split; [auto|]. intros _. lia.
  - split; [auto|]. intros [h|h]; [discriminate|exact h].
Qed.
Lemma positions_lt {V} (p : property V) n k :
  proper p n -> In k (all_positions (p_positions p) n) -> k < n /\ about p k.
Proof.
  intros (_ & H) Hk. assert (k < n).
  { unfold all_positions in Hk. destruct (p_positions p) as [|q l] eqn:E; [apply in_seq in Hk; lia|]. apply H. exact Hk. }
  split; [assumption|]. apply (about_in p n k); assumption.
Qed.
Lemma positions_nodup {V} (p : property V) n : proper p n -> NoDup (all_positions (p_positions p) n).
Proof.
  intros (H & _). unfold all_positions. destruct (p_positions p) as [|q l]; [apply seq_NoDup|exact H].
Qed.

Section Proofs.
Context {V : Type} (V_eq : forall a b : V, {a = b} + {a <> b}) (o : ops V) (fill : nat -> literal V).
Notation ev := (eval o fill).
Notation bg := (background o fill).

Lemma equals_lit_val e l c : equals_lit V_eq e l = true -> ev c e = l_val l.
Proof.
  destruct e as [k|t|a|a b|a b|a b|a b|ty a|f p x args]; cbn [equals_lit]; try discriminate.
  intros H. apply andb_true_iff in H as (_ & H). cbn [eval]. destruct (V_eq (l_val k) (l_val l)); [assumption|discriminate].
Qed.
Lemma is_zero_val e c : is_zero V_eq (v0 o) e = true -> ev c e = v0 o.
Proof.
  destruct e as [k|t|a|a b|a b|a b|a b|ty a|f p x args]; cbn [is_zero]; try discriminate.
  intros H. cbn [eval]. destruct (V_eq (l_val k) (v0 o)); [assumption|discriminate].
Qed.

(** ** Simplification *)
Lemma annihilates_at_spec a exprs pos r :
  annihilates_at V_eq a exprs pos = Ok r ->
  match r with
  | Some e' => e' = FLit a /\ exists k e, In k pos /\ nth_error exprs k = Some e /\ equals_lit V_eq e a = true
  | None => forall k, In k pos -> exists e, nth_error exprs k = Some e /\ equals_lit V_eq e a = false
  end.
Proof.
  induction pos as [|k pos IH]; cbn [annihilates_at]; intros H.
  - injection H as <-. intros k [].
  - destruct (nth_error exprs k) as [e|] eqn:E; [|discriminate]. destruct (equals_lit V_eq e a) eqn:Q.
    + injection H as <-. split; [reflexivity|]. exists k, e. cbn; auto.
    + specialize (IH H). destruct r as [e'|].
      * destruct IH as (h1 & k' & e2 & h2 & h3 & h4). split; [exact h1|]. exists k', e2. cbn; auto.
      * intros k' [<-|h]; [eauto|apply IH; exact h].
Qed.
Lemma annihilates_at_ok a exprs pos :
  (forall k, In k pos -> k < length exprs) -> exists r, annihilates_at V_eq a exprs pos = Ok r.
Proof.
  induction pos as [|k pos IH]; cbn [annihilates_at]; intros H; [eauto|].
  destruct (nth_error exprs k) as [e|] eqn:E.
  - destruct (equals_lit V_eq e a); [eauto|]. apply IH. intros k' h. apply H. right. exact h.
  - apply nth_error_None in E. specialize (H k (or_introl eq_refl)). lia.
Qed.

(** The arguments at the positions that are not the identity. *)
Definition others (v : literal V) (exprs : list (fexpr V)) (pos : list nat) : list nat :=
  filter (fun k => match nth_error exprs k with Some e => negb (equals_lit V_eq e v) | None => true end) pos.
Lemma simplify_at_spec v exprs pos count term r :
  simplify_at V_eq v exprs pos count term = Ok (Some r) ->
  fst r = count + length (others v exprs pos) /\
  snd r = match others v exprs pos with [] => term | l => nth_error exprs (last l 0) end /\
  (forall k, In k pos -> k < length exprs).
Proof.
  revert count term. induction pos as [|k pos IH]; cbn [simplify_at]; intros count term H.
  - injection H as <-. cbn. split; [lia|split; [reflexivity|intros k []]].
  - destruct (nth_error exprs k) as [e|] eqn:E; [|discriminate].
    assert (Hk : k < length exprs) by (apply nth_error_Some; congruence).
    unfold others. cbn [filter]. rewrite E. fold (others v exprs pos).
    destruct (equals_lit V_eq e v) eqn:Q; cbn [negb].
    + destruct (1 <? count); [discriminate|]. destruct (IH _ _ H) as (h1 & h2 & h3).
      split; [exact h1|split; [exact h2|]]. intros k' [<-|h]; [exact Hk|auto].
    + destruct (1 <? S count); [discriminate|]. destruct (IH _ _ H) as (h1 & h2 & h3).
      split; [cbn [length]; lia|split]; [|intros k' [<-|h]; [exact Hk|auto]].
      rewrite h2. destruct (others v exprs pos) as [|q l] eqn:F; [cbn; congruence|]. reflexivity.
Qed.
Lemma simplify_at_ok v exprs pos count term :
  (forall k, In k pos -> k < length exprs) -> exists r, simplify_at V_eq v exprs pos count term = Ok r.
Proof.
  revert count term. induction pos as [|k pos IH]; cbn [simplify_at]; intros count term H; [eauto|].
  destruct (nth_error exprs k) as [e|] eqn:E.
  - destruct (equals_lit V_eq e v).
    + destruct (1 <? count); [eauto|]. apply IH. intros k' h. apply H. right. exact h.
    + destruct (1 <? S count); [eauto|]. apply IH. intros k' h. apply H. right. exact h.
  - apply nth_error_None in E. specialize (H k (or_introl eq_refl)). lia.
Qed.

Lemma nth_error_map_some {A B} (g : A -> B) l k w : nth_error (map g l) k = Some w -> exists a, nth_error l k = Some a /\ w = g a.
Proof.
  revert k; induction l as [|a l IH]; intros [|k]; cbn; intros H; try discriminate; [injection H as <-; eauto|auto].
Qed.

Lemma full_positions pos n : NoDup pos -> (forall k, In k pos -> k < n) -> n <= length pos -> forall k, k < n -> In k pos.
Proof.
  intros Hd Hlt Hlen k Hk. assert (incl (seq 0 n) pos) as Hi.
  { apply NoDup_length_incl; [exact Hd|rewrite seq_length; lia|]. intros j hj. apply in_seq. specialize (Hlt j hj). lia. }
  apply Hi. apply in_seq. lia.
Qed.

Lemma filter_nil_inv {A} (f : A -> bool) l : filter f l = [] -> forall a, In a l -> f a = false.
Proof.
  intros H a Ha. destruct (f a) eqn:E; [|reflexivity]. exfalso.
  assert (In a (filter f l)) as Hin by (apply filter_In; auto). rewrite H in Hin. destruct Hin.
Qed.

(** A simplified call has the value of the call. *)
Lemma from_properties_value f p exprs e' c :
  has_properties f (length exprs) p ->
  from_properties V_eq p exprs = Ok (Some e') -> ev c e' = f (map (ev c) exprs).
Proof.
  intros (HA & HI) H. unfold from_properties in H. apply rbind_ok in H as (r & Hr & H).
  destruct r as [e2|].
  - injection H as <-. destruct (annihilator p) as [a|]; [|discriminate].
    destruct (HA a eq_refl) as (Hp & Ha). unfold annihilates in Hr. apply annihilates_at_spec in Hr.
    destruct Hr as (-> & k & e & h1 & h2 & h3). destruct (positions_lt a _ _ Hp h1) as (h4 & h5).
    cbn [eval]. symmetry. apply (Ha _ k); [apply map_length|exact h5|].
    rewrite (map_nth_error _ _ _ h2). f_equal. apply equals_lit_val. exact h3.
  - destruct (identity p) as [i|]; [|discriminate]. destruct (HI i eq_refl) as (Hp & Hi1 & Hi2).
    unfold simplify in H. apply rbind_ok in H as (s & Hs & H). injection H as H.
    destruct s as [(cnt & term)|]; [|discriminate].
    apply simplify_at_spec in Hs. cbn [fst snd] in Hs. destruct Hs as (h1 & h2 & h3).
    set (pos := all_positions (p_positions i) (length exprs)) in *.
    assert (Hd : NoDup pos) by (apply positions_nodup; exact Hp).
    assert (Hab : forall k, In k pos -> about i k) by (intros k hk; apply (positions_lt i _ _ Hp hk)).
    assert (Heq : forall k e, In k pos -> ~ In k (others (p_value i) exprs pos) -> nth_error exprs k = Some e ->
                  ev c e = l_val (p_value i)).
    { intros k e hk hn he. apply equals_lit_val. destruct (equals_lit V_eq e (p_value i)) eqn:Q; [reflexivity|].
      exfalso. apply hn. apply filter_In. split; [exact hk|]. rewrite he, Q. reflexivity. }
    destruct ((cnt =? 1) && (length pos - cnt =? length exprs - 1)) eqn:B.
    + apply andb_true_iff in B as (B1 & B2). apply Nat.eqb_eq in B1, B2. rewrite B1 in h1, B2. clear B1 cnt.
      destruct (others (p_value i) exprs pos) as [|q [|q2 l]] eqn:F; cbn [length] in h1; try lia.
      cbn [last] in h2. subst term. symmetry.
      assert (Hq : In q pos). { assert (In q (others (p_value i) exprs pos)) as X by (rewrite F; left; reflexivity). apply filter_In in X. tauto. }
      assert (Hlen : length exprs <= length pos).
      { destruct pos; [destruct Hq|]. cbn [length] in *. lia. }
      apply (Hi1 _ q); [apply map_length|apply map_nth_error; exact H|].
      intros j w hj hw. apply nth_error_map_some in hw as (e & he & ->).
      assert (Hjp : In j pos). { apply (full_positions pos (length exprs)); auto. apply nth_error_Some. congruence. }
      split; [auto|]. apply (Heq j); auto. cbn. intros [h|[]]. congruence.
    + destruct (length pos - cnt =? length exprs) eqn:B2; [|discriminate]. injection H as <-. apply Nat.eqb_eq in B2.
      assert (Hle : length pos <= length exprs).
      { rewrite <- (seq_length (length exprs) 0). apply NoDup_incl_length; [exact Hd|]. intros k hk. apply in_seq. specialize (h3 k hk). lia. }
      assert (Hfull : forall k, k < length exprs -> In k pos) by (apply full_positions; auto; lia).
      assert (Hno : others (p_value i) exprs pos = []).
      { destruct (others (p_value i) exprs pos) as [|q l] eqn:F; [reflexivity|]. cbn [length] in h1.
        assert (In q pos) as X. { assert (In q (others (p_value i) exprs pos)) as X by (rewrite F; left; reflexivity). apply filter_In in X. tauto. }
        specialize (h3 q X). lia. }
      cbn [eval]. symmetry. apply Hi2; [apply map_length|]. intros j w hw. apply nth_error_map_some in hw as (e & he & ->).
      assert (In j pos) by (apply Hfull; apply nth_error_Some; congruence).
      split; [auto|]. apply (Heq j); auto. rewrite Hno. intros [].
Qed.
Lemma from_properties_ok f p exprs :
  has_properties f (length exprs) p -> exists r, from_properties V_eq p exprs = Ok r.
Proof.
  intros (HA & HI). unfold from_properties.
  assert (exists r, match annihilator p with Some a => annihilates V_eq a exprs | None => Ok None end = Ok r) as (r & ->).
  { destruct (annihilator p) as [a|]; [|eauto]. apply annihilates_at_ok. intros k hk. apply (positions_lt a); [apply HA; reflexivity|exact hk]. }
  cbn [rbind]. destruct r; [eauto|]. destruct (identity p) as [i|]; [|eauto]. unfold simplify.
  destruct (simplify_at_ok (p_value i) exprs (all_positions (p_positions i) (length exprs)) 0 None) as (s & ->).
  { intros k hk. apply (positions_lt i); [apply HI; reflexivity|exact hk]. }
  cbn [rbind]. eauto.
Qed.

Lemma occurs_trans (a b d : fexpr V) : occurs a b -> occurs b d -> occurs a d.
Proof. intros H1 H2. induction H2; try (constructor; assumption); [exact H1|]. eapply oc_call; eauto. Qed.
Lemma is_literal_inv (e : fexpr V) : is_literal e = true -> exists l, e = FLit l.
Proof. destruct e; cbn; try discriminate; eauto. Qed.
Lemma is_zero_inv e : is_zero V_eq (v0 o) e = true -> exists l, e = FLit l /\ l_val l = v0 o.
Proof.
  destruct e as [k|t|a|a b|a b|a b|a b|ty a|f p x args]; cbn [is_zero]; try discriminate.
  intros H. destruct (V_eq (l_val k) (v0 o)); [eauto|discriminate].
Qed.

(** ** Fill values *)
Lemma inferFill_value (L : arithmetic o) e : truthful e -> safe_divisors o e ->
  forall l, inferFill V_eq (v0 o) fill e = Ok (Some (FLit l)) -> bg e = l_val l.
Proof.
  unfold background.
  induction e as [k|t|a IHa|a b IHa IHb|a b IHa IHb|a b IHa IHb|a b IHa IHb|ty a IHa|f p x args IH] using fexpr_ind';
    intros T S l H; cbn [inferFill] in H.
  - injection H as <-. reflexivity.
  - injection H as <-. reflexivity.
  - assert (Ta : truthful a) by (intros f p x args h; apply (T f p x args); constructor; exact h).
    assert (Sa : safe_divisors o a) by (intros d d' h; apply (S d d'); constructor; exact h).
    apply rbind_ok in H as (a' & Ha & H). apply rbind_ok in H as (a2 & H2 & H).
    destruct a' as [a'|]; [|discriminate]. injection H2 as <-.
    destruct (is_zero V_eq (v0 o) a') eqn:Z; [|discriminate]. injection H as ->.
    apply is_zero_inv in Z as (l' & E & Z). injection E as <-. cbn [eval]. rewrite (IHa Ta Sa _ Ha), Z. apply (neg_zero o L).
  - assert (Ta : truthful a) by (intros f p x args h; apply (T f p x args); constructor; exact h).
    assert (Sa : safe_divisors o a) by (intros d d' h; apply (S d d'); constructor; exact h).
    assert (Tb : truthful b) by (intros f p x args h; apply (T f p x args); apply oc_add_r; exact h).
    assert (Sb : safe_divisors o b) by (intros d d' h; apply (S d d'); apply oc_add_r; exact h).
    apply rbind_ok in H as (a' & Ha & H). apply rbind_ok in H as (b' & Hb & H). apply rbind_ok in H as (a2 & H2 & H).
    destruct a' as [a'|]; [|discriminate]. injection H2 as <-.
    destruct (is_zero V_eq (v0 o) a' && match b' with Some b0 => is_literal b0 | None => false end) eqn:Z.
    + apply andb_true_iff in Z as (Z1 & Z2). injection H as ->. apply is_zero_inv in Z1 as (l' & -> & Z).
      cbn [eval]. rewrite (IHa Ta Sa _ Ha), (IHb Tb Sb _ Hb), Z. apply (zero_add o L).
    + apply rbind_ok in H as (b2 & H2 & H). destruct b' as [b'|]; [|discriminate]. injection H2 as <-.
      destruct (is_zero V_eq (v0 o) b' && is_literal a') eqn:Z3; [|discriminate]. injection H as ->.
      apply andb_true_iff in Z3 as (Z3 & _). apply is_zero_inv in Z3 as (l' & -> & Z3).
      cbn [eval]. rewrite (IHa Ta Sa _ Ha), (IHb Tb Sb _ Hb), Z3. apply (add_zero o L).
  - assert (Ta : truthful a) by (intros f p x args h; apply (T f p x args); constructor; exact h).
    assert (Sa : safe_divisors o a) by (intros d d' h; apply (S d d'); constructor; exact h).
    assert (Tb : truthful b) by (intros f p x args h; apply (T f p x args); apply oc_sub_r; exact h).
    assert (Sb : safe_divisors o b) by (intros d d' h; apply (S d d'); apply oc_sub_r; exact h).
    apply rbind_ok in H as (a' & Ha & H). apply rbind_ok in H as (b' & Hb & H). apply rbind_ok in H as (b2 & H2 & H).
    destruct b' as [b'|]; [|discriminate]. injection H2 as <-.
    destruct (is_zero V_eq (v0 o) b' && match a' with Some b0 => is_literal b0 | None => false end) eqn:Z; [|discriminate].
    apply andb_true_iff in Z as (Z1 & Z2). injection H as ->. apply is_zero_inv in Z1 as (l' & -> & Z).
    cbn [eval]. rewrite (IHa Ta Sa _ Ha), (IHb Tb Sb _ Hb), Z. apply (sub_zero o L).
  - assert (Ta : truthful a) by (intros f p x args h; apply (T f p x args); constructor; exact h).
    assert (Sa : safe_divisors o a) by (intros d d' h; apply (S d d'); constructor; exact h).
    assert (Tb : truthful b) by (intros f p x args h; apply (T f p x args); apply oc_mul_r; exact h).
    assert (Sb : safe_divisors o b) by (intros d d' h; apply (S d d'); apply oc_mul_r; exact h).
    apply rbind_ok in H as (a' & Ha & H). apply rbind_ok in H as (b' & Hb & H). apply rbind_ok in H as (a2 & H2 & H).
    destruct a' as [a'|]; [|discriminate]. injection H2 as <-.
    destruct (is_zero V_eq (v0 o) a') eqn:Z.
    + injection H as ->. apply is_zero_inv in Z as (l' & E & Z). injection E as <-.
      cbn [eval]. rewrite (IHa Ta Sa _ Ha), Z. apply (zero_mul o L).
    + apply rbind_ok in H as (b2 & H2 & H). destruct b' as [b'|]; [|discriminate]. injection H2 as <-.
      destruct (is_zero V_eq (v0 o) b') eqn:Z3; [|discriminate]. injection H as ->.
      apply is_zero_inv in Z3 as (l' & E & Z3). injection E as <-.
      cbn [eval]. rewrite (IHb Tb Sb _ Hb), Z3. apply (mul_zero o L).
  - assert (Ta : truthful a) by (intros f p x args h; apply (T f p x args); constructor; exact h).
    assert (Sa : safe_divisors o a) by (intros d d' h; apply (S d d'); constructor; exact h).
    apply rbind_ok in H as (a' & Ha & H). apply rbind_ok in H as (b' & Hb & H). apply rbind_ok in H as (a2 & H2 & H).
    destruct a' as [a'|]; [|discriminate]. injection H2 as <-.
    destruct (is_zero V_eq (v0 o) a') eqn:Z; [|discriminate]. injection H as ->.
    apply is_zero_inv in Z as (l' & E & Z). injection E as <-.
    destruct (S a b (oc_here _)) as (d & -> & Hd).
    cbn [eval]. rewrite (IHa Ta Sa _ Ha), Z. apply (zero_div o L). exact Hd.
  - discriminate.
  - apply (from_properties_value f p args (FLit l) nothing) in H; [|apply (T _ _ x _); constructor].
    cbn [eval] in *. symmetry. exact H.
Qed.

Lemma equals_lit_eq (k l : literal V) : equals_lit V_eq (FLit k) l = true <-> k = l.
Proof.
  destruct k as [t v], l as [t' v']. cbn. rewrite andb_true_iff, Nat.eqb_eq. split.
  - intros (-> & H). destruct (V_eq v v'); [congruence|discriminate].
  - intros H. injection H as -> ->. split; [reflexivity|]. destruct (V_eq v' v'); congruence.
Qed.
Lemma has_fill_known e l : has_fill V_eq (v0 o) fill e l = Ok true <-> known_fill V_eq o fill e l.
Proof.
  unfold has_fill, known_fill. split.
  - intros H. apply rbind_ok in H as (r & Hr & H). injection H as H. destruct r as [e'|]; [|discriminate].
    destruct e'; try discriminate. apply equals_lit_eq in H. subst. exact Hr.
  - intros ->. cbn [rbind]. f_equal. apply equals_lit_eq. reflexivity.
Qed.

(** ** Zeroing *)
Section Zero.
Variables (dtype : fexpr V -> nat) (zeroed : nat -> bool) (c : coordinate (V:=V)).
Hypothesis Hz : forall t, zeroed t = true -> value fill c t = v0 o.
Definition oval (r : option (fexpr V)) : V := match r with Some e => ev c e | None => v0 o end.

Fixpoint zeros (args : list (fexpr V)) : res (list (fexpr V)) :=
  match args with
  | [] => Ok []
  | e :: args => rbind (zero V_eq (v0 o) dtype zeroed e) (fun r => rbind (zeros args) (fun l =>
      Ok ((match r with Some e' => e' | None => zero_lit (v0 o) dtype e end) :: l)))
  end.
Lemma zeros_eq f p x args :
  zero V_eq (v0 o) dtype zeroed (FCall f p x args) =
  rbind (zeros args) (fun args' => rbind (from_properties V_eq p args') (fun r =>
    Ok (Some (match r with Some e => e | None => FCall f p x args' end)))).
Proof.
  reflexivity.
Qed.

Lemma zero_value (L : arithmetic o) e : truthful e -> safe_divisors o e ->
  exists r, zero V_eq (v0 o) dtype zeroed e = Ok r /\ oval r = ev c e.
Proof.
  induction e as [k|t|a IHa|a b IHa IHb|a b IHa IHb|a b IHa IHb|a b IHa IHb|ty a IHa|f p x args IH] using fexpr_ind';
    intros T S.
  - cbn. eauto.
  - cbn [zero]. destruct (zeroed t) eqn:Z; eexists; (split; [reflexivity|]); cbn [oval eval]; [symmetry; auto|reflexivity].
  - destruct IHa as (a' & Ha & Va);
      [intros f p x args h; apply (T f p x args); constructor; exact h|intros d d' h; apply (S d d'); constructor; exact h|].
    cbn [zero]. rewrite Ha. cbn [rbind]. eexists. split; [reflexivity|]. cbn [eval]. rewrite <- Va.
    destruct a'; cbn; [reflexivity|]. symmetry. apply (neg_zero o L).
  - destruct IHa as (a' & Ha & Va);
      [intros f p x args h; apply (T f p x args); constructor; exact h|intros d d' h; apply (S d d'); constructor; exact h|].
    destruct IHb as (b' & Hb & Vb);
      [intros f p x args h; apply (T f p x args); apply oc_add_r; exact h|intros d d' h; apply (S d d'); apply oc_add_r; exact h|].
    cbn [zero]. rewrite Ha, Hb. cbn [rbind]. eexists. split; [reflexivity|]. cbn [eval]. rewrite <- Va, <- Vb.
    destruct a', b'; cbn [oval eval]; symmetry; rewrite ?(zero_add o L), ?(add_zero o L); reflexivity.
  - destruct IHa as (a' & Ha & Va);
      [intros f p x args h; apply (T f p x args); constructor; exact h|intros d d' h; apply (S d d'); constructor; exact h|].
    destruct IHb as (b' & Hb & Vb);
      [intros f p x args h; apply (T f p x args); apply oc_sub_r; exact h|intros d d' h; apply (S d d'); apply oc_sub_r; exact h|].
    cbn [zero]. rewrite Ha, Hb. cbn [rbind]. eexists. split; [reflexivity|]. cbn [eval]. rewrite <- Va, <- Vb.
    destruct a', b'; cbn [oval eval]; symmetry; rewrite ?(zero_sub o L), ?(sub_zero o L), ?(neg_zero o L); reflexivity.
  - destruct IHa as (a' & Ha & Va);
      [intros f p x args h; apply (T f p x args); constructor; exact h|intros d d' h; apply (S d d'); constructor; exact h|].
    destruct IHb as (b' & Hb & Vb);
      [intros f p x args h; apply (T f p x args); apply oc_mul_r; exact h|intros d d' h; apply (S d d'); apply oc_mul_r; exact h|].
    cbn [zero]. rewrite Ha, Hb. cbn [rbind]. eexists. split; [reflexivity|]. cbn [eval]. rewrite <- Va, <- Vb.
    destruct a', b'; cbn [oval eval]; symmetry; rewrite ?(zero_mul o L), ?(mul_zero o L); reflexivity.
  - destruct IHa as (a' & Ha & Va);
      [intros f p x args h; apply (T f p x args); constructor; exact h|intros d d' h; apply (S d d'); constructor; exact h|].
    destruct (S a b (oc_here _)) as (d & -> & Hd).
    cbn [zero]. rewrite Ha. cbn [rbind]. eexists. split; [reflexivity|]. cbn [eval]. rewrite <- Va.
    destruct a'; cbn [oval eval]; symmetry; rewrite ?(zero_div o L) by exact Hd; reflexivity.
  - destruct IHa as (a' & Ha & Va);
      [intros f p x args h; apply (T f p x args); constructor; exact h|intros d d' h; apply (S d d'); constructor; exact h|].
    cbn [zero]. rewrite Ha. cbn [rbind]. eexists. split; [reflexivity|]. cbn [eval]. rewrite <- Va.
    destruct a'; cbn; [reflexivity|]. symmetry. apply (cast_zero o L).
  - rewrite zeros_eq.
    assert (exists l, zeros args = Ok l /\ map (ev c) l = map (ev c) args) as (l & Hl & Vl).
    { assert (forall a, In a args -> exists r, zero V_eq (v0 o) dtype zeroed a = Ok r /\ oval r = ev c a) as IH2.
      { intros a ha. apply IH; [exact ha| |].
        - intros g q y ars h. apply (T g q y ars). eapply oc_call; eauto.
        - intros d d' h. apply (S d d'). eapply oc_call; eauto. }
      clear IH T S. induction args as [|a args IHl]; [exists []; auto|].
      destruct (IH2 a (or_introl eq_refl)) as (r & Hr & Vr). destruct IHl as (l & Hl & Vl); [intros b hb; apply IH2; right; exact hb|].
      cbn [zeros]. rewrite Hr, Hl. cbn [rbind]. eexists. split; [reflexivity|]. cbn [map]. f_equal; [|exact Vl].
      rewrite <- Vr. destruct r; reflexivity. }
    rewrite Hl. cbn [rbind].
    assert (HP : has_properties f (length l) p).
    { replace (length l) with (length args); [apply (T _ _ x _); constructor|].
      apply (f_equal (@length V)) in Vl. rewrite !map_length in Vl. congruence. }
    destruct (from_properties_ok f p l HP) as (r & Hr). rewrite Hr. cbn [rbind]. eexists. split; [reflexivity|].
    cbn [oval]. destruct r as [e'|].
    + rewrite (from_properties_value f p l e' c HP Hr), Vl. reflexivity.
    + cbn [eval]. rewrite Vl. reflexivity.
Qed.
(** What is left of an expression does not read the exhausted tensors. *)
Lemma from_properties_among p l e' :
  from_properties V_eq p l = Ok (Some e') -> In e' l \/ exists k, e' = FLit k.
Proof.
  intros H. unfold from_properties in H. apply rbind_ok in H as (r & Hr & H).
  destruct r as [e2|].
  - injection H as <-. destruct (annihilator p) as [a|]; [|discriminate].
    unfold annihilates in Hr. apply annihilates_at_spec in Hr. destruct Hr as (-> & _). eauto.
  - destruct (identity p) as [i|]; [|discriminate].
    unfold simplify in H. apply rbind_ok in H as (s & Hs & H). injection H as H.
    destruct s as [(cnt & term)|]; [|discriminate].
    apply simplify_at_spec in Hs. cbn [fst snd] in Hs. destruct Hs as (_ & h2 & _).
    destruct (_ && _).
    + rewrite h2 in H. destruct (others _ _ _) as [|q l0]; [discriminate|]. left. eapply nth_error_In. exact H.
    + destruct (_ =? _); [|discriminate]. injection H as <-. eauto.
Qed.
Lemma zero_gone e e' t :
  zero V_eq (v0 o) dtype zeroed e = Ok (Some e') -> occurs (FAcc t) e' -> zeroed t = false.
Proof.
  revert e'.
  induction e as [k|u|a IHa|a b IHa IHb|a b IHa IHb|a b IHa IHb|a b IHa IHb|ty a IHa|f p x args IH] using fexpr_ind';
    intros e' H O; [| | | | | | | |rewrite zeros_eq in H]; cbn [zero] in H.
  - injection H as <-. inversion O.
  - destruct (zeroed u) eqn:Z; [discriminate|]. injection H as <-. inversion O; subst. exact Z.
  - apply rbind_ok in H as ([a'|] & Ha & H); [|discriminate]. injection H as <-. inversion O; subst. eauto.
  - apply rbind_ok in H as (a' & Ha & H). apply rbind_ok in H as (b' & Hb & H).
    destruct a', b'; try discriminate; injection H as <-; [inversion O; subst; eauto|eauto|eauto].
  - apply rbind_ok in H as (a' & Ha & H). apply rbind_ok in H as (b' & Hb & H).
    destruct a', b'; try discriminate; injection H as <-; [inversion O; subst; eauto|eauto|inversion O; subst; eauto].
  - apply rbind_ok in H as (a' & Ha & H). apply rbind_ok in H as (b' & Hb & H).
    destruct a', b'; try discriminate; injection H as <-. inversion O; subst; eauto.
  - apply rbind_ok in H as (a' & Ha & H). apply rbind_ok in H as (b' & Hb & H).
    destruct a', b'; try discriminate; injection H as <-. inversion O; subst; eauto.
  - apply rbind_ok in H as ([a'|] & Ha & H); [|discriminate]. injection H as <-. inversion O; subst. eauto.
  - apply rbind_ok in H as (l & Hl & H). apply rbind_ok in H as (r & Hr & H). injection H as <-.
    assert (forall d, In d l -> occurs (FAcc t) d -> zeroed t = false) as Q.
    { clear Hr O. revert l Hl. induction args as [|a args IHl]; cbn [zeros]; intros l Hl d hd O.
      - injection Hl as <-. destruct hd.
      - apply rbind_ok in Hl as (a' & Ha & Hl). apply rbind_ok in Hl as (l' & Hl' & Hl). injection Hl as <-.
        destruct hd as [<-|hd].
        + destruct a' as [a'|]; [eapply IH; [left; reflexivity|exact Ha|exact O]|inversion O].
        + eapply IHl; [intros d' h; apply IH; right; exact h|exact Hl'|exact hd|exact O]. }
    destruct r as [e'|].
    + destruct (from_properties_among p l e' Hr) as [h|(k & ->)]; [eauto|inversion O].
    + inversion O; subst. eauto.
Qed.
End Zero.

(** ** The inferred space *)
Lemma toIntersect_spec a args pos l :
  toIntersect V_eq (v0 o) fill a args pos = Ok l ->
  forall k, In k l <-> In k pos /\ exists e, nth_error args k = Some e /\ has_fill V_eq (v0 o) fill e a = Ok true.
Proof.
  revert l. induction pos as [|j pos IH]; intros l H; cbn [toIntersect] in H.
  - injection H as <-. intros k. cbn. tauto.
  - destruct (nth_error args j) as [e|] eqn:E; [|discriminate].
    apply rbind_ok in H as (b & Hb & H). apply rbind_ok in H as (l' & Hl & H). injection H as <-.
    specialize (IH _ Hl). intros k. split.
    + intros h. destruct b.
      * destruct h as [<-|h]; [split; [left; reflexivity|eauto]|]. apply IH in h. cbn; tauto.
      * apply IH in h. cbn; tauto.
    + intros (h & e' & h1 & h2). destruct h as [<-|h].
      * rewrite E in h1. injection h1 as <-. rewrite Hb in h2. injection h2 as ->. left; reflexivity.
      * assert (In k l') by (apply IH; eauto). destruct b; [right|]; assumption.
Qed.
Lemma all_fills_spec v args b : all_fills V_eq (v0 o) fill v args = Ok b ->
  (b = true <-> forall e, In e args -> has_fill V_eq (v0 o) fill e v = Ok true).
Proof.
  revert b. induction args as [|e args IH]; intros b H; cbn [all_fills] in H.
  - injection H as <-. split; [intros _ e []|reflexivity].
  - apply rbind_ok in H as (q & Hq & H). destruct q.
    + specialize (IH _ H). rewrite IH. split; intros h; [intros e' [<-|h']; auto|intros e' h'; apply h; right; exact h'].
    + injection H as <-. split; [discriminate|]. intros h. rewrite (h e (or_introl eq_refl)) in Hq. discriminate.
Qed.

Lemma inferAlg_space p args x :
  (forall a, annihilator p = Some a -> proper a (length args)) ->
  inferAlg V_eq (v0 o) fill p args = Ok (Some x) ->
  (annihilated V_eq o fill p args /\ forall m, inside m x <->
     forall a k e, annihilator p = Some a -> about a k -> nth_error args k = Some e ->
                   known_fill V_eq o fill e (p_value a) -> m k) \/
  (~ annihilated V_eq o fill p args /\ neutral V_eq o fill p args /\
     forall m, inside m x <-> exists k, k < length args /\ m k) \/
  (~ annihilated V_eq o fill p args /\ ~ neutral V_eq o fill p args /\
     forall m, (forall k, m k \/ ~ m k) -> inside m x).
Proof.
  intros HP H. unfold inferAlg in H. apply rbind_ok in H as (r & Hr & H).
  destruct r as [x'|].
  - injection H as ->. left. destruct (annihilator p) as [a|] eqn:EA; [|discriminate].
    unfold constructAnnihilatorAlg in Hr. destruct (length args <? 2) eqn:E2; [discriminate|]. apply Nat.ltb_ge in E2.
    apply rbind_ok in Hr as (l & Hl & Hr). pose proof (toIntersect_spec _ _ _ _ Hl) as Hs.
    destruct l as [|q l]; [discriminate|]. injection Hr as <-.
    split.
    + split; [exact E2|]. destruct (proj1 (Hs q) (or_introl eq_refl)) as (h1 & e & h2 & h3).
      exists a, q, e. repeat split; auto; [|apply has_fill_known; exact h3].
      apply (positions_lt a (length args)); auto.
    + intros m. rewrite inside_intersects. cbn [inside]. split.
      * intros (h1 & h2) a' k e E hk he hf. injection E as <-.
        assert (In k (q :: l)) as Hin.
        { apply Hs. split; [|exists e; split; [exact he|apply has_fill_known; exact hf]].
          apply about_in; [apply nth_error_Some; congruence|exact hk]. }
        destruct Hin as [<-|Hin]; auto.
      * intros h.
        assert (forall k, In k (q :: l) -> m k) as G.
        { intros k hk. apply Hs in hk as (h1 & e & h2 & h3). apply (h a k e); auto; [|apply has_fill_known; exact h3].
          apply (positions_lt a (length args)); auto. }
        split; [apply G; left; reflexivity|]. intros k hk. apply G. right. exact hk.
  - assert (NA : ~ annihilated V_eq o fill p args).
    { intros (E2 & a & k & e & E & hk & he & hf). rewrite E in Hr. unfold constructAnnihilatorAlg in Hr.
      destruct (length args <? 2) eqn:E3; [apply Nat.ltb_lt in E3; lia|].
      apply rbind_ok in Hr as (l & Hl & Hr). pose proof (toIntersect_spec _ _ _ _ Hl) as Hs.
      destruct l as [|q l]; [|discriminate]. apply (Hs k).
      split; [|exists e; split; [exact he|apply has_fill_known; exact hf]].
      apply about_in; [apply nth_error_Some; congruence|exact hk]. }
    right. apply rbind_ok in H as (r & Hr2 & H). destruct r as [x'|].
    + left. injection H as ->. destruct (identity p) as [i|] eqn:EI; [|discriminate].
      unfold constructIdentityAlg in Hr2. destruct (length args <? 2) eqn:E2; [discriminate|]. apply Nat.ltb_ge in E2.
      apply rbind_ok in Hr2 as (b & Hb & Hr2). destruct b; [|discriminate]. injection Hr2 as <-.
      split; [exact NA|]. split.
      * split; [exact E2|]. exists i. split; [exact EI|]. intros E. rewrite E in Hb. intros e he. apply has_fill_known.
        apply (proj1 (all_fills_spec _ _ _ Hb) eq_refl). exact he.
      * intros m. apply inside_unionAll. lia.
    + right. injection H as H. split; [exact NA|]. split.
      * intros (E2 & i & EI & Hi). rewrite EI in Hr2. unfold constructIdentityAlg in Hr2.
        destruct (length args <? 2) eqn:E3; [apply Nat.ltb_lt in E3; lia|].
        apply rbind_ok in Hr2 as (b & Hb & Hr2). destruct b; [discriminate|].
        destruct (p_positions i) as [|q l]; [|discriminate].
        apply all_fills_spec in Hb. enough (false = true) by discriminate. apply Hb.
        intros e he. apply has_fill_known. apply Hi; auto.
      * intros m Hm. unfold defaultAlgebra in H. destruct args as [|e args]; [discriminate|]. injection H as <-. cbn [inside].
        apply inside_dec. exact Hm.
Qed.


Lemma inside_ext_in {R} (m m' : R -> Prop) x : (forall k, In k (regions x) -> (m k <-> m' k)) -> (inside m x <-> inside m' x).
Proof.
  induction x as [k|y IH|y IH z IH2|y IH z IH2]; cbn [inside regions] in *; intros H.
  - apply H. left. reflexivity.
  - rewrite IH; [tauto|exact H].
  - rewrite IH, IH2; [tauto|..]; intros k hk; apply H; apply in_app_iff; auto.
  - rewrite IH, IH2; [tauto|..]; intros k hk; apply H; apply in_app_iff; auto.
Qed.

Lemma visited_dec (c : coordinate (V:=V)) e : visited c e \/ ~ visited c e.
Proof.
  induction e as [k|t|a IHa|a b IHa IHb|a b IHa IHb|a b IHa IHb|a b IHa IHb|ty a IHa|f p x args IH] using fexpr_ind'; cbn [visited]; try tauto.
  - destruct (c t); [left; discriminate|right; congruence].
  - apply inside_dec. intros k. destruct (nth_error (map (visited c) args) k) as [P|] eqn:E; [|tauto].
    apply nth_error_map_some in E as (a & Ha & ->). apply IH. eapply nth_error_In; eauto.
Qed.

(** Outside the space that is visited, an expression has its background value. *)
Lemma outside_background (L : arithmetic o) (c : coordinate (V:=V)) e :
  truthful e -> inferred V_eq o fill e -> safe_divisors o e -> zero_factors o fill e ->
  ~ visited c e -> ev c e = bg e.
Proof.
  unfold background.
  induction e as [k|t|a IHa|a b IHa IHb|a b IHa IHb|a b IHa IHb|a b IHa IHb|ty a IHa|f p x args IH] using fexpr_ind';
    intros T I S Z N; cbn [visited] in N.
  - tauto.
  - cbn [eval]. unfold value, nothing. destruct (c t); [exfalso; apply N; discriminate|reflexivity].
  - cbn [eval]. f_equal. apply IHa; auto; repeat intro; [eapply T|eapply I|eapply S|eapply Z]; apply oc_neg; eassumption.
  - cbn [eval]. f_equal.
    + apply IHa; auto; repeat intro; [eapply T|eapply I|eapply S|eapply Z]; apply oc_add_l; eassumption.
    + apply IHb; auto; repeat intro; [eapply T|eapply I|eapply S|eapply Z]; apply oc_add_r; eassumption.
  - cbn [eval]. f_equal.
    + apply IHa; auto; repeat intro; [eapply T|eapply I|eapply S|eapply Z]; apply oc_sub_l; eassumption.
    + apply IHb; auto; repeat intro; [eapply T|eapply I|eapply S|eapply Z]; apply oc_sub_r; eassumption.
  - assert (~ visited c a -> ev c a = ev nothing a) as A
      by (intros; apply IHa; auto; repeat intro; [eapply T|eapply I|eapply S|eapply Z]; apply oc_mul_l; eassumption).
    assert (~ visited c b -> ev c b = ev nothing b) as B
      by (intros; apply IHb; auto; repeat intro; [eapply T|eapply I|eapply S|eapply Z]; apply oc_mul_r; eassumption).
    destruct (Z a b (oc_here _)) as (Za & Zb). cbn [eval]. unfold background in *.
    destruct (visited_dec c a) as [Va|Va].
    + assert (~ visited c b) as Nb by tauto. destruct Zb as [Zb|Zb]; [|exfalso; auto].
      rewrite (B Nb), Zb, !(mul_zero o L). reflexivity.
    + destruct Za as [Za|Za]; [|exfalso; auto]. rewrite (A Va), Za, !(zero_mul o L). reflexivity.
  - destruct (S a b (oc_here _)) as (l & -> & Hl). cbn [eval]. f_equal. apply IHa; cbn [visited] in N; [| | | |tauto];
      repeat intro; [eapply T|eapply I|eapply S|eapply Z]; apply oc_div_l; eassumption.
  - cbn [eval]. f_equal. apply IHa; auto; repeat intro; [eapply T|eapply I|eapply S|eapply Z]; apply oc_cast; eassumption.
  - cbn [eval].
    assert (forall a, In a args -> ~ visited c a -> ev c a = ev nothing a) as IH2.
    { intros a ha. apply IH; [exact ha|..]; repeat intro; [eapply T|eapply I|eapply S|eapply Z]; eapply oc_call; eassumption. }
    assert (forall a, In a args -> truthful a) as T2 by (intros a ha g q y l h; apply (T g q y l); eapply oc_call; eauto).
    assert (forall a, In a args -> safe_divisors o a) as S2 by (intros a ha d d' h; apply (S d d'); eapply oc_call; eauto).
    destruct (T f p x args (oc_here _)) as (HA & HI).
    destruct (inferAlg_space p args x (fun a h => proj1 (HA a h)) (I f p x args (oc_here _))) as [(hA & Hx)|[(_ & _ & Hx)|(_ & _ & Hx)]].
    + rewrite Hx in N. destruct hA as (_ & a & k0 & e0 & EA & _).
      assert (exists k e, about a k /\ nth_error args k = Some e /\ known_fill V_eq o fill e (p_value a) /\ ~ visited c e) as (k & e & h1 & h2 & h3 & h4).
      { assert (G : (exists k e, about a k /\ nth_error args k = Some e /\ known_fill V_eq o fill e (p_value a) /\ ~ visited c e) \/
                    forall k e, k < length args -> about a k -> nth_error args k = Some e -> known_fill V_eq o fill e (p_value a) -> visited c e).
        { generalize (length args) as n. induction n as [|n [h|IHn]]; [right; lia|left; exact h|].
          destruct (nth_error args n) as [e|] eqn:E.
          - destruct (visited_dec c e) as [v|v]; [right|].
            + intros k e' hk. destruct (Nat.eq_dec k n) as [->|hn]; [congruence|apply IHn; lia].
            + assert (about a n \/ ~ about a n) as [ha|ha].
              { unfold about. destruct (p_positions a) as [|q l]; [tauto|]. destruct (in_dec Nat.eq_dec n (q :: l)); [auto|]. right. intros [h|h]; [discriminate|auto]. }
              * assert (known_fill V_eq o fill e (p_value a) \/ ~ known_fill V_eq o fill e (p_value a)) as [hf|hf].
                { unfold known_fill. destruct (inferFill V_eq (v0 o) fill e) as [[[k| | | | | | | |]|]| |]; try (right; discriminate).
                  destruct (equals_lit V_eq (FLit k) (p_value a)) eqn:Q; [left; apply equals_lit_eq in Q; congruence|].
                  right. intros h. injection h as ->. rewrite (proj2 (equals_lit_eq _ _) eq_refl) in Q. discriminate. }
                -- left. exists n, e. auto.
                -- right. intros k e' hk h1 h2 h3. destruct (Nat.eq_dec k n) as [->|hn]; [congruence|apply (IHn k); auto; lia].
              * right. intros k e' hk h1 h2 h3. destruct (Nat.eq_dec k n) as [->|hn]; [contradiction|apply (IHn k); auto; lia].
          - right. intros k e' hk h1 h2 h3. destruct (Nat.eq_dec k n) as [->|hn]; [congruence|apply (IHn k); auto; lia]. }
        destruct G as [G|G]; [exact G|]. exfalso. apply N. intros a' k e EA' h1 h2 h3.
        rewrite EA in EA'. injection EA' as <-. rewrite (map_nth_error _ _ _ h2). apply (G k e); auto. apply nth_error_Some. congruence. }
      pose proof (nth_error_In _ _ h2) as hin.
      pose proof (inferFill_value L e (T2 e hin) (S2 e hin) _ h3) as Hf. unfold background in Hf.
      destruct (HA a EA) as (_ & Ha).
      transitivity (l_val (p_value a)).
      * apply (Ha _ k); [apply map_length|exact h1|]. rewrite (map_nth_error _ _ _ h2), (IH2 e hin h4), Hf. reflexivity.
      * symmetry. apply (Ha _ k); [apply map_length|exact h1|]. rewrite (map_nth_error _ _ _ h2), Hf. reflexivity.
    + f_equal. apply map_ext_in. intros a ha. apply IH2; [exact ha|]. intros h. apply N. apply Hx.
      apply In_nth_error in ha as (k & hk). exists k. split; [apply nth_error_Some; congruence|].
      rewrite (map_nth_error _ _ _ hk). exact h.
    + exfalso. apply N. apply Hx. intros k. destruct (nth_error (map (visited c) args) k) as [P|] eqn:E; [|tauto].
      apply nth_error_map_some in E as (a & Ha & ->). apply visited_dec.
Qed.

(** The background of a call. *)
Lemma annihilated_background (L : arithmetic o) f p x args a :
  truthful (FCall f p x args) -> safe_divisors o (FCall f p x args) ->
  annihilated V_eq o fill p args -> annihilator p = Some a -> bg (FCall f p x args) = l_val (p_value a).
Proof.
  intros T S (_ & a' & k & e & EA & h1 & h2 & h3) E. rewrite E in EA. injection EA as <-.
  unfold background. cbn [eval]. destruct (T f p x args (oc_here _)) as (HA & _). apply (proj2 (HA a E) _ k); [apply map_length|exact h1|].
  rewrite (map_nth_error _ _ _ h2). f_equal. apply inferFill_value; [exact L|..|exact h3]; repeat intro;
    [eapply T|eapply S]; (eapply oc_call; [eapply nth_error_In; eassumption|eassumption]).
Qed.
Lemma neutral_background (L : arithmetic o) f p x args i :
  truthful (FCall f p x args) -> safe_divisors o (FCall f p x args) ->
  neutral V_eq o fill p args -> identity p = Some i -> p_positions i = [] -> bg (FCall f p x args) = l_val (p_value i).
Proof.
  intros T S (_ & i' & EI & H) E EP. rewrite E in EI. injection EI as <-. specialize (H EP).
  unfold background. cbn [eval]. destruct (T f p x args (oc_here _)) as (_ & HI).
  apply (proj2 (proj2 (HI i E))); [apply map_length|].
  intros j w hw. apply nth_error_map_some in hw as (e & he & ->). split; [left; exact EP|].
  apply nth_error_In in he. apply inferFill_value; [exact L|..|apply H; exact he]; repeat intro;
    [eapply T|eapply S]; (eapply oc_call; eassumption).
Qed.

(** ** No failures *)
Lemma is_zero_lit l : l_val l = v0 o -> is_zero V_eq (v0 o) (FLit l) = true.
Proof. cbn. intros ->. destruct (V_eq (v0 o) (v0 o)); congruence. Qed.
Lemma zero_filled_fill e : zero_filled o fill e ->
  exists l, inferFill V_eq (v0 o) fill e = Ok (Some (FLit l)) /\ l_val l = v0 o.
Proof.
  induction 1 as [t H|a _ (l & Ha & Hl)|a b _ (l & Ha & Hl) _ (l' & Hb & Hl')|a b _ (l & Ha & Hl) _ (l' & Hb & Hl')
    |a b _ (l & Ha & Hl) _ (l' & Hb & Hl')|k b _ (l' & Hb & Hl')|a k _ (l & Ha & Hl)|a b _ (l & Ha & Hl) _ (l' & Hb & Hl')|a k _ (l & Ha & Hl)];
    cbn [inferFill]; rewrite ?Ha, ?Hb; cbn [rbind defined is_literal].
  - eauto.
  - rewrite (is_zero_lit l Hl). eauto.
  - rewrite (is_zero_lit l Hl). cbn [andb]. eauto.
  - rewrite (is_zero_lit l' Hl'). cbn [andb]. eauto.
  - rewrite (is_zero_lit l Hl). eauto.
  - destruct (is_zero V_eq (v0 o) (FLit k)) eqn:Z.
    + apply is_zero_inv in Z as (k' & E & Z). injection E as <-. eauto.
    + rewrite (is_zero_lit l' Hl'). eauto.
  - rewrite (is_zero_lit l Hl). eauto.
  - rewrite (is_zero_lit l Hl). eauto.
  - rewrite (is_zero_lit l Hl). eauto.
Qed.
Lemma plain_fill e l : plain o fill e -> exists b, has_fill V_eq (v0 o) fill e l = Ok b.
Proof.
  intros [k|t|e' H]; unfold has_fill; [cbn; eauto|cbn; eauto|].
  destruct (zero_filled_fill e' H) as (k & -> & _). cbn [rbind]. eauto.
Qed.
Lemma inferAlg_ok p args :
  args <> [] -> (forall e, In e args -> plain o fill e) -> (forall a, annihilator p = Some a -> proper a (length args)) ->
  exists x, inferAlg V_eq (v0 o) fill p args = Ok (Some x).
Proof.
  intros Hne Hpl HP. unfold inferAlg.
  assert (exists r, match annihilator p with Some a => constructAnnihilatorAlg V_eq (v0 o) fill args a | None => Ok None end = Ok r) as (r & ->).
  { destruct (annihilator p) as [a|]; [|eauto]. unfold constructAnnihilatorAlg. destruct (length args <? 2); [eauto|].
    assert (exists l, toIntersect V_eq (v0 o) fill (p_value a) args (all_positions (p_positions a) (length args)) = Ok l) as (l & ->).
    { assert (forall k, In k (all_positions (p_positions a) (length args)) -> k < length args) as Hlt
        by (intros k hk; apply (positions_lt a); auto).
      induction (all_positions (p_positions a) (length args)) as [|k pos IH]; cbn [toIntersect]; [eauto|].
      destruct (nth_error args k) as [e|] eqn:E; [|apply nth_error_None in E; specialize (Hlt k (or_introl eq_refl)); lia].
      destruct (plain_fill e (p_value a) (Hpl e (nth_error_In _ _ E))) as (b & ->).
      destruct IH as (l & ->); [intros j hj; apply Hlt; right; exact hj|]. cbn [rbind]. eauto. }
    cbn [rbind]. destruct l; eauto. }
  cbn [rbind]. destruct r; [eauto|].
  assert (exists r, match identity p with Some a => constructIdentityAlg V_eq (v0 o) fill args a | None => Ok None end = Ok r) as (r & ->).
  { destruct (identity p) as [i|]; [|eauto]. unfold constructIdentityAlg. destruct (length args <? 2); [eauto|].
    assert (exists b, match p_positions i with [] => all_fills V_eq (v0 o) fill (p_value i) args | _ => Ok true end = Ok b) as (b & ->).
    { destruct (p_positions i); [|eauto]. clear Hne HP.
      induction args as [|e args IH]; cbn [all_fills]; [eauto|].
      destruct (plain_fill e (p_value i) (Hpl e (or_introl eq_refl))) as (b & ->). cbn [rbind].
      destruct b; [|eauto]. apply IH. intros e' h. apply Hpl. right. exact h. }
    cbn [rbind]. destruct b; eauto. }
  cbn [rbind]. destruct r; [eauto|]. unfold defaultAlgebra. destruct args; [congruence|]. eauto.
Qed.
End Proofs.
