(** Proofs about expression simplification. *)
From Coq Require Import List ZArith Lia Bool.
From Verif Require Import Types TypesProofs Simplify SimplifySpec.
Import ListNotations.
Local Open Scope Z_scope.

Lemma itype_eqb_eq : forall a b, itype_eqb a b = true <-> a = b.
Proof. destruct a, b; cbn; split; congruence. Qed.
Lemma kind_eqb_eq : forall a b, kind_eqb a b = true <-> a = b.
Proof.
  destruct a, b; cbn; split; try congruence; intro H.
  - f_equal. apply itype_eqb_eq; auto.
  - apply itype_eqb_eq. congruence.
Qed.
Lemma max_itype_same : forall t, max_itype t t = t.
Proof. destruct t; reflexivity. Qed.
Lemma max_kind_same : forall k, max_kind k k = k.
Proof. destruct k; cbn; auto. rewrite max_itype_same; auto. Qed.
Lemma convert_same : forall t z, convert_literal t t z = z.
Proof. intros. unfold convert_literal. replace (itype_eqb t t) with true; auto. symmetry. apply itype_eqb_eq. auto. Qed.

Lemma wrap_spec : forall t a b, (exists k, a = b + k * 2 ^ bits t) -> wrap t a = wrap t b.
Proof. intros t a b [k ->]. apply wrap_eq_mod. apply Z_mod_plus_full. Qed.
Lemma pow_half : forall t, 2 ^ bits t = 2 * 2 ^ (bits t - 1).
Proof. destruct t; reflexivity. Qed.
Lemma range0 : forall t, in_range t 0.
Proof. destruct t; cbv; intuition discriminate. Qed.
Lemma range1 : forall t, in_range t 1.
Proof. destruct t; cbv; intuition discriminate. Qed.

Ltac wr_simpl t :=
  repeat match goal with |- context [wrap t ?z] =>
    lazymatch z with
    | context [wrap t _] => fail
    | _ => let k := fresh "k" in let E := fresh "E" in
           destruct (wrap_cong t z) as [k E]; rewrite E; clear E
    end
  end.
Lemma assoc_add : forall t c d y, wrap t (c + wrap t (d + y)) = wrap t (wrap t (c + d) + y).
Proof.
  intros. destruct (wrap_cong t (d + y)) as [k ->]. destruct (wrap_cong t (c + d)) as [k' ->].
  apply wrap_spec. exists (k - k'). lia.
Qed.
Lemma assoc_sub : forall t c d y, wrap t (c + wrap t (y - d)) = wrap t (wrap t (c - d) + y).
Proof.
  intros. destruct (wrap_cong t (y - d)) as [k ->]. destruct (wrap_cong t (c - d)) as [k' ->].
  apply wrap_spec. exists (k - k'). lia.
Qed.
Lemma assoc_mul : forall t c d y, wrap t (c * wrap t (d * y)) = wrap t (wrap t (c * d) * y).
Proof.
  intros. destruct (wrap_cong t (d * y)) as [k ->]. destruct (wrap_cong t (c * d)) as [k' ->].
  apply wrap_spec. exists (c * k - k' * y). lia.
Qed.

Section Proofs.
Variable F : Type.
Variable FL : flits F.
Variable FO : fops F.
Variable env : nat -> value F.
Variable op1 : kind -> nat -> value F -> option (value F).
Variable op2 : kind -> nat -> value F -> value F -> option (value F).
Variable cast : kind -> value F -> option (value F).
Hypothesis TO : typed_operations op1 op2 cast FL.
Hypothesis LAW : float_laws FO FL.

Notation ev := (eval FO env op1 op2 cast).
Notation wt := (well_typed env).

(** Evaluation produces values of the expression's type. *)
Lemma eval_kind : forall e v, wt e -> ev e = Some v -> has_kind (kind_of e) v.
Proof.
  induction e as [l|k x|a IHa|a IHa b IHb|a IHa b IHb|a IHa b IHb|a IHa b IHb|a IHa b IHb|a IHa b IHb|k a IHa|k o a IHa|k o a IHa b IHb];
    intros v W E; cbn [eval] in E; cbn [well_typed] in W.
  - injection E as <-. exact W.
  - injection E as <-. exact W.
  - destruct W as [Wa Ka]. destruct (ev a) as [[z|f|x]|] eqn:Ea; try discriminate; injection E as <-;
      specialize (IHa _ Wa eq_refl); cbn [kind_of]; destruct (kind_of a); cbn in *; try contradiction; auto.
    apply wrap_range.
  - destruct W as (Wa & Wb & K & NB). unfold bind2 in E. destruct (ev a) as [va|] eqn:Ea; [|discriminate].
    destruct (ev b) as [vb|] eqn:Eb; [|discriminate].
    specialize (IHa _ Wa eq_refl). specialize (IHb _ Wb eq_refl). cbn [kind_of] in *. rewrite <- K in *. rewrite max_kind_same in *.
    destruct (kind_of a); cbn in *; destruct va, vb; try contradiction; try congruence; cbn in E; injection E as <-; auto. apply wrap_range.
  - destruct W as (Wa & Wb & K & NB). unfold bind2 in E. destruct (ev a) as [va|] eqn:Ea; [|discriminate].
    destruct (ev b) as [vb|] eqn:Eb; [|discriminate].
    specialize (IHa _ Wa eq_refl). specialize (IHb _ Wb eq_refl). cbn [kind_of] in *. rewrite <- K in *. rewrite max_kind_same in *.
    destruct (kind_of a); cbn in *; destruct va, vb; try contradiction; try congruence; cbn in E; injection E as <-; auto. apply wrap_range.
  - destruct W as (Wa & Wb & K & NB). unfold bind2 in E. destruct (ev a) as [va|] eqn:Ea; [|discriminate].
    destruct (ev b) as [vb|] eqn:Eb; [|discriminate].
    specialize (IHa _ Wa eq_refl). specialize (IHb _ Wb eq_refl). cbn [kind_of] in *. rewrite <- K in *. rewrite max_kind_same in *.
    destruct (kind_of a); cbn in *; destruct va, vb; try contradiction; try congruence; cbn in E; injection E as <-; auto. apply wrap_range.
  - destruct W as (Wa & Wb & K & NB). unfold bind2 in E. destruct (ev a) as [va|] eqn:Ea; [|discriminate].
    destruct (ev b) as [vb|] eqn:Eb; [|discriminate].
    specialize (IHa _ Wa eq_refl). specialize (IHb _ Wb eq_refl). cbn [kind_of] in *. rewrite <- K in *. rewrite max_kind_same in *.
    destruct (kind_of a); cbn in *; destruct va, vb; try contradiction; try congruence; cbn in E.
    + unfold c_div in E. destruct (_ =? 0); [discriminate|]. destruct (in_rangeb _ _) eqn:R; [|discriminate].
      injection E as <-. apply in_rangeb_ok; auto.
    + injection E as <-. auto.
  - destruct (ev a) as [[| |[|]]|]; try discriminate; [injection E as <-; exact I|].
    destruct (ev b) as [[| |y]|]; try discriminate. injection E as <-. exact I.
  - destruct (ev a) as [[| |[|]]|]; try discriminate; [|injection E as <-; exact I].
    destruct (ev b) as [[| |y]|]; try discriminate. injection E as <-. exact I.
  - destruct (ev a); [|discriminate]. apply (to_cast _ _ _ _ _ TO _ _ _ E).
  - destruct (ev a); [|discriminate]. apply (to_op1 _ _ _ _ _ TO _ _ _ _ E).
  - unfold bind2 in E. destruct (ev a); [|discriminate]. destruct (ev b); [|discriminate]. apply (to_op2 _ _ _ _ _ TO _ _ _ _ _ E).
Qed.

(** [e'] refines [e]. *)
Definition refines (e e' : expr F) : Prop :=
  wt e' /\ kind_of e' = kind_of e /\ forall v, ev e = Some v -> ev e' = Some v.

Lemma refines_refl : forall e, wt e -> refines e e.
Proof. intros; repeat split; auto. Qed.
Lemma refines_trans : forall a b c, refines a b -> refines b c -> refines a c.
Proof. intros a b c (A & K & E) (A' & K' & E'). repeat split; auto. congruence. Qed.

(** The four arithmetic nodes. *)
Inductive aop := OAdd | OSub | OMul | ODiv.
Definition node (o : aop) (a b : expr F) : expr F :=
  match o with OAdd => EAdd a b | OSub => ESub a b | OMul => EMul a b | ODiv => EDiv a b end.
Definition int_op (o : aop) (k : kind) (x y : Z) : option Z :=
  match o with
  | OAdd => Some (in_kind k (x + y)) | OSub => Some (in_kind k (x - y))
  | OMul => Some (in_kind k (x * y)) | ODiv => c_div k x y end.
Definition flt_op (o : aop) : F -> F -> F :=
  match o with OAdd => fadd FO | OSub => fsub FO | OMul => fmul FO | ODiv => fdiv FO end.
Definition wt2 (a b : expr F) : Prop := wt a /\ wt b /\ kind_of a = kind_of b /\ kind_of a <> KBool.
Lemma node_wt : forall o a b, wt (node o a b) <-> wt2 a b.
Proof. destruct o; reflexivity. Qed.
Lemma node_kind : forall o a b, wt2 a b -> kind_of (node o a b) = kind_of a.
Proof. intros o a b (_ & _ & K & _). destruct o; cbn; rewrite <- K; apply max_kind_same. Qed.
Lemma node_eval : forall o a b, ev (node o a b) =
  bind2 (ev a) (ev b) (arith2 FO (int_op o (kind_of (node o a b))) (flt_op o)).
Proof. destruct o; reflexivity. Qed.
Lemma node_inv : forall o a b v, wt2 a b -> ev (node o a b) = Some v ->
  (exists t x y, kind_of a = KInt t /\ kind_of b = KInt t /\ ev a = Some (VInt x) /\ ev b = Some (VInt y) /\ in_range t x /\ in_range t y /\
     option_map VInt (int_op o (KInt t) x y) = Some v) \/
  (exists x y, kind_of a = KFlt /\ kind_of b = KFlt /\ ev a = Some (VFlt x) /\ ev b = Some (VFlt y) /\ v = VFlt (flt_op o x y)).
Proof.
  intros o a b v W E. rewrite node_eval, node_kind in E by auto. destruct W as (Wa & Wb & K & NB).
  unfold bind2 in E. destruct (ev a) as [va|] eqn:Ea; [|discriminate]. destruct (ev b) as [vb|] eqn:Eb; [|discriminate].
  pose proof (eval_kind _ _ Wa Ea) as Ha. pose proof (eval_kind _ _ Wb Eb) as Hb. rewrite <- K in Hb.
  destruct (kind_of a) as [t| |] eqn:Ka; try congruence; destruct va, vb; cbn in Ha, Hb; try contradiction.
  - left. exists t, z, z0. repeat split; auto.
  - right. exists f, f0. repeat split; auto. cbn in E. congruence.
Qed.
Lemma node_cong : forall o a b a' b', wt2 a b -> refines a a' -> refines b b' -> refines (node o a b) (node o a' b').
Proof.
  intros o a b a' b' W (Wa & Ka & Ea) (Wb & Kb & Eb).
  assert (W' : wt2 a' b') by (destruct W as (? & ? & ? & ?); repeat split; auto; congruence).
  split; [apply node_wt; auto|]. split; [rewrite !node_kind by auto; auto|].
  intros v E. rewrite node_eval, node_kind in * by auto. rewrite Ka.
  unfold bind2 in *. destruct (ev a) as [va|]; [|discriminate]. rewrite (Ea _ eq_refl).
  destruct (ev b) as [vb|]; [|discriminate]. rewrite (Eb _ eq_refl). auto.
Qed.

Lemma lit0 : forall l, has_kind (kind_of_lit l) (value_of_lit l) -> kind_of_lit l <> KBool -> is_scalar0 FL l = true ->
  (exists t, l = LInt t 0) \/ l = LFlt (fl0 FL).
Proof.
  intros [t z|f|b] _ NB E; cbn in *; try congruence.
  - left. exists t. apply Z.eqb_eq in E. subst; auto.
  - right. rewrite (fl_is0 _ _ _ LAW _ E). auto.
Qed.
Lemma lit1 : forall l, has_kind (kind_of_lit l) (value_of_lit l) -> kind_of_lit l <> KBool -> is_scalar1 FL l = true ->
  (exists t, l = LInt t 1) \/ l = LFlt (fl1 FL).
Proof.
  intros [t z|f|b] _ NB E; cbn in *; try congruence.
  - left. exists t. apply Z.eqb_eq in E. subst; auto.
  - right. rewrite (fl_is1 _ _ _ LAW _ E). auto.
Qed.

(** Dropping a literal operand. *)
Lemma drop_left : forall o l b, wt2 (ELit l) b ->
  ((exists t, l = LInt t 0) \/ l = LFlt (fl0 FL) -> o = OAdd -> refines (node o (ELit l) b) b) /\
  ((exists t, l = LInt t 1) \/ l = LFlt (fl1 FL) -> o = OMul -> refines (node o (ELit l) b) b) /\
  ((exists t, l = LInt t 0) \/ l = LFlt (fl0 FL) -> o = OMul -> refines (node o (ELit l) b) (ELit l)) /\
  ((exists t, l = LInt t 0) \/ l = LFlt (fl0 FL) -> o = OSub -> refines (node o (ELit l) b) (ENeg b)).
Proof.
  intros o l b W. pose proof W as (Wa & Wb & K & NB).
  refine (conj _ (conj _ (conj _ _))); intros L ->; (split; [cbn; auto|split; [rewrite node_kind by auto; cbn [kind_of]; auto|]]);
    try (split; auto; congruence);
    intros v E; destruct (node_inv _ _ _ _ W E) as [(t & x & y & K1 & K2 & E1 & E2 & R1 & R2 & E3) | (x & y & K1 & K2 & E1 & E2 & ->)];
    destruct L as [[t' ->]| ->]; cbn in *; try discriminate; injection E1 as <-; try injection E3 as <-.
  - rewrite E2. rewrite wrap_id; auto.
  - rewrite E2. rewrite (fl_add0 _ _ _ LAW). auto.
  - rewrite E2. replace (match y with 0 => 0 | Z.pos y' => Z.pos y' | Z.neg y' => Z.neg y' end) with y by (destruct y; auto).
    rewrite wrap_id; auto.
  - rewrite E2. rewrite (fl_mul1 _ _ _ LAW). auto.
  - rewrite wrap_id; auto.
  - rewrite (fl_mul0 _ _ _ LAW). auto.
  - rewrite E2. rewrite K2. cbn. auto.
  - rewrite E2. rewrite (fl_0sub _ _ _ LAW). auto.
Qed.
Lemma drop_right : forall o a l, wt2 a (ELit l) ->
  ((exists t, l = LInt t 0) \/ l = LFlt (fl0 FL) -> o = OAdd \/ o = OSub -> refines (node o a (ELit l)) a) /\
  ((exists t, l = LInt t 1) \/ l = LFlt (fl1 FL) -> o = OMul \/ o = ODiv -> refines (node o a (ELit l)) a) /\
  ((exists t, l = LInt t 0) \/ l = LFlt (fl0 FL) -> o = OMul -> refines (node o a (ELit l)) (ELit l)).
Proof.
  intros o a l W. pose proof W as (Wa & Wb & K & NB).
  refine (conj _ (conj _ _)); intros L O; (split; [cbn; auto|split; [rewrite node_kind by auto; cbn [kind_of] in *; auto|]]);
    intros v E; destruct (node_inv _ _ _ _ W E) as [(t & x & y & K1 & K2 & E1 & E2 & R1 & R2 & E3) | (x & y & K1 & K2 & E1 & E2 & ->)];
    destruct L as [[t' ->]| ->]; cbn in E2; try discriminate; injection E2 as <-.
  - destruct O as [->| ->]; cbn in E3; injection E3 as <-; rewrite E1; [rewrite Z.add_0_r|rewrite Z.sub_0_r]; rewrite wrap_id; auto.
  - destruct O as [->| ->]; cbn; rewrite E1; [rewrite (fl_0add _ _ _ LAW)|rewrite (fl_sub0 _ _ _ LAW)]; auto.
  - destruct O as [->| ->]; cbn in E3.
    + injection E3 as <-. rewrite E1, Z.mul_1_r, wrap_id; auto.
    + unfold c_div in E3. cbn in E3. rewrite Z.quot_1_r in E3.
      destruct (in_rangeb t x); [|discriminate]. cbn in E3. congruence.
  - destruct O as [->| ->]; cbn; rewrite E1; [rewrite (fl_1mul _ _ _ LAW)|rewrite (fl_div1 _ _ _ LAW)]; auto.
  - subst o. cbn in E3. rewrite Z.mul_0_r, wrap_id in E3 by apply range0. cbn. auto.
  - subst o. cbn. rewrite (fl_0mul _ _ _ LAW). auto.
Qed.

Lemma add_zero_ok : forall a b e', wt2 a b -> add_zero FL a b = Done e' -> refines (EAdd a b) e'.
Proof.
  intros a b e' W E. pose proof W as (Wa & Wb & K & NB). unfold add_zero in E.
  assert (R : forall e', match as_lit b with Some l => if is_scalar0 FL l then Done a else Done (EAdd a b) | None => Done (EAdd a b) end = Done e' -> refines (EAdd a b) e').
  { clear E e'. intros e' E. destruct (as_lit b) as [l|] eqn:L; [|injection E as <-; apply refines_refl; apply (node_wt OAdd); auto].
    destruct b; try discriminate. injection L as ->.
    destruct (is_scalar0 FL l) eqn:Z0; injection E as <-; [|apply refines_refl; apply (node_wt OAdd); auto].
    apply (proj1 (drop_right OAdd a l W)); auto. apply lit0; auto. cbn in K. congruence. }
  destruct (as_lit a) as [l|] eqn:L; [|apply R; auto].
  destruct a; try discriminate. injection L as ->.
  destruct (is_scalar0 FL l) eqn:Z0; [|apply R; auto]. injection E as <-.
  apply (proj1 (drop_left OAdd l b W)); auto. apply lit0; auto.
Qed.
Lemma sub_zero_ok : forall a b e', wt2 a b -> sub_zero FL a b = Done e' -> refines (ESub a b) e'.
Proof.
  intros a b e' W E. pose proof W as (Wa & Wb & K & NB). unfold sub_zero in E.
  assert (R : forall e', match as_lit b with Some l => if is_scalar0 FL l then Done a else Done (ESub a b) | None => Done (ESub a b) end = Done e' -> refines (ESub a b) e').
  { clear E e'. intros e' E. destruct (as_lit b) as [l|] eqn:L; [|injection E as <-; apply refines_refl; apply (node_wt OSub); auto].
    destruct b; try discriminate. injection L as ->.
    destruct (is_scalar0 FL l) eqn:Z0; injection E as <-; [|apply refines_refl; apply (node_wt OSub); auto].
    apply (proj1 (drop_right OSub a l W)); auto. apply lit0; auto. cbn in K. congruence. }
  destruct (as_lit a) as [l|] eqn:L; [|apply R; auto].
  destruct a; try discriminate. injection L as ->.
  destruct (is_scalar0 FL l) eqn:Z0; [|apply R; auto]. injection E as <-.
  apply (proj2 (proj2 (proj2 (drop_left OSub l b W)))); auto. apply lit0; auto.
Qed.
Lemma mul_one_ok : forall a b e', wt2 a b -> mul_one FL a b = Done e' -> refines (EMul a b) e'.
Proof.
  intros a b e' W E. pose proof W as (Wa & Wb & K & NB). unfold mul_one in E.
  assert (R : forall e', mul_one_right FL a b = Done e' -> refines (EMul a b) e').
  { clear E e'. intros e' E. unfold mul_one_right in E.
    destruct (as_lit b) as [l|] eqn:L; [|injection E as <-; apply refines_refl; apply (node_wt OMul); auto].
    destruct b; try discriminate. injection L as ->.
    destruct (is_scalar0 FL l) eqn:Z0; [injection E as <-|destruct (is_scalar1 FL l) eqn:Z1; injection E as <-; [|apply refines_refl; apply (node_wt OMul); auto]].
    - apply (proj2 (proj2 (drop_right OMul a l W))); auto. apply lit0; auto. cbn in K. congruence.
    - apply (proj1 (proj2 (drop_right OMul a l W))); auto. apply lit1; auto. cbn in K. congruence. }
  destruct (as_lit a) as [l|] eqn:L; [|apply R; auto].
  destruct a; try discriminate. injection L as ->.
  destruct (is_scalar0 FL l) eqn:Z0; [|destruct (is_scalar1 FL l) eqn:Z1; [|apply R; auto]]; injection E as <-.
  - apply (proj1 (proj2 (proj2 (drop_left OMul l b W)))); auto. apply lit0; auto.
  - apply (proj1 (proj2 (drop_left OMul l b W))); auto. apply lit1; auto.
Qed.
Lemma div_one_ok : forall a b e', wt2 a b -> div_one FL a b = Done e' -> refines (EDiv a b) e'.
Proof.
  intros a b e' W E. pose proof W as (Wa & Wb & K & NB). unfold div_one in E.
  destruct (as_lit b) as [l|] eqn:L; [|injection E as <-; apply refines_refl; apply (node_wt ODiv); auto].
  destruct b; try discriminate. injection L as ->.
  destruct (is_scalar1 FL l) eqn:Z1; injection E as <-; [|apply refines_refl; apply (node_wt ODiv); auto].
  apply (proj1 (proj2 (drop_right ODiv a l W))); auto. apply lit1; auto. cbn in K. congruence.
Qed.

Lemma fold_ok : forall o f ta tb x y, wt2 (ELit (LInt ta x)) (ELit (LInt tb y)) ->
  (forall t x y, int_op o (KInt t) x y = Some (wrap t (f x y))) ->
  refines (node o (ELit (LInt ta x)) (ELit (LInt tb y))) (fold_literals f ta tb x y).
Proof.
  intros o f ta tb x y W H. pose proof W as (Wa & Wb & K & NB). cbn in K. injection K as <-.
  unfold fold_literals. rewrite max_itype_same, !convert_same.
  split; [cbn; apply wrap_range|]. split; [rewrite node_kind; auto|].
  intros v E. rewrite node_eval, node_kind in E by auto. cbn in E. rewrite H in E. exact E.
Qed.

Section Rec.
Variable rec : expr F -> sres F.
Hypothesis REC : forall e e', wt e -> rec e = Done e' -> refines e e'.

Lemma add_rule_ok : forall a b e', wt2 a b -> add_rule FL rec a b = Done e' -> refines (EAdd a b) e'.
Proof.
  intros a b e' W E. pose proof W as (Wa & Wb & K & NB).
  assert (D : add_zero FL a b = Done e' -> refines (EAdd a b) e') by (apply add_zero_ok; auto).
  unfold add_rule in E.
  destruct a as [[ta x|fa|ba]|ka xa|a1|a1 a2|a1 a2|a1 a2|a1 a2|a1 a2|a1 a2|ka a1|ka oa a1|ka oa a1 a2]; try (apply D; exact E).
  - destruct b as [[tb y|fb|bb]|kb xb|b1|b1 b2|b1 b2|b1 b2|b1 b2|b1 b2|b1 b2|kb b1|kb ob b1|kb ob b1 b2]; try (apply D; exact E).
    injection E as <-. apply (fold_ok OAdd); auto.
  - destruct a2 as [[td d|fd|bd]|k2 x2|c1|c1 c2|c1 c2|c1 c2|c1 c2|c1 c2|c1 c2|k2 c1|k2 o2 c1|k2 o2 c1 c2]; try (apply D; exact E).
    destruct b as [[tb y|fb|bb]|kb xb|b1|b1 b2|b1 b2|b1 b2|b1 b2|b1 b2|b1 b2|kb b1|kb ob b1|kb ob b1 b2]; try (apply D; exact E).
    destruct (kind_eqb (kind_of a1) (KInt td) && itype_eqb td tb) eqn:C; [|apply D; exact E].
    apply andb_true_iff in C as [C1 C2]. apply kind_eqb_eq in C1. apply itype_eqb_eq in C2. subst tb.
    destruct Wa as (W1 & W2 & K12 & NB1).
    assert (W' : wt2 a1 (ELit (LInt td (wrap td (d + y))))) by (split; [auto|split; [cbn; apply wrap_range|split; [exact C1|exact NB1]]]).
    apply refines_trans with (2 := REC _ _ (proj2 (node_wt OAdd _ _) W') E).
    split; [apply (node_wt OAdd); auto|].
    split; [exact (eq_trans (node_kind OAdd _ _ W') (eq_sym (eq_trans (node_kind OAdd _ _ W) (node_kind OAdd _ _ (conj W1 (conj W2 (conj K12 NB1)))))))|].
    intros v Ev. destruct (node_inv OAdd _ _ _ W Ev) as [(t & x & y' & K1 & K2 & E1 & E2 & R1 & R2 & E3) | (x & y' & K1 & K2 & _)]; [|discriminate K2].
    cbn in E2. injection E2 as <-. cbn in K2. injection K2 as <-.
    destruct (node_inv OAdd _ _ _ (conj W1 (conj W2 (conj K12 NB1))) E1) as [(t & x' & d' & K1' & K2' & E1' & E2' & R1' & R2' & E3') | (x' & d' & K1' & K2' & _)]; [|discriminate K2'].
    cbn in E2'. injection E2' as <-. cbn in E3', E3. cbn in K2'. injection K2' as <-. injection E3' as <-. injection E3 as <-.
    change (EAdd a1 (ELit (LInt td (wrap td (d + y))))) with (node OAdd a1 (ELit (LInt td (wrap td (d + y))))).
    rewrite node_eval, node_kind by auto. rewrite E1', K1'. cbn. rewrite assoc_add. auto.
  - destruct a2 as [[td d|fd|bd]|k2 x2|c1|c1 c2|c1 c2|c1 c2|c1 c2|c1 c2|c1 c2|k2 c1|k2 o2 c1|k2 o2 c1 c2]; try (apply D; exact E).
    destruct b as [[tb y|fb|bb]|kb xb|b1|b1 b2|b1 b2|b1 b2|b1 b2|b1 b2|b1 b2|kb b1|kb ob b1|kb ob b1 b2]; try (apply D; exact E).
    destruct (kind_eqb (kind_of a1) (KInt td) && itype_eqb td tb) eqn:C; [|apply D; exact E].
    apply andb_true_iff in C as [C1 C2]. apply kind_eqb_eq in C1. apply itype_eqb_eq in C2. subst tb.
    destruct Wa as (W1 & W2 & K12 & NB1).
    assert (W' : wt2 a1 (ELit (LInt td (wrap td (y - d))))) by (split; [auto|split; [cbn; apply wrap_range|split; [exact C1|exact NB1]]]).
    apply refines_trans with (2 := REC _ _ (proj2 (node_wt OAdd _ _) W') E).
    split; [apply (node_wt OAdd); auto|].
    split; [exact (eq_trans (node_kind OAdd _ _ W') (eq_sym (eq_trans (node_kind OAdd _ _ W) (node_kind OSub _ _ (conj W1 (conj W2 (conj K12 NB1)))))))|].
    intros v Ev. destruct (node_inv OAdd _ _ _ W Ev) as [(t & x & y' & K1 & K2 & E1 & E2 & R1 & R2 & E3) | (x & y' & K1 & K2 & _)]; [|discriminate K2].
    cbn in E2. injection E2 as <-. cbn in K2. injection K2 as <-.
    destruct (node_inv OSub _ _ _ (conj W1 (conj W2 (conj K12 NB1))) E1) as [(t & x' & d' & K1' & K2' & E1' & E2' & R1' & R2' & E3') | (x' & d' & K1' & K2' & _)]; [|discriminate K2'].
    cbn in E2'. injection E2' as <-. cbn in E3', E3. cbn in K2'. injection K2' as <-. injection E3' as <-. injection E3 as <-.
    change (EAdd a1 (ELit (LInt td (wrap td (y - d))))) with (node OAdd a1 (ELit (LInt td (wrap td (y - d))))).
    rewrite node_eval, node_kind by auto. rewrite E1', K1'. cbn. rewrite assoc_sub. auto.
Qed.
Lemma mul_rule_ok : forall a b e', wt2 a b -> mul_rule FL rec a b = Done e' -> refines (EMul a b) e'.
Proof.
  intros a b e' W E. pose proof W as (Wa & Wb & K & NB).
  assert (D : mul_one FL a b = Done e' -> refines (EMul a b) e') by (apply mul_one_ok; auto).
  unfold mul_rule in E.
  destruct a as [[ta x|fa|ba]|ka xa|a1|a1 a2|a1 a2|a1 a2|a1 a2|a1 a2|a1 a2|ka a1|ka oa a1|ka oa a1 a2]; try (apply D; exact E).
  - destruct b as [[tb y|fb|bb]|kb xb|b1|b1 b2|b1 b2|b1 b2|b1 b2|b1 b2|b1 b2|kb b1|kb ob b1|kb ob b1 b2]; try (apply D; exact E).
    injection E as <-. apply (fold_ok OMul); auto.
  - destruct a2 as [[td d|fd|bd]|k2 x2|c1|c1 c2|c1 c2|c1 c2|c1 c2|c1 c2|c1 c2|k2 c1|k2 o2 c1|k2 o2 c1 c2]; try (apply D; exact E).
    destruct b as [[tb y|fb|bb]|kb xb|b1|b1 b2|b1 b2|b1 b2|b1 b2|b1 b2|b1 b2|kb b1|kb ob b1|kb ob b1 b2]; try (apply D; exact E).
    destruct (kind_eqb (kind_of a1) (KInt td) && itype_eqb td tb) eqn:C; [|apply D; exact E].
    apply andb_true_iff in C as [C1 C2]. apply kind_eqb_eq in C1. apply itype_eqb_eq in C2. subst tb.
    destruct Wa as (W1 & W2 & K12 & NB1).
    assert (W' : wt2 a1 (ELit (LInt td (wrap td (d * y))))) by (split; [auto|split; [cbn; apply wrap_range|split; [exact C1|exact NB1]]]).
    apply refines_trans with (2 := REC _ _ (proj2 (node_wt OMul _ _) W') E).
    split; [apply (node_wt OMul); auto|].
    split; [exact (eq_trans (node_kind OMul _ _ W') (eq_sym (eq_trans (node_kind OMul _ _ W) (node_kind OMul _ _ (conj W1 (conj W2 (conj K12 NB1)))))))|].
    intros v Ev. destruct (node_inv OMul _ _ _ W Ev) as [(t & x & y' & K1 & K2 & E1 & E2 & R1 & R2 & E3) | (x & y' & K1 & K2 & _)]; [|discriminate K2].
    cbn in E2. injection E2 as <-. cbn in K2. injection K2 as <-.
    destruct (node_inv OMul _ _ _ (conj W1 (conj W2 (conj K12 NB1))) E1) as [(t & x' & d' & K1' & K2' & E1' & E2' & R1' & R2' & E3') | (x' & d' & K1' & K2' & _)]; [|discriminate K2'].
    cbn in E2'. injection E2' as <-. cbn in E3', E3. cbn in K2'. injection K2' as <-. injection E3' as <-. injection E3 as <-.
    change (EMul a1 (ELit (LInt td (wrap td (d * y))))) with (node OMul a1 (ELit (LInt td (wrap td (d * y))))).
    rewrite node_eval, node_kind by auto. rewrite E1', K1'. cbn. rewrite assoc_mul. auto.
Qed.
End Rec.

Lemma sub_rule_ok : forall a b e', wt2 a b -> sub_rule FL a b = Done e' -> refines (ESub a b) e'.
Proof.
  intros a b e' W E.
  assert (D : sub_zero FL a b = Done e' -> refines (ESub a b) e') by (apply sub_zero_ok; auto).
  unfold sub_rule in E.
  destruct a as [[ta x|fa|ba]|ka xa|a1|a1 a2|a1 a2|a1 a2|a1 a2|a1 a2|a1 a2|ka a1|ka oa a1|ka oa a1 a2]; try (apply D; exact E).
  destruct b as [[tb y|fb|bb]|kb xb|b1|b1 b2|b1 b2|b1 b2|b1 b2|b1 b2|b1 b2|kb b1|kb ob b1|kb ob b1 b2]; try (apply D; exact E).
  injection E as <-. apply (fold_ok OSub); auto.
Qed.
Lemma div_rule_ok : forall a b e', wt2 a b -> div_rule FL a b = Done e' -> refines (EDiv a b) e'.
Proof.
  intros a b e' W E.
  assert (D : div_one FL a b = Done e' -> refines (EDiv a b) e') by (apply div_one_ok; auto).
  unfold div_rule in E.
  destruct a as [[ta x|fa|ba]|ka xa|a1|a1 a2|a1 a2|a1 a2|a1 a2|a1 a2|a1 a2|ka a1|ka oa a1|ka oa a1 a2]; try (apply D; exact E).
  destruct b as [[tb y|fb|bb]|kb xb|b1|b1 b2|b1 b2|b1 b2|b1 b2|b1 b2|b1 b2|kb b1|kb ob b1|kb ob b1 b2]; try (apply D; exact E).
  destruct (itype_eqb ta tb) eqn:T; [|apply D; exact E]. apply itype_eqb_eq in T. subst tb.
  destruct (y =? 0) eqn:Y; [discriminate|]. destruct (signed ta && _) eqn:Q; [discriminate|]. cbn in E. injection E as <-.
  split; [cbn; apply wrap_range|]. split; [symmetry; exact (node_kind ODiv _ _ W)|].
  intros v Ev. destruct (node_inv ODiv _ _ _ W Ev) as [(t & x' & y' & K1 & K2 & E1 & E2 & R1 & R2 & E3) | (x' & y' & K1 & _)]; [|discriminate K1].
  cbn in E1, E2, K1. injection E1 as <-. injection E2 as <-. injection K1 as <-. cbn in E3. unfold c_div in E3. rewrite Y in E3.
  destruct (in_rangeb ta (Z.quot x y)) eqn:R; [|discriminate]. cbn in *. rewrite wrap_id; auto. apply in_rangeb_ok; auto.
Qed.

Lemma eval_bool : forall e v, wt e -> kind_of e = KBool -> ev e = Some v -> exists b, v = VBool b.
Proof. intros e v W K E. pose proof (eval_kind _ _ W E) as H. rewrite K in H. destruct v; cbn in H; try contradiction. eauto. Qed.

Lemma or_cong : forall a b a' b', wt (EOr a b) -> refines a a' -> refines b b' -> refines (EOr a b) (EOr a' b').
Proof.
  intros a b a' b' (Wa & Wb & Ka & Kb) (Wa' & Ka' & Ea) (Wb' & Kb' & Eb).
  split; [cbn; repeat split; auto; congruence|]. split; [auto|]. intros v. cbn.
  destruct (ev a) as [va|]; [|discriminate]. rewrite (Ea _ eq_refl). destruct va as [| |[|]]; auto.
  destruct (ev b) as [vb|]; [|discriminate]. rewrite (Eb _ eq_refl). auto.
Qed.
Lemma and_cong : forall a b a' b', wt (EAnd a b) -> refines a a' -> refines b b' -> refines (EAnd a b) (EAnd a' b').
Proof.
  intros a b a' b' (Wa & Wb & Ka & Kb) (Wa' & Ka' & Ea) (Wb' & Kb' & Eb).
  split; [cbn; repeat split; auto; congruence|]. split; [auto|]. intros v. cbn.
  destruct (ev a) as [va|]; [|discriminate]. rewrite (Ea _ eq_refl). destruct va as [| |[|]]; auto.
  destruct (ev b) as [vb|]; [|discriminate]. rewrite (Eb _ eq_refl). auto.
Qed.
Lemma or_rule_ok : forall a b e', wt (EOr a b) -> or_rule a b = Done e' -> refines (EOr a b) e'.
Proof.
  intros a b e' W E. pose proof W as (Wa & Wb & Ka & Kb).
  assert (D : Done (EOr a b) = Done e' -> refines (EOr a b) e') by (intro H; injection H as <-; apply refines_refl; auto).
  assert (R : match b with ELit (LBool y) => if y then Done b else Done a | ELit _ => Crash | _ => Done (EOr a b) end = Done e' -> refines (EOr a b) e').
  { intro H. destruct b as [[tb y|fb|bb]|kb xb|b1|b1 b2|b1 b2|b1 b2|b1 b2|b1 b2|b1 b2|kb b1|kb ob b1|kb ob b1 b2]; try discriminate; try (apply D; exact H).
    destruct bb; injection H as <-; (split; [auto|split; [auto|]]); intros v; cbn;
      (destruct (ev a) as [va|] eqn:Ea; [|discriminate]; destruct (eval_bool _ _ Wa Ka Ea) as [[|] ->]; auto). }
  unfold or_rule in E.
  destruct a as [[ta x|fa|ba]|ka xa|a1|a1 a2|a1 a2|a1 a2|a1 a2|a1 a2|a1 a2|ka a1|ka oa a1|ka oa a1 a2]; try discriminate; try (apply R; exact E).
  destruct ba; injection E as <-; (split; [auto|split; [auto|]]); intros v; cbn; auto.
  destruct (ev b) as [vb|] eqn:Eb; [|discriminate]; destruct (eval_bool _ _ Wb Kb Eb) as [bb ->]; auto.
Qed.
Lemma and_rule_ok : forall a b e', wt (EAnd a b) -> and_rule a b = Done e' -> refines (EAnd a b) e'.
Proof.
  intros a b e' W E. pose proof W as (Wa & Wb & Ka & Kb).
  assert (D : Done (EAnd a b) = Done e' -> refines (EAnd a b) e') by (intro H; injection H as <-; apply refines_refl; auto).
  assert (R : match b with ELit (LBool y) => if y then Done a else Done b | ELit _ => Crash | _ => Done (EAnd a b) end = Done e' -> refines (EAnd a b) e').
  { intro H. destruct b as [[tb y|fb|bb]|kb xb|b1|b1 b2|b1 b2|b1 b2|b1 b2|b1 b2|b1 b2|kb b1|kb ob b1|kb ob b1 b2]; try discriminate; try (apply D; exact H).
    destruct bb; injection H as <-; (split; [auto|split; [auto|]]); intros v; cbn;
      (destruct (ev a) as [va|] eqn:Ea; [|discriminate]; destruct (eval_bool _ _ Wa Ka Ea) as [[|] ->]; auto). }
  unfold and_rule in E.
  destruct a as [[ta x|fa|ba]|ka xa|a1|a1 a2|a1 a2|a1 a2|a1 a2|a1 a2|a1 a2|ka a1|ka oa a1|ka oa a1 a2]; try discriminate; try (apply R; exact E).
  destruct ba; injection E as <-; (split; [auto|split; [auto|]]); intros v; cbn; auto.
  destruct (ev b) as [vb|] eqn:Eb; [|discriminate]; destruct (eval_bool _ _ Wb Kb Eb) as [bb ->]; auto.
Qed.
Lemma cast_cong : forall k a a', wt a -> refines a a' -> refines (ECast k a) (ECast k a').
Proof.
  intros k a a' W (Wa & Ka & Ea). split; [auto|]. split; [auto|]. intros v. cbn.
  destruct (ev a) as [va|]; [|discriminate]. rewrite (Ea _ eq_refl). auto.
Qed.
Lemma cast_rule_ok : forall k a e', wt a -> cast_rule FL k a = Done e' -> refines (ECast k a) e'.
Proof.
  intros k a e' W E. unfold cast_rule in E.
  assert (D : Done (ECast k a) = Done e' -> refines (ECast k a) e') by (intro H; injection H as <-; apply refines_refl; auto).
  destruct a as [[ta x|fa|ba]|ka xa|a1|a1 a2|a1 a2|a1 a2|a1 a2|a1 a2|a1 a2|ka a1|ka oa a1|ka oa a1 a2]; try (apply D; exact E).
  injection E as <-. split; [destruct k, ba; cbn; auto using range0, range1|]. split; [destruct k; auto|].
  intros v. cbn. intro E. rewrite (to_cast_bool _ _ _ _ _ TO _ _ _ E). destruct k; auto.
Qed.

Lemma simp_ok : forall n e e', wt e -> simp FL n e = Done e' -> refines e e'.
Proof.
  induction n as [|n IH]; intros e e' W E; [discriminate|].
  destruct e as [l|k x|a|a b|a b|a b|a b|a b|a b|k a|k o a|k o a b]; cbn [simp] in E;
    try (injection E as <-; apply refines_refl; auto);
    (destruct (simp FL n a) as [a'| |] eqn:Ea; cbn [sbind] in E; try discriminate);
    try (destruct (simp FL n b) as [b'| |] eqn:Eb; cbn [sbind] in E; try discriminate).
  - injection E as <-. destruct W as [Wa NB]. destruct (IH _ _ Wa Ea) as (Wa' & Ka & Va).
    split; [cbn; split; auto; congruence|]. split; [cbn; auto|]. intros v. cbn. rewrite Ka.
    destruct (ev a) as [va|]; [|discriminate]. rewrite (Va _ eq_refl). auto.
  - pose proof W as (Wa & Wb & K & NB). pose proof (IH _ _ Wa Ea) as Ra. pose proof (IH _ _ Wb Eb) as Rb.
    pose proof (node_cong OAdd _ _ _ _ W Ra Rb) as R. apply refines_trans with (1 := R).
    apply (add_rule_ok (simp FL n)); auto. apply (node_wt OAdd). apply R.
  - pose proof W as (Wa & Wb & K & NB). pose proof (IH _ _ Wa Ea) as Ra. pose proof (IH _ _ Wb Eb) as Rb.
    pose proof (node_cong OSub _ _ _ _ W Ra Rb) as R. apply refines_trans with (1 := R).
    apply sub_rule_ok; auto. apply (node_wt OSub). apply R.
  - pose proof W as (Wa & Wb & K & NB). pose proof (IH _ _ Wa Ea) as Ra. pose proof (IH _ _ Wb Eb) as Rb.
    pose proof (node_cong OMul _ _ _ _ W Ra Rb) as R. apply refines_trans with (1 := R).
    apply (mul_rule_ok (simp FL n)); auto. apply (node_wt OMul). apply R.
  - pose proof W as (Wa & Wb & K & NB). pose proof (IH _ _ Wa Ea) as Ra. pose proof (IH _ _ Wb Eb) as Rb.
    pose proof (node_cong ODiv _ _ _ _ W Ra Rb) as R. apply refines_trans with (1 := R).
    apply div_rule_ok; auto. apply (node_wt ODiv). apply R.
  - pose proof W as (Wa & Wb & K & NB). pose proof (or_cong _ _ _ _ W (IH _ _ Wa Ea) (IH _ _ Wb Eb)) as R.
    apply refines_trans with (1 := R). apply or_rule_ok; auto. apply R.
  - pose proof W as (Wa & Wb & K & NB). pose proof (and_cong _ _ _ _ W (IH _ _ Wa Ea) (IH _ _ Wb Eb)) as R.
    apply refines_trans with (1 := R). apply and_rule_ok; auto. apply R.
  - change (wt a) in W. pose proof (cast_cong k _ _ W (IH _ _ W Ea)) as R. apply refines_trans with (1 := R). apply cast_rule_ok; auto. apply R.
  - injection E as <-. change (wt a) in W. destruct (IH _ _ W Ea) as (Wa' & Ka & Va). split; [auto|]. split; [auto|]. intros v. cbn.
    destruct (ev a) as [va|]; [|discriminate]. rewrite (Va _ eq_refl). auto.
  - injection E as <-. destruct W as [Wa Wb]. destruct (IH _ _ Wa Ea) as (Wa' & Ka & Va). destruct (IH _ _ Wb Eb) as (Wb' & Kb & Vb).
    split; [cbn; auto|]. split; [auto|]. intros v. cbn. unfold bind2.
    destruct (ev a) as [va|]; [|discriminate]. rewrite (Va _ eq_refl).
    destruct (ev b) as [vb|]; [|discriminate]. rewrite (Vb _ eq_refl). auto.
Qed.
End Proofs.

(** ** Termination and size *)
Section Term.
Variable F : Type.
Variable FL : flits F.
Local Open Scope nat_scope.

Lemma size_pos : forall e : expr F, 0 < size e.
Proof. destruct e; cbn; lia. Qed.
Lemma literal_size : forall (e : expr F) l, as_lit e = Some l -> size e = 1.
Proof. destruct e; cbn; intros; congruence. Qed.

(** With enough fuel the simplifier does not run out, and the result is no larger. *)
Lemma simp_fuel : forall n (e : expr F), size e <= n ->
  simp FL n e <> OutOfFuel /\ forall e', simp FL n e = Done e' -> size e' <= size e.
Proof.
  induction n as [|n IH]; intros e L; [pose proof (size_pos e); lia|].
  assert (SZ : forall (a b x : expr F) (k : nat), x = a \/ x = b \/ (exists l, x = ELit l) -> size x <= S (size a + size b)).
  { intros a b x k [->|[->|[l ->]]]; cbn; lia. }
  destruct e as [l|k x|a|a b|a b|a b|a b|a b|a b|k a|k o a|k o a b]; cbn [simp]; cbn [size] in *;
    try (split; [discriminate|intros e' E; injection E as <-; cbn; lia]);
    (destruct (IH a ltac:(lia)) as [Na Sa]; destruct (simp FL n a) as [a'| |] eqn:Ea; cbn [sbind]; try congruence; [specialize (Sa _ eq_refl)|split; discriminate]);
    try (destruct (IH b ltac:(lia)) as [Nb Sb]; destruct (simp FL n b) as [b'| |] eqn:Eb; cbn [sbind]; try congruence; [specialize (Sb _ eq_refl)|split; discriminate]).
  - split; [discriminate|intros e' E; injection E as <-; cbn; lia].
  - assert (Z : add_zero FL a' b' <> OutOfFuel /\ forall e', add_zero FL a' b' = Done e' -> size e' <= S (size a + size b)).
    { unfold add_zero. destruct (as_lit a'), (as_lit b'); repeat (destruct (is_scalar0 _ _)); split; try discriminate;
        intros e' E; injection E as <-; cbn; lia. }
    unfold add_rule.
    destruct a' as [[ta x|fa|ba]|ka xa|a1|a1 a2|a1 a2|a1 a2|a1 a2|a1 a2|a1 a2|ka a1|ka oa a1|ka oa a1 a2]; try exact Z.
    + destruct b' as [[tb y|fb|bb]|kb xb|b1|b1 b2|b1 b2|b1 b2|b1 b2|b1 b2|b1 b2|kb b1|kb ob b1|kb ob b1 b2]; try exact Z.
      unfold fold_literals. split; [discriminate|intros e' E; injection E as <-; cbn; lia].
    + destruct a2 as [[td d|fd|bd]|k2 x2|c1|c1 c2|c1 c2|c1 c2|c1 c2|c1 c2|c1 c2|k2 c1|k2 o2 c1|k2 o2 c1 c2]; try exact Z.
      destruct b' as [[tb y|fb|bb]|kb xb|b1|b1 b2|b1 b2|b1 b2|b1 b2|b1 b2|b1 b2|kb b1|kb ob b1|kb ob b1 b2]; try exact Z.
      destruct (_ && _); [|exact Z]. cbn [size] in *.
      destruct (IH (EAdd a1 (ELit (LInt tb (wrap tb (d + y))))) ltac:(cbn [size]; lia)) as [N' S']. split; auto.
      intros e' E. specialize (S' _ E). cbn [size] in S'. lia.
    + destruct a2 as [[td d|fd|bd]|k2 x2|c1|c1 c2|c1 c2|c1 c2|c1 c2|c1 c2|c1 c2|k2 c1|k2 o2 c1|k2 o2 c1 c2]; try exact Z.
      destruct b' as [[tb y|fb|bb]|kb xb|b1|b1 b2|b1 b2|b1 b2|b1 b2|b1 b2|b1 b2|kb b1|kb ob b1|kb ob b1 b2]; try exact Z.
      destruct (_ && _); [|exact Z]. cbn [size] in *.
      destruct (IH (EAdd a1 (ELit (LInt tb (wrap tb (y - d))))) ltac:(cbn [size]; lia)) as [N' S']. split; auto.
      intros e' E. specialize (S' _ E). cbn [size] in S'. lia.
  - assert (Z : sub_zero FL a' b' <> OutOfFuel /\ forall e', sub_zero FL a' b' = Done e' -> size e' <= S (size a + size b)).
    { unfold sub_zero. destruct (as_lit a') eqn:La, (as_lit b'); repeat (destruct (is_scalar0 _ _)); split; try discriminate;
        intros e' E; injection E as <-; cbn; lia. }
    unfold sub_rule.
    destruct a' as [[ta x|fa|ba]|ka xa|a1|a1 a2|a1 a2|a1 a2|a1 a2|a1 a2|a1 a2|ka a1|ka oa a1|ka oa a1 a2]; try exact Z.
    destruct b' as [[tb y|fb|bb]|kb xb|b1|b1 b2|b1 b2|b1 b2|b1 b2|b1 b2|b1 b2|kb b1|kb ob b1|kb ob b1 b2]; try exact Z.
    unfold fold_literals. split; [discriminate|intros e' E; injection E as <-; cbn; lia].
  - assert (Z : mul_one FL a' b' <> OutOfFuel /\ forall e', mul_one FL a' b' = Done e' -> size e' <= S (size a + size b)).
    { unfold mul_one, mul_one_right. destruct (as_lit a') eqn:La, (as_lit b'); repeat (destruct (is_scalar0 _ _)); repeat (destruct (is_scalar1 _ _));
        split; try discriminate; intros e' E; injection E as <-; cbn; lia. }
    unfold mul_rule.
    destruct a' as [[ta x|fa|ba]|ka xa|a1|a1 a2|a1 a2|a1 a2|a1 a2|a1 a2|a1 a2|ka a1|ka oa a1|ka oa a1 a2]; try exact Z.
    + destruct b' as [[tb y|fb|bb]|kb xb|b1|b1 b2|b1 b2|b1 b2|b1 b2|b1 b2|b1 b2|kb b1|kb ob b1|kb ob b1 b2]; try exact Z.
      unfold fold_literals. split; [discriminate|intros e' E; injection E as <-; cbn; lia].
    + destruct a2 as [[td d|fd|bd]|k2 x2|c1|c1 c2|c1 c2|c1 c2|c1 c2|c1 c2|c1 c2|k2 c1|k2 o2 c1|k2 o2 c1 c2]; try exact Z.
      destruct b' as [[tb y|fb|bb]|kb xb|b1|b1 b2|b1 b2|b1 b2|b1 b2|b1 b2|b1 b2|kb b1|kb ob b1|kb ob b1 b2]; try exact Z.
      destruct (_ && _); [|exact Z]. cbn [size] in *.
      destruct (IH (EMul a1 (ELit (LInt tb (wrap tb (d * y))))) ltac:(cbn [size]; lia)) as [N' S']. split; auto.
      intros e' E. specialize (S' _ E). cbn [size] in S'. lia.
  - assert (Z : div_one FL a' b' <> OutOfFuel /\ forall e', div_one FL a' b' = Done e' -> size e' <= S (size a + size b)).
    { unfold div_one. destruct (as_lit b'); repeat (destruct (is_scalar1 _ _)); split; try discriminate;
        intros e' E; injection E as <-; cbn; lia. }
    unfold div_rule.
    destruct a' as [[ta x|fa|ba]|ka xa|a1|a1 a2|a1 a2|a1 a2|a1 a2|a1 a2|a1 a2|ka a1|ka oa a1|ka oa a1 a2]; try exact Z.
    destruct b' as [[tb y|fb|bb]|kb xb|b1|b1 b2|b1 b2|b1 b2|b1 b2|b1 b2|b1 b2|kb b1|kb ob b1|kb ob b1 b2]; try exact Z.
    destruct (itype_eqb _ _); [|exact Z]. destruct (_ || _); split; try discriminate. intros e' E; injection E as <-; cbn; lia.
  - unfold or_rule.
    destruct a' as [[ta x|fa|[|]]|ka xa|a1|a1 a2|a1 a2|a1 a2|a1 a2|a1 a2|a1 a2|ka a1|ka oa a1|ka oa a1 a2];
    try (split; [discriminate|intros e' E; first [discriminate E|injection E as <-; cbn in *; lia]]);
    destruct b' as [[tb y|fb|[|]]|kb xb|b1|b1 b2|b1 b2|b1 b2|b1 b2|b1 b2|b1 b2|kb b1|kb ob b1|kb ob b1 b2];
    (split; [discriminate|intros e' E; first [discriminate E|injection E as <-; cbn in *; lia]]).
  - unfold and_rule.
    destruct a' as [[ta x|fa|[|]]|ka xa|a1|a1 a2|a1 a2|a1 a2|a1 a2|a1 a2|a1 a2|ka a1|ka oa a1|ka oa a1 a2];
    try (split; [discriminate|intros e' E; first [discriminate E|injection E as <-; cbn in *; lia]]);
    destruct b' as [[tb y|fb|[|]]|kb xb|b1|b1 b2|b1 b2|b1 b2|b1 b2|b1 b2|b1 b2|kb b1|kb ob b1|kb ob b1 b2];
    (split; [discriminate|intros e' E; first [discriminate E|injection E as <-; cbn in *; lia]]).
  - unfold cast_rule. destruct a' as [[ta x|fa|ba]|ka xa|a1|a1 a2|a1 a2|a1 a2|a1 a2|a1 a2|a1 a2|ka a1|ka oa a1|ka oa a1 a2];
      (split; [discriminate|intros e' E; injection E as <-; cbn in *; lia]).
  - split; [discriminate|intros e' E; injection E as <-; cbn; lia].
  - split; [discriminate|intros e' E; injection E as <-; cbn; lia].
Qed.
End Term.

(** ** Crashes only come from divisions *)
Section Crash.
Variable F : Type.
Variable FL : flits F.
Variable FO : fops F.
Variable env : nat -> value F.
Variable op1 : kind -> nat -> value F -> option (value F).
Variable op2 : kind -> nat -> value F -> value F -> option (value F).
Variable cast : kind -> value F -> option (value F).
Hypothesis TO : typed_operations op1 op2 cast FL.
Hypothesis LAW : float_laws FO FL.

Lemma simp_no_crash : forall n (e : expr F), no_division e -> well_typed env e ->
  simp FL n e <> Crash /\ forall e', simp FL n e = Done e' -> no_division e'.
Proof.
  induction n as [|n IH]; intros e D W; [split; discriminate|].
  assert (WT : forall a a', well_typed env a -> simp FL n a = Done a' -> well_typed env a' /\ kind_of a' = kind_of a).
  { intros a a' Wa Ea. destruct (simp_ok F FL FO env op1 op2 cast TO LAW n a a' Wa Ea) as (A & B & _). auto. }
  destruct e as [l|k x|a|a b|a b|a b|a b|a b|a b|k a|k o a|k o a b]; cbn [simp]; cbn [no_division] in D; cbn [well_typed] in W;
    try (split; [discriminate|intros e' E; injection E as <-; exact I]); try contradiction;
    (let Da := match type of D with _ /\ _ => constr:(proj1 D) | _ => constr:(D) end in
     let Wa := match type of W with _ /\ _ => constr:(proj1 W) | _ => constr:(W) end in
     destruct (IH a Da Wa) as [Na Sa]; pose proof (fun a' => WT a a' Wa) as Ta);
    (destruct (simp FL n a) as [a'| |] eqn:Ea; cbn [sbind]; try congruence; [specialize (Sa _ eq_refl); specialize (Ta _ eq_refl)|split; discriminate]).
  1: { split; [discriminate|intros e' E; injection E as <-; exact Sa]. }
  6: { unfold cast_rule. destruct a' as [[ta x|fa|ba]|ka xa|a1|a1 a2|a1 a2|a1 a2|a1 a2|a1 a2|a1 a2|ka a1|ka oa a1|ka oa a1 a2];
      (split; [discriminate|intros e' E; injection E as <-; exact Sa || exact I]). }
  6: { split; [discriminate|intros e' E; injection E as <-; exact Sa]. }
  all: match type of W with _ /\ _ /\ _ => pose proof (proj1 (proj2 W)) as Wb | _ => pose proof (proj2 W) as Wb end;
    destruct (IH b (proj2 D) Wb) as [Nb Sb]; pose proof (fun b' => WT b b' Wb) as Tb;
    (destruct (simp FL n b) as [b'| |] eqn:Eb; cbn [sbind]; try congruence; [specialize (Sb _ eq_refl); specialize (Tb _ eq_refl)|split; discriminate]).
  - assert (Z : add_zero FL a' b' <> Crash /\ forall e', add_zero FL a' b' = Done e' -> no_division e').
    { unfold add_zero. destruct (as_lit a'), (as_lit b'); repeat (destruct (is_scalar0 _ _)); split; try discriminate;
        intros e' E; injection E as <-; cbn; auto. }
    unfold add_rule. destruct Ta as [Ta Ka], Tb as [Tb Kb].
    destruct a' as [[ta x|fa|ba]|ka xa|a1|a1 a2|a1 a2|a1 a2|a1 a2|a1 a2|a1 a2|ka a1|ka oa a1|ka oa a1 a2]; try exact Z.
    + destruct b' as [[tb y|fb|bb]|kb xb|b1|b1 b2|b1 b2|b1 b2|b1 b2|b1 b2|b1 b2|kb b1|kb ob b1|kb ob b1 b2]; try exact Z.
      split; [discriminate|intros e' E; injection E as <-; exact I].
    + destruct a2 as [[td d|fd|bd]|k2 x2|c1|c1 c2|c1 c2|c1 c2|c1 c2|c1 c2|c1 c2|k2 c1|k2 o2 c1|k2 o2 c1 c2]; try exact Z.
      destruct b' as [[tb y|fb|bb]|kb xb|b1|b1 b2|b1 b2|b1 b2|b1 b2|b1 b2|b1 b2|kb b1|kb ob b1|kb ob b1 b2]; try exact Z.
      destruct (_ && _) eqn:C; [|exact Z]. apply andb_true_iff in C as [C1 C2]. apply kind_eqb_eq in C1. apply itype_eqb_eq in C2. subst tb.
      apply IH; cbn in *; [tauto|]. split; [tauto|]. split; [apply wrap_range|]. split; [auto|]. tauto.
    + destruct a2 as [[td d|fd|bd]|k2 x2|c1|c1 c2|c1 c2|c1 c2|c1 c2|c1 c2|c1 c2|k2 c1|k2 o2 c1|k2 o2 c1 c2]; try exact Z.
      destruct b' as [[tb y|fb|bb]|kb xb|b1|b1 b2|b1 b2|b1 b2|b1 b2|b1 b2|b1 b2|kb b1|kb ob b1|kb ob b1 b2]; try exact Z.
      destruct (_ && _) eqn:C; [|exact Z]. apply andb_true_iff in C as [C1 C2]. apply kind_eqb_eq in C1. apply itype_eqb_eq in C2. subst tb.
      apply IH; cbn in *; [tauto|]. split; [tauto|]. split; [apply wrap_range|]. split; [auto|]. tauto.
  - assert (Z : sub_zero FL a' b' <> Crash /\ forall e', sub_zero FL a' b' = Done e' -> no_division e').
    { unfold sub_zero. destruct (as_lit a'), (as_lit b'); repeat (destruct (is_scalar0 _ _)); split; try discriminate;
        intros e' E; injection E as <-; cbn; auto. }
    unfold sub_rule.
    destruct a' as [[ta x|fa|ba]|ka xa|a1|a1 a2|a1 a2|a1 a2|a1 a2|a1 a2|a1 a2|ka a1|ka oa a1|ka oa a1 a2]; try exact Z.
    destruct b' as [[tb y|fb|bb]|kb xb|b1|b1 b2|b1 b2|b1 b2|b1 b2|b1 b2|b1 b2|kb b1|kb ob b1|kb ob b1 b2]; try exact Z.
    split; [discriminate|intros e' E; injection E as <-; exact I].
  - assert (Z : mul_one FL a' b' <> Crash /\ forall e', mul_one FL a' b' = Done e' -> no_division e').
    { unfold mul_one, mul_one_right. destruct (as_lit a'), (as_lit b'); repeat (destruct (is_scalar0 _ _)); repeat (destruct (is_scalar1 _ _));
        split; try discriminate; intros e' E; injection E as <-; cbn; auto. }
    unfold mul_rule. destruct Ta as [Ta Ka], Tb as [Tb Kb].
    destruct a' as [[ta x|fa|ba]|ka xa|a1|a1 a2|a1 a2|a1 a2|a1 a2|a1 a2|a1 a2|ka a1|ka oa a1|ka oa a1 a2]; try exact Z.
    + destruct b' as [[tb y|fb|bb]|kb xb|b1|b1 b2|b1 b2|b1 b2|b1 b2|b1 b2|b1 b2|kb b1|kb ob b1|kb ob b1 b2]; try exact Z.
      split; [discriminate|intros e' E; injection E as <-; exact I].
    + destruct a2 as [[td d|fd|bd]|k2 x2|c1|c1 c2|c1 c2|c1 c2|c1 c2|c1 c2|c1 c2|k2 c1|k2 o2 c1|k2 o2 c1 c2]; try exact Z.
      destruct b' as [[tb y|fb|bb]|kb xb|b1|b1 b2|b1 b2|b1 b2|b1 b2|b1 b2|b1 b2|kb b1|kb ob b1|kb ob b1 b2]; try exact Z.
      destruct (_ && _) eqn:C; [|exact Z]. apply andb_true_iff in C as [C1 C2]. apply kind_eqb_eq in C1. apply itype_eqb_eq in C2. subst tb.
      apply IH; cbn in *; [tauto|]. split; [tauto|]. split; [apply wrap_range|]. split; [auto|]. tauto.
  - destruct Ta as [_ Ka], Tb as [_ Kb]. destruct W as (_ & _ & Wka & Wkb). rewrite Wka in Ka. rewrite Wkb in Kb.
    unfold or_rule.
    destruct a' as [[ta x|fa|[|]]|ka xa|a1|a1 a2|a1 a2|a1 a2|a1 a2|a1 a2|a1 a2|ka a1|ka oa a1|ka oa a1 a2]; try discriminate Ka;
    try (split; [discriminate|intros e' E; injection E as <-; cbn in *; tauto]);
    destruct b' as [[tb y|fb|[|]]|kb xb|b1|b1 b2|b1 b2|b1 b2|b1 b2|b1 b2|b1 b2|kb b1|kb ob b1|kb ob b1 b2]; try discriminate Kb;
    (split; [discriminate|intros e' E; injection E as <-; cbn in *; tauto]).
  - destruct Ta as [_ Ka], Tb as [_ Kb]. destruct W as (_ & _ & Wka & Wkb). rewrite Wka in Ka. rewrite Wkb in Kb.
    unfold and_rule.
    destruct a' as [[ta x|fa|[|]]|ka xa|a1|a1 a2|a1 a2|a1 a2|a1 a2|a1 a2|a1 a2|ka a1|ka oa a1|ka oa a1 a2]; try discriminate Ka;
    try (split; [discriminate|intros e' E; injection E as <-; cbn in *; tauto]);
    destruct b' as [[tb y|fb|[|]]|kb xb|b1|b1 b2|b1 b2|b1 b2|b1 b2|b1 b2|b1 b2|kb b1|kb ob b1|kb ob b1 b2]; try discriminate Kb;
    (split; [discriminate|intros e' E; injection E as <-; cbn in *; tauto]).
  - split; [discriminate|intros e' E; injection E as <-; cbn; auto].
Qed.
End Crash.
