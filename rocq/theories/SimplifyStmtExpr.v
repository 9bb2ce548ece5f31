(** Static facts about the simplification of expressions: types, variables, and
    renaming of variables. *)
From Coq Require Import List ZArith Lia Bool.
From Verif Require Import Outcome Types TypesProofs Simplify SimplifySpec SimplifyProofs SimplifyStmt SimplifyStmtSpec.
Import ListNotations.
Local Open Scope nat_scope.

Section Static.
Context {F : Type}.
Variable FL : flits F.
Variable ty : nat -> kind.
Notation expr := (expr F).
Notation typed := (@typed F ty).

Definition keeps (e e' : expr) : Prop := typed e' /\ kind_of e' = kind_of e /\ incl (occurs e') (occurs e).
Lemma keeps_refl e : typed e -> keeps e e.
Proof. intro. repeat split; auto. apply incl_refl. Qed.
Lemma keeps_trans a b c : keeps a b -> keeps b c -> keeps a c.
Proof. intros (? & ? & ?) (? & ? & ?). repeat split; auto; [congruence|eapply incl_tran; eauto]. Qed.

Definition pair_ok (a b : expr) : Prop := typed a /\ typed b /\ kind_of a = kind_of b /\ kind_of a <> KBool.

Lemma max_kind_pair (a b : expr) : kind_of a = kind_of b -> max_kind (kind_of a) (kind_of b) = kind_of a.
Proof. intros <-. apply max_kind_same. Qed.

(** An arithmetic node of [a] and [b] may become one of them, or be rebuilt. *)
Lemma keeps_left o (a b : expr) : pair_ok a b -> keeps (node F o a b) a.
Proof.
  intros (A & B & K & N). repeat split; auto.
  - destruct o; cbn; rewrite max_kind_pair; auto.
  - destruct o; cbn; apply incl_appl, incl_refl.
Qed.
Lemma keeps_right o (a b : expr) : pair_ok a b -> keeps (node F o a b) b.
Proof.
  intros (A & B & K & N). repeat split; auto.
  - destruct o; cbn; rewrite max_kind_pair; auto.
  - destruct o; cbn; apply incl_appr, incl_refl.
Qed.
Lemma keeps_node o (a b : expr) : pair_ok a b -> keeps (node F o a b) (node F o a b).
Proof. intros. apply keeps_refl. destruct o; exact H. Qed.
Lemma keeps_lit o (a b : expr) l : pair_ok a b -> has_kind (kind_of_lit l) (value_of_lit l) -> kind_of_lit l = kind_of a ->
  keeps (node F o a b) (ELit l).
Proof.
  intros (A & B & K & N) W E. repeat split; auto.
  - destruct o; cbn; rewrite max_kind_pair; auto.
  - cbn. intros ? [].
Qed.
Lemma keeps_lit_left o (a b : expr) l : pair_ok a b -> as_lit a = Some l -> keeps (node F o a b) (ELit l).
Proof. intros H E. destruct a; try discriminate. injection E as ->. apply keeps_left; auto. Qed.
Lemma keeps_lit_right o (a b : expr) l : pair_ok a b -> as_lit b = Some l -> keeps (node F o a b) (ELit l).
Proof. intros H E. destruct b; try discriminate. injection E as ->. apply keeps_right; auto. Qed.
Lemma keeps_neg (a b : expr) : pair_ok a b -> keeps (ESub a b) (ENeg b).
Proof.
  intros (A & B & K & N). repeat split; auto; cbn.
  - congruence.
  - rewrite max_kind_pair; auto.
  - apply incl_appr, incl_refl.
Qed.
Lemma keeps_fold o f ta tb x y : pair_ok (ELit (LInt ta x)) (ELit (LInt tb y)) ->
  keeps (node F o (ELit (LInt ta x)) (ELit (LInt tb y))) (fold_literals f ta tb x y).
Proof.
  intros P. pose proof P as (A & B & K & N). cbn in K. injection K as <-. unfold fold_literals. rewrite max_itype_same.
  apply keeps_lit; auto; cbn; auto using wrap_range.
Qed.

Section Rec.
Variable rec : expr -> sres F.
Hypothesis REC : forall e e', typed e -> rec e = Done e' -> keeps e e'.

Ltac cases_zero :=
  repeat match goal with
         | H : context [match as_lit ?a with _ => _ end] |- _ => destruct (as_lit a) eqn:?
         | H : context [if is_scalar0 ?A ?b then _ else _] |- _ => destruct (is_scalar0 A b)
         | H : context [if is_scalar1 ?A ?b then _ else _] |- _ => destruct (is_scalar1 A b)
         end.
Lemma add_zero_keeps a b e' : pair_ok a b -> add_zero FL a b = Done e' -> keeps (EAdd a b) e'.
Proof.
  intros P E. unfold add_zero in E. cases_zero; injection E as <-;
    first [apply (keeps_left OAdd)|apply (keeps_right OAdd)|apply (keeps_node OAdd)]; assumption.
Qed.
Lemma sub_zero_keeps a b e' : pair_ok a b -> sub_zero FL a b = Done e' -> keeps (ESub a b) e'.
Proof.
  intros P E. unfold sub_zero in E. cases_zero; injection E as <-;
    first [apply (keeps_left OSub)|apply keeps_neg|apply (keeps_node OSub)]; assumption.
Qed.
Lemma mul_one_keeps a b e' : pair_ok a b -> mul_one FL a b = Done e' -> keeps (EMul a b) e'.
Proof.
  intros P E. unfold mul_one, mul_one_right in E. cases_zero; injection E as <-;
    first [eapply (keeps_lit_left OMul); eassumption|eapply (keeps_lit_right OMul); eassumption
          |apply (keeps_left OMul); assumption|apply (keeps_right OMul); assumption|apply (keeps_node OMul); assumption].
Qed.
Lemma div_one_keeps a b e' : pair_ok a b -> div_one FL a b = Done e' -> keeps (EDiv a b) e'.
Proof.
  intros P E. unfold div_one in E. cases_zero; injection E as <-;
    first [apply (keeps_left ODiv); assumption|apply (keeps_node ODiv); assumption].
Qed.
(** (c + d) + y and so on. *)
Lemma keeps_reassoc o o' c td tb d y z : pair_ok (node F o c (ELit (LInt td d))) (ELit (LInt tb y)) ->
  kind_of c = KInt td -> td = tb -> in_range tb z -> typed c ->
  keeps (node F o' (node F o c (ELit (LInt td d))) (ELit (LInt tb y))) (node F o' c (ELit (LInt tb z))).
Proof.
  intros (A & B & K & N) Kc -> R T. repeat split.
  - destruct o'; cbn; repeat split; auto; congruence.
  - destruct o', o; cbn; rewrite Kc; cbn; rewrite !max_itype_same; cbn; rewrite ?max_itype_same; auto.
  - destruct o', o; cbn; rewrite !app_nil_r; apply incl_refl.
Qed.
Lemma add_rule_keeps a b e' : pair_ok a b -> add_rule FL rec a b = Done e' -> keeps (EAdd a b) e'.
Proof.
  intros P E. pose proof P as (A & B & K & N).
  assert (D : add_zero FL a b = Done e' -> keeps (EAdd a b) e') by (apply add_zero_keeps; auto).
  unfold add_rule in E.
  destruct a as [[ta x|fa|ba]|ka xa|a1|a1 a2|a1 a2|a1 a2|a1 a2|a1 a2|a1 a2|ka a1|ka oa a1|ka oa a1 a2]; try (apply D; exact E).
  - destruct b as [[tb y|fb|bb]|kb xb|b1|b1 b2|b1 b2|b1 b2|b1 b2|b1 b2|b1 b2|kb b1|kb ob b1|kb ob b1 b2]; try (apply D; exact E).
    injection E as <-. apply (keeps_fold OAdd); auto.
  - destruct a2 as [[td d|fd|bd]|k2 x2|c1|c1 c2|c1 c2|c1 c2|c1 c2|c1 c2|c1 c2|k2 c1|k2 o2 c1|k2 o2 c1 c2]; try (apply D; exact E).
    destruct b as [[tb y|fb|bb]|kb xb|b1|b1 b2|b1 b2|b1 b2|b1 b2|b1 b2|b1 b2|kb b1|kb ob b1|kb ob b1 b2]; try (apply D; exact E).
    destruct (kind_eqb (kind_of a1) (KInt td) && itype_eqb td tb) eqn:C; [|apply D; exact E].
    apply andb_true_iff in C as [C1 C2]. apply kind_eqb_eq in C1. apply itype_eqb_eq in C2.
    assert (KK : keeps (EAdd (EAdd a1 (ELit (LInt td d))) (ELit (LInt tb y))) (EAdd a1 (ELit (LInt tb (wrap tb (d + y)))))).
    { apply (keeps_reassoc OAdd OAdd); auto using wrap_range. apply A. }
    eapply keeps_trans; [exact KK|]. apply REC; auto. apply KK.
  - destruct a2 as [[td d|fd|bd]|k2 x2|c1|c1 c2|c1 c2|c1 c2|c1 c2|c1 c2|c1 c2|k2 c1|k2 o2 c1|k2 o2 c1 c2]; try (apply D; exact E).
    destruct b as [[tb y|fb|bb]|kb xb|b1|b1 b2|b1 b2|b1 b2|b1 b2|b1 b2|b1 b2|kb b1|kb ob b1|kb ob b1 b2]; try (apply D; exact E).
    destruct (kind_eqb (kind_of a1) (KInt td) && itype_eqb td tb) eqn:C; [|apply D; exact E].
    apply andb_true_iff in C as [C1 C2]. apply kind_eqb_eq in C1. apply itype_eqb_eq in C2.
    assert (KK : keeps (EAdd (ESub a1 (ELit (LInt td d))) (ELit (LInt tb y))) (EAdd a1 (ELit (LInt tb (wrap tb (y - d)))))).
    { apply (keeps_reassoc OSub OAdd); auto using wrap_range. apply A. }
    eapply keeps_trans; [exact KK|]. apply REC; auto. apply KK.
Qed.
Lemma mul_rule_keeps a b e' : pair_ok a b -> mul_rule FL rec a b = Done e' -> keeps (EMul a b) e'.
Proof.
  intros P E. pose proof P as (A & B & K & N).
  assert (D : mul_one FL a b = Done e' -> keeps (EMul a b) e') by (apply mul_one_keeps; auto).
  unfold mul_rule in E.
  destruct a as [[ta x|fa|ba]|ka xa|a1|a1 a2|a1 a2|a1 a2|a1 a2|a1 a2|a1 a2|ka a1|ka oa a1|ka oa a1 a2]; try (apply D; exact E).
  - destruct b as [[tb y|fb|bb]|kb xb|b1|b1 b2|b1 b2|b1 b2|b1 b2|b1 b2|b1 b2|kb b1|kb ob b1|kb ob b1 b2]; try (apply D; exact E).
    injection E as <-. apply (keeps_fold OMul); auto.
  - destruct a2 as [[td d|fd|bd]|k2 x2|c1|c1 c2|c1 c2|c1 c2|c1 c2|c1 c2|c1 c2|k2 c1|k2 o2 c1|k2 o2 c1 c2]; try (apply D; exact E).
    destruct b as [[tb y|fb|bb]|kb xb|b1|b1 b2|b1 b2|b1 b2|b1 b2|b1 b2|b1 b2|kb b1|kb ob b1|kb ob b1 b2]; try (apply D; exact E).
    destruct (kind_eqb (kind_of a1) (KInt td) && itype_eqb td tb) eqn:C; [|apply D; exact E].
    apply andb_true_iff in C as [C1 C2]. apply kind_eqb_eq in C1. apply itype_eqb_eq in C2.
    assert (KK : keeps (EMul (EMul a1 (ELit (LInt td d))) (ELit (LInt tb y))) (EMul a1 (ELit (LInt tb (wrap tb (d * y)))))).
    { apply (keeps_reassoc OMul OMul); auto using wrap_range. apply A. }
    eapply keeps_trans; [exact KK|]. apply REC; auto. apply KK.
Qed.
End Rec.
Lemma sub_rule_keeps a b e' : pair_ok a b -> sub_rule FL a b = Done e' -> keeps (ESub a b) e'.
Proof.
  intros P E. assert (D : sub_zero FL a b = Done e' -> keeps (ESub a b) e') by (apply sub_zero_keeps; auto).
  unfold sub_rule in E.
  destruct a as [[ta x|fa|ba]|ka xa|a1|a1 a2|a1 a2|a1 a2|a1 a2|a1 a2|a1 a2|ka a1|ka oa a1|ka oa a1 a2]; try (apply D; exact E).
  destruct b as [[tb y|fb|bb]|kb xb|b1|b1 b2|b1 b2|b1 b2|b1 b2|b1 b2|b1 b2|kb b1|kb ob b1|kb ob b1 b2]; try (apply D; exact E).
  injection E as <-. apply (keeps_fold OSub); auto.
Qed.
Lemma div_rule_keeps a b e' : pair_ok a b -> div_rule FL a b = Done e' -> keeps (EDiv a b) e'.
Proof.
  intros P E. assert (D : div_one FL a b = Done e' -> keeps (EDiv a b) e') by (apply div_one_keeps; auto).
  unfold div_rule in E.
  destruct a as [[ta x|fa|ba]|ka xa|a1|a1 a2|a1 a2|a1 a2|a1 a2|a1 a2|a1 a2|ka a1|ka oa a1|ka oa a1 a2]; try (apply D; exact E).
  destruct b as [[tb y|fb|bb]|kb xb|b1|b1 b2|b1 b2|b1 b2|b1 b2|b1 b2|b1 b2|kb b1|kb ob b1|kb ob b1 b2]; try (apply D; exact E).
  destruct (itype_eqb ta tb); [|apply D; exact E]. destruct (_ || _); [discriminate|]. injection E as <-.
  apply (keeps_lit ODiv); auto; cbn; auto using wrap_range.
Qed.
Definition bool_ok (a b : expr) : Prop := typed a /\ typed b /\ kind_of a = KBool /\ kind_of b = KBool.
Lemma or_rule_keeps a b e' : bool_ok a b -> or_rule a b = Done e' -> keeps (EOr a b) e'.
Proof.
  intros (A & B & KA & KB) E.
  assert (L : keeps (EOr a b) a) by (repeat split; auto; cbn; apply incl_appl, incl_refl).
  assert (R : keeps (EOr a b) b) by (repeat split; auto; cbn; apply incl_appr, incl_refl).
  assert (N : keeps (EOr a b) (EOr a b)) by (apply keeps_refl; cbn; auto).
  unfold or_rule in E.
  destruct a as [[ta x|fa|[|]]|ka xa|a1|a1 a2|a1 a2|a1 a2|a1 a2|a1 a2|a1 a2|ka a1|ka oa a1|ka oa a1 a2];
    destruct b as [[tb y|fb|[|]]|kb xb|b1|b1 b2|b1 b2|b1 b2|b1 b2|b1 b2|b1 b2|kb b1|kb ob b1|kb ob b1 b2];
    try discriminate E; injection E as <-; assumption.
Qed.
Lemma and_rule_keeps a b e' : bool_ok a b -> and_rule a b = Done e' -> keeps (EAnd a b) e'.
Proof.
  intros (A & B & KA & KB) E.
  assert (L : keeps (EAnd a b) a) by (repeat split; auto; cbn; apply incl_appl, incl_refl).
  assert (R : keeps (EAnd a b) b) by (repeat split; auto; cbn; apply incl_appr, incl_refl).
  assert (N : keeps (EAnd a b) (EAnd a b)) by (apply keeps_refl; cbn; auto).
  unfold and_rule in E.
  destruct a as [[ta x|fa|[|]]|ka xa|a1|a1 a2|a1 a2|a1 a2|a1 a2|a1 a2|a1 a2|ka a1|ka oa a1|ka oa a1 a2];
    destruct b as [[tb y|fb|[|]]|kb xb|b1|b1 b2|b1 b2|b1 b2|b1 b2|b1 b2|b1 b2|kb b1|kb ob b1|kb ob b1 b2];
    try discriminate E; injection E as <-; assumption.
Qed.

Lemma simp_keeps : forall n e e', typed e -> simp FL n e = Done e' -> keeps e e'.
Proof.
  induction n as [|n IH]; intros e e' W E; [discriminate|].
  destruct e as [l|k x|a|a b|a b|a b|a b|a b|a b|k a|k o a|k o a b]; cbn [simp] in E;
    try (injection E as <-; apply keeps_refl; auto);
    (destruct (simp FL n a) as [a'| |] eqn:Ea; cbn [sbind] in E; try discriminate);
    try (destruct (simp FL n b) as [b'| |] eqn:Eb; cbn [sbind] in E; try discriminate); cbn [SimplifyStmtSpec.typed] in W.
  - injection E as <-. destruct W as (Wa & N). destruct (IH _ _ Wa Ea) as (A & K & I). repeat split; cbn; auto; congruence.
  - destruct W as (Wa & Wb & K & N). destruct (IH _ _ Wa Ea) as (A & Ka & Ia). destruct (IH _ _ Wb Eb) as (B & Kb & Ib).
    eapply keeps_trans; [|eapply (add_rule_keeps _ IH); [|exact E]].
    + repeat split; cbn; auto; try congruence. apply incl_app; [apply incl_appl|apply incl_appr]; auto.
    + repeat split; auto; congruence.
  - destruct W as (Wa & Wb & K & N). destruct (IH _ _ Wa Ea) as (A & Ka & Ia). destruct (IH _ _ Wb Eb) as (B & Kb & Ib).
    eapply keeps_trans; [|eapply sub_rule_keeps; [|exact E]].
    + repeat split; cbn; auto; try congruence. apply incl_app; [apply incl_appl|apply incl_appr]; auto.
    + repeat split; auto; congruence.
  - destruct W as (Wa & Wb & K & N). destruct (IH _ _ Wa Ea) as (A & Ka & Ia). destruct (IH _ _ Wb Eb) as (B & Kb & Ib).
    eapply keeps_trans; [|eapply (mul_rule_keeps _ IH); [|exact E]].
    + repeat split; cbn; auto; try congruence. apply incl_app; [apply incl_appl|apply incl_appr]; auto.
    + repeat split; auto; congruence.
  - destruct W as (Wa & Wb & K & N). destruct (IH _ _ Wa Ea) as (A & Ka & Ia). destruct (IH _ _ Wb Eb) as (B & Kb & Ib).
    eapply keeps_trans; [|eapply div_rule_keeps; [|exact E]].
    + repeat split; cbn; auto; try congruence. apply incl_app; [apply incl_appl|apply incl_appr]; auto.
    + repeat split; auto; congruence.
  - destruct W as (Wa & Wb & K & N). destruct (IH _ _ Wa Ea) as (A & Ka & Ia). destruct (IH _ _ Wb Eb) as (B & Kb & Ib).
    eapply keeps_trans; [|eapply or_rule_keeps; [|exact E]].
    + repeat split; cbn; auto; try congruence. apply incl_app; [apply incl_appl|apply incl_appr]; auto.
    + repeat split; auto; congruence.
  - destruct W as (Wa & Wb & K & N). destruct (IH _ _ Wa Ea) as (A & Ka & Ia). destruct (IH _ _ Wb Eb) as (B & Kb & Ib).
    eapply keeps_trans; [|eapply and_rule_keeps; [|exact E]].
    + repeat split; cbn; auto; try congruence. apply incl_app; [apply incl_appl|apply incl_appr]; auto.
    + repeat split; auto; congruence.
  - destruct (IH _ _ W Ea) as (A & Ka & Ia). unfold cast_rule in E.
    destruct a' as [[ta x|fa|ba]|ka xa|a1|a1 a2|a1 a2|a1 a2|a1 a2|a1 a2|a1 a2|ka a1|ka oa a1|ka oa a1 a2];
      injection E as <-; try (split; [exact A|split; [reflexivity|exact Ia]]).
    repeat split; cbn; [|destruct k; auto|intros ? []]. destruct k, ba; cbn; auto using range0, range1.
  - injection E as <-. destruct (IH _ _ W Ea) as (A & Ka & Ia). split; [exact A|]. split; [reflexivity|]. exact Ia.
  - injection E as <-. destruct W as (Wa & Wb & Hl). destruct (IH _ _ Wa Ea) as (A & Ka & Ia). destruct (IH _ _ Wb Eb) as (B & Kb & Ib).
    split; [|split; [reflexivity|]]; cbn.
    + split; [auto|]. split; [auto|]. intro Eo. destruct (Hl Eo). split; congruence.
    + apply incl_app; [apply incl_appl|apply incl_appr]; auto.
Qed.

(** *** Renaming variables *)
Variable m : smap (kind * nat).
Hypothesis m_kind : forall x k y, get x m = Some (k, y) -> k = ty x /\ ty y = ty x.

Lemma subst_kind : forall e : expr, typed e -> kind_of (subst m e) = kind_of e.
Proof.
  induction e as [l|k x|a IHa|a IHa b IHb|a IHa b IHb|a IHa b IHb|a IHa b IHb|a IHa b IHb|a IHa b IHb|k a IHa|k o a IHa|k o a IHa b IHb];
    cbn; intro T; auto; try (destruct T as (A & B & K & N); rewrite IHa, IHb; auto).
  - destruct (get x m) as [[k' y]|] eqn:E; cbn; auto. destruct (m_kind _ _ _ E). congruence.
  - destruct T. auto.
Qed.
Lemma subst_typed : forall e, typed e -> typed (subst m e).
Proof.
  induction e as [l|k x|a IHa|a IHa b IHb|a IHa b IHb|a IHa b IHb|a IHa b IHb|a IHa b IHb|a IHa b IHb|k a IHa|k o a IHa|k o a IHa b IHb];
    cbn; intro T; auto; try (destruct T as (A & B & K & N); repeat split; auto; rewrite ?subst_kind; auto; fail).
  - destruct (get x m) as [[k' y]|] eqn:E; cbn; auto. destruct (m_kind _ _ _ E). congruence.
  - destruct T as (A & N). split; auto. rewrite subst_kind; auto.
  - destruct T as (A & B & L). split; auto. split; auto. intro Eo. destruct (L Eo). rewrite !subst_kind; auto.
Qed.
Lemma subst_lit : forall e : expr, as_lit (subst m e) = as_lit e.
Proof. destruct e; cbn; auto. destruct (get x m) as [[? ?]|]; auto. Qed.

Definition smap_ (r : sres F) : sres F := match r with Done e => Done (subst m e) | Crash => Crash | OutOfFuel => OutOfFuel end.

Lemma add_zero_subst (a b : expr) : add_zero FL (subst m a) (subst m b) = smap_ (add_zero FL a b).
Proof. unfold add_zero. rewrite !subst_lit. destruct (as_lit a), (as_lit b); repeat destruct (is_scalar0 _ _); reflexivity. Qed.
Lemma sub_zero_subst (a b : expr) : sub_zero FL (subst m a) (subst m b) = smap_ (sub_zero FL a b).
Proof. unfold sub_zero. rewrite !subst_lit. destruct (as_lit a), (as_lit b); repeat destruct (is_scalar0 _ _); reflexivity. Qed.
Lemma mul_one_subst (a b : expr) : mul_one FL (subst m a) (subst m b) = smap_ (mul_one FL a b).
Proof.
  unfold mul_one, mul_one_right. rewrite !subst_lit.
  destruct (as_lit a), (as_lit b); repeat destruct (is_scalar0 _ _); repeat destruct (is_scalar1 _ _); reflexivity.
Qed.
Lemma div_one_subst (a b : expr) : div_one FL (subst m a) (subst m b) = smap_ (div_one FL a b).
Proof. unfold div_one. rewrite !subst_lit. destruct (as_lit b); repeat destruct (is_scalar1 _ _); reflexivity. Qed.

Lemma add_rule_subst rec a b : pair_ok a b ->
  (forall e, typed e -> rec (subst m e) = smap_ (rec e)) ->
  add_rule FL rec (subst m a) (subst m b) = smap_ (add_rule FL rec a b).
Proof.
  intros P R. pose proof P as (A & B & K & N).
  pose proof (add_zero_subst a b) as D. unfold add_rule.
  destruct a as [[ta x|fa|ba]|ka xa|a1|a1 a2|a1 a2|a1 a2|a1 a2|a1 a2|a1 a2|ka a1|ka oa a1|ka oa a1 a2]; try exact D.
  - destruct b as [[tb y|fb|bb]|kb xb|b1|b1 b2|b1 b2|b1 b2|b1 b2|b1 b2|b1 b2|kb b1|kb ob b1|kb ob b1 b2]; try exact D; try reflexivity.
    cbn [subst] in *. destruct (get xb m) as [[? ?]|]; exact D.
  - cbn [subst] in *. destruct (get xa m) as [[? ?]|]; exact D.
  - destruct a2 as [[td d|fd|bd]|k2 x2|c1|c1 c2|c1 c2|c1 c2|c1 c2|c1 c2|c1 c2|k2 c1|k2 o2 c1|k2 o2 c1 c2]; try exact D.
    2:{ cbn [subst] in *. destruct (get x2 m) as [[? ?]|]; exact D. }
    destruct b as [[tb y|fb|bb]|kb xb|b1|b1 b2|b1 b2|b1 b2|b1 b2|b1 b2|b1 b2|kb b1|kb ob b1|kb ob b1 b2]; try exact D.
    2:{ cbn [subst] in *. destruct (get xb m) as [[? ?]|]; exact D. }
    cbn [subst] in D |- *. rewrite subst_kind by apply A.
    destruct (kind_eqb (kind_of a1) (KInt td) && itype_eqb td tb) eqn:C; [|exact D].
    apply andb_true_iff in C as [C1 C2]. apply kind_eqb_eq in C1. apply itype_eqb_eq in C2.
    apply (R (EAdd a1 (ELit (LInt tb (wrap tb (d + y)))))).
    cbn. repeat split; try apply A; auto using wrap_range; rewrite C1; subst; auto; discriminate.
  - destruct a2 as [[td d|fd|bd]|k2 x2|c1|c1 c2|c1 c2|c1 c2|c1 c2|c1 c2|c1 c2|k2 c1|k2 o2 c1|k2 o2 c1 c2]; try exact D.
    2:{ cbn [subst] in *. destruct (get x2 m) as [[? ?]|]; exact D. }
    destruct b as [[tb y|fb|bb]|kb xb|b1|b1 b2|b1 b2|b1 b2|b1 b2|b1 b2|b1 b2|kb b1|kb ob b1|kb ob b1 b2]; try exact D.
    2:{ cbn [subst] in *. destruct (get xb m) as [[? ?]|]; exact D. }
    cbn [subst] in D |- *. rewrite subst_kind by apply A.
    destruct (kind_eqb (kind_of a1) (KInt td) && itype_eqb td tb) eqn:C; [|exact D].
    apply andb_true_iff in C as [C1 C2]. apply kind_eqb_eq in C1. apply itype_eqb_eq in C2.
    apply (R (EAdd a1 (ELit (LInt tb (wrap tb (y - d)))))).
    cbn. repeat split; try apply A; auto using wrap_range; rewrite C1; subst; auto; discriminate.
Qed.
Lemma mul_rule_subst rec a b : pair_ok a b ->
  (forall e, typed e -> rec (subst m e) = smap_ (rec e)) ->
  mul_rule FL rec (subst m a) (subst m b) = smap_ (mul_rule FL rec a b).
Proof.
  intros P R. pose proof P as (A & B & K & N).
  pose proof (mul_one_subst a b) as D. unfold mul_rule.
  destruct a as [[ta x|fa|ba]|ka xa|a1|a1 a2|a1 a2|a1 a2|a1 a2|a1 a2|a1 a2|ka a1|ka oa a1|ka oa a1 a2]; try exact D.
  - destruct b as [[tb y|fb|bb]|kb xb|b1|b1 b2|b1 b2|b1 b2|b1 b2|b1 b2|b1 b2|kb b1|kb ob b1|kb ob b1 b2]; try exact D; try reflexivity.
    cbn [subst] in *. destruct (get xb m) as [[? ?]|]; exact D.
  - cbn [subst] in *. destruct (get xa m) as [[? ?]|]; exact D.
  - destruct a2 as [[td d|fd|bd]|k2 x2|c1|c1 c2|c1 c2|c1 c2|c1 c2|c1 c2|c1 c2|k2 c1|k2 o2 c1|k2 o2 c1 c2]; try exact D.
    2:{ cbn [subst] in *. destruct (get x2 m) as [[? ?]|]; exact D. }
    destruct b as [[tb y|fb|bb]|kb xb|b1|b1 b2|b1 b2|b1 b2|b1 b2|b1 b2|b1 b2|kb b1|kb ob b1|kb ob b1 b2]; try exact D.
    2:{ cbn [subst] in *. destruct (get xb m) as [[? ?]|]; exact D. }
    cbn [subst] in D |- *. rewrite subst_kind by apply A.
    destruct (kind_eqb (kind_of a1) (KInt td) && itype_eqb td tb) eqn:C; [|exact D].
    apply andb_true_iff in C as [C1 C2]. apply kind_eqb_eq in C1. apply itype_eqb_eq in C2.
    apply (R (EMul a1 (ELit (LInt tb (wrap tb (d * y)))))).
    cbn. repeat split; try apply A; auto using wrap_range; rewrite C1; subst; auto; discriminate.
Qed.
Lemma sub_rule_subst (a b : expr) : sub_rule FL (subst m a) (subst m b) = smap_ (sub_rule FL a b).
Proof.
  pose proof (sub_zero_subst a b) as D. unfold sub_rule.
  destruct a as [[ta x|fa|ba]|ka xa|a1|a1 a2|a1 a2|a1 a2|a1 a2|a1 a2|a1 a2|ka a1|ka oa a1|ka oa a1 a2]; try exact D.
  - destruct b as [[tb y|fb|bb]|kb xb|b1|b1 b2|b1 b2|b1 b2|b1 b2|b1 b2|b1 b2|kb b1|kb ob b1|kb ob b1 b2]; try exact D; try reflexivity.
    cbn [subst] in *. destruct (get xb m) as [[? ?]|]; exact D.
  - cbn [subst] in *. destruct (get xa m) as [[? ?]|]; exact D.
Qed.
Lemma div_rule_subst (a b : expr) : div_rule FL (subst m a) (subst m b) = smap_ (div_rule FL a b).
Proof.
  pose proof (div_one_subst a b) as D. unfold div_rule.
  destruct a as [[ta x|fa|ba]|ka xa|a1|a1 a2|a1 a2|a1 a2|a1 a2|a1 a2|a1 a2|ka a1|ka oa a1|ka oa a1 a2]; try exact D.
  - destruct b as [[tb y|fb|bb]|kb xb|b1|b1 b2|b1 b2|b1 b2|b1 b2|b1 b2|b1 b2|kb b1|kb ob b1|kb ob b1 b2]; try exact D; try reflexivity.
    + cbn [subst] in *. destruct (itype_eqb ta tb); [destruct (_ || _); reflexivity|exact D].
    + cbn [subst] in *. destruct (get xb m) as [[? ?]|]; exact D.
  - cbn [subst] in *. destruct (get xa m) as [[? ?]|]; exact D.
Qed.
Lemma or_rule_subst (a b : expr) : or_rule (subst m a) (subst m b) = smap_ (or_rule a b).
Proof.
  destruct a as [[ta x|fa|[|]]|ka xa|a1|a1 a2|a1 a2|a1 a2|a1 a2|a1 a2|a1 a2|ka a1|ka oa a1|ka oa a1 a2];
    destruct b as [[tb y|fb|[|]]|kb xb|b1|b1 b2|b1 b2|b1 b2|b1 b2|b1 b2|b1 b2|kb b1|kb ob b1|kb ob b1 b2];
    cbn; repeat match goal with |- context [get ?x m] => destruct (get x m) as [[? ?]|] end; reflexivity.
Qed.
Lemma and_rule_subst (a b : expr) : and_rule (subst m a) (subst m b) = smap_ (and_rule a b).
Proof.
  destruct a as [[ta x|fa|[|]]|ka xa|a1|a1 a2|a1 a2|a1 a2|a1 a2|a1 a2|a1 a2|ka a1|ka oa a1|ka oa a1 a2];
    destruct b as [[tb y|fb|[|]]|kb xb|b1|b1 b2|b1 b2|b1 b2|b1 b2|b1 b2|b1 b2|kb b1|kb ob b1|kb ob b1 b2];
    cbn; repeat match goal with |- context [get ?x m] => destruct (get x m) as [[? ?]|] end; reflexivity.
Qed.
Lemma cast_rule_subst k (a : expr) : cast_rule FL k (subst m a) = smap_ (cast_rule FL k a).
Proof. destruct a as [[ta x|fa|ba]|ka xa|a1|a1 a2|a1 a2|a1 a2|a1 a2|a1 a2|a1 a2|ka a1|ka oa a1|ka oa a1 a2]; try reflexivity.
  cbn. destruct (get xa m) as [[? ?]|]; reflexivity. Qed.

Lemma simp_subst : forall n e, typed e -> simp FL n (subst m e) = smap_ (simp FL n e).
Proof.
  induction n as [|n IH]; intros e W; [reflexivity|].
  destruct e as [l|k x|a|a b|a b|a b|a b|a b|a b|k a|k o a|k o a b]; cbn [subst].
  1: reflexivity.
  1: { cbn [simp smap_ subst]. destruct (get x m) as [[? ?]|]; reflexivity. }
  all: cbn [simp]; cbn [SimplifyStmtSpec.typed] in W.
  1: { destruct W. rewrite IH by auto. destruct (simp FL n a); reflexivity. }
  all: try (destruct W as (Wa & Wb & W)).
  all: rewrite (IH a) by auto; destruct (simp FL n a) as [a'| |] eqn:Ea; cbn [smap_ sbind]; try reflexivity.
  all: try (rewrite (IH b) by auto; destruct (simp FL n b) as [b'| |] eqn:Eb; cbn [smap_ sbind]; try reflexivity).
  all: try (destruct (simp_keeps _ _ _ Wa Ea) as (A & Ka & _)); try (destruct (simp_keeps _ _ _ Wb Eb) as (B & Kb & _)).
  - destruct W as (K & N). apply add_rule_subst; auto. repeat split; auto; congruence.
  - apply sub_rule_subst.
  - destruct W as (K & N). apply mul_rule_subst; auto. repeat split; auto; congruence.
  - apply div_rule_subst.
  - apply or_rule_subst.
  - apply and_rule_subst.
  - apply cast_rule_subst.
Qed.
Lemma size_subst : forall e : expr, size (subst m e) = size e.
Proof.
  induction e as [l|k x|a IHa|a IHa b IHb|a IHa b IHb|a IHa b IHb|a IHa b IHb|a IHa b IHb|a IHa b IHb|k a IHa|k o a IHa|k o a IHa b IHb];
    cbn; auto. destruct (get x m) as [[? ?]|]; reflexivity.
Qed.
Lemma simplify_subst e : typed e -> simplify_expr FL (subst m e) = smap_ (simplify_expr FL e).
Proof. intro. unfold simplify_expr. rewrite size_subst. apply simp_subst; auto. Qed.
End Static.
