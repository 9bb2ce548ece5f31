(** Replacing variables by equal ones and dropping declarations: a relation between
    statements that preserves their meaning. *)
From Coq Require Import List ZArith Lia Bool.
From Verif Require Import Outcome Types TypesProofs Simplify SimplifySpec SimplifyProofs SimplifyStmt SimplifyStmtSpec SimplifyStmtExpr.
Import ListNotations.
Local Open Scope nat_scope.

Section Copy.
Variable F : Type.
Variable FL : flits F.
Variable FO : fops F.
Variable M : Type.
Variable op1 : M -> kind -> nat -> value F -> option (value F).
Variable op2 : M -> kind -> nat -> value F -> value F -> option (value F).
Variable cast : kind -> value F -> option (value F).
Variable eff : nat -> list (value F) -> M -> option M.
Hypothesis TO : forall m, typed_operations (op1 m) (op2 m) cast FL.
Variable ty : nat -> kind.
Notation expr := (expr F).
Notation stmt := (stmt F).
Notation state := (state F M).
Notation value_in := (value_in F FO M op1 op2 cast).
Notation values_in := (values_in F FO M op1 op2 cast).
Notation exec := (exec F FO M op1 op2 cast eff).

Definition kinded (st : state) : Prop := forall x, has_kind (ty x) (fst st x).
Lemma typed_wt (e : expr) env : (forall x, has_kind (ty x) (env x)) -> typed ty e -> well_typed env e.
Proof.
  intro K. induction e as [l|k x|a IHa|a IHa b IHb|a IHa b IHb|a IHa b IHb|a IHa b IHb|a IHa b IHb|a IHa b IHb|k a IHa|k o a IHa|k o a IHa b IHb];
    cbn; intuition; subst; auto.
Qed.
Lemma value_kind e st v : kinded st -> typed ty e -> value_in st e = Some v -> has_kind (kind_of e) v.
Proof. intros K T E. eapply eval_kind; [apply (TO (snd st))| |exact E]. apply typed_wt; auto. Qed.
Lemma kinded_set x v st : kinded st -> has_kind (ty x) v -> kinded (set_var x v st).
Proof. intros K H y. cbn. destruct (Nat.eqb_spec y x); subst; auto. Qed.
Lemma kinded_mem st m : kinded st -> kinded (fst st, m).
Proof. auto. Qed.

(** Evaluation depends on the variables of the expression and on memory. *)
Lemma value_ext (e : expr) : forall st st', snd st = snd st' -> (forall x, In x (evars e) -> fst st x = fst st' x) ->
  value_in st e = value_in st' e.
Proof.
  intros st st' Hm. unfold SimplifyStmtSpec.value_in. rewrite <- Hm. unfold evars.
  induction e as [l|k x|a IHa|a IHa b IHb|a IHa b IHb|a IHa b IHb|a IHa b IHb|a IHa b IHb|a IHa b IHb|k a IHa|k o a IHa|k o a IHa b IHb];
    cbn [occurs map eval]; intro H; rewrite ?map_app in H; rewrite ?IHa, ?IHb; auto;
    try (intros; apply H; apply in_or_app; auto; fail).
  f_equal. apply H. left. reflexivity.
Qed.

Variable gone : nat -> Prop.
Definition agree (st st' : state) : Prop := snd st = snd st' /\ forall v, ~ gone v -> fst st v = fst st' v.
Lemma agree_set x v st st' : agree st st' -> agree (set_var x v st) (set_var x v st').
Proof. intros (A & B). split; auto. cbn. intros y Hy. destruct (y =? x); auto. Qed.
Lemma agree_gone x v st st' : gone x -> agree st st' -> agree (set_var x v st) st'.
Proof. intros G (A & B). split; auto. cbn. intros y Hy. destruct (Nat.eqb_spec y x); [congruence|auto]. Qed.

Definition holds (P : list (nat * nat)) (st : state) : Prop := forall x y, In (x, y) P -> fst st x = fst st y.
Lemma holds_incl P Q st : incl Q P -> holds P st -> holds Q st.
Proof. intros I H x y Hin. auto. Qed.

Definition rel (P : list (nat * nat)) (e e' : expr) : Prop :=
  typed ty e' /\ kind_of e' = kind_of e /\
  forall st st' v, kinded st -> holds P st -> agree st st' -> value_in st e = Some v -> value_in st' e' = Some v.

Inductive cpr : list (nat * nat) -> stmt -> stmt -> list (nat * nat) -> Prop :=
| R_decl : forall P id k x e e' P', rel P e e' ->
    (forall a b, In (a, b) P' -> (a <> x /\ b <> x /\ In (a, b) P) \/ (a = x /\ b <> x /\ ~ gone b /\ exists k, e' = EVar k b)) ->
    cpr P (SDecl id k x e) (SDecl id k x e') P'
| R_drop : forall P id k x e e' P', rel P e e' -> gone x ->
    (forall a b, In (a, b) P' -> (a <> x /\ b <> x /\ In (a, b) P) \/ (a = x /\ b <> x /\ ~ gone b /\ exists k, e' = EVar k b)) ->
    cpr P (SDecl id k x e) SNil P'
| R_assign : forall P k x e e' P', rel P e e' -> ~ gone x ->
    (forall a b, In (a, b) P' -> a <> x /\ b <> x /\ In (a, b) P) -> cpr P (SAssign k x e) (SAssign k x e') P'
| R_eff : forall P o args args' raw raw', Forall2 (rel P) args args' -> Forall2 (rel P) raw raw' ->
    cpr P (SEff o args raw) (SEff o args' raw') P
| R_nil : forall P, cpr P SNil SNil P
| R_continue : forall P, cpr P SContinue SContinue P
| R_break : forall P, cpr P SBreak SBreak P
| R_cons : forall P s s' P1 r r' P2, cpr P s s' P1 -> cpr P1 r r' P2 ->
    (forall p, In p P -> In p P2 -> In p P1) -> cpr P (SCons s r) (cons_ s' r') P2
| R_scope : forall P s s' P1 P2, cpr P s s' P1 -> incl P2 P1 -> cpr P (SScope s) (SScope s') P2
| R_if : forall P c c' a a' P1 P2 b b' P3 P4, rel P c c' -> cpr P a a' P1 -> incl P2 P1 -> incl P2 P ->
    cpr P2 b b' P3 -> incl P4 P3 -> incl P4 P2 -> cpr P (SIf c a b) (SIf c' a' b') P4
| R_while : forall P P0 c c' b b' P1, incl P0 P -> rel P0 c c' -> cpr P0 b b' P1 -> incl P0 P1 ->
    cpr P (SWhile c b) (SWhile c' b') P0
| R_for : forall P P0 k x start start' stop stop' inc inc' b b' P1, incl P0 P ->
    rel P0 start start' -> rel P0 stop stop' -> rel P0 inc inc' -> ~ gone x ->
    (forall a b, In (a, b) P0 -> a <> x /\ b <> x) ->
    cpr P0 b b' P1 -> incl P0 P1 -> cpr P (SFor k x start stop inc b) (SFor k x start' stop' inc' b') P0.

Lemma exec_cons_ s r st g st' : exec (Code (SCons s r)) st g st' -> exec (Code (cons_ s r)) st g st'.
Proof.
  intro H. destruct s; try exact H. cbn. inversion H; subst.
  - match goal with H : exec (Code SNil) _ _ _ |- _ => inversion H; subst end. assumption.
  - match goal with H : exec (Code SNil) _ _ _ |- _ => inversion H; subst end. congruence.
Qed.

Lemma rels_values P es es' : Forall2 (rel P) es es' -> forall st st' vs, kinded st -> holds P st -> agree st st' ->
  values_in st es = Some vs -> values_in st' es' = Some vs.
Proof.
  intro H. induction H as [|e e' es es' (T & K & V) H IH]; intros st st' vs Hk Hp Ha E; cbn in *; auto.
  destruct (value_in st e) as [v|] eqn:Ev; [|discriminate]. rewrite (V _ _ _ Hk Hp Ha Ev).
  destruct (values_in st es) as [vs'|] eqn:Es; [|discriminate]. rewrite (IH _ _ _ Hk Hp Ha Es). exact E.
Qed.

(** A comparison of the loop variable. *)
Lemma rel_lt P k x stop stop' : k = ty x -> ~ gone x -> kind_of stop = k -> rel P stop stop' -> rel P (lt_ (EVar k x) stop) (lt_ (EVar k x) stop').
Proof.
  intros -> G Ks (T & K & V). split; [|split]; cbn; auto.
  - repeat split; auto. congruence.
  - intros st st' v Hk Hp Ha. pose proof (V st st') as Vs. destruct Ha as (Hm & Hv).
    unfold SimplifyStmtSpec.value_in in *. cbn. rewrite (Hv x G).
    destruct (eval FO (fst st) (op1 (snd st)) (op2 (snd st)) cast stop) as [vs|] eqn:E; [|discriminate].
    rewrite (Vs vs); auto; [|split; auto]. rewrite <- Hm. auto.
Qed.
Lemma rel_inc P k x inc inc' : k = ty x -> k <> KBool -> ~ gone x -> kind_of inc = k -> rel P inc inc' ->
  rel P (EAdd (EVar k x) inc) (EAdd (EVar k x) inc').
Proof.
  intros -> NB G Ks (T & K & V). split; [|split]; cbn; auto.
  - repeat split; auto. congruence.
  - congruence.
  - intros st st' v Hk Hp Ha. pose proof (V st st') as Vs. destruct Ha as (Hm & Hv).
    unfold SimplifyStmtSpec.value_in in *. cbn. rewrite (Hv x G). rewrite K.
    destruct (eval FO (fst st) (op1 (snd st)) (op2 (snd st)) cast inc) as [vs|] eqn:E; [|discriminate].
    rewrite (Vs vs); auto. split; auto.
Qed.

Definition keep (g : signal) (P P' : list (nat * nat)) (st : state) : Prop :=
  match g with
  | Go => holds P' st
  | _ => forall x y, In (x, y) P -> In (x, y) P' -> fst st x = fst st y
  end.

Theorem cpr_ok : forall c st g st', exec c st g st' ->
  match c with
  | Code s => forall P s' P' st1, cpr P s s' P' -> styped ty s -> kinded st -> holds P st -> agree st st1 ->
      exists st1', exec (Code s') st1 g st1' /\ agree st' st1' /\ kinded st' /\ keep g P P' st'
  | Loop k x stop inc b => forall P0 stop' inc' b' P1 st1, styped ty b -> k = ty x -> (exists t, k = KInt t) ->
      typed ty stop -> kind_of stop = k -> typed ty inc -> kind_of inc = k ->
      rel P0 stop stop' -> rel P0 inc inc' -> ~ gone x ->
      (forall a b, In (a, b) P0 -> a <> x /\ b <> x) -> cpr P0 b b' P1 -> incl P0 P1 ->
      kinded st -> holds P0 st -> agree st st1 ->
      exists st1', exec (Loop k x stop' inc' b') st1 g st1' /\ agree st' st1' /\ kinded st' /\ holds P0 st'
  end.
Proof.
  induction 1 as [id k x e st v Ev|k x e st v Ev|o args raw st vs ws m Ea Er Em|st|s r st st1 g st2 H1 IH1 H2 IH2
    |s r st g st1 H1 IH1 Hg|s st g st1 H1 IH1|c a b st t g st1 Ec H1 IH1|c b st Ec|c b st g st1 st2 Ec H1 IH1 Hg H2 IH2
    |c b st st1 Ec H1 IH1|k x start stop inc b st v st1 Es H1 IH1|k x stop inc b st Ec|k x stop inc b st g st1 v st2 Ec H1 IH1 Hg Ei H2 IH2
    |k x stop inc b st st1 Ec H1 IH1|st|st].
  - (* decl *) intros P s' P' su C T K Hp Ha. cbn in T. destruct T as (Te & -> & Ke).
    assert (Hkv : has_kind (ty x) v) by (rewrite <- Ke; eapply value_kind; eauto).
    inversion C; subst;
      match goal with R : rel _ _ _ |- _ => pose proof R as (Tr & Kr & Vr) end;
      pose proof (Vr _ _ _ K Hp Ha Ev) as Ev'.
    + exists (set_var x v su). split; [constructor; auto|]. split; [apply agree_set; auto|]. split; [apply kinded_set; auto|].
      intros a b Hin. cbn. match goal with H : forall a b, In (a, b) P' -> _ |- _ => destruct (H _ _ Hin) as [(Na & Nb & Hi)|(-> & Nb & Gb & k' & ->)] end.
      * apply Nat.eqb_neq in Na, Nb. rewrite Na, Nb. auto.
      * apply Nat.eqb_neq in Nb. rewrite Nb, Nat.eqb_refl. unfold SimplifyStmtSpec.value_in in Ev'. cbn in Ev'. injection Ev' as <-.
        symmetry. apply Ha. auto.
    + exists su. split; [constructor|]. split; [apply agree_gone; auto|]. split; [apply kinded_set; auto|].
      intros a b Hin. cbn. match goal with H : forall a b, In (a, b) P' -> _ |- _ => destruct (H _ _ Hin) as [(Na & Nb & Hi)|(-> & Nb & Gb & k' & ->)] end.
      * apply Nat.eqb_neq in Na, Nb. rewrite Na, Nb. auto.
      * apply Nat.eqb_neq in Nb. rewrite Nb, Nat.eqb_refl. unfold SimplifyStmtSpec.value_in in Ev'. cbn in Ev'. injection Ev' as <-.
        symmetry. apply Ha. auto.
  - (* assign *) intros P s' P' su C T K Hp Ha. cbn in T. destruct T as (Te & -> & Ke).
    assert (Hkv : has_kind (ty x) v) by (rewrite <- Ke; eapply value_kind; eauto).
    inversion C; subst. match goal with R : rel _ _ _ |- _ => pose proof R as (Tr & Kr & Vr) end.
    exists (set_var x v su). split; [constructor; apply (Vr _ _ _ K Hp Ha Ev)|]. split; [apply agree_set; auto|]. split; [apply kinded_set; auto|].
    intros a b Hin. cbn. match goal with H : forall a b, In (a, b) P' -> _ |- _ => destruct (H _ _ Hin) as (Na & Nb & Hi) end.
    apply Nat.eqb_neq in Na, Nb. rewrite Na, Nb. auto.
  - (* eff *) intros P s' P' su C T K Hp Ha. inversion C; subst.
    exists (fst su, m). split; [|split; [split; [reflexivity|apply Ha]|split; [apply kinded_mem; auto|exact Hp]]].
    econstructor.
    + eapply rels_values; [| | | |exact Ea]; eauto.
    + eapply rels_values; [| | | |exact Er]; eauto.
    + destruct Ha as (<- & _). exact Em.
  - (* nil *) intros P s' P' su C T K Hp Ha. inversion C; subst. exists su. split; [constructor|]. auto.
  - (* cons *) intros P s' P' su C T K Hp Ha. destruct T as (Ts & Tr). inversion C; subst.
    edestruct IH1 as (su1 & X1 & A1 & K1 & Q1); eauto. cbn in Q1.
    edestruct IH2 as (su2 & X2 & A2 & K2 & Q2); eauto.
    exists su2. split; [apply exec_cons_; econstructor; eauto|]. split; auto. split; auto.
    destruct g; auto; intros x y I1 I2; apply Q2; auto.
  - (* cons, signal *) intros P s' P' su C T K Hp Ha. destruct T as (Ts & Tr). inversion C; subst.
    edestruct IH1 as (su1 & X1 & A1 & K1 & Q1); eauto.
    exists su1. split; [apply exec_cons_; apply X_cons_end; auto|]. split; auto. split; auto.
    destruct g; [congruence| |]; intros x y I1 I2; apply Q1; auto.
  - (* scope *) intros P s' P' su C T K Hp Ha. inversion C; subst.
    edestruct IH1 as (su1 & X1 & A1 & K1 & Q1); eauto.
    exists su1. split; [constructor; auto|]. split; auto. split; auto.
    destruct g; [eapply holds_incl; [|exact Q1]; assumption| |]; intros x y I1 I2; apply Q1; auto.
  - (* if *) intros P s' P' su C T K Hp Ha. destruct T as (Tc & Kc & Ta & Tb). inversion C; subst.
    match goal with R : rel _ _ _ |- _ => pose proof R as (Tr & Kr & Vr) end.
    destruct t.
    + edestruct IH1 as (su1 & X1 & A1 & K1 & Q1); eauto.
      exists su1. split; [econstructor; [apply (Vr _ _ _ K Hp Ha Ec)|exact X1]|]. split; auto. split; auto.
      destruct g; [eapply holds_incl; [|exact Q1]; eauto using incl_tran| |]; intros x y I1 I2; apply Q1; auto.
    + edestruct IH1 as (su1 & X1 & A1 & K1 & Q1); eauto using holds_incl.
      exists su1. split; [econstructor; [apply (Vr _ _ _ K Hp Ha Ec)|exact X1]|]. split; auto. split; auto.
      destruct g; [eapply holds_incl; [|exact Q1]; eauto using incl_tran| |]; intros x y I1 I2; apply Q1; auto.
  - (* while end *) intros P s' P' su C T K Hp Ha. inversion C; subst.
    match goal with R : rel _ _ _ |- _ => pose proof R as (Tr & Kr & Vr) end.
    assert (Hp' : holds P' st) by (eapply holds_incl; [|exact Hp]; assumption).
    exists su. split; [constructor; apply (Vr _ _ _ K Hp' Ha Ec)|]. auto.
  - (* while step *) intros P s' P' su C T K Hp Ha. pose proof T as (Tc & Kc & Tb). inversion C; subst.
    match goal with R : rel _ _ _ |- _ => pose proof R as (Tr & Kr & Vr) end.
    assert (Hp' : holds P' st) by (eapply holds_incl; [|exact Hp]; assumption).
    edestruct IH1 as (su1 & X1 & A1 & K1 & Q1); eauto.
    assert (Hp1 : holds P' st1).
    { destruct g; [eapply holds_incl; [|exact Q1]; assumption| |congruence]. intros x y Hin. apply Q1; auto. }
    destruct (IH2 P' (SWhile c' b') P' su1) as (su2 & X2 & A2 & K2 & Q2); auto.
    { econstructor; eauto using incl_refl. }
    exists su2. split; [eapply X_while; eauto; apply (Vr _ _ _ K Hp' Ha Ec)|]. auto.
  - (* while break *) intros P s' P' su C T K Hp Ha. pose proof T as (Tc & Kc & Tb). inversion C; subst.
    match goal with R : rel _ _ _ |- _ => pose proof R as (Tr & Kr & Vr) end.
    assert (Hp' : holds P' st) by (eapply holds_incl; [|exact Hp]; assumption).
    edestruct IH1 as (su1 & X1 & A1 & K1 & Q1); eauto.
    exists su1. split; [eapply X_while_break; eauto; apply (Vr _ _ _ K Hp' Ha Ec)|]. split; auto. split; auto.
    intros x y Hin. apply Q1; auto.
  - (* for *) intros P s' P' su C T K Hp Ha. destruct T as (-> & Kt & T1 & T2 & T3 & T4 & T5 & T6 & T7). inversion C; subst.
    match goal with R : rel _ start _ |- _ => pose proof R as (Tr & Kr & Vr) end.
    assert (Hp' : holds P' st) by (eapply holds_incl; [|exact Hp]; assumption).
    assert (Hkv : has_kind (ty x) v) by (rewrite <- T2; eapply value_kind; eauto).
    edestruct IH1 with (st1 := set_var x v su) as (su1 & X1 & A1 & K1 & Q1); eauto.
    + apply kinded_set; auto.
    + intros a b0 Hin. cbn. match goal with H : forall a b, In (a, b) P' -> _ |- _ => destruct (H _ _ Hin) as (Na & Nb) end.
      apply Nat.eqb_neq in Na, Nb. rewrite Na, Nb. auto.
    + apply agree_set; auto.
    + exists su1. split; [econstructor; [apply (Vr _ _ _ K Hp' Ha Es)|exact X1]|]. auto.
  - (* loop end *) intros P0 stop' inc' b' P1 su Tb -> Kt T1 T2 T3 T4 R1 R2 G N C I K Hp Ha.
    destruct (rel_lt P0 (ty x) x stop stop' eq_refl G T2 R1) as (_ & _ & Vl).
    exists su. split; [constructor; apply (Vl _ _ _ K Hp Ha Ec)|]. auto.
  - (* loop step *) intros P0 stop' inc' b' P1 su Tb -> Kt T1 T2 T3 T4 R1 R2 G N C I K Hp Ha.
    destruct (rel_lt P0 (ty x) x stop stop' eq_refl G T2 R1) as (_ & _ & Vl).
    assert (NB : ty x <> KBool) by (destruct Kt as (t & ->); discriminate).
    destruct (rel_inc P0 (ty x) x inc inc' eq_refl NB G T4 R2) as (_ & _ & Vi).
    edestruct IH1 as (su1 & X1 & A1 & K1 & Q1); eauto.
    assert (Hp1 : holds P0 st1).
    { destruct g; [eapply holds_incl; [|exact Q1]; assumption| |congruence]. intros a b0 Hin. apply Q1; auto. }
    assert (Hkv : has_kind (ty x) v).
    { assert (Ke : kind_of (EAdd (EVar (ty x) x) inc) = ty x) by (cbn; rewrite T4; apply max_kind_same).
      rewrite <- Ke. eapply value_kind; [exact K1| |exact Ei]. cbn. rewrite T4. auto. }
    edestruct IH2 with (st1 := set_var x v su1) as (su2 & X2 & A2 & K2 & Q2); eauto.
    + apply kinded_set; auto.
    + intros a b0 Hin. cbn. destruct (N _ _ Hin) as (Na & Nb).
      apply Nat.eqb_neq in Na, Nb. rewrite Na, Nb. auto.
    + apply agree_set; auto.
    + exists su2. split; [|auto]. eapply X_loop; [apply (Vl _ _ _ K Hp Ha Ec)|exact X1|exact Hg|apply (Vi _ _ _ K1 Hp1 A1 Ei)|exact X2].
  - (* loop break *) intros P0 stop' inc' b' P1 su Tb -> Kt T1 T2 T3 T4 R1 R2 G N C I K Hp Ha.
    destruct (rel_lt P0 (ty x) x stop stop' eq_refl G T2 R1) as (_ & _ & Vl).
    edestruct IH1 as (su1 & X1 & A1 & K1 & Q1); eauto.
    exists su1. split; [eapply X_loop_break; [apply (Vl _ _ _ K Hp Ha Ec)|exact X1]|]. split; auto. split; auto.
    intros a b0 Hin. apply Q1; auto.
  - (* continue *) intros P s' P' su C T K Hp Ha. inversion C; subst. exists su. split; [constructor|]. split; auto. split; auto.
    intros x y I1 I2. auto.
  - intros P s' P' su C T K Hp Ha. inversion C; subst. exists su. split; [constructor|]. split; auto. split; auto.
    intros x y I1 I2. auto.
Qed.
End Copy.
