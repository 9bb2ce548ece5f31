(** Copy propagation and the removal of declarations are related to the program by
    [cpr]; their results are well formed. *)
From Coq Require Import List ZArith Lia Bool Relations.
From Verif Require Import Outcome Types TypesProofs Simplify SimplifySpec SimplifyProofs SimplifyStmt SimplifyStmtSpec
  SimplifyStmtExpr SimplifyStmtCopy SimplifyStmtMaps SimplifyStmtCp.
Import ListNotations.
Local Open Scope nat_scope.

Section Cpr.
Variable F : Type.
Variable call : nat -> bool.
Variable FL : flits F.
Variable FO : fops F.
Variable M : Type.
Variable op1 : M -> kind -> nat -> value F -> option (value F).
Variable op2 : M -> kind -> nat -> value F -> value F -> option (value F).
Variable cast : kind -> value F -> option (value F).
Hypothesis TO : forall m, typed_operations (op1 m) (op2 m) cast FL.
Hypothesis LAW : float_laws FO FL.
Variable ty : nat -> kind.
Notation expr := (expr F).
Notation stmt := (stmt F).
Notation value_in := (value_in F FO M op1 op2 cast).
Variable S0 : stmt.
Variable L N : list nat.
Notation cp := (cp FL L).
Notation copies := (copies FL S0).
Notation part := (part F ty S0).
Notation inv_st := (inv_st F FL ty S0 L).
Notation inv := (inv F FL ty S0 L).
Notation is_declared := (is_declared F S0).
Hypothesis once : forall x id e id' e', In (id, x, e) (decls S0) -> In (id', x, e') (decls S0) -> id = id'.
Hypothesis fresh_copies : no_stale_copy FL S0.
Hypothesis raw_ok : no_raw_copy FL S0.
Hypothesis loop_vars : forall l v, In l (loops S0) -> In v (assigned l) -> ~ In v (bound l) -> is_declared v -> In v L.

Definition gone (x : nat) : Prop := exists id e, In (id, x, e) (decls S0) /\ ~ In id N.
Notation rel := (rel F FO M op1 op2 cast ty gone).
Notation cpr := (cpr F FO M op1 op2 cast ty gone).
Notation agree := (agree F M gone).

Lemma marked G st (e : expr) x : inv_st G st -> In x G -> In x (evars (subst (replace_ st) e)) ->
  incl (needed (mark e st)) N -> ~ gone x.
Proof.
  intros I Hx He Hn (id & e0 & Hd & NN). apply NN. apply Hn. cbn. apply in_or_app. left. unfold ids.
  apply in_flat_map. exists x. split; auto. rewrite (i_declared _ _ _ _ _ _ _ _ _ I _ _ _ Hd Hx). left. reflexivity.
Qed.
Lemma not_declared_gone x : ~ is_declared x -> ~ gone x.
Proof. intros H (id & e & Hd & _). apply H. exists id, e. auto. Qed.

(** Renaming preserves the value when the copies are equal. *)
Lemma subst_value m (st : state F M) (e : expr) : (forall x k y, get x m = Some (k, y) -> k = ty x /\ ty y = ty x) ->
  typed ty e -> (forall x k y, In x (evars e) -> get x m = Some (k, y) -> fst st x = fst st y) ->
  value_in st (subst m e) = value_in st e.
Proof.
  intros K T. unfold SimplifyStmtSpec.value_in, evars.
  assert (SK : forall a : expr, typed ty a -> kind_of (subst m a) = kind_of a) by (intros; apply (subst_kind ty); auto).
  induction e as [l|k x|a IHa|a IHa b IHb|a IHa b IHb|a IHa b IHb|a IHa b IHb|a IHa b IHb|a IHa b IHb|k a IHa|k o a IHa|k o a IHa b IHb];
    cbn [subst occurs map]; intro H; auto.
  2: { destruct T. cbn [eval]. rewrite IHa, SK; auto. }
  1: { destruct (get x m) as [[k' y]|] eqn:E; auto. cbn. f_equal. symmetry. eapply H; cbn; eauto. }
  all: rewrite ?map_app in H; cbn [eval].
  all: try (destruct T as (Ta & Tb & Tc)).
  all: cbn [kind_of]; rewrite ?SK by auto.
  all: rewrite ?IHa, ?IHb; auto; intros; eapply H; eauto; apply in_or_app; auto.
Qed.

Definition within_map (P : list (nat * nat)) (m : smap (kind * nat)) : Prop :=
  forall x y, In (x, y) P -> exists k, In (x, (k, y)) (concat m).
Definition covers (P : list (nat * nat)) (m : smap (kind * nat)) (xs : list nat) : Prop :=
  forall x k y, In x xs -> In (x, (k, y)) (concat m) -> In (x, y) P.
Lemma covers_incl P m xs ys : covers P m ys -> incl xs ys -> covers P m xs.
Proof. intros C I x k y H. apply C. auto. Qed.

Lemma expr_rel G st (e e' : expr) P : inv_st G st -> typed ty e -> within G e -> covers P (replace_ st) (evars e) ->
  incl (needed (mark e st)) N -> simplify_expr FL (subst (replace_ st) e) = Done e' ->
  rel P e e'.
Proof.
  intros I T W C Hn E. pose proof (inv_m_kind _ _ _ _ _ _ _ _ _ I) as MK.
  destruct (cp_keeps _ _ _ _ _ _ _ _ _ _ _ I T E) as (T' & K' & O').
  split; [exact T'|]. split; [rewrite K'; apply (subst_kind ty); auto|].
  intros st1 st2 v Kd Hp Ha Ev.
  assert (E1 : value_in st1 (subst (replace_ st) e) = Some v).
  { rewrite subst_value; auto. intros x k y Hx Hg. apply Hp. apply (C x k y); auto. apply get_in. auto. }
  assert (E2 : value_in st1 e' = Some v).
  { pose proof (subst_typed ty (replace_ st) MK e T) as Ts. unfold simplify_expr in E.
    assert (Wt : well_typed (fst st1) (subst (replace_ st) e)) by (eapply typed_wt; eauto).
    destruct (simp_ok F FL FO (fst st1) (op1 (snd st1)) (op2 (snd st1)) cast (TO _) LAW _ _ _ Wt E) as (_ & _ & V).
    apply V. exact E1. }
  rewrite <- E2. symmetry. apply value_ext; [apply Ha|]. intros x Hx. apply Ha.
  assert (Hx' : In x (evars (subst (replace_ st) e))).
  { unfold evars in Hx |- *. apply in_map_iff in Hx as (p & <- & Hp'). apply in_map. auto. }
  eapply marked; eauto. eapply subst_within; eauto.
Qed.
Lemma exprs_rel G P : forall es st es' st', inv_st G st -> Forall (typed ty) es -> Forall (within G) es ->
  covers P (replace_ st) (flat_map evars es) -> cp_exprs FL es st = Val (es', st') -> incl (needed st') N ->
  Forall2 (rel P) es es'.
Proof.
  induction es as [|e es IH]; cbn [cp_exprs flat_map]; intros st es' st' I T W C E Hn; [injection E as <- <-; constructor|].
  destruct (cp_expr FL e st) as [[e1 st1]| |] eqn:E1; try discriminate. cbn [obind] in E.
  destruct (cp_exprs FL es st1) as [[es1 st2]| |] eqn:E2; try discriminate. injection E as <- <-.
  apply cp_expr_inv in E1 as (Es & ->). inversion T; subst. inversion W; subst.
  pose proof (cp_exprs_inv _ _ _ _ _ _ E2) as (_ & _ & _ & Hn2).
  constructor.
  - eapply expr_rel; eauto.
    + eapply covers_incl; eauto. apply incl_appl, incl_refl.
    + eapply incl_tran; eauto.
  - eapply (IH (mark e st)); eauto. eapply covers_incl; eauto. apply incl_appr, incl_refl.
Qed.
(** The operands that are not rewritten. *)
Lemma subst_none m (e : expr) : (forall x, In x (evars e) -> get x m = None) -> subst m e = e.
Proof.
  unfold evars.
  induction e as [l|k x|a IHa|a IHa b IHb|a IHa b IHb|a IHa b IHb|a IHa b IHb|a IHa b IHb|a IHa b IHb|k a IHa|k o a IHa|k o a IHa b IHb];
    cbn [subst occurs map]; intro H; auto; rewrite ?map_app in H; rewrite ?IHa, ?IHb; auto;
    try (intros; apply H; apply in_or_app; auto; fail).
  rewrite H; [reflexivity|left; reflexivity].
Qed.
Lemma copies_copy x y : copies x y -> exists z, copy FL S0 x z.
Proof. induction 1; eauto. Qed.
Lemma raw_none G st (e : expr) x : inv_st G st -> In e (raws S0) -> In x (evars e) -> get x (replace_ st) = None.
Proof.
  intros I He Hx. destruct (get x (replace_ st)) as [[k y]|] eqn:E; auto. exfalso. apply get_in in E.
  apply (i_dep _ _ _ _ _ _ _ _ _ I) in E. apply (i_copy _ _ _ _ _ _ _ _ _ I) in E. apply copies_copy in E as (z & Hz).
  exact (raw_ok _ _ _ He Hx Hz).
Qed.
Lemma raws_rel G P : forall es st es' st', inv_st G st -> incl es (raws S0) -> Forall (typed ty) es -> Forall (within G) es ->
  cp_exprs FL es st = Val (es', st') -> incl (needed st') N -> Forall2 (rel P) es es.
Proof.
  induction es as [|e es IH]; cbn [cp_exprs]; intros st es' st' I R T W E Hn; [constructor|].
  destruct (cp_expr FL e st) as [[e1 st1]| |] eqn:E1; try discriminate. cbn [obind] in E.
  destruct (cp_exprs FL es st1) as [[es1 st2]| |] eqn:E2; try discriminate. injection E as <- <-.
  apply cp_expr_inv in E1 as (Es & ->). inversion T; subst. inversion W; subst.
  pose proof (cp_exprs_inv _ _ _ _ _ _ E2) as (_ & _ & _ & Hn2).
  constructor.
  - split; [auto|]. split; [auto|]. intros st1 s2 v Kd Hp Ha Ev. rewrite <- Ev. symmetry. apply value_ext; [apply Ha|].
    intros x Hx. apply Ha. eapply (marked G st e); eauto.
    + rewrite subst_none; auto. intros y Hy. eapply raw_none; eauto. apply R. left. auto.
    + eapply incl_tran; eauto.
  - eapply (IH (mark e st)); eauto. intros y Hy. apply R. right. auto.
Qed.

Lemma pick P (m : smap (kind * nat)) (D : list nat) : exists P', forall x y,
  In (x, y) P' <-> (exists k, In (x, (k, y)) (concat m)) /\ (In (x, y) P \/ In x D).
Proof.
  exists (filter (fun p => existsb (fun q => (fst q =? fst p) && (snd q =? snd p)) P || existsb (Nat.eqb (fst p)) D)
                 (map (fun p => (fst p, snd (snd p))) (concat m))).
  intros x y. rewrite filter_In, in_map_iff, orb_true_iff, !existsb_exists. cbn. split.
  - intros (([x' [k y']] & [= -> ->] & H) & HH). split; [exists k; exact H|]. destruct HH as [([a b] & Hab & E)|(d & Hd & E)].
    + cbn in E. apply andb_true_iff in E as [E1 E2]. apply Nat.eqb_eq in E1, E2. subst. auto.
    + apply Nat.eqb_eq in E. subst. auto.
  - intros ((k & H) & HH). split; [exists (x, (k, y)); auto|]. destruct HH as [H'|H'].
    + left. exists (x, y). cbn. rewrite !Nat.eqb_refl. auto.
    + right. exists x. rewrite Nat.eqb_refl. auto.
Qed.
Lemma remove_cons necessary (a b : stmt) : remove_decls call necessary (cons_ a b) = cons_ (remove_decls call necessary a) (remove_decls call necessary b).
Proof. destruct a; reflexivity. Qed.
Lemma mem_in x l : mem x l = true <-> In x l.
Proof. unfold mem. rewrite existsb_exists. split; [intros (y & H & E); apply Nat.eqb_eq in E; subst; auto|intro; exists x; rewrite Nat.eqb_refl; auto]. Qed.

(** Copies read in a loop survive it. *)
Lemma survives G l st st' : inv_st G st -> In l (loops S0) -> (forall x, In x (bound l) -> ~ In x G) ->
  (forall p, In p (concat (replace_ st)) -> In p (concat (replace_ st')) \/ exists v, In v (assigned l) /\ (fst p = v \/ copies (fst p) v)) ->
  forall x k y, In x (reads l) -> In (x, (k, y)) (concat (replace_ st)) -> In (x, (k, y)) (concat (replace_ st')).
Proof.
  intros I Hl Fr Kill x k y Hx H. destruct (Kill _ H) as [?|(v & Hv & Hk)]; auto. exfalso. cbn in Hk.
  assert (NB : ~ In x (bound l)) by (intro Hb; apply (Fr _ Hb); eapply proj1, (i_scope _ _ _ _ _ _ _ _ _ I _ _ _ H)).
  destruct Hk as [->|Hk].
  - apply (i_loop _ _ _ _ _ _ _ _ _ I _ _ _ H). eapply loop_vars; eauto. eapply (i_decl _ _ _ _ _ _ _ _ _ I); eauto.
  - exact (fresh_copies _ _ _ Hl Hx NB Hk Hv).
Qed.

Ltac ostep E H := match type of E with obind ?o _ = _ => destruct o as [[? ?]| |] eqn:H; cbn [obind] in E; try discriminate end.
Ltac steps := eapply (cp_step F FL ty S0 L once); eassumption.

Theorem cp_cpr : forall s G st s' st' P, part G s -> inv_st G st -> cp s st = Val (s', st') -> incl (needed st') N ->
  within_map P (replace_ st) -> covers P (replace_ st) (reads s) ->
  exists P', cpr P s (remove_decls call N s') P' /\
    forall x y, In (x, y) P' <-> (exists k, In (x, (k, y)) (concat (replace_ st'))) /\ (In (x, y) P \/ In x (declares s)).
Proof.
  induction s as [id k x e|k x e|o args raw| |a IHa b IHb|a IHa|c a IHa b IHb|c b IHb|k x e1 e2 e3 b IHb| |];
    intros G st s' st' P Pt I E Hn WM Cv; pose proof (cp_step F FL ty S0 L once _ _ _ _ _ Pt I E) as ST; cbn [SimplifyStmt.cp] in E.
  - (* declaration *)
    destruct (pick P (replace_ st') (declares (SDecl id k x e))) as (P' & HP). exists P'. split; [|exact HP].
    pose proof (p_typed _ _ _ _ _ Pt) as T. cbn in T. destruct T as (Te & Ek & Ke). pose proof (p_scoped _ _ _ _ _ Pt) as W. cbn in W.
    assert (NG : ~ In x G) by (apply (p_fresh _ _ _ _ _ Pt); cbn; auto).
    assert (Dx : In (id, x, e) (decls S0)) by (apply (p_decls _ _ _ _ _ Pt); cbn; auto).
    ostep E E1. apply cp_expr_inv in E1 as (Es & ->).
    assert (Es' : s' = SDecl id k x e0) by congruence.
    assert (Em : st' = CS (replace_ st') (declared st') (depends st') (needed (mark e st))).
    { injection E as _ <-. destruct e0; cbn; auto. destruct (is_int k && negb (mem x L)); reflexivity. }
    assert (HN : incl (needed (mark e st)) N) by (rewrite Em in Hn; exact Hn).
    assert (R : rel P e e0) by (eapply expr_rel; eauto).
    assert (HP' : forall a b, In (a, b) P' -> (a <> x /\ b <> x /\ In (a, b) P) \/ (a = x /\ b <> x /\ ~ gone b /\ exists k, e0 = EVar k b)).
    { intros a b Hin. apply HP in Hin as ((ka & Hin) & Hd).
      assert (OLD : In (a, (ka, b)) (concat (replace_ st)) -> (a <> x /\ b <> x /\ In (a, b) P)).
      { intro H. destruct (i_scope _ _ _ _ _ _ _ _ _ I _ _ _ H) as (Ga & Gb).
        split; [intros ->; auto|]. split; [intros ->; auto|]. destruct Hd as [Hd|[<-|[]]]; auto. contradiction. }
      assert (CASE : In (a, (ka, b)) (concat (replace_ st)) \/ (a = x /\ exists k, e0 = EVar k b)).
      { injection E as _ <-. destruct e0; cbn [replace_ mark] in Hin; auto.
        destruct (is_int k && negb (mem x L)); cbn [replace_] in Hin; auto.
        destruct (replace_ st) as [|f r]; cbn in Hin; auto. destruct (assoc x f); cbn in Hin; auto.
        destruct Hin as [[= <- <- <-]|Hin]; auto. right. eauto. }
      destruct CASE as [H|(-> & kb & ->)]; [left; auto|right].
      assert (Gb : In b (evars (subst (replace_ st) e))).
      { pose proof (keeps_evars _ _ _ _ (cp_keeps _ _ _ _ _ _ _ _ _ _ _ I Te Es)) as KE. apply KE. cbn. auto. }
      assert (Gb' : In b G) by (eapply subst_within; eauto).
      split; auto. split; [intros ->; auto|]. split; [|eauto]. eapply marked; eauto. }
    rewrite Es'. cbn [remove_decls]. destruct (is_call call e0 || mem id N) eqn:C.
    + eapply R_decl; eauto.
    + eapply R_drop; eauto. exists id, e. split; auto. intro H. apply mem_in in H. rewrite H, orb_true_r in C. discriminate.
  - (* assignment *)
    destruct (pick P (replace_ st') (declares (SAssign k x e))) as (P' & HP). exists P'. split; [|exact HP].
    pose proof (p_typed _ _ _ _ _ Pt) as T. cbn in T. destruct T as (Te & Ek & Ke). pose proof (p_scoped _ _ _ _ _ Pt) as W. cbn in W. destruct W as (Wx & We).
    ostep E E1. apply cp_expr_inv in E1 as (Es & ->).
    set (st1 := CS _ _ _ _) in E.
    assert (Q : s' = SAssign k x e0 /\ needed st' = needed st1 /\
                forall a ka b, In (a, (ka, b)) (concat (replace_ st')) -> In (a, (ka, b)) (concat (replace_ st)) /\ a <> x /\ b <> x).
    { destruct (is_int k) eqn:Ei.
      - match type of E with obind ?o _ = _ => destruct o as [m'| |] eqn:Em; cbn [obind] in E; try discriminate end.
        injection E as <- <-. split; auto. split; auto. cbn [replace_]. intros a ka b Hin. cbn [st1 depends replace_ mark] in Em.
        assert (H0 : In (a, (ka, b)) (concat (replace_ st))) by (eapply sub_in; [eapply invalidate_sub; exact Em|exact Hin]).
        assert (Hk : In a (keys m')) by (apply (in_map fst) in Hin; exact Hin).
        split; auto. split.
        + intros ->. eapply (invalidate_gone _ _ _ _ _ Em (i_nodup _ _ _ _ _ _ _ _ _ I)); [left; reflexivity|exact Hk].
        + intros ->. eapply (invalidate_gone_deps _ _ _ _ _ Em (i_nodup _ _ _ _ _ _ _ _ _ I)); [left; reflexivity| |exact Hk].
          eapply i_dep; eauto.
      - injection E as <- <-. split; auto. split; auto. intros a ka b Hin. change (In (a, (ka, b)) (concat (replace_ st))) in Hin.
        destruct (i_kind _ _ _ _ _ _ _ _ _ I _ _ _ Hin) as (_ & K1 & K2). split; auto. split; intros ->; congruence. }
    destruct Q as (-> & Hneed & HQ). rewrite Hneed in Hn.
    assert (HN : incl (needed (mark e st)) N).
    { eapply incl_tran; [|exact Hn]. unfold st1. cbn. destruct (get x (declared st)); [apply incl_tl|]; apply incl_refl. }
    cbn [remove_decls]. apply R_assign.
    + eapply expr_rel; eauto.
    + intros (id & ed & Hd & NN). apply NN. apply Hn. unfold st1. cbn.
      rewrite (i_declared _ _ _ _ _ _ _ _ _ I _ _ _ Hd Wx). left. reflexivity.
    + intros a b Hin. apply HP in Hin as ((ka & Hin) & Hd). destruct (HQ _ _ _ Hin) as (_ & A & B). split; auto. split; auto.
      destruct Hd as [Hd|[]]; auto.
  - (* effect *)
    pose proof (p_typed _ _ _ _ _ Pt) as (Ta & Tr). pose proof (p_scoped _ _ _ _ _ Pt) as (Wa & Wr).
    ostep E E1. ostep E E2. injection E as <- <-.
    pose proof (cp_exprs_inv _ _ _ _ _ _ E1) as (A1 & A2 & A3 & A4). pose proof (cp_exprs_inv _ _ _ _ _ _ E2) as (B1 & B2 & B3 & B4).
    exists P. split.
    + cbn [remove_decls]. constructor.
      * eapply (exprs_rel G P _ c); eauto.
        -- unfold SimplifyStmtCp.inv_st. rewrite A1, A2, A3. exact I.
        -- rewrite A1. eapply covers_incl; eauto. cbn. apply incl_appl, incl_refl.
      * eapply raws_rel; eauto; [|eapply incl_tran; eauto]. eapply incl_tran; [|exact (p_raws _ _ _ _ _ Pt)]. apply incl_refl.
    + intros x y. rewrite B1, A1. cbn. split; [intro H; split; auto|]. intros (_ & [H|[]]); auto.
  - injection E as <- <-. exists P. split; [constructor|]. intros x y. cbn. split; [intro H; split; auto|]. intros (_ & [H|[]]); auto.
  - (* block *)
    ostep E E1. ostep E E2. injection E as <- <-. pose proof (part_cons _ _ _ _ _ _ Pt) as (Pa & Pb).
    pose proof (cp_step F FL ty S0 L once _ _ _ _ _ Pa I E1) as Ta.
    pose proof (cp_step F FL ty S0 L once _ _ _ _ _ Pb (t_inv _ _ _ _ _ _ _ _ _ Ta) E2) as Tb.
    pose proof (step_entries _ _ _ _ _ _ _ _ _ I Ta) as Ea.
    pose proof (step_entries _ _ _ _ _ _ _ _ _ (t_inv _ _ _ _ _ _ _ _ _ Ta) Tb) as Eb.
    destruct (IHa _ _ _ _ P Pa I E1) as (P1 & R1 & H1); auto.
    { eapply incl_tran; [apply Tb|exact Hn]. }
    { eapply covers_incl; eauto. cbn. apply incl_appl, incl_refl. }
    destruct (IHb _ _ _ _ P1 Pb (t_inv _ _ _ _ _ _ _ _ _ Ta) E2) as (P2 & R2 & H2); auto.
    { intros x y H. apply H1 in H. tauto. }
    { intros x kx y Hx H. apply H1. split; [eauto|]. destruct (Ea _ H) as [H'|H']; [left|right; auto].
      eapply Cv; eauto. cbn. apply in_or_app. auto. }
    exists P2. split.
    + rewrite remove_cons. eapply R_cons; eauto. intros [x y] I1 I2. apply H2 in I2 as ((kx & I2) & [I3|I3]); auto.
      exfalso. destruct (WM _ _ I1) as (k' & Hm). destruct (i_scope _ _ _ _ _ _ _ _ _ I _ _ _ Hm) as (Gx & _).
      apply (p_fresh _ _ _ _ _ Pt x); auto. cbn. apply in_or_app. right. apply declares_bound. auto.
    + intros x y. rewrite H2, H1. cbn. rewrite in_app_iff. split.
      * intros (Hm & [(_ & [?|?])|?]); auto.
      * intros ((kx & Hm) & Hd). split; [eauto|]. destruct (Eb _ Hm) as [Hm1|Hb]; [|right; auto].
        destruct Hd as [Hd|[Hd|Hd]]; eauto 6.
  - (* scope *)
    ostep E E1. injection E as <- <-. pose proof (part_scope _ _ _ _ _ Pt) as Pa.
    destruct (IHa _ _ _ _ P Pa (inv_enter _ _ _ _ _ _ _ I) E1) as (P1 & R1 & H1); auto.
    destruct (pick P (replace_ (leave c)) []) as (P2 & H2). exists P2. split.
    + cbn [remove_decls]. eapply R_scope; eauto. intros [x y] Hin. apply H2 in Hin as ((kx & Hm) & [Hp|[]]). apply H1. split; auto.
      exists kx. cbn in Hm. destruct (replace_ c); [contradiction|]. cbn in Hm |- *. apply in_or_app. auto.
    + exact H2.
  - (* if *)
    pose proof (p_typed _ _ _ _ _ Pt) as T. cbn in T. destruct T as (Tc & _). pose proof (p_scoped _ _ _ _ _ Pt) as W. cbn in W. destruct W as (Wc & _).
    ostep E E0. apply cp_expr_inv in E0 as (Es & ->). ostep E E1. ostep E E2. injection E as <- <-.
    rename e into c', s into a', s0 into b'. 
    destruct (part_if _ _ _ _ _ _ _ Pt) as (Pa & Pb).
    assert (I0 : inv_st G (mark c st)) by exact I.
    pose proof (cp_step F FL ty S0 L once _ _ _ _ _ Pa (inv_enter _ _ _ _ _ _ _ I0) E1) as Ta.
    destruct (leave_ok _ _ _ _ _ G G a (SScope a) _ _ I0 (incl_refl _) ltac:(intros x Hx; apply (p_fresh _ _ _ _ _ Pa); apply declares_bound; auto) eq_refl (incl_refl _) Ta) as (La & Sa & _).
    pose proof (t_inv _ _ _ _ _ _ _ _ _ La) as I1. cbn [declares app] in I1.
    pose proof (cp_step F FL ty S0 L once _ _ _ _ _ Pb (inv_enter _ _ _ _ _ _ _ I1) E2) as Tb.
    destruct (leave_ok _ _ _ _ _ G G b (SScope b) _ _ I1 (incl_refl _) ltac:(intros x Hx; apply (p_fresh _ _ _ _ _ Pb); apply declares_bound; auto) eq_refl (incl_refl _) Tb) as (Lb & Sb & _).
    assert (N1 : incl (needed c0) N) by (eapply incl_tran; [|exact Hn]; apply (t_needed _ _ _ _ _ _ _ _ _ Tb)).
    assert (N0 : incl (needed (mark c st)) N) by (eapply incl_tran; [|exact N1]; apply (t_needed _ _ _ _ _ _ _ _ _ Ta)).
    destruct (IHa _ _ _ _ P Pa (inv_enter _ _ _ _ _ _ _ I0) E1) as (P1 & R1 & H1); auto.
    { eapply covers_incl; [exact Cv|]. cbn. apply incl_appr, incl_appl, incl_refl. }
    destruct (pick P (replace_ (leave c0)) []) as (P2 & H2).
    destruct (IHb _ _ _ _ P2 Pb (inv_enter _ _ _ _ _ _ _ I1) E2) as (P3 & R3 & H3); auto.
    { intros x y H. apply H2 in H. tauto. }
    { intros x kx y Hx H. apply H2. split; [exists kx; exact H|]. left. apply (Cv x kx y); [cbn; rewrite !in_app_iff; auto|]. eapply sub_in; [exact Sa|exact H]. }
    destruct (pick P (replace_ (leave c1)) []) as (P4 & H4). exists P4. split; [|exact H4]. cbn [remove_decls].
    assert (C2 : forall x y, In (x, y) P4 -> In (x, y) P2).
    { intros x y H. apply H4 in H as ((kx & Hm) & [Hp|[]]). apply H2. split; auto. exists kx. eapply sub_in; [exact Sb|exact Hm]. }
    eapply R_if with (P1 := P1) (P2 := P2) (P3 := P3).
    + eapply (expr_rel G st); eauto. eapply covers_incl; [exact Cv|]. cbn. apply incl_appl, incl_refl.
    + exact R1.
    + intros [x y] H. apply H2 in H as ((kx & Hm) & [Hp|[]]). apply H1. split; auto.
      exists kx. cbn in Hm. destruct (replace_ c0); [contradiction|]. cbn in Hm |- *. apply in_or_app. auto.
    + intros [x y] H. apply H2 in H as (_ & [H|[]]). exact H.
    + exact R3.
    + intros [x y] H. pose proof (C2 _ _ H) as H'. apply H4 in H as ((kx & Hm) & _). apply H3. split; auto.
      exists kx. cbn in Hm. destruct (replace_ c1); [contradiction|]. cbn in Hm |- *. apply in_or_app. auto.
    + intros [x y]. apply C2.
  - (* while *)
    pose proof (p_typed _ _ _ _ _ Pt) as T. cbn in T. destruct T as (Tc & _). pose proof (p_scoped _ _ _ _ _ Pt) as W. cbn in W. destruct W as (Wc & _).
    ostep E E0. apply cp_expr_inv in E0 as (Es & ->). ostep E E1. injection E as <- <-.
    pose proof (part_while _ _ _ _ _ _ Pt) as Pb.
    assert (I0 : inv_st G (mark c st)) by exact I.
    pose proof (cp_step F FL ty S0 L once _ _ _ _ _ Pb (inv_enter _ _ _ _ _ _ _ I0) E1) as Tb.
    assert (N0 : incl (needed (mark c st)) N) by (eapply incl_tran; [|exact Hn]; apply (t_needed _ _ _ _ _ _ _ _ _ Tb)).
    pose proof (survives G (SWhile c b) st (leave c0) I ltac:(apply (p_loops _ _ _ _ _ Pt); cbn; auto) (p_fresh _ _ _ _ _ Pt) (t_killed _ _ _ _ _ _ _ _ _ ST)) as Sv.
    destruct (pick P (replace_ (leave c0)) []) as (P0 & H0).
    assert (C0 : covers P0 (replace_ st) (reads (SWhile c b))).
    { intros x kx y Hx H. apply H0. split; [exists kx; eapply Sv; eauto|left; eapply Cv; eauto]. }
    destruct (IHb _ _ _ _ P0 Pb (inv_enter _ _ _ _ _ _ _ I0) E1) as (P1 & R1 & H1); auto.
    { intros x y H. apply H0 in H as (_ & [H|[]]). apply WM in H. exact H. }
    { eapply covers_incl; [exact C0|]. cbn. apply incl_appr, incl_refl. }
    exists P0. split; [|exact H0]. cbn [remove_decls]. eapply R_while with (P1 := P1).
    + intros [x y] H. apply H0 in H as (_ & [H|[]]). exact H.
    + eapply (expr_rel G st); eauto. eapply covers_incl; [exact C0|]. cbn. apply incl_appl, incl_refl.
    + exact R1.
    + intros [x y] H. apply H1. split; [|auto]. apply H0 in H as ((kx & Hm) & _). exists kx.
      cbn in Hm. destruct (replace_ c0); [contradiction|]. cbn in Hm |- *. apply in_or_app. auto.
  - (* for *)
    pose proof (p_typed _ _ _ _ _ Pt) as T. cbn in T. destruct T as (Ek & Kt & T1 & K1 & T2 & K2 & T3 & K3 & Tb0).
    pose proof (p_scoped _ _ _ _ _ Pt) as W. cbn in W. destruct W as (W1 & W2 & W3 & _).
    ostep E E0. apply cp_expr_inv in E0 as (Es0 & ->). ostep E E1. apply cp_expr_inv in E1 as (Es1 & ->).
    ostep E E2. apply cp_expr_inv in E2 as (Es2 & ->). ostep E E3. apply cp_expr_inv in E3 as (Es3 & ->).
    ostep E E4. injection E as <- <-.
    destruct (part_for _ _ _ _ _ _ _ _ _ _ Pt) as (Pb & Nx & Dx).
    set (st1 := mark (EVar k x) st) in *. set (st2 := mark e1 st1) in *. set (st3 := mark e2 st2) in *. set (st4 := mark e3 st3) in *.
    assert (I0 : inv_st G st4) by exact I.
    assert (I1 : inv_st (x :: G) (enter st4)) by (apply inv_for; auto; apply (inv_enter _ _ _ _ _ _ _ I0)).
    pose proof (cp_step F FL ty S0 L once _ _ _ _ _ Pb I1 E4) as Tb.
    assert (N4 : incl (needed st4) N) by (eapply incl_tran; [|exact Hn]; apply (t_needed _ _ _ _ _ _ _ _ _ Tb)).
    assert (N3 : incl (needed st3) N) by (eapply incl_tran; [apply (needed_mark _ e3)|exact N4]).
    assert (N2 : incl (needed st2) N) by (eapply incl_tran; [apply (needed_mark _ e2)|exact N3]).
    pose proof (survives G (SFor k x e1 e2 e3 b) st (leave c) I ltac:(apply (p_loops _ _ _ _ _ Pt); cbn; auto) (p_fresh _ _ _ _ _ Pt) (t_killed _ _ _ _ _ _ _ _ _ ST)) as Sv.
    destruct (pick P (replace_ (leave c)) []) as (P0 & H0).
    assert (C0 : covers P0 (replace_ st) (reads (SFor k x e1 e2 e3 b))).
    { intros z kx y Hx H. apply H0. split; [exists kx; eapply Sv; eauto|left; eapply Cv; eauto]. }
    destruct (IHb _ _ _ _ P0 Pb I1 E4) as (P1 & R1 & H1); auto.
    { intros z y H. apply H0 in H as (_ & [H|[]]). apply WM in H. exact H. }
    { eapply covers_incl; [exact C0|]. cbn. repeat apply incl_appr. apply incl_refl. }
    exists P0. split; [|exact H0]. cbn [remove_decls]. eapply R_for with (P1 := P1).
    + intros [z y] H. apply H0 in H as (_ & [H|[]]). exact H.
    + eapply (expr_rel G st1); eauto. eapply covers_incl; [exact C0|]. cbn. apply incl_appl, incl_refl.
    + eapply (expr_rel G st2); eauto. eapply covers_incl; [exact C0|]. cbn. apply incl_appr, incl_appl, incl_refl.
    + eapply (expr_rel G st3); eauto. eapply covers_incl; [exact C0|]. cbn. apply incl_appr, incl_appr, incl_appl, incl_refl.
    + apply not_declared_gone; auto.
    + intros a b0 H. apply H0 in H as (_ & [H|[]]). apply WM in H as (ka & H). destruct (i_scope _ _ _ _ _ _ _ _ _ I _ _ _ H).
      split; intros ->; auto.
    + exact R1.
    + intros [z y] H. apply H1. split; [|auto]. apply H0 in H as ((kx & Hm) & _). exists kx.
      cbn in Hm. destruct (replace_ c); [contradiction|]. cbn in Hm |- *. apply in_or_app. auto.
  - injection E as <- <-. exists P. split; [constructor|]. intros x y. cbn. split; [intro H; split; auto|]. intros (_ & [H|[]]); auto.
  - injection E as <- <-. exists P. split; [constructor|]. intros x y. cbn. split; [intro H; split; auto|]. intros (_ & [H|[]]); auto.
Qed.
End Cpr.
