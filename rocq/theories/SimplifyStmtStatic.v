(** The program after copy propagation and the removal of declarations is well formed;
    the loop dependent variables contain those assigned by enclosing loops. *)
From Coq Require Import List ZArith Lia Bool Relations.
From Verif Require Import Outcome Types TypesProofs Simplify SimplifySpec SimplifyProofs SimplifyStmt SimplifyStmtSpec
  SimplifyStmtExpr SimplifyStmtCopy SimplifyStmtMaps SimplifyStmtCp SimplifyStmtCpr.
Import ListNotations.
Local Open Scope nat_scope.

(** *** Loop dependent variables. *)
Section LoopDep.
Variable F : Type.
Variable ty : nat -> kind.
Notation stmt := (stmt F).
Variable S0 : stmt.
Notation part := (part F ty S0).
Notation is_declared := (is_declared F S0).

Lemma ld_mono : forall (s : stmt) level st, incl (ld_vars st) (ld_vars (loop_dependent level s st)).
Proof.
  induction s as [id k x e|k x e|o args raw| |a IHa b IHb|a IHa|c a IHa b IHb|c b IHb|k x e1 e2 e3 b IHb| |]; cbn [loop_dependent bound assigned]; intros level st; try apply incl_refl; auto.
  - destruct (assoc x (ld_level st)); apply incl_refl.
  - destruct (assoc x (ld_level st)) as [l|]; try apply incl_refl. destruct (l <? level); [apply incl_tl|]; apply incl_refl.
  - eapply incl_tran; [apply IHa|apply IHb].
  - eapply incl_tran; [apply IHa|apply IHb].
  - eapply incl_tran; [|apply IHb]. cbn. apply incl_tl, incl_refl.
Qed.
Lemma ld_persist x l : forall (s : stmt) level st, assoc x (ld_level st) = Some l -> assoc x (ld_level (loop_dependent level s st)) = Some l.
Proof.
  induction s as [id k y e|k y e|o args raw| |a IHa b IHb|a IHa|c a IHa b IHb|c b IHb|k y e1 e2 e3 b IHb| |]; cbn [loop_dependent bound assigned]; intros level st H; auto.
  - destruct (assoc y (ld_level st)) eqn:E; auto. cbn. destruct (Nat.eqb_spec y x); auto. congruence.
  - destruct (assoc y (ld_level st)) as [l'|]; auto. destruct (l' <? level); auto.
Qed.
Lemma ld_keys x : forall (s : stmt) level st, ~ In x (bound s) -> assoc x (ld_level (loop_dependent level s st)) = assoc x (ld_level st).
Proof.
  induction s as [id k y e|k y e|o args raw| |a IHa b IHb|a IHa|c a IHa b IHb|c b IHb|k y e1 e2 e3 b IHb| |]; cbn [loop_dependent bound assigned]; intros level st H; auto.
  - destruct (assoc y (ld_level st)) eqn:E; auto. cbn. destruct (Nat.eqb_spec y x); auto. exfalso. apply H. left. auto.
  - destruct (assoc y (ld_level st)) as [l'|]; auto. destruct (l' <? level); auto.
  - rewrite IHb, IHa; auto; intro; apply H; apply in_or_app; auto.
  - rewrite IHb, IHa; auto; intro; apply H; apply in_or_app; auto.
  - rewrite IHb; auto. intro; apply H; right; auto.
Qed.
Lemma ld_assigned v l : forall (s : stmt) level st, assoc v (ld_level st) = Some l -> l < level -> In v (assigned s) ->
  In v (ld_vars (loop_dependent level s st)).
Proof.
  induction s as [id k y e|k y e|o args raw| |a IHa b IHb|a IHa|c a IHa b IHb|c b IHb|k y e1 e2 e3 b IHb| |]; cbn [loop_dependent bound assigned]; intros level st H Hl Hv; try contradiction; eauto.
  - destruct Hv as [->|[]]. rewrite H. destruct (Nat.ltb_spec l level); [|lia]. cbn. auto.
  - apply in_app_or in Hv as [Hv|Hv]; [apply ld_mono; eauto|]. apply IHb; auto. apply ld_persist. auto.
  - apply in_app_or in Hv as [Hv|Hv]; [apply ld_mono; eauto|]. apply IHb; auto. apply ld_persist. auto.
Qed.
Lemma assigned_scope : forall (s : stmt) G v, scoped G s -> In v (assigned s) -> ~ In v (bound s) -> In v G.
Proof.
  induction s as [id k y e|k y e|o args raw| |a IHa b IHb|a IHa|c a IHa b IHb|c b IHb|k y e1 e2 e3 b IHb| |]; cbn; intros G v S Hv Nb; try contradiction; eauto.
  - destruct Hv as [->|[]]. tauto.
  - destruct S as (S1 & S2). rewrite in_app_iff in Nb. apply in_app_or in Hv as [Hv|Hv]; [apply IHa; auto|].
    assert (H : In v (declares a ++ G)) by (apply IHb; auto). apply in_app_or in H as [H|H]; auto. exfalso. apply Nb. left. apply declares_bound. auto.
  - destruct S as (S0' & S1 & S2). rewrite in_app_iff in Nb. apply in_app_or in Hv as [Hv|Hv]; [apply IHa|apply IHb]; auto.
  - destruct S. apply IHb; auto.
  - destruct S as (_ & _ & _ & S). assert (H : In v (y :: G)) by (apply IHb; auto). destruct H; auto. exfalso. auto.
Qed.

Definition levels (G : list nat) (level : nat) (st : ldstate) : Prop :=
  forall x, In x G -> is_declared x -> exists l, l <= level /\ assoc x (ld_level st) = Some l.
Lemma ld_ok : forall s G level st, part G s -> levels G level st -> (forall x, In x (bound s) -> assoc x (ld_level st) = None) ->
  levels (declares s ++ G) level (loop_dependent level s st) /\
  forall l v, In l (loops s) -> In v (assigned l) -> ~ In v (bound l) -> is_declared v -> In v (ld_vars (loop_dependent level s st)).
Proof.
  assert (Keep : forall G level (s : stmt) lv st, levels G level st -> levels G level (loop_dependent lv s st)).
  { intros G level s lv st H x Hx Hd. destruct (H x Hx Hd) as (l & Hl & E). exists l. split; auto. apply ld_persist. auto. }
  induction s as [id k x e|k x e|o args raw| |a IHa b IHb|a IHa|c a IHa b IHb|c b IHb|k x e1 e2 e3 b IHb| |];
    intros G level st Pt Lv Fr; cbn [declares app loops]; try (split; [apply Keep; auto|intros ? ? []]; fail).
  - cbn [loop_dependent]. rewrite (Fr x) by (cbn; auto). split; [|intros ? ? []].
    intros y [<-|Hy] Hd.
    + exists level. cbn. rewrite Nat.eqb_refl. auto.
    + destruct (Lv y Hy Hd) as (l & Hl & E). exists l. split; auto. cbn. destruct (Nat.eqb_spec x y); auto.
      subst. rewrite (Fr y) in E by (cbn; auto). discriminate.
  - cbn [loop_dependent]. pose proof (part_cons _ _ _ _ _ _ Pt) as (Pa & Pb). pose proof (p_nodup _ _ _ _ _ Pt) as Nd. cbn in Nd, Fr.
    apply NoDup_app_inv in Nd as (_ & _ & Dj).
    destruct (IHa G level st Pa Lv) as (La & Va); [intros y Hy; apply Fr, in_or_app; auto|].
    destruct (IHb _ level _ Pb La) as (Lb & Vb).
    { intros y Hy. rewrite ld_keys; [apply Fr, in_or_app; auto|]. intro Ha. exact (Dj _ Ha Hy). }
    split.
    + intros y Hy. apply Lb. rewrite !in_app_iff in *. tauto.
    + intros l v Hl. apply in_app_or in Hl as [Hl|Hl]; eauto. intros. apply ld_mono. eauto.
  - pose proof (part_scope _ _ _ _ _ Pt) as Pa. destruct (IHa G level st Pa Lv Fr) as (La & Va). split; auto.
  - cbn [loop_dependent]. pose proof (part_if _ _ _ _ _ _ _ Pt) as (Pa & Pb). pose proof (p_nodup _ _ _ _ _ Pt) as Nd. cbn in Nd, Fr.
    apply NoDup_app_inv in Nd as (_ & _ & Dj).
    destruct (IHa G level st Pa Lv) as (La & Va); [intros y Hy; apply Fr, in_or_app; auto|].
    destruct (IHb G level (loop_dependent level a st) Pb) as (Lb & Vb).
    { apply Keep. exact Lv. }
    { intros y Hy. rewrite ld_keys; [apply Fr, in_or_app; auto|]. intro Ha. exact (Dj _ Ha Hy). }
    split; [apply Keep, Keep; exact Lv|]. intros l v Hl. apply in_app_or in Hl as [Hl|Hl]; eauto. intros. apply ld_mono. eauto.
  - cbn [loop_dependent]. pose proof (part_while _ _ _ _ _ _ Pt) as Pb.
    assert (Lv' : levels G (S level) st) by (intros y Hy Hd; destruct (Lv y Hy Hd) as (l & Hl & E); exists l; split; auto).
    destruct (IHb G (S level) st Pb Lv') as (Lb & Vb); auto.
    split; [apply Keep; exact Lv|]. intros l v [<-|Hl]; eauto. cbn. intros Hv Nb Hd.
    pose proof (assigned_scope _ _ _ (p_scoped _ _ _ _ _ Pb) Hv Nb) as HG. destruct (Lv v HG Hd) as (l & Hl & E).
    eapply ld_assigned; eauto. lia.
  - cbn [loop_dependent]. pose proof (part_for _ _ _ _ _ _ _ _ _ _ Pt) as (Pb & Nx & Dx).
    set (st0 := LD (x :: ld_vars st) (ld_level st)).
    assert (Lv0 : levels G level st0) by exact Lv.
    assert (Lv' : levels (x :: G) (S level) st0).
    { intros y [<-|Hy] Hd; [contradiction|]. destruct (Lv y Hy Hd) as (l & Hl & E). exists l. split; auto. }
    destruct (IHb (x :: G) (S level) st0 Pb Lv') as (Lb & Vb).
    { intros y Hy. apply Fr. cbn. auto. }
    split; [apply Keep; exact Lv0|]. intros l v [<-|Hl]; eauto. cbn. intros Hv Nb Hd.
    pose proof (assigned_scope _ _ _ (p_scoped _ _ _ _ _ Pb) Hv (fun H => Nb (or_intror H))) as [HG|HG]; [exfalso; auto|].
    destruct (Lv v HG Hd) as (l & Hl & E). eapply ld_assigned; eauto. lia.
Qed.
End LoopDep.

(** *** Well-formedness. *)
Section Static.
Variable F : Type.
Variable call : nat -> bool.
Variable FL : flits F.
Variable ty : nat -> kind.
Notation expr := (expr F).
Notation stmt := (stmt F).
Variable S0 : stmt.
Variable L N : list nat.
Notation cp := (cp FL L).
Notation part := (part F ty S0).
Notation inv_st := (inv_st F FL ty S0 L).
Notation inv := (inv F FL ty S0 L).
Notation is_declared := (is_declared F S0).
Hypothesis once : forall x id e id' e', In (id, x, e) (decls S0) -> In (id', x, e') (decls S0) -> id = id'.
Hypothesis fresh_copies : no_stale_copy FL S0.
Hypothesis raw_ok : no_raw_copy FL S0.
Hypothesis counts : forall l, In l (loops S0) -> countable ty l.
Notation gone := (gone F S0 N).

Definition kept (G H : list nat) : Prop := forall x, In x G -> ~ gone x -> In x H.
Record static (G : list nat) (s s' : stmt) : Prop := {
  s_assigned : assigned s' = assigned s;
  s_typed : styped ty s';
  s_scoped : forall H, kept G H -> scoped H s';
  s_declares : forall x, In x (declares s) -> ~ gone x -> In x (declares s');
  s_bound : incl (bound s') (bound s);
  s_nodup : NoDup (bound s');
  s_counting : counting s' -> counting s;
  s_assigns : forall x e', In (x, e') (assigns s') -> exists e, In (x, e) (assigns s) /\ forall l, e = ELit l -> e' = ELit l;
  s_loops : forall l, In l (loops s') -> countable ty l }.

Lemma lit_kept m l (e' : expr) : simplify_expr FL (subst m (ELit l)) = Done e' -> e' = ELit l.
Proof. cbn. congruence. Qed.

Lemma expr_static G st (e e' : expr) : inv_st G st -> typed ty e -> within G e -> incl (needed (mark e st)) N ->
  simplify_expr FL (subst (replace_ st) e) = Done e' ->
  typed ty e' /\ kind_of e' = kind_of e /\ (forall H, kept G H -> within H e') /\
  (forall y, In y (evars e') -> exists x, In x (evars e) /\ (x = y \/ copies FL S0 x y)).
Proof.
  intros I T W Hn E. pose proof (inv_m_kind _ _ _ _ _ _ _ _ _ I) as MK.
  pose proof (cp_keeps _ _ _ _ _ _ _ _ _ _ _ I T E) as Kp. pose proof Kp as (T' & K' & _). pose proof (keeps_evars _ _ _ _ Kp) as Ke.
  split; [exact T'|]. split; [rewrite K'; apply (subst_kind ty); auto|]. split.
  - intros H KH y Hy. apply KH.
    + eapply subst_within; eauto.
    + eapply marked; eauto. eapply subst_within; eauto.
  - intros y Hy. apply Ke in Hy. apply subst_evars in Hy as (x & Hx & Ex). exists x. split; auto.
    destruct (get x (replace_ st)) as [[k z]|] eqn:Eg; [subst z; right|auto].
    apply get_in in Eg. apply (i_dep _ _ _ _ _ _ _ _ _ I) in Eg. apply (i_copy _ _ _ _ _ _ _ _ _ I) in Eg. exact Eg.
Qed.
Lemma exprs_static G : forall es st es' st', inv_st G st -> Forall (typed ty) es -> Forall (within G) es ->
  cp_exprs FL es st = Val (es', st') -> incl (needed st') N ->
  Forall (typed ty) es' /\ forall H, kept G H -> Forall (within H) es'.
Proof.
  induction es as [|e es IH]; cbn [cp_exprs]; intros st es' st' I T W E Hn; [injection E as <- <-; auto|].
  destruct (cp_expr FL e st) as [[e1 st1]| |] eqn:E1; try discriminate. cbn [obind] in E.
  destruct (cp_exprs FL es st1) as [[es1 st2]| |] eqn:E2; try discriminate. injection E as <- <-.
  apply cp_expr_inv in E1 as (Es & ->). inversion T; subst. inversion W; subst.
  pose proof (cp_exprs_inv _ _ _ _ _ _ E2) as (_ & _ & _ & Hn2).
  destruct (expr_static G st e e1) as (A & _ & B & _); auto. { eapply incl_tran; eauto. }
  destruct (IH (mark e st) es1 st2) as (C & D); auto.
Qed.
Lemma raws_static G : forall es st es' st', inv_st G st -> incl es (raws S0) -> Forall (within G) es ->
  cp_exprs FL es st = Val (es', st') -> incl (needed st') N -> forall H, kept G H -> Forall (within H) es.
Proof.
  induction es as [|e es IH]; cbn [cp_exprs]; intros st es' st' I R W E Hn H KH; [constructor|].
  destruct (cp_expr FL e st) as [[e1 st1]| |] eqn:E1; try discriminate. cbn [obind] in E.
  destruct (cp_exprs FL es st1) as [[es1 st2]| |] eqn:E2; try discriminate. injection E as <- <-.
  apply cp_expr_inv in E1 as (Es & ->). inversion W; subst.
  pose proof (cp_exprs_inv _ _ _ _ _ _ E2) as (_ & _ & _ & Hn2).
  constructor.
  - intros x Hx. apply KH; auto. eapply marked with (G := G) (st := st) (e := e); eauto.
    + rewrite subst_none; auto. intros y Hy. eapply (raw_none F FL ty S0 L raw_ok); eauto. apply R. left. auto.
    + eapply incl_tran; eauto.
  - eapply (IH (mark e st)); eauto. intros y Hy. apply R. right. auto.
Qed.

Lemma assigned_cons (a b : stmt) : assigned (cons_ a b) = assigned a ++ assigned b. Proof. destruct a; reflexivity. Qed.
Lemma assigns_cons (a b : stmt) : assigns (cons_ a b) = assigns a ++ assigns b. Proof. destruct a; reflexivity. Qed.
Lemma declares_cons (a b : stmt) : declares (cons_ a b) = declares a ++ declares b. Proof. destruct a; reflexivity. Qed.
Lemma bound_cons (a b : stmt) : bound (cons_ a b) = bound a ++ bound b. Proof. destruct a; reflexivity. Qed.
Lemma loops_cons (a b : stmt) : loops (cons_ a b) = loops a ++ loops b. Proof. destruct a; reflexivity. Qed.
Lemma counting_cons (a b : stmt) : counting (cons_ a b) -> counting a /\ counting b. Proof. destruct a; cbn; tauto. Qed.
Lemma styped_cons (a b : stmt) : styped ty a -> styped ty b -> styped ty (cons_ a b). Proof. destruct a; cbn; tauto. Qed.
Lemma scoped_cons H (a b : stmt) : scoped H a -> scoped (declares a ++ H) b -> scoped H (cons_ a b). Proof. destruct a; cbn; tauto. Qed.

Ltac ostep E H := match type of E with obind ?o _ = _ => destruct o as [[? ?]| |] eqn:H; cbn [obind] in E; try discriminate end.
Ltac trivial_static := constructor; cbn; auto; try (intros; contradiction); try constructor; try apply incl_refl.

Theorem cp_static : forall s G st s' st', part G s -> inv_st G st -> cp s st = Val (s', st') -> incl (needed st') N ->
  static G s (remove_decls call N s').
Proof.
  induction s as [id k x e|k x e|o args raw| |a IHa b IHb|a IHa|c a IHa b IHb|c b IHb|k x e1 e2 e3 b IHb| |];
    intros G st s' st' Pt I E Hn; cbn [SimplifyStmt.cp] in E.
  - (* declaration *)
    pose proof (p_typed _ _ _ _ _ Pt) as T. cbn in T. destruct T as (Te & Ek & Ke). pose proof (p_scoped _ _ _ _ _ Pt) as W. cbn in W.
    assert (Dx : In (id, x, e) (decls S0)) by (apply (p_decls _ _ _ _ _ Pt); cbn; auto).
    ostep E E1. apply cp_expr_inv in E1 as (Es & ->).
    assert (Es' : s' = SDecl id k x e0) by congruence.
    assert (HN : incl (needed (mark e st)) N).
    { eapply incl_tran; [|exact Hn]. injection E as _ <-. destruct e0; cbn; try apply incl_refl. destruct (is_int k && negb (mem x L)); apply incl_refl. }
    destruct (expr_static G st e e0) as (A1 & A2 & A3 & _); auto.
    rewrite Es'. cbn [remove_decls]. destruct (is_call call e0 || mem id N) eqn:C.
    + constructor; cbn; auto; try (intros; contradiction); try apply incl_refl.
      * split; auto. split; congruence.
      * repeat constructor. auto.
    + constructor; cbn; auto; try (intros; contradiction); [|intros ? []|constructor].
      intros y [<-|[]] Ng. apply Ng. exists id, e. split; auto. intro H. apply mem_in in H. rewrite H, orb_true_r in C. discriminate.
  - (* assignment *)
    pose proof (p_typed _ _ _ _ _ Pt) as T. cbn in T. destruct T as (Te & Ek & Ke). pose proof (p_scoped _ _ _ _ _ Pt) as W. cbn in W. destruct W as (Wx & We).
    ostep E E1. apply cp_expr_inv in E1 as (Es & ->).
    set (st1 := CS _ _ _ _) in E.
    assert (Q : s' = SAssign k x e0 /\ needed st' = needed st1).
    { destruct (is_int k) eqn:Ei.
      - match type of E with obind ?o _ = _ => destruct o as [m'| |] eqn:Em; cbn [obind] in E; try discriminate end.
        injection E as <- <-. auto.
      - injection E as <- <-. auto. }
    destruct Q as (-> & Hneed). rewrite Hneed in Hn.
    assert (HN : incl (needed (mark e st)) N).
    { eapply incl_tran; [|exact Hn]. unfold st1. cbn. destruct (get x (declared st)); [apply incl_tl|]; apply incl_refl. }
    destruct (expr_static G st e e0) as (A1 & A2 & A3 & _); auto.
    assert (Ng : ~ gone x).
    { intros (id & ed & Hd & NN). apply NN. apply Hn. unfold st1. cbn.
      rewrite (i_declared _ _ _ _ _ _ _ _ _ I _ _ _ Hd Wx). left. reflexivity. }
    cbn [remove_decls]. constructor; cbn; auto; try (intros; contradiction); try constructor; try apply incl_refl; auto; try congruence.
    + split; congruence.
    + intros y e' [[= <- <-]|[]]. exists e. split; auto. intros l ->. eapply lit_kept; eauto.
  - (* effect *)
    pose proof (p_typed _ _ _ _ _ Pt) as (Ta & Tr). pose proof (p_scoped _ _ _ _ _ Pt) as (Wa & Wr).
    ostep E E1. ostep E E2. injection E as <- <-.
    pose proof (cp_exprs_inv _ _ _ _ _ _ E1) as (A1 & A2 & A3 & A4). pose proof (cp_exprs_inv _ _ _ _ _ _ E2) as (B1 & B2 & B3 & B4).
    destruct (exprs_static G args c l0 c0) as (C1 & C2); auto.
    { unfold SimplifyStmtCp.inv_st. rewrite A1, A2, A3. exact I. }
    assert (C3 : forall H, kept G H -> Forall (within H) raw).
    { eapply raws_static; eauto; [exact (p_raws _ _ _ _ _ Pt)|eapply incl_tran; eauto]. }
    cbn [remove_decls]. constructor; cbn; auto; try (intros; contradiction); try constructor; try apply incl_refl; auto.
  - injection E as <- <-. cbn. trivial_static.
  - (* block *)
    ostep E E1. ostep E E2. injection E as <- <-. pose proof (part_cons _ _ _ _ _ _ Pt) as (Pa & Pb).
    pose proof (cp_step F FL ty S0 L once _ _ _ _ _ Pa I E1) as Ta.
    pose proof (cp_step F FL ty S0 L once _ _ _ _ _ Pb (t_inv _ _ _ _ _ _ _ _ _ Ta) E2) as Tb.
    destruct (IHa _ _ _ _ Pa I E1) as [A1 A2 A3 A4 A5 A6 A7 A8 A9].
    { eapply incl_tran; [apply Tb|exact Hn]. }
    destruct (IHb _ _ _ _ Pb (t_inv _ _ _ _ _ _ _ _ _ Ta) E2 Hn) as [B1 B2 B3 B4 B5 B6 B7 B8 B9].
    pose proof (p_nodup _ _ _ _ _ Pt) as Nd. cbn in Nd. apply NoDup_app_inv in Nd as (_ & _ & Dj).
    rewrite remove_cons. constructor.
    + rewrite assigned_cons. cbn. congruence.
    + apply styped_cons; auto.
    + intros H KH. apply scoped_cons; auto. apply B3. intros y Hy Ng. apply in_or_app. apply in_app_or in Hy as [Hy|Hy]; auto.
    + rewrite declares_cons. cbn. intros y Hy Ng. apply in_or_app. apply in_app_or in Hy as [Hy|Hy]; auto.
    + rewrite bound_cons. cbn. intros y Hy. apply in_or_app. apply in_app_or in Hy as [Hy|Hy]; auto.
    + rewrite bound_cons. apply nodup_app; auto. intros y Hy Hy'. exact (Dj _ (A5 _ Hy) (B5 _ Hy')).
    + intro Hc. apply counting_cons in Hc as (? & ?). cbn. auto.
    + rewrite assigns_cons. cbn. intros y e' Hy. apply in_app_or in Hy as [Hy|Hy]; [destruct (A8 _ _ Hy) as (e & ? & ?)|destruct (B8 _ _ Hy) as (e & ? & ?)];
        exists e; split; auto; apply in_or_app; auto.
    + rewrite loops_cons. intros l Hl. apply in_app_or in Hl as [Hl|Hl]; auto.
  - (* scope *)
    ostep E E1. injection E as <- <-. pose proof (part_scope _ _ _ _ _ Pt) as Pa.
    destruct (IHa _ _ _ _ Pa (inv_enter _ _ _ _ _ _ _ I) E1 Hn) as [A1 A2 A3 A4 A5 A6 A7 A8 A9].
    cbn [remove_decls]. constructor; cbn; auto; intros; contradiction.
  - (* if *)
    pose proof (p_typed _ _ _ _ _ Pt) as T. cbn in T. destruct T as (Tc & Kc & _). pose proof (p_scoped _ _ _ _ _ Pt) as W. cbn in W. destruct W as (Wc & _).
    ostep E E0. apply cp_expr_inv in E0 as (Es & ->). ostep E E1. ostep E E2. injection E as <- <-.
    rename e into c', s into a', s0 into b'.
    destruct (part_if _ _ _ _ _ _ _ Pt) as (Pa & Pb).
    assert (I0 : inv_st G (mark c st)) by exact I.
    pose proof (cp_step F FL ty S0 L once _ _ _ _ _ Pa (inv_enter _ _ _ _ _ _ _ I0) E1) as Ta.
    destruct (leave_ok _ _ _ _ _ G G a (SScope a) _ _ I0 (incl_refl _) ltac:(intros x Hx; apply (p_fresh _ _ _ _ _ Pa); apply declares_bound; auto) eq_refl (incl_refl _) Ta) as (La & Sa & _).
    pose proof (t_inv _ _ _ _ _ _ _ _ _ La) as I1. cbn [declares app] in I1.
    pose proof (cp_step F FL ty S0 L once _ _ _ _ _ Pb (inv_enter _ _ _ _ _ _ _ I1) E2) as Tb.
    assert (N1 : incl (needed c0) N) by (eapply incl_tran; [|exact Hn]; apply (t_needed _ _ _ _ _ _ _ _ _ Tb)).
    assert (N0 : incl (needed (mark c st)) N) by (eapply incl_tran; [|exact N1]; apply (t_needed _ _ _ _ _ _ _ _ _ Ta)).
    destruct (expr_static G st c c') as (X1 & X2 & X3 & _); auto.
    destruct (IHa _ _ _ _ Pa (inv_enter _ _ _ _ _ _ _ I0) E1 N1) as [A1 A2 A3 A4 A5 A6 A7 A8 A9].
    destruct (IHb _ _ _ _ Pb (inv_enter _ _ _ _ _ _ _ I1) E2 Hn) as [B1 B2 B3 B4 B5 B6 B7 B8 B9].
    pose proof (p_nodup _ _ _ _ _ Pt) as Nd. cbn in Nd. apply NoDup_app_inv in Nd as (_ & _ & Dj).
    cbn [remove_decls]. constructor; cbn.
    + congruence.
    + split; auto. split; [congruence|]. auto.
    + intros H KH. auto.
    + intros ? [].
    + intros y Hy. apply in_or_app. apply in_app_or in Hy as [Hy|Hy]; auto.
    + apply nodup_app; auto. intros y Hy Hy'. exact (Dj _ (A5 _ Hy) (B5 _ Hy')).
    + auto.
    + intros y e' Hy. apply in_app_or in Hy as [Hy|Hy]; [destruct (A8 _ _ Hy) as (e & ? & ?)|destruct (B8 _ _ Hy) as (e & ? & ?)];
        exists e; split; auto; apply in_or_app; auto.
    + intros l Hl. apply in_app_or in Hl as [Hl|Hl]; auto.
  - (* while *)
    pose proof (p_typed _ _ _ _ _ Pt) as T. cbn in T. destruct T as (Tc & Kc & _). pose proof (p_scoped _ _ _ _ _ Pt) as W. cbn in W. destruct W as (Wc & _).
    ostep E E0. apply cp_expr_inv in E0 as (Es & ->). ostep E E1. injection E as <- <-.
    pose proof (part_while _ _ _ _ _ _ Pt) as Pb.
    assert (I0 : inv_st G (mark c st)) by exact I.
    pose proof (cp_step F FL ty S0 L once _ _ _ _ _ Pb (inv_enter _ _ _ _ _ _ _ I0) E1) as Tb.
    assert (N0 : incl (needed (mark c st)) N) by (eapply incl_tran; [|exact Hn]; apply (t_needed _ _ _ _ _ _ _ _ _ Tb)).
    destruct (expr_static G st c e) as (X1 & X2 & X3 & _); auto.
    destruct (IHb _ _ _ _ Pb (inv_enter _ _ _ _ _ _ _ I0) E1 Hn) as [B1 B2 B3 B4 B5 B6 B7 B8 B9].
    assert (Cl : countable ty (SWhile c b)) by (apply counts; apply (p_loops _ _ _ _ _ Pt); cbn; auto).
    cbn [remove_decls]. constructor; cbn; auto; try (intros; contradiction).
    + split; auto. split; [congruence|auto].
    + intros l [<-|Hl]; auto. cbn in Cl |- *. intro Hc. destruct (Cl (B7 Hc)) as (Nd & t & At). rewrite B1. split; auto.
      exists t. intros y e' Hy. destruct (B8 _ _ Hy) as (e0 & H0 & He0). destruct (At _ _ H0) as [?|(l & ->)]; eauto.
  - (* for *)
    pose proof (p_typed _ _ _ _ _ Pt) as T. cbn in T. destruct T as (Ek & Kt & T1 & K1 & T2 & K2 & T3 & K3 & Tb0).
    pose proof (p_scoped _ _ _ _ _ Pt) as W. cbn in W. destruct W as (W1 & W2 & W3 & _).
    ostep E E0. apply cp_expr_inv in E0 as (Es0 & ->). ostep E E1. apply cp_expr_inv in E1 as (Es1 & ->).
    ostep E E2. apply cp_expr_inv in E2 as (Es2 & ->). ostep E E3. apply cp_expr_inv in E3 as (Es3 & ->).
    ostep E E4. injection E as <- <-.
    destruct (part_for _ _ _ _ _ _ _ _ _ _ Pt) as (Pb & Nx & Dx).
    set (st1 := mark (EVar k x) st) in *. set (st2 := mark e1 st1) in *. set (st3 := mark e2 st2) in *. set (st4 := mark e3 st3) in *.
    assert (I0 : inv_st G st4) by exact I.
    assert (I1 : inv_st (x :: G) (enter st4)) by (apply inv_for; auto; apply (inv_enter _ _ _ _ _ _ _ I0)).
    pose proof (cp_step F FL ty S0 L once _ _ _ _ _ Pb I1 E4) as Tb.
    assert (N4 : incl (needed st4) N) by (eapply incl_tran; [|exact Hn]; apply (t_needed _ _ _ _ _ _ _ _ _ Tb)).
    assert (N3 : incl (needed st3) N) by (eapply incl_tran; [apply (needed_mark _ e3)|exact N4]).
    assert (N2 : incl (needed st2) N) by (eapply incl_tran; [apply (needed_mark _ e2)|exact N3]).
    destruct (expr_static G st1 e1 e0) as (X1 & X2 & X3 & X4); auto.
    destruct (expr_static G st2 e2 e4) as (Y1 & Y2 & Y3 & Y4); auto.
    destruct (expr_static G st3 e3 e5) as (Z1 & Z2 & Z3 & Z4); auto.
    destruct (IHb _ _ _ _ Pb I1 E4 Hn) as [B1 B2 B3 B4 B5 B6 B7 B8 B9].
    pose proof (p_nodup _ _ _ _ _ Pt) as Nd. cbn in Nd. inversion Nd as [|? ? Nxb Ndb]; subst.
    assert (Il : In (SFor (ty x) x e1 e2 e3 b) (loops S0)) by (apply (p_loops _ _ _ _ _ Pt); cbn; auto).
    pose proof (counts _ Il) as Cl.
    cbn [remove_decls]. constructor; cbn; auto; try (intros; contradiction).
    + split; auto. split; auto. split; auto. split; [congruence|]. split; auto. split; [congruence|]. split; auto. split; [congruence|auto].
    + intros H KH. split; auto. split; auto. split; auto. apply B3. intros y [<-|Hy] Ng; [left; auto|right; auto].
    + intros y [<-|Hy]; [left; auto|right; auto].
    + constructor; auto.
    + intros l [<-|Hl]; auto. cbn in Cl |- *. intro Hc. destruct (Cl (B7 Hc)) as (C1 & C2 & C3 & C4 & C5). rewrite B1. split; auto. split; auto.
      split; [|split].
      * assert (Cp : forall y z, In z (evars e1 ++ evars e2 ++ evars e3) -> z = y \/ copies FL S0 z y -> ~ In y (assigned b)).
        { intros y z Hz [->|Hcp]; [auto|]. apply (fresh_copies _ z y Il); auto.
          - cbn. rewrite !in_app_iff in *. tauto.
          - intro Hb. apply (p_fresh _ _ _ _ _ Pt z Hb). rewrite !in_app_iff in Hz. destruct Hz as [Hz|[Hz|Hz]]; auto. }
        intros y Hy. rewrite !in_app_iff in Hy.
        destruct Hy as [Hy|[Hy|Hy]]; [destruct (X4 _ Hy) as (z & Hz & Hzy)|destruct (Y4 _ Hy) as (z & Hz & Hzy)|destruct (Z4 _ Hy) as (z & Hz & Hzy)];
          apply (Cp y z); auto; rewrite !in_app_iff; auto.
      * destruct C4 as [(t & ->)|(t & a & b0 & c0 & -> & -> & -> & C4)].
        -- left. exists t. eapply lit_kept; eauto.
        -- right. exists t, a, b0, c0. split; [eapply lit_kept; eauto|]. split; [eapply lit_kept; eauto|]. split; [eapply lit_kept; eauto|exact C4].
      * intros y e' Hy. destruct (B8 _ _ Hy) as (e6 & H0 & He0). destruct (C5 _ _ H0) as [?|(l & ->)]; eauto.
  - injection E as <- <-. cbn. trivial_static.
  - injection E as <- <-. cbn. trivial_static.
Qed.
End Static.
