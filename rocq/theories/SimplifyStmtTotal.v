(** Statement simplification terminates. *)
From Coq Require Import List ZArith Lia Bool.
From Verif Require Import Outcome Types TypesProofs Simplify SimplifySpec SimplifyProofs SimplifyStmt SimplifyStmtSpec
  SimplifyStmtExpr SimplifyStmtMaps SimplifyStmtCp SimplifyStmtProofs.
Import ListNotations.
Local Open Scope nat_scope.

(** The copies of a variable form trees. *)
Definition forest (deps : list (nat * nat)) : Prop :=
  NoDup (map snd deps) /\ exists rank : nat -> nat, forall y x, In (y, x) deps -> rank y < rank x.
Lemma unique_parent (deps : list (nat * nat)) : NoDup (map snd deps) -> forall x y z, In (y, x) deps -> In (z, x) deps -> y = z.
Proof.
  induction deps as [|[a b] deps IH]; cbn; [tauto|]. intros N x y z H1 H2. inversion N; subst.
  assert (C : forall w, In (w, b) deps -> False).
  { intros w Hw. apply H3. change b with (snd (w, b)). apply in_map. auto. }
  destruct H1 as [H1|H1], H2 as [H2|H2]; [congruence| | |eapply IH; eauto].
  - injection H1 as <- <-. destruct (C _ H2).
  - injection H2 as <- <-. destruct (C _ H1).
Qed.
Lemma nodup_children v (deps : list (nat * nat)) : NoDup (map snd deps) -> NoDup (map snd (filter (fun d => fst d =? v) deps)).
Proof.
  induction deps as [|[a b] deps IH]; cbn; intro N; [constructor|]. inversion N; subst. destruct (a =? v); cbn; auto.
  constructor; auto. intro H. apply H1. apply in_map_iff in H as (p & <- & Hp). apply filter_In in Hp as [Hp _]. apply in_map. auto.
Qed.
(** [V]: the variables handled so far; every variable is handled once. *)
Lemma invalidate_total (deps : list (nat * nat)) v0 (rank : nat -> nat) : NoDup (map snd deps) -> (forall y x, In (y, x) deps -> rank y < rank x) ->
  forall n queue V m, NoDup (V ++ queue) -> incl (V ++ queue) (v0 :: map snd deps) ->
  (forall u, In u (V ++ queue) -> rank v0 <= rank u) ->
  (forall u, In u (V ++ queue) -> u = v0 \/ exists p, In p V /\ In (p, u) deps) ->
  length V + n > S (length deps) -> invalidate n queue deps m <> NoFuel.
Proof.
  intros ND RK. induction n as [|n IH]; intros queue V m Nd In_ Rk Par Len.
  - exfalso. pose proof (NoDup_incl_length Nd In_) as H. rewrite app_length in H. cbn in H. rewrite map_length in H. lia.
  - cbn [invalidate]. destruct queue as [|v queue]; [discriminate|].
    assert (HV : In v (V ++ v :: queue)) by (apply in_or_app; right; left; auto).
    set (ch := map snd (filter (fun d => fst d =? v) deps)).
    assert (Hch : forall u, In u ch -> In (v, u) deps).
    { intros u Hu. apply in_map_iff in Hu as ([a b] & <- & Hp). apply filter_In in Hp as [Hp E]. apply Nat.eqb_eq in E. cbn in *. subst. auto. }
    assert (NV : ~ In v V).
    { intro H. apply NoDup_app_inv in Nd as (_ & _ & D). apply (D _ H). left. auto. }
    assert (Eq : (V ++ [v]) ++ queue ++ ch = (V ++ v :: queue) ++ ch) by (rewrite <- !app_assoc; reflexivity).
    apply (IH (queue ++ ch) (V ++ [v])).
    + rewrite Eq. apply nodup_app; auto; [apply nodup_children; auto|]. intros u Hu Hc. apply Hch in Hc.
      destruct (Par u Hu) as [->|(p & Hp & Hpu)].
      * pose proof (RK _ _ Hc). pose proof (Rk v HV). lia.
      * assert (p = v) by (eapply unique_parent; eauto). subst. contradiction.
    + rewrite Eq. intros u Hu. apply in_app_or in Hu as [Hu|Hu]; auto. right. apply Hch in Hu. change u with (snd (v, u)). apply in_map. auto.
    + rewrite Eq. intros u Hu. apply in_app_or in Hu as [Hu|Hu]; auto. apply Hch in Hu. pose proof (RK _ _ Hu). pose proof (Rk v HV). lia.
    + rewrite Eq. intros u Hu. apply in_app_or in Hu as [Hu|Hu].
      * destruct (Par u Hu) as [->|(p & Hp & Hpu)]; auto. right. exists p. split; auto. apply in_or_app. auto.
      * right. exists v. split; [apply in_or_app; right; left; auto|auto].
    + rewrite app_length. cbn. lia.
Qed.
Lemma invalidate_done deps x m : forest deps -> invalidate (2 + length deps) [x] deps m <> NoFuel.
Proof.
  intros (ND & rank & RK). apply (invalidate_total deps x rank ND RK _ [x] []); cbn.
  - repeat constructor. auto.
  - intros y [<-|[]]. left. auto.
  - intros u [<-|[]]. auto.
  - intros u [<-|[]]. auto.
  - lia.
Qed.

Section Total.
Variable F : Type.
Variable call : nat -> bool.
Variable FL : flits F.
Notation expr := (expr F).
Notation stmt := (stmt F).

Lemma simplify_total (e : expr) : simplify_ FL e <> NoFuel.
Proof.
  unfold simplify_. pose proof (proj1 (simp_fuel F FL (size e) e (Nat.le_refl _))) as H. unfold simplify_expr.
  destruct (simp FL (size e) e); congruence.
Qed.
Lemma cp_expr_total (e : expr) st : cp_expr FL e st <> NoFuel.
Proof.
  unfold cp_expr. pose proof (simplify_total (subst (replace_ st) e)) as H. destruct (simplify_ FL (subst (replace_ st) e)); cbn; congruence.
Qed.
Lemma cp_exprs_total : forall (es : list expr) st, cp_exprs FL es st <> NoFuel.
Proof.
  induction es as [|e es IH]; cbn; intro st; [discriminate|]. pose proof (cp_expr_total e st) as H.
  destruct (cp_expr FL e st) as [[e' st']| |]; cbn; try congruence. specialize (IH st'). destruct (cp_exprs FL es st') as [[es' st2]| |]; cbn; congruence.
Qed.
Lemma duplicate_total count : forall s : stmt, duplicate FL count s <> NoFuel.
Proof.
  induction s as [id k x e|k x e|o args raw| |a IHa b IHb|a IHa|c a IHa b IHb|c b IHb|k x e1 e2 e3 b IHb| |]; cbn [duplicate]; try discriminate.
  - destruct e; try discriminate. destruct e1; try discriminate. destruct e2; try discriminate. destruct (_ =? _); [|discriminate].
    pose proof (simplify_total (EMul count (ELit l))) as H. destruct (simplify_ FL (EMul count (ELit l))); cbn; congruence.
  - destruct (duplicate FL count a) as [[a'|]| |]; cbn; try congruence. destruct (duplicate FL count b) as [[b'|]| |]; cbn; congruence.
  - destruct (duplicate FL count a) as [[a'|]| |]; cbn; congruence.
Qed.
Lemma while_closed_total c (b : stmt) : while_closed FL c b <> NoFuel.
Proof.
  unfold while_closed. destruct c; try discriminate. destruct c1; try discriminate. destruct c2; try discriminate.
  destruct (negb (op =? op_lt) || modifies x0 b); [discriminate|]. destruct b; try discriminate.
  destruct (unlast (SCons b1 b2)) as [[rest last]|]; [|discriminate]. destruct (is_increment x last); [|discriminate].
  pose proof (simplify_total (ESub (EVar k1 x0) (EVar k0 x))) as H. destruct (simplify_ FL (ESub (EVar k1 x0) (EVar k0 x))) as [count| |]; cbn; try congruence.
  pose proof (duplicate_total count rest) as H'. destruct (duplicate FL count rest) as [[r|]| |]; cbn; congruence.
Qed.
Lemma for_closed_total e1 e2 e3 (b : stmt) : for_closed FL e1 e2 e3 b <> NoFuel.
Proof.
  unfold for_closed. pose proof (simplify_total (EDiv (ESub e2 e1) e3)) as H. destruct (simplify_ FL (EDiv (ESub e2 e1) e3)) as [count| |]; cbn; try congruence.
  pose proof (duplicate_total count b) as H'. destruct (duplicate FL count b) as [[r|]| |]; cbn; congruence.
Qed.
Lemma remove_loops_total : forall s : stmt, remove_loops FL s <> NoFuel.
Proof.
  induction s as [id k x e|k x e|o args raw| |a IHa b IHb|a IHa|c a IHa b IHb|c b IHb|k x e1 e2 e3 b IHb| |]; cbn [remove_loops]; try discriminate.
  - destruct (remove_loops FL a); cbn; try congruence. destruct (remove_loops FL b); cbn; congruence.
  - destruct (remove_loops FL a); cbn; congruence.
  - destruct (remove_loops FL a); cbn; try congruence. destruct (remove_loops FL b); cbn; congruence.
  - pose proof (while_closed_total c b) as H. destruct (while_closed FL c b) as [[r|]| |]; cbn; try congruence. destruct (remove_loops FL b); cbn; congruence.
  - pose proof (for_closed_total e1 e2 e3 b) as H. destruct (for_closed FL e1 e2 e3 b) as [[r|]| |]; cbn; try congruence. destruct (remove_loops FL b); cbn; congruence.
Qed.

Variable ty : nat -> kind.
Variable S0 : stmt.
Variable L : list nat.
Notation cp := (cp FL L).
Notation part := (part F ty S0).
Notation inv_st := (inv_st F FL ty S0 L).
Hypothesis once : forall x id e id' e', In (id, x, e) (decls S0) -> In (id', x, e') (decls S0) -> id = id'.

Definition avoids (deps : list (nat * nat)) (B : list nat) : Prop := forall y x, In (y, x) deps -> ~ In y B /\ ~ In x B.
Lemma forest_snoc deps y x : forest deps -> avoids deps [x] -> x <> y -> forest (deps ++ [(y, x)]).
Proof.
  intros (N & rank & R) A Nxy. split.
  - rewrite map_app. apply nodup_app; auto; [repeat constructor; auto|]. cbn. intros z Hz [<-|[]].
    apply in_map_iff in Hz as ([a b] & E & Hp). cbn in E. subst b. apply (proj2 (A _ _ Hp)). left. auto.
  - exists (fun z => if z =? x then S (rank y) else rank z). intros a b H. apply in_app_or in H as [H|[[= <- <-]|[]]].
    + destruct (A _ _ H) as (A1 & A2). destruct (Nat.eqb_spec a x) as [->|]; [exfalso; apply A1; left; auto|].
      destruct (Nat.eqb_spec b x) as [->|]; [exfalso; apply A2; left; auto|]. auto.
    + rewrite Nat.eqb_refl. destruct (Nat.eqb_spec y x); [congruence|]. lia.
Qed.
Lemma avoids_incl deps B C : avoids deps C -> incl B C -> avoids deps B.
Proof. intros A I y x H. destruct (A y x H). split; intro; auto. Qed.

Ltac ostep E H := match type of E with obind ?o _ = _ => destruct o as [[? ?]| |] eqn:H; cbn [obind] in E; try discriminate end.

Theorem cp_total : forall s G st, part G s -> inv_st G st -> forest (depends st) -> avoids (depends st) (bound s) ->
  cp s st <> NoFuel /\
  forall s' st', cp s st = Val (s', st') -> forest (depends st') /\
    forall B, avoids (depends st) B -> (forall x, In x B -> ~ In x G /\ ~ In x (bound s)) -> avoids (depends st') B.
Proof.
  induction s as [id k x e|k x e|o args raw| |a IHa b IHb|a IHa|c a IHa b IHb|c b IHb|k x e1 e2 e3 b IHb| |];
    intros G st Pt I Fo Av; cbn [SimplifyStmt.cp].
  - (* declaration *)
    pose proof (p_typed _ _ _ _ _ Pt) as T. cbn in T. destruct T as (Te & Ek & Ke). pose proof (p_scoped _ _ _ _ _ Pt) as W. cbn in W.
    assert (NG : ~ In x G) by (apply (p_fresh _ _ _ _ _ Pt); cbn; auto).
    pose proof (cp_expr_total e st) as CT. destruct (cp_expr FL e st) as [[e' st1]| |] eqn:E1; cbn [obind]; [|split; [discriminate|intros; discriminate]|congruence].
    apply cp_expr_inv in E1 as (Es & ->). split; [discriminate|]. intros s' st' E. injection E as <- <-.
    assert (Same : forall st2, depends st2 = depends st -> forest (depends st2) /\
      forall B, avoids (depends st) B -> (forall z, In z B -> ~ In z G /\ ~ In z (bound (SDecl id k x e))) -> avoids (depends st2) B) by (intros st2 ->; auto).
    destruct e'; try (apply Same; reflexivity). destruct (is_int k && negb (mem x L)); [|apply Same; reflexivity]. clear Same. cbn [depends mark].
    assert (Gb : In x0 G).
    { eapply subst_within; eauto. pose proof (keeps_evars _ _ _ _ (cp_keeps _ _ _ _ _ _ _ _ _ _ _ I Te Es)) as KE. apply KE. cbn. auto. }
    split.
    + apply forest_snoc; auto. intros ->. auto.
    + intros B A HB y z H. apply in_app_or in H as [H|[[= <- <-]|[]]]; auto. split; intro HH; destruct (HB _ HH) as (H1 & H2); auto. apply H2. cbn. auto.
  - (* assignment *)
    pose proof (cp_expr_total e st) as CT. destruct (cp_expr FL e st) as [[e' st1]| |] eqn:E1; cbn [obind]; [|split; [discriminate|intros; discriminate]|congruence].
    apply cp_expr_inv in E1 as (Es & ->). cbn [depends mark replace_ declared needed]. destruct (is_int k).
    + pose proof (invalidate_done (depends st) x (replace_ st) Fo) as HI. cbn [plus] in HI |- *.
      match goal with |- context [obind ?o _] => destruct o as [m'| |] eqn:Em; cbn [obind] end; [|split; [discriminate|intros; discriminate]|congruence].
      split; [discriminate|]. intros s' st' E. injection E as <- <-. auto.
    + split; [discriminate|]. intros s' st' E. injection E as <- <-. auto.
  - (* effect *)
    pose proof (cp_exprs_total raw st) as C1. destruct (cp_exprs FL raw st) as [[r1 st1]| |] eqn:E1; cbn [obind]; [|split; [discriminate|intros; discriminate]|congruence].
    pose proof (cp_exprs_total args st1) as C2. destruct (cp_exprs FL args st1) as [[r2 st2]| |] eqn:E2; cbn [obind]; [|split; [discriminate|intros; discriminate]|congruence].
    pose proof (cp_exprs_inv _ _ _ _ _ _ E1) as (A1 & A2 & A3 & A4). pose proof (cp_exprs_inv _ _ _ _ _ _ E2) as (B1 & B2 & B3 & B4).
    split; [discriminate|]. intros s' st' E. injection E as <- <-. rewrite B3, A3. auto.
  - split; [discriminate|]. intros s' st' E. injection E as <- <-. auto.
  - (* block *)
    pose proof (part_cons _ _ _ _ _ _ Pt) as (Pa & Pb). pose proof (p_nodup _ _ _ _ _ Pt) as Nd. cbn in Nd. apply NoDup_app_inv in Nd as (_ & _ & Dj).
    cbn [bound] in *. destruct (IHa G st Pa I Fo) as (C1 & D1); [eapply avoids_incl; [exact Av|apply incl_appl, incl_refl]|].
    destruct (cp a st) as [[a' st1]| |] eqn:E1; cbn [obind]; [|split; [discriminate|intros; discriminate]|congruence].
    destruct (D1 _ _ eq_refl) as (F1 & A1). pose proof (cp_step F FL ty S0 L once _ _ _ _ _ Pa I E1) as Ta.
    assert (Ab : avoids (depends st1) (bound b)).
    { apply A1; [eapply avoids_incl; [exact Av|apply incl_appr, incl_refl]|]. intros y Hy. split.
      - apply (p_fresh _ _ _ _ _ Pt). cbn. apply in_or_app. auto.
      - intro Ha. exact (Dj _ Ha Hy). }
    destruct (IHb _ st1 Pb (t_inv _ _ _ _ _ _ _ _ _ Ta) F1 Ab) as (C2 & D2).
    destruct (cp b st1) as [[b' st2]| |] eqn:E2; cbn [obind]; [|split; [discriminate|intros; discriminate]|congruence].
    destruct (D2 _ _ eq_refl) as (F2 & A2). split; [discriminate|]. intros s' st' E. injection E as <- <-. split; auto.
    intros B HB HH. apply A2.
    + apply A1; auto. intros y Hy. destruct (HH y Hy) as (H1 & H2). rewrite in_app_iff in H2. tauto.
    + intros y Hy. destruct (HH y Hy) as (H1 & H2). rewrite in_app_iff in H2 |- *. split; [|tauto]. intros [H|H]; auto. apply H2. left. apply declares_bound. auto.
  - (* scope *)
    pose proof (part_scope _ _ _ _ _ Pt) as Pa. destruct (IHa G (enter st) Pa (inv_enter _ _ _ _ _ _ _ I) Fo Av) as (C1 & D1).
    destruct (cp a (enter st)) as [[a' st1]| |] eqn:E1; cbn [obind]; [|split; [discriminate|intros; discriminate]|congruence].
    destruct (D1 _ _ eq_refl) as (F1 & A1). split; [discriminate|]. intros s' st' E. injection E as <- <-. split; auto.
  - (* if *)
    pose proof (cp_expr_total c st) as CT. destruct (cp_expr FL c st) as [[c' st1]| |] eqn:E0; cbn [obind]; [|split; [discriminate|intros; discriminate]|congruence].
    apply cp_expr_inv in E0 as (Es & ->).
    destruct (part_if _ _ _ _ _ _ _ Pt) as (Pa & Pb). pose proof (p_nodup _ _ _ _ _ Pt) as Nd. cbn in Nd. apply NoDup_app_inv in Nd as (_ & _ & Dj).
    cbn [bound] in *. assert (I0 : inv_st G (mark c st)) by exact I.
    destruct (IHa G (enter (mark c st)) Pa (inv_enter _ _ _ _ _ _ _ I0) Fo) as (C1 & D1); [eapply avoids_incl; [exact Av|apply incl_appl, incl_refl]|].
    destruct (cp a (enter (mark c st))) as [[a' st1]| |] eqn:E1; cbn [obind]; [|split; [discriminate|intros; discriminate]|congruence].
    destruct (D1 _ _ eq_refl) as (F1 & A1).
    pose proof (cp_step F FL ty S0 L once _ _ _ _ _ Pa (inv_enter _ _ _ _ _ _ _ I0) E1) as Ta.
    destruct (leave_ok _ _ _ _ _ G G a (SScope a) _ _ I0 (incl_refl _) ltac:(intros x Hx; apply (p_fresh _ _ _ _ _ Pa); apply declares_bound; auto) eq_refl (incl_refl _) Ta) as (La & Sa & _).
    pose proof (t_inv _ _ _ _ _ _ _ _ _ La) as I1. cbn [declares app] in I1.
    assert (Ab : avoids (depends st1) (bound b)).
    { apply A1; [eapply avoids_incl; [exact Av|apply incl_appr, incl_refl]|]. intros y Hy. split.
      - apply (p_fresh _ _ _ _ _ Pt). cbn. apply in_or_app. auto.
      - intro Ha. exact (Dj _ Ha Hy). }
    destruct (IHb G (enter (leave st1)) Pb (inv_enter _ _ _ _ _ _ _ I1) F1 Ab) as (C2 & D2).
    destruct (cp b (enter (leave st1))) as [[b' st2]| |] eqn:E2; cbn [obind]; [|split; [discriminate|intros; discriminate]|congruence].
    destruct (D2 _ _ eq_refl) as (F2 & A2). split; [discriminate|]. intros s' st' E. injection E as <- <-. split; auto.
    intros B HB HH. cbn [depends leave]. apply A2.
    + apply A1; auto. intros y Hy. destruct (HH y Hy) as (H1 & H2). rewrite in_app_iff in H2. tauto.
    + intros y Hy. destruct (HH y Hy) as (H1 & H2). rewrite in_app_iff in H2. tauto.
  - (* while *)
    pose proof (cp_expr_total c st) as CT. destruct (cp_expr FL c st) as [[c' st1]| |] eqn:E0; cbn [obind]; [|split; [discriminate|intros; discriminate]|congruence].
    apply cp_expr_inv in E0 as (Es & ->).
    pose proof (part_while _ _ _ _ _ _ Pt) as Pb. assert (I0 : inv_st G (mark c st)) by exact I.
    destruct (IHb G (enter (mark c st)) Pb (inv_enter _ _ _ _ _ _ _ I0) Fo Av) as (C1 & D1).
    destruct (cp b (enter (mark c st))) as [[b' st1]| |] eqn:E1; cbn [obind]; [|split; [discriminate|intros; discriminate]|congruence].
    destruct (D1 _ _ eq_refl) as (F1 & A1). split; [discriminate|]. intros s' st' E. injection E as <- <-. split; auto.
  - (* for *)
    pose proof (cp_expr_total (EVar k x) st) as C0. destruct (cp_expr FL (EVar k x) st) as [[x' st1]| |] eqn:E0; cbn [obind]; [|split; [discriminate|intros; discriminate]|congruence].
    apply cp_expr_inv in E0 as (Es0 & ->).
    match goal with |- context [cp_expr FL e1 ?s] => pose proof (cp_expr_total e1 s) as C1; destruct (cp_expr FL e1 s) as [[e1' st1]| |] eqn:E1; cbn [obind] end;
      [|split; [discriminate|intros; discriminate]|congruence].
    apply cp_expr_inv in E1 as (Es1 & ->).
    match goal with |- context [cp_expr FL e2 ?s] => pose proof (cp_expr_total e2 s) as C2; destruct (cp_expr FL e2 s) as [[e2' st1]| |] eqn:E2; cbn [obind] end;
      [|split; [discriminate|intros; discriminate]|congruence].
    apply cp_expr_inv in E2 as (Es2 & ->).
    match goal with |- context [cp_expr FL e3 ?s] => pose proof (cp_expr_total e3 s) as C3; destruct (cp_expr FL e3 s) as [[e3' st1]| |] eqn:E3; cbn [obind] end;
      [|split; [discriminate|intros; discriminate]|congruence].
    apply cp_expr_inv in E3 as (Es3 & ->).
    destruct (part_for _ _ _ _ _ _ _ _ _ _ Pt) as (Pb & Nx & Dx).
    match goal with |- context [cp b (enter ?s)] => set (st4 := s) in * end.
    assert (I0 : inv_st G st4) by exact I.
    assert (I1 : inv_st (x :: G) (enter st4)) by (apply inv_for; auto; apply (inv_enter _ _ _ _ _ _ _ I0)).
    cbn [bound] in *.
    destruct (IHb (x :: G) (enter st4) Pb I1 Fo) as (C4 & D4); [eapply avoids_incl; [exact Av|apply incl_tl, incl_refl]|].
    destruct (cp b (enter st4)) as [[b' st5]| |] eqn:E4; cbn [obind]; [|split; [discriminate|intros; discriminate]|congruence].
    destruct (D4 _ _ eq_refl) as (F1 & A1). split; [discriminate|]. intros s' st' E. injection E as <- <-. split; auto.
    intros B HB HH. apply A1; auto. intros y Hy. destruct (HH y Hy) as (H1 & H2). cbn in H2 |- *. tauto.
  - split; [discriminate|]. intros s' st' E. injection E as <- <-. auto.
  - split; [discriminate|]. intros s' st' E. injection E as <- <-. auto.
Qed.
End Total.

Theorem simplify_stmt_total F call (FL : flits F) ty G (s : stmt F) : simplifiable ty FL G s -> simplify_stmt call FL s <> NoFuel.
Proof.
  intros Sm. unfold simplify_stmt. set (L := ld_vars (loop_dependent 0 s (LD [] []))).
  pose proof (part_top _ _ _ _ _ Sm) as Pt. pose proof (inv_top _ _ _ G s L Sm) as I.
  destruct (cp_total F call FL ty s L (declared_once F s (p_nodup _ _ _ _ _ Pt)) s G _ Pt I) as (C & _).
  - split; [constructor|]. exists (fun x => x). intros y x [].
  - intros y x [].
  - destruct (cp FL L s (CS [[]] [[]] [] [])) as [[s1 cs]| |]; cbn; try congruence. apply remove_loops_total.
Qed.
