(** Statement simplification preserves the variables in scope and memory. *)
From Coq Require Import List ZArith Lia Bool.
From Verif Require Import Outcome Types TypesProofs Simplify SimplifySpec SimplifyProofs SimplifyStmt SimplifyStmtSpec
  SimplifyStmtExpr SimplifyStmtCopy SimplifyStmtMaps SimplifyStmtCp SimplifyStmtCpr SimplifyStmtLoops SimplifyStmtRemove SimplifyStmtStatic.
Import ListNotations.
Local Open Scope nat_scope.

Section Top.
Variable F : Type.
Variable call : nat -> bool.
Variable FL : flits F.
Variable FO : fops F.
Variable M : Type.
Variable op1 : M -> kind -> nat -> value F -> option (value F).
Variable op2 : M -> kind -> nat -> value F -> value F -> option (value F).
Variable cast : kind -> value F -> option (value F).
Variable eff : nat -> list (value F) -> M -> option M.
Notation exec := (exec F FO M op1 op2 cast eff).
Notation stmt := (stmt F).

(** A program has one result. *)
Theorem exec_det : forall c st g st', exec c st g st' -> forall g2 st2, exec c st g2 st2 -> g2 = g /\ st2 = st'.
Proof.
  intros c st g st' X.
  induction X as [id k x e st v Ev|k x e st v Ev|o args raw st vs ws m Ea Er Em|st|s r st st1 g st2 H1 IH1 H2 IH2
    |s r st g st1 H1 IH1 Hg|s st g st1 H1 IH1|c a b st t g st1 Ec H1 IH1|c b st Ec|c b st g st1 st2 Ec H1 IH1 Hg H2 IH2
    |c b st st1 Ec H1 IH1|k x start stop inc b st v st1 Es H1 IH1|k x stop inc b st Ec|k x stop inc b st g st1 v st2 Ec H1 IH1 Hg Ei H2 IH2
    |k x stop inc b st st1 Ec H1 IH1|st|st]; intros g' st' Y; inversion Y; subst; try (split; congruence);
    repeat match goal with
    | IH : forall g2 st2, exec ?c ?s g2 st2 -> _, H : exec ?c ?s ?g ?t |- _ =>
        lazymatch g with _ => apply IH in H; destruct H; subst; try congruence end
    | H : SimplifyStmtSpec.value_in _ _ _ _ _ _ ?s ?e = Some ?a, H' : SimplifyStmtSpec.value_in _ _ _ _ _ _ ?s ?e = Some ?b |- _ =>
        rewrite H in H'; injection H' as H'; subst
    end; auto; try congruence.
Qed.

Lemma decls_bound : forall (s : stmt) id x e, In (id, x, e) (decls s) -> In x (bound s).
Proof.
  induction s as [id k x e|k x e|o args raw| |a IHa b IHb|a IHa|c a IHa b IHb|c b IHb|k x e1 e2 e3 b IHb| |]; cbn; intros id0 x0 e0 H; try contradiction; eauto.
  - destruct H as [[= -> -> ->]|[]]. auto.
  - rewrite in_app_iff in *. destruct H; eauto.
  - rewrite in_app_iff in *. destruct H; eauto.
Qed.
Lemma forvars_bound : forall s : stmt, incl (forvars F s) (bound s).
Proof.
  induction s as [id k x e|k x e|o args raw| |a IHa b IHb|a IHa|c a IHa b IHb|c b IHb|k x e1 e2 e3 b IHb| |]; cbn; intros y H; try contradiction; try (apply IHa; exact H); try (apply IHb; exact H).
  - rewrite in_app_iff in *. destruct H as [H|H]; [left; apply IHa|right; apply IHb]; auto.
  - rewrite in_app_iff in *. destruct H as [H|H]; [left; apply IHa|right; apply IHb]; auto.
  - destruct H as [H|H]; [left|right; apply IHb]; auto.
Qed.
Lemma declared_once : forall (s : stmt), NoDup (bound s) -> forall x id e id' e', In (id, x, e) (decls s) -> In (id', x, e') (decls s) -> id = id'.
Proof.
  induction s as [id k x e|k x e|o args raw| |a IHa b IHb|a IHa|c a IHa b IHb|c b IHb|k x e1 e2 e3 b IHb| |]; cbn; intros Nd x0 i1 d1 i2 d2 H1 H2; try contradiction; eauto.
  - destruct H1 as [H1|[]], H2 as [H2|[]]. congruence.
  - apply NoDup_app_inv in Nd as (N1 & N2 & D). rewrite in_app_iff in *.
    destruct H1 as [H1|H1], H2 as [H2|H2]; eauto; apply decls_bound in H1, H2; exfalso; first [exact (D _ H1 H2)|exact (D _ H2 H1)].
  - apply NoDup_app_inv in Nd as (N1 & N2 & D). rewrite in_app_iff in *.
    destruct H1 as [H1|H1], H2 as [H2|H2]; eauto; apply decls_bound in H1, H2; exfalso; first [exact (D _ H1 H2)|exact (D _ H2 H1)].
  - inversion Nd; subst. eauto.
Qed.
Lemma fors_fresh : forall (s : stmt), NoDup (bound s) -> forall x id e, In x (forvars F s) -> In (id, x, e) (decls s) -> False.
Proof.
  induction s as [id k x e|k x e|o args raw| |a IHa b IHb|a IHa|c a IHa b IHb|c b IHb|k x e1 e2 e3 b IHb| |]; cbn; intros Nd x0 i1 d1 H1 H2; try contradiction; eauto.
  - apply NoDup_app_inv in Nd as (N1 & N2 & D). rewrite in_app_iff in *.
    destruct H1 as [H1|H1], H2 as [H2|H2]; eauto; apply decls_bound in H2; apply forvars_bound in H1; first [exact (D _ H1 H2)|exact (D _ H2 H1)].
  - apply NoDup_app_inv in Nd as (N1 & N2 & D). rewrite in_app_iff in *.
    destruct H1 as [H1|H1], H2 as [H2|H2]; eauto; apply decls_bound in H2; apply forvars_bound in H1; first [exact (D _ H1 H2)|exact (D _ H2 H1)].
  - inversion Nd; subst. destruct H1 as [<-|H1]; eauto. apply decls_bound in H2. contradiction.
Qed.

Hypothesis TO : forall m, typed_operations (op1 m) (op2 m) cast FL.
Hypothesis LAW : float_laws FO FL.
Hypothesis LT : compares F M op2.
Variable ty : nat -> kind.

Lemma part_top G (s : stmt) : simplifiable ty FL G s -> part F ty s G s.
Proof.
  intros [T (S & N & Fr) _ _ _]. constructor; auto using incl_refl.
  intros x Hx (id & e & Hd). eapply fors_fresh; eauto.
Qed.
Lemma inv_top G (s : stmt) L : simplifiable ty FL G s -> inv_st F FL ty s L G (CS [[]] [[]] [] []).
Proof.
  intros [T (S & N & Fr) _ _ _]. constructor; cbn; try (intros; contradiction); try discriminate; try constructor.
  intros id x e Hd HG. exfalso. eapply Fr; eauto. eapply decls_bound; eauto.
Qed.

Theorem simplify_stmt_ok G (s s' : stmt) st g st' : simplifiable ty FL G s -> simplify_stmt call FL s = Val s' ->
  (forall x, has_kind (ty x) (fst st x)) -> exec (Code s) st g st' ->
  exists st'', exec (Code s') st g st'' /\ (forall x, has_kind (ty x) (fst st'' x)) /\ snd st'' = snd st' /\ forall x, In x G -> fst st'' x = fst st' x.
Proof.
  intros Sm E K X. unfold simplify_stmt in E. set (L := ld_vars (loop_dependent 0 s (LD [] []))) in E.
  destruct (cp FL L s (CS [[]] [[]] [] [])) as [[s1 cs]| |] eqn:Ec; cbn [obind] in E; try discriminate.
  pose proof (part_top _ _ Sm) as Pt. pose proof (inv_top G s L Sm) as I.
  pose proof Sm as [T (S & N & Fr) SC SR SL].
  pose proof (declared_once s N) as Once.
  assert (LV : forall l v, In l (loops s) -> In v (assigned l) -> ~ In v (bound l) -> is_declared F s v -> In v L).
  { eapply (ld_ok F ty s s G 0 (LD [] []) Pt).
    - intros x Hx (id & e & Hd). exfalso. eapply Fr; eauto. eapply decls_bound; eauto.
    - reflexivity. }
  destruct (cp_cpr F call FL FO M op1 op2 cast TO LAW ty s L (needed cs) Once SC SR LV s G _ s1 cs [] Pt I Ec (incl_refl _)) as (P' & R & _).
  { intros x y []. }
  { intros x k y _ []. }
  destruct (cpr_ok F FL FO M op1 op2 cast eff TO ty (gone F s (needed cs)) _ _ _ _ X [] _ P' st R T K) as (st1 & X1 & A1 & K1 & _).
  { intros x y []. }
  { split; auto. }
  destruct (cp_static F call FL ty s L (needed cs) Once SC SR SL s G _ s1 cs Pt I Ec (incl_refl _)) as [B1 B2 B3 B4 B5 B6 B7 B8 B9].
  assert (NG : forall x, In x G -> ~ gone F s (needed cs) x).
  { intros x Hx (id & e & Hd & _). eapply Fr; eauto. eapply decls_bound; eauto. }
  destruct (remove_ok F FL FO M op1 op2 cast eff TO LAW LT ty _ _ _ _ X1 s' G st E B2) as (st2 & X2 & _ & K2 & A2); auto.
  { apply B3. intros x Hx _. exact Hx. }
  { split; auto. }
  exists st2. split; auto. split; auto. apply same_goes in A2. split.
  - rewrite <- (proj1 A2). symmetry. apply A1.
  - intros x Hx. rewrite <- (proj2 A2 x Hx). symmetry. apply A1. auto.
Qed.

(** The rounds of the printer. *)
Theorem simplify_n_ok G : forall n (s s' : stmt) st g st', (forall i si, i < n -> simplify_n call FL i s = Val si -> simplifiable ty FL G si) ->
  simplify_n call FL n s = Val s' -> (forall x, has_kind (ty x) (fst st x)) -> exec (Code s) st g st' ->
  exists st'', exec (Code s') st g st'' /\ snd st'' = snd st' /\ forall x, In x G -> fst st'' x = fst st' x.
Proof.
  induction n as [|n IH]; cbn [simplify_n]; intros s s' st g st' Sm E K X; [injection E as <-; eauto|].
  destruct (simplify_stmt call FL s) as [s1| |] eqn:E1; cbn [obind] in E; try discriminate.
  destruct (simplify_stmt_ok G s s1 st g st') as (st1 & X1 & K1 & M1 & V1); auto. { eapply (Sm 0); [lia|reflexivity]. }
  destruct (IH s1 s' st g st1) as (st2 & X2 & M2 & V2); auto.
  { intros i si Hi Ei. apply (Sm (S i)); [lia|]. cbn [simplify_n]. rewrite E1. exact Ei. }
  exists st2. split; auto. split; [congruence|]. intros x Hx. rewrite V2, V1; auto.
Qed.
End Top.
