(** Zeroing keeps the value of statements (C22). *)
From Coq Require Import List Arith Lia Bool Ring_theory Ring.
Import ListNotations.
From Verif Require Import IndexExpr Eval Notation NotationSpec NotationProofs NotationRun ZeroStmt ZeroStmtSpec.
Local Open Scope nat_scope.

Section P.
Context {V : Type}.
Variable R : ring_ops V.
Hypothesis RT : ring_theory (r0 R) (r1 R) (radd R) (rmul R) (rsub R) (ropp R) eq.
Variable fn : nat -> V -> V.
Variable dv : V -> V -> V.
Variable dim : ivar -> nat.
Hypothesis FN : forall f, fn f (r0 R) = r0 R.
Hypothesis DV : forall b, dv (r0 R) b = r0 R.
Add Ring Rr22 : RT.

Notation "0r" := (r0 R). Notation "a +r b" := (radd R a b) (at level 50, left associativity).
Notation ev := (neval R fn dv dim).
Notation run := (run R fn dv dim).
Notation ups := (ups R fn dv dim).
Notation expr := (nexpr V).
Notation stmt := (nstmt V).
Notation store := (@store V).
Notation sum := (sum R).

Lemma in_set_spec : forall z t vs, in_set z t vs = true <-> In (t, vs) z.
Proof.
  intros. unfold in_set. rewrite existsb_exists. split.
  - intros ([t' vs'] & I & E). apply andb_true_iff in E as [E1 E2]. cbn in *. apply Nat.eqb_eq in E1. destruct (list_eqb_spec vs' vs); [|discriminate]. subst. auto.
  - intros I. exists (t, vs). split; auto. cbn. rewrite Nat.eqb_refl. destruct (list_eqb_spec vs vs); auto.
Qed.

Definition oev (T : store) (r : val) (o : option expr) : V := match o with None => 0r | Some e => ev T r e end.

(** Nothing is zeroed in a denominator. *)
Lemma zero_none : forall z zv (e : expr), (forall u, In u (expr_uses e) -> ~ (In u z \/ In (fst u) zv)) -> zero_expr z zv e = Some e.
Proof.
  intros z zv. induction e; cbn [zero_expr expr_uses]; intros H; auto; try (rewrite IHe by auto; auto).
  1: { destruct (in_set z t vs || mem t zv) eqn:E; auto. exfalso. apply (H (t, vs)); [left; auto|]. apply orb_true_iff in E as [E|E]; [left; apply in_set_spec; auto|right; apply mem_In; auto]. }
  all: rewrite IHe1, IHe2 by (intros; apply H; apply in_app_iff; auto); auto.
Qed.

Lemma zero_expr_ok : forall z zv (e : expr) T r,
  plain_expr (fun u => In u z \/ In (fst u) zv) e ->
  (forall u, In u (expr_uses e) -> In u z -> forall r', (forall i, ~ In i (red_vars e) -> r' i = r i) -> T (fst u) (map r' (snd u)) = 0r) ->
  (forall u, In u (expr_uses e) -> In (fst u) zv -> forall x, T (fst u) x = 0r) ->
  oev T r (zero_expr z zv e) = ev T r e.
Proof.
  intros z zv. induction e; intros T r PL HZ HV; cbn [zero_expr plain_expr expr_uses red_vars] in *.
  - auto.
  - destruct (in_set z t vs) eqn:E; cbn [orb]. { cbn. symmetry. apply in_set_spec in E. apply (HZ (t, vs) (or_introl eq_refl) E r). auto. }
    destruct (mem t zv) eqn:E'; auto. cbn. symmetry. apply mem_In in E'. apply (HV (t, vs) (or_introl eq_refl) E').
  - specialize (IHe T r PL HZ HV). destruct (zero_expr z zv e); cbn in *; rewrite <- IHe; auto. ring.
  - specialize (IHe T r PL HZ HV). destruct (zero_expr z zv e); cbn in *; rewrite <- IHe; auto.
  - destruct PL as [P1 P2].
    assert (E1 := IHe1 T r P1). assert (E2 := IHe2 T r P2).
    destruct (zero_expr z zv e1), (zero_expr z zv e2); cbn in *; rewrite <- E1, <- E2; auto; try ring;
      intros; try (apply (HV u); auto; apply in_app_iff; auto; fail); apply (HZ u); auto; try (apply in_app_iff; auto); intros i N; apply H1; intro; apply N; apply in_app_iff; auto.
  - destruct PL as [P1 P2].
    assert (E1 := IHe1 T r P1). assert (E2 := IHe2 T r P2).
    destruct (zero_expr z zv e1), (zero_expr z zv e2); cbn in *; rewrite <- E1, <- E2; auto; try ring;
      intros; try (apply (HV u); auto; apply in_app_iff; auto; fail); apply (HZ u); auto; try (apply in_app_iff; auto); intros i N; apply H1; intro; apply N; apply in_app_iff; auto.
  - destruct PL as [P1 P2].
    assert (E1 := IHe1 T r P1). assert (E2 := IHe2 T r P2).
    destruct (zero_expr z zv e1), (zero_expr z zv e2); cbn in *; rewrite <- E1, <- E2; auto; try ring;
      intros; try (apply (HV u); auto; apply in_app_iff; auto; fail); apply (HZ u); auto; try (apply in_app_iff; auto); intros i N; apply H1; intro; apply N; apply in_app_iff; auto.
  - destruct PL as (P1 & P2 & P3).
    assert (E1 := IHe1 T r P1). rewrite (zero_none z zv e2 P3).
    destruct (zero_expr z zv e1); cbn in *; rewrite <- E1; auto;
      intros; try (apply (HV u); auto; apply in_app_iff; auto; fail); apply (HZ u); auto; try (apply in_app_iff; auto); intros i N; apply H1; intro; apply N; apply in_app_iff; auto.
  - destruct PL as [-> P]. 
    assert (G : forall c, oev T (ext r i c) (zero_expr z zv e) = ev T (ext r i c) e).
    { intros c. apply IHe; auto. intros u U Z r' E. apply (HZ u); auto. intros j N. rewrite E by (intro; apply N; right; auto). apply ext_other. intro; subst; apply N; left; auto. }
    destruct (zero_expr z zv e); cbn in *.
    + apply sum_ext. intros c _. apply G.
    + rewrite <- (sum_0 R RT (dim i)). apply sum_ext. intros c _. apply G.
Qed.

Lemma zero_reads : forall z zv (e e' : expr) t, zero_expr z zv e = Some e' -> In t (reads e') -> In t (reads e) /\ ~ In t zv.
Proof.
  intros z zv. induction e; intros e' t' H I; cbn [zero_expr reads] in *.
  - injection H as <-. destruct I.
  - destruct (in_set z t vs || mem t zv) eqn:E; [discriminate|]. injection H as <-. cbn in I. split; [exact I|]. destruct I as [<-|[]]. intro J. apply mem_In in J. rewrite J, orb_true_r in E. discriminate.
  - destruct (zero_expr z zv e); [|discriminate]. injection H as <-. eauto.
  - destruct (zero_expr z zv e); [|discriminate]. injection H as <-. eauto.
  - rewrite in_app_iff. destruct (zero_expr z zv e1), (zero_expr z zv e2); try discriminate; injection H as <-; cbn in I; rewrite ?in_app_iff in I;
      first [destruct (IHe1 _ _ eq_refl I); tauto|destruct (IHe2 _ _ eq_refl I); tauto|destruct I as [I|I]; [destruct (IHe1 _ _ eq_refl I)|destruct (IHe2 _ _ eq_refl I)]; tauto].
  - rewrite in_app_iff. destruct (zero_expr z zv e1), (zero_expr z zv e2); try discriminate; injection H as <-; cbn in I; rewrite ?in_app_iff in I;
      first [destruct (IHe1 _ _ eq_refl I); tauto|destruct (IHe2 _ _ eq_refl I); tauto|destruct I as [I|I]; [destruct (IHe1 _ _ eq_refl I)|destruct (IHe2 _ _ eq_refl I)]; tauto].
  - rewrite in_app_iff. destruct (zero_expr z zv e1), (zero_expr z zv e2); try discriminate; injection H as <-; cbn in I; rewrite ?in_app_iff in I;
      first [destruct (IHe1 _ _ eq_refl I); tauto|destruct (IHe2 _ _ eq_refl I); tauto|destruct I as [I|I]; [destruct (IHe1 _ _ eq_refl I)|destruct (IHe2 _ _ eq_refl I)]; tauto].
  - rewrite in_app_iff. destruct (zero_expr z zv e1), (zero_expr z zv e2); try discriminate; injection H as <-; cbn in I; rewrite ?in_app_iff in I;
      first [destruct (IHe1 _ _ eq_refl I); tauto|destruct (IHe2 _ _ eq_refl I); tauto|destruct I as [I|I]; [destruct (IHe1 _ _ eq_refl I)|destruct (IHe2 _ _ eq_refl I)]; tauto].
  - destruct (zero_expr z zv e); [|discriminate]. injection H as <-. eauto.
Qed.

Lemma zv_grows : forall z (s : stmt) zv t, In t zv -> In t (snd (zero_stmt_from z zv s)).
Proof.
  intros z. induction s as [t vs op e|an i b IH|c IHc p IHp]; intros zv u I; cbn.
  - destruct (zero_expr z zv e); cbn; auto.
  - specialize (IH zv u I). destruct (zero_stmt_from z zv b). auto.
  - specialize (IHp zv u I). destruct (zero_stmt_from z zv p) as [p' zv1]. specialize (IHc zv1 u IHp). destruct (zero_stmt_from z zv1 c). auto.
Qed.
Lemma zv_new : forall z (s : stmt) zv t, In t (snd (zero_stmt_from z zv s)) ->
  In t zv \/ In t (temps s) \/ (t = res s /\ fst (zero_stmt_from z zv s) = None).
Proof.
  intros z. induction s as [t vs op e|an i b IH|c IHc p IHp]; intros zv u; cbn.
  - destruct (zero_expr z zv e); cbn; auto. intros [|]; auto.
  - specialize (IH zv u). destruct (zero_stmt_from z zv b) as [b' zv']. cbn in *. intros I. destruct (IH I) as [|[|[A B]]]; auto. subst b'. auto.
  - specialize (IHp zv u). destruct (zero_stmt_from z zv p) as [p' zv1]. specialize (IHc zv1 u). destruct (zero_stmt_from z zv1 c) as [c' zv2]. cbn in *.
    intros I. rewrite in_app_iff. destruct (IHc I) as [J|[J|[J1 J2]]]; auto.
    + destruct (IHp J) as [|[|[A B]]]; auto.
    + subst c'. auto.
Qed.
(** The result of a statement is zeroed exactly when the statement is. *)
Lemma zv_res : forall z (s : stmt) zv, fst (zero_stmt_from z zv s) = None -> In (res s) (snd (zero_stmt_from z zv s)).
Proof.
  intros z. induction s as [t vs op e|an i b IH|c IHc p IHp]; intros zv; cbn.
  - destruct (zero_expr z zv e); cbn; auto. discriminate.
  - specialize (IH zv). destruct (zero_stmt_from z zv b) as [[b'|] zv']; cbn in *; auto. discriminate.
  - destruct (zero_stmt_from z zv p) as [p' zv1]. specialize (IHc zv1). destruct (zero_stmt_from z zv1 c) as [[c'|] zv2]; cbn in *; auto. destruct p'; discriminate.
Qed.
Lemma zs_reads : forall z (s : stmt) zv s' zv' t, zero_stmt_from z zv s = (Some s', zv') -> In t (rhs_reads s') -> In t (rhs_reads s) /\ ~ In t zv.
Proof.
  intros z. induction s as [t0 vs op e|an i b IH|c IHc p IHp]; intros zv s' zv' t H I; cbn [zero_stmt_from rhs_reads] in *.
  - destruct (zero_expr z zv e) eqn:E; [|discriminate]. injection H as <- <-. eapply zero_reads; eauto.
  - destruct (zero_stmt_from z zv b) as [[b'|] zv1] eqn:E; [|discriminate]. injection H as <- <-. eapply IH; eauto.
  - destruct (zero_stmt_from z zv p) as [p' zv1] eqn:Ep. destruct (zero_stmt_from z zv1 c) as [c' zv2] eqn:Ec.
    assert (G : forall u, In u zv -> In u zv1). { intros u U. pose proof (zv_grows z p zv u U) as Q. rewrite Ep in Q. auto. }
    rewrite in_app_iff. destruct c' as [c'|], p' as [p'|]; try discriminate; injection H as <- <-; cbn in I.
    + apply in_app_iff in I as [I|I]; [destruct (IHp _ _ _ _ Ep I)|destruct (IHc _ _ _ _ Ec I)]; auto.
    + destruct (IHc _ _ _ _ Ec I); auto.
Qed.
Lemma zs_res : forall z (s : stmt) zv s' zv', zero_stmt_from z zv s = (Some s', zv') -> res s' = res s /\ incl (temps s') (temps s).
Proof.
  intros z. induction s as [t0 vs op e|an i b IH|c IHc p IHp]; intros zv s' zv' H; cbn [zero_stmt_from] in *.
  - destruct (zero_expr z zv e) eqn:E; [|discriminate]. injection H as <- <-. cbn. split; auto. intros x X; auto.
  - destruct (zero_stmt_from z zv b) as [[b'|] zv1] eqn:E; [|discriminate]. injection H as <- <-. cbn. eapply IH; eauto.
  - destruct (zero_stmt_from z zv p) as [p' zv1] eqn:Ep. destruct (zero_stmt_from z zv1 c) as [c' zv2] eqn:Ec.
    destruct c' as [c'|], p' as [p'|]; try discriminate; injection H as <- <-; cbn; destruct (IHc _ _ _ Ec) as [A B]; split; auto.
    + destruct (IHp _ _ _ Ep) as [C D]. rewrite C. intros t [|I]; [left; auto|]. right. apply in_app_iff in I as [I|I]; apply in_app_iff; [left; apply D|right; apply B]; auto.
    + intros t I. right. apply in_app_iff. right. apply B. auto.
Qed.

Lemma apply_zero : forall us, (forall u : option redop * V, In u us -> snd u = 0r) -> apply R 0r us = 0r.
Proof.
  unfold apply. induction us as [|u us IH]; cbn; intros H; auto. replace (apply1 R 0r u) with 0r; auto.
  unfold apply1. rewrite (H u) by auto. destruct (fst u) as [[|]|]; cbn; ring.
Qed.
Lemma apply_zero_sum : forall us a, (forall u : option redop * V, In u us -> snd u = 0r /\ fst u = Some RSum) -> apply R a us = a.
Proof.
  unfold apply. induction us as [|u us IH]; cbn; intros a H; auto. replace (apply1 R a u) with a; auto.
  unfold apply1. destruct (H u) as [A B]; auto. rewrite A, B. cbn. ring.
Qed.

Definition cond (z : accesses_set) (zv : list tensor) (s : stmt) (r : val) (T : store) : Prop :=
  (forall u, In u (stmt_uses s) -> In u z -> known_zero R T r s u) /\
  (forall u, In u (stmt_uses s) -> In (fst u) zv -> forall x, T (fst u) x = 0r).
Lemma uses_reads : forall (e : expr) u, In u (expr_uses e) -> In (fst u) (reads e).
Proof. induction e; cbn; intros u I; auto; try (destruct I as [<-|[]]; auto; fail); apply in_app_iff in I as [I|I]; apply in_app_iff; auto. Qed.
Lemma stmt_uses_reads : forall (s : stmt) u, In u (stmt_uses s) -> In (fst u) (rhs_reads s).
Proof. induction s; cbn; intros u I; auto using uses_reads. apply in_app_iff in I as [I|I]; apply in_app_iff; auto. Qed.

Lemma plain_mono : forall (P Q : tensor * list ivar -> Prop) (e : expr), (forall u, In u (expr_uses e) -> P u -> Q u) -> plain_expr Q e -> plain_expr P e.
Proof.
  intros P Q. induction e; cbn; intros H PL; auto.
  - destruct PL; split; [apply IHe1|apply IHe2]; auto; intros; apply H; auto; apply in_app_iff; auto.
  - destruct PL; split; [apply IHe1|apply IHe2]; auto; intros; apply H; auto; apply in_app_iff; auto.
  - destruct PL; split; [apply IHe1|apply IHe2]; auto; intros; apply H; auto; apply in_app_iff; auto.
  - destruct PL as (A & B & C); split; [|split]; [apply IHe1|apply IHe2|]; auto; try (intros; apply H; auto; apply in_app_iff; auto).
    intros u U PU. apply (C u U). apply H; auto. apply in_app_iff; auto.
  - destruct PL; split; auto.
Qed.

Lemma plain_stmt_mono : forall (Q Q' : tensor * list ivar -> Prop) (s : stmt), (forall u, Q u -> Q' u) -> plain_stmt Q' s -> plain_stmt Q s.
Proof. intros Q Q' s QQ. induction s; cbn; intros; [eapply plain_mono; [|eassumption]; auto|auto|tauto]. Qed.

Theorem zero_from_ok : forall z (s : stmt) zv o zv', zero_stmt_from z zv s = (o, zv') ->
  NoDup (res s :: temps s) -> ~ In (res s) (rhs_reads s) -> scoped s ->
  (forall t, In t zv -> ~ In t (res s :: temps s)) ->
  (forall u, In u (stmt_uses s) -> In u z -> ~ In (fst u) (res s :: temps s)) ->
  plain_stmt (fun u => In u z \/ In (fst u) zv \/ In (fst u) (temps s)) s ->
  forall r T, cond z zv s r T ->
  match o with
  | Some s' => eqT (run s' r T) (run s r T)
  | None => forall x u, In u (ups s r T x) -> snd u = 0r
  end.
Proof.
  intros z. induction s as [t vs op e|an i b IH|c IHc p IHp]; intros zv o zv' H ND RD SC ZV ZO PL r T [CZ CV]; cbn [zero_stmt_from] in H.
  - cbn in *. assert (E := zero_expr_ok z zv e T r). destruct (zero_expr z zv e) as [e'|]; injection H as <- <-; cbn in E.
    + intros t' x'. cbn. rewrite E; auto. eapply plain_mono; [|exact PL]. cbn. tauto.
    + intros x u I. cbn in I. destruct (list_eqb x (map r vs)); [|destruct I]. destruct I as [<-|[]]. cbn. symmetry. apply E; auto. eapply plain_mono; [|exact PL]. cbn. tauto.
  - cbn [res temps rhs_reads scoped stmt_uses plain_stmt] in *. destruct (zero_stmt_from z zv b) as [b' zv1] eqn:Eb. injection H as <- <-.
    assert (ST : forall T' k, (forall t x, t <> res b -> T' t x = T t x) -> cond z zv b (ext r i k) T').
    { intros T' k O. split.
      - intros u U Z r' E. rewrite O. { apply (CZ u U Z). intros j N. cbn in N. rewrite E by tauto. apply ext_other. intro; subst; apply N; auto. }
        intro Q. apply (ZO u U Z). left. auto.
      - intros u U Z x. rewrite O. { apply CV; auto. } intro Q. apply (ZV (fst u) Z). left. auto. }
    assert (G := IH zv b' zv1 Eb ND RD SC ZV ZO PL). destruct b' as [b'|]; cbn [option_map].
    + intros t x. cbn [NotationSpec.run].
      destruct (zs_res z b zv b' zv1 Eb) as [RB _].
      assert (F : forall l T1 T2, eqT T1 T2 -> (forall t x, t <> res b -> T2 t x = T t x) ->
        eqT (fold_left (fun T c => run b' (ext r i c) T) l T1) (fold_left (fun T c => run b (ext r i c) T) l T2)).
      { induction l as [|k l IHl]; intros T1 T2 E O; auto. cbn. apply IHl.
        - eapply eqT_trans; [apply run_ext; [exact E|auto]|]. apply G. apply ST. auto.
        - intros t' x' N. rewrite frame by auto. auto. }
      apply F; auto. intros t' x'. auto.
    + intros x u I. cbn in I. apply in_flat_map in I as (k & _ & I). apply (G _ _ (ST T k (fun _ _ _ => eq_refl)) x u I).
  - cbn [res temps rhs_reads scoped stmt_uses plain_stmt] in *.
    destruct (zero_stmt_from z zv p) as [p' zv1] eqn:Ep. destruct (zero_stmt_from z zv1 c) as [c' zv2] eqn:Ec. injection H as <- <-.
    destruct SC as (S1 & S2 & S3 & S4). destruct PL as [PLc PLp].
    apply NoDup_cons_iff in ND as [N1 ND]. apply NoDup_cons_iff in ND as [N2 ND]. cbn [In] in N1. rewrite in_app_iff in N1, N2.
    assert (NDp : NoDup (res p :: temps p)). { constructor; [tauto|]. clear - ND. induction (temps p) as [|a l IH]; cbn in *; constructor; inversion ND; subst; auto. intro; apply H1; apply in_app_iff; auto. }
    assert (NDc : NoDup (res c :: temps c)). { constructor; [tauto|]. clear - ND. induction (temps p) as [|a l IH]; cbn in *; auto. inversion ND; auto. }
    assert (DIS : forall t, In t (temps p) -> ~ In t (temps c)). { clear - ND. induction (temps p) as [|a l IH]; cbn in *; intros t I; [destruct I|]. inversion ND; subst. destruct I as [->|I]; auto. intro J. apply H1. apply in_app_iff; auto. }
    set (T0 := clear R (res p) T).
    assert (O0 : forall t x, t <> res p -> T0 t x = T t x). { intros t x N. unfold T0, clear, set_tensor. destruct (Nat.eqb_spec t (res p)); congruence. }
    assert (CP : cond z zv p r T0).
    { split.
      - intros u U Z r' E. rewrite O0. { apply (CZ u); auto. { apply in_app_iff; auto. } intros j N. apply E. intro; apply N. cbn. apply in_app_iff; auto. }
        intro Q. apply (ZO u); auto. { apply in_app_iff; auto. } right. left. auto.
      - intros u U Z x. rewrite O0. { apply CV; auto. apply in_app_iff; auto. } intro Q. apply (ZV (fst u) Z). right. left. auto. }
    assert (GP := IHp zv p' zv1 Ep NDp S2 S4). 
    assert (GP' : match p' with Some s' => eqT (run s' r T0) (run p r T0) | None => forall x u, In u (ups p r T0 x) -> snd u = 0r end).
    { apply GP; auto.
      - intros t I [J|J]; apply (ZV t I); cbn; rewrite in_app_iff; auto.
      - intros u U Z [J|J]; apply (ZO u); auto; cbn; rewrite ?in_app_iff; auto.
      - eapply plain_stmt_mono; [|exact PLp]. intros u. cbn. rewrite in_app_iff. tauto. }
    clear GP. set (T1 := run p r T0) in *.
    assert (O1 : forall t x, t <> res p -> T1 t x = T t x). { intros t x N. unfold T1. rewrite frame by auto. apply O0. auto. }
    assert (ZN : forall t, In t zv1 -> In t zv \/ In t (temps p) \/ (t = res p /\ p' = None)).
    { intros t I. pose proof (zv_new z p zv t) as Q. rewrite Ep in Q. auto. }
    assert (Z1 : p' = None -> forall x, T1 (res p) x = 0r).
    { intros -> x. unfold T1. rewrite run_ups by (auto; inversion NDp; auto). unfold T0 at 1, clear, set_tensor. rewrite Nat.eqb_refl. apply apply_zero. apply GP'. }
    assert (CC : cond z zv1 c r T1).
    { split.
      - intros u U Z r' E. rewrite O1. { apply (CZ u); auto. { apply in_app_iff; auto. } intros j N. apply E. intro; apply N. cbn. apply in_app_iff; auto. }
        intro Q. apply (ZO u); auto. { apply in_app_iff; auto. } right. left. auto.
      - intros u U Z x. destruct (ZN _ Z) as [J|[J|[J1 J2]]].
        + rewrite O1. { apply CV; auto. apply in_app_iff; auto. } intro Q. apply (ZV (fst u) J). right. left. auto.
        + exfalso. apply (S1 _ J). apply stmt_uses_reads. auto.
        + rewrite J1. auto. }
    assert (GC := IHc zv1 c' zv2 Ec NDc).
    assert (GC' : match c' with Some s' => eqT (run s' r T1) (run c r T1) | None => forall x u, In u (ups c r T1 x) -> snd u = 0r end).
    { apply GC; auto.
      - intro I. apply RD. apply in_app_iff; auto.
      - intros t I [J|J]; destruct (ZN t I) as [K|[K|[K1 K2]]].
        + apply (ZV t K). left; auto.
        + subst t. tauto.
        + subst. apply N1; auto.
        + apply (ZV t K). right. right. apply in_app_iff; auto.
        + apply (DIS t K J).
        + subst. tauto.
      - intros u U Z [J|J]; apply (ZO u); auto; cbn; rewrite ?in_app_iff; auto.
      - eapply plain_stmt_mono; [|exact PLc]. intros u. cbn. rewrite in_app_iff. intros [|[I|]]; auto. destruct (ZN _ I) as [|[|[K _]]]; auto. }
    clear GC. destruct c' as [c'|].
    + destruct (zs_res z c zv1 c' zv2 Ec) as [RC TC].
      destruct p' as [p'|].
      * destruct (zs_res z p zv p' zv1 Ep) as [RP _]. cbn [NotationSpec.run]. rewrite RP. fold T0. fold T1.
        apply set_ext; [|auto]. eapply eqT_trans; [|exact GC']. apply run_ext; auto.
      * (* the temporary is zero: the consumer does not read it *)
        assert (NRp : ~ In (res p) (rhs_reads c')).
        { intro I. destruct (zs_reads z c zv1 c' zv2 _ Ec I) as [_ N]. apply N. pose proof (zv_res z p zv) as Q. rewrite Ep in Q. auto. }
        assert (OF : off (res p) (run c' r T) (run c' r T1)). { apply run_off; auto. intros t x N. symmetry. apply O1. auto. }
        intros t x. cbn [NotationSpec.run]. fold T0. fold T1. unfold set_tensor. destruct (Nat.eqb_spec t (res p)) as [->|N].
        -- apply frame. rewrite RC. intro Q. apply N1. left. auto.
        -- rewrite OF by auto. apply GC'.
    + intros x u I. cbn [NotationRun.ups] in I. apply (GC' x u I).
Qed.
End P.
