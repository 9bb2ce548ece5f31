(** Invariants of copy propagation. *)
From Coq Require Import List ZArith Lia Bool Relations.
From Verif Require Import Outcome Types TypesProofs Simplify SimplifySpec SimplifyProofs SimplifyStmt SimplifyStmtSpec SimplifyStmtExpr SimplifyStmtMaps.
Import ListNotations.
Local Open Scope nat_scope.

Section Cp.
Variable F : Type.
Variable FL : flits F.
Variable ty : nat -> kind.
Notation expr := (expr F).
Notation stmt := (stmt F).
Variable S0 : stmt.         (* the whole program *)
Variable L : list nat.      (* the loop dependent variables *)
Notation cp := (cp FL L).
Notation copies := (copies FL S0).

Fixpoint forvars (s : stmt) : list nat :=
  match s with
  | SCons a b | SIf _ a b => forvars a ++ forvars b
  | SScope a | SWhile _ a => forvars a
  | SFor _ x _ _ _ b => x :: forvars b
  | _ => []
  end.
Definition is_declared (x : nat) : Prop := exists id e, In (id, x, e) (decls S0).

Hypothesis once : forall x id e id' e', In (id, x, e) (decls S0) -> In (id', x, e') (decls S0) -> id = id'.

Record part (G : list nat) (s : stmt) : Prop := {
  p_scoped : scoped G s;
  p_typed : styped ty s;
  p_nodup : NoDup (bound s);
  p_fresh : forall x, In x (bound s) -> ~ In x G;
  p_decls : incl (decls s) (decls S0);
  p_loops : incl (loops s) (loops S0);
  p_raws : incl (raws s) (raws S0);
  p_fors : forall x, In x (forvars s) -> ~ is_declared x }.

Lemma declares_bound (s : stmt) : incl (declares s) (bound s).
Proof.
  induction s; cbn; try (intros ? []; fail); try apply incl_refl. apply incl_app; [apply incl_appl|apply incl_appr]; auto.
Qed.

Lemma incl_app_l {A} (a b c : list A) : incl (a ++ b) c -> incl a c.
Proof. intros H x Hx. apply H. apply in_or_app. auto. Qed.
Lemma incl_app_r {A} (a b c : list A) : incl (a ++ b) c -> incl b c.
Proof. intros H x Hx. apply H. apply in_or_app. auto. Qed.
Lemma incl_cons_r {A} (a : A) b c : incl (a :: b) c -> incl b c.
Proof. intros H x Hx. apply H. right. auto. Qed.
Lemma part_cons G a b : part G (SCons a b) -> part G a /\ part (declares a ++ G) b.
Proof.
  intros [P1 P2 P3 P4 P5 P6 P7 P8]. cbn [scoped styped bound decls loops raws forvars] in *.
  destruct P1 as (S1 & S2). destruct P2 as (T1 & T2). apply NoDup_app_inv in P3 as (N1 & N2 & D).
  split; constructor; auto; try (eapply incl_app_l; eassumption); try (eapply incl_app_r; eassumption);
    try (intros x Hx; first [apply P4|apply P8]; apply in_or_app; auto; fail).
  intros x Hx Hin. apply in_app_or in Hin as [Hin|Hin].
  - apply declares_bound in Hin. exact (D _ Hin Hx).
  - eapply P4; [apply in_or_app; right; exact Hx|exact Hin].
Qed.
Lemma part_scope G a : part G (SScope a) -> part G a.
Proof. intros [P1 P2 P3 P4 P5 P6 P7 P8]. constructor; assumption. Qed.
Lemma part_if G c a b : part G (SIf c a b) -> part G a /\ part G b.
Proof.
  intros [P1 P2 P3 P4 P5 P6 P7 P8]. cbn [scoped styped bound decls loops raws forvars] in *.
  destruct P1 as (S0' & S1 & S2). destruct P2 as (T0 & T0' & T1 & T2). apply NoDup_app_inv in P3 as (N1 & N2 & D).
  split; constructor; auto; try (eapply incl_app_l; eassumption); try (eapply incl_app_r; eassumption);
    try (intros x Hx; first [apply P4|apply P8]; apply in_or_app; auto; fail).
Qed.
Lemma part_while G c b : part G (SWhile c b) -> part G b.
Proof.
  intros [P1 P2 P3 P4 P5 P6 P7 P8]. cbn [scoped styped bound decls loops raws forvars] in *.
  destruct P1 as (S1 & S2). destruct P2 as (T0 & T0' & T1). constructor; auto. eapply incl_cons_r; eassumption.
Qed.
Lemma part_for G k x e1 e2 e3 b : part G (SFor k x e1 e2 e3 b) -> part (x :: G) b /\ ~ In x G /\ ~ is_declared x.
Proof.
  intros [P1 P2 P3 P4 P5 P6 P7 P8]. cbn [scoped styped bound decls loops raws forvars] in *.
  inversion P3; subst. split; [|split]; [|apply P4; left; reflexivity|apply P8; left; reflexivity].
  constructor; auto; try tauto.
  - intros y Hy [->|H]; [contradiction|]. exact (P4 y (or_intror Hy) H).
  - eapply incl_cons_r; eassumption.
  - intros y Hy. apply P8. right. auto.
Qed.

(** The state of copy propagation inside the scope [G]. *)
Record inv (G : list nat) (m : smap (kind * nat)) (d : smap nat) (dep : list (nat * nat)) : Prop := {
  i_m : m <> []; i_d : d <> [];
  i_nodup : NoDup (keys m);
  i_scope : forall x k y, In (x, (k, y)) (concat m) -> In x G /\ In y G;
  i_kind : forall x k y, In (x, (k, y)) (concat m) -> k = ty x /\ ty y = ty x /\ is_int (ty x) = true;
  i_decl : forall x k y, In (x, (k, y)) (concat m) -> is_declared x;
  i_loop : forall x k y, In (x, (k, y)) (concat m) -> ~ In x L;
  i_dep : forall x k y, In (x, (k, y)) (concat m) -> In (y, x) dep;
  i_copy : forall y x, In (y, x) dep -> copies x y;
  i_declared : forall id x e, In (id, x, e) (decls S0) -> In x G -> get x d = Some id;
  i_keys : forall x id, get x d = Some id -> In x G }.
Definition inv_st G (st : cstate) := inv G (replace_ st) (declared st) (depends st).

Lemma inv_sub G m m' d dep : inv G m d dep -> sub m' m -> NoDup (keys m') -> inv G m' d dep.
Proof.
  intros [] S N. assert (I : forall p, In p (concat m') -> In p (concat m)) by (intros; eapply sub_in; eauto).
  constructor; eauto. eapply sub_ne; eauto.
Qed.
Lemma inv_m_kind G m d dep : inv G m d dep -> forall x k y, get x m = Some (k, y) -> k = ty x /\ ty y = ty x.
Proof. intros I x k y E. apply get_in in E. destruct (i_kind _ _ _ _ I _ _ _ E) as (A & B & _). auto. Qed.

Lemma cp_expr_inv e st e' st' : cp_expr FL e st = Val (e', st') ->
  simplify_expr FL (subst (replace_ st) e) = Done e' /\ st' = mark e st.
Proof.
  unfold cp_expr, simplify_. destruct (simplify_expr FL (subst (replace_ st) e)); cbn; try discriminate.
  intros [= <- <-]. auto.
Qed.
Lemma needed_mark (e : expr) st : incl (needed st) (needed (mark e st)).
Proof. apply incl_appr, incl_refl. Qed.
Lemma cp_exprs_inv : forall es st es' st', cp_exprs FL es st = Val (es', st') ->
  replace_ st' = replace_ st /\ declared st' = declared st /\ depends st' = depends st /\ incl (needed st) (needed st').
Proof.
  induction es as [|e es IH]; cbn [cp_exprs]; intros st es' st' E; [injection E as <- <-; repeat split; auto; apply incl_refl|].
  destruct (cp_expr FL e st) as [[e1 st1]| |] eqn:E1; try discriminate. cbn [obind] in E.
  destruct (cp_exprs FL es st1) as [[es1 st2]| |] eqn:E2; try discriminate. injection E as <- <-.
  apply cp_expr_inv in E1 as (_ & ->). destruct (IH _ _ _ E2) as (A & B & C & D). repeat split; auto.
  eapply incl_tran; [apply (needed_mark e)|exact D].
Qed.

Lemma insert_none {V} x (v : V) m : m <> [] -> get x m = None -> insert_front x v m = ((x, v) :: hd [] m) :: tl m.
Proof. destruct m as [|s m]; [congruence|]. cbn. intros _. destruct (assoc x s); [discriminate|reflexivity]. Qed.
Lemma get_insert {V} x (v : V) m y : m <> [] -> get x m = None -> get y (insert_front x v m) = if x =? y then Some v else get y m.
Proof.
  intros N G. rewrite (insert_none x v m N G). destruct m as [|s m]; [congruence|]. cbn. destruct (x =? y); reflexivity.
Qed.

(** Simplifying a renamed expression to a variable. *)
Lemma renamed_var G m d dep e k y : inv G m d dep -> typed ty e -> simplify_expr FL (subst m e) = Done (EVar k y) ->
  exists k0 z, simplify_expr FL e = Done (EVar k0 z) /\ (z = y \/ copies z y).
Proof.
  intros I T E. rewrite (simplify_subst FL ty m) in E; [|eapply inv_m_kind; eauto|auto].
  destruct (simplify_expr FL e) as [e0| |]; cbn in E; try discriminate. injection E as E.
  destruct e0; cbn in E; try discriminate. exists k0, x. split; auto.
  destruct (get x m) as [[k' y']|] eqn:Eg; injection E as -> ->; auto.
  right. apply (i_copy _ _ _ _ I). eapply i_dep; eauto. apply get_in. eauto.
Qed.
Lemma subst_evars m (e : expr) v : In v (evars (subst m e)) ->
  exists x, In x (evars e) /\ (match get x m with Some (_, y) => y | None => x end) = v.
Proof.
  unfold evars.
  induction e as [l|k x|a IHa|a IHa b IHb|a IHa b IHb|a IHa b IHb|a IHa b IHb|a IHa b IHb|a IHa b IHb|k a IHa|k o a IHa|k o a IHa b IHb];
    cbn [subst occurs map]; auto; rewrite ?map_app; try contradiction;
    try (intro H; apply in_app_or in H as [H|H]; [destruct (IHa H) as (x & Hx & E)|destruct (IHb H) as (x & Hx & E)];
         exists x; split; auto; apply in_or_app; auto; fail).
  destruct (get x m) as [[k' y]|] eqn:E; cbn; intros [<-|[]]; exists x; rewrite E; auto.
Qed.
Lemma subst_within G m d dep (e : expr) : inv G m d dep -> within G e -> within G (subst m e).
Proof.
  intros I W v Hv. apply subst_evars in Hv as (x & Hx & E). destruct (get x m) as [[k y]|] eqn:Eg; subst.
  - apply get_in in Eg. apply (i_scope _ _ _ _ I) in Eg. tauto.
  - auto.
Qed.
Lemma keeps_evars (e e' : expr) : keeps ty e e' -> incl (evars e') (evars e).
Proof. intros (_ & _ & I) x H. apply in_map_iff in H as (p & <- & Hp). apply in_map. auto. Qed.
Lemma cp_keeps G m d dep (e e' : expr) : inv G m d dep -> typed ty e -> simplify_expr FL (subst m e) = Done e' -> keeps ty (subst m e) e'.
Proof. intros I T E. eapply simp_keeps; [|exact E]. apply subst_typed; auto. eapply inv_m_kind; eauto. Qed.

(** What running over [s] does to the state. *)
Record step (G : list nat) (s : stmt) (st st' : cstate) : Prop := {
  t_inv : inv_st (declares s ++ G) st';
  t_declared : tl (declared st') = tl (declared st);
  t_outer : sub (tl (replace_ st')) (tl (replace_ st));
  t_front : forall p, In p (hd [] (replace_ st')) -> In p (hd [] (replace_ st)) \/ In (fst p) (declares s);
  t_needed : incl (needed st) (needed st');
  t_depends : incl (depends st) (depends st');
  t_killed : forall p, In p (concat (replace_ st)) ->
    In p (concat (replace_ st')) \/ exists v, In v (assigned s) /\ (fst p = v \/ copies (fst p) v) }.

Lemma concat_hd {A} (m : list (list A)) : m <> [] -> concat m = hd [] m ++ concat (tl m).
Proof. destruct m; [congruence|reflexivity]. Qed.
Lemma step_entries G s st st' : inv_st G st -> step G s st st' -> forall p, In p (concat (replace_ st')) ->
  In p (concat (replace_ st)) \/ In (fst p) (declares s).
Proof.
  intros I T p H. rewrite concat_hd in H by apply (t_inv _ _ _ _ T). rewrite concat_hd by apply I.
  apply in_app_or in H as [H|H].
  - destruct (t_front _ _ _ _ T p H); auto. left. apply in_or_app. auto.
  - left. apply in_or_app. right. eapply sub_in; [apply T|exact H].
Qed.
Lemma step_refl G (s : stmt) st st' : inv_st G st -> declares s = [] ->
  replace_ st' = replace_ st -> declared st' = declared st -> depends st' = depends st -> incl (needed st) (needed st') ->
  step G s st st'.
Proof.
  intros I D E1 E2 E3 N. constructor; rewrite ?D; unfold inv_st; rewrite ?E1, ?E2, ?E3; auto.
  - apply sub_refl.
  - apply incl_refl.
Qed.
Lemma inv_enter G st : inv_st G st -> inv_st G (enter st).
Proof. intros []. constructor; cbn; auto; try discriminate. Qed.
(** Leaving a scope. *)
Lemma leave_ok G G' (s s0 : stmt) st st' : inv_st G st -> incl G G' -> (forall x, In x (declares s) -> ~ In x G) ->
  declares s0 = [] -> incl (assigned s) (assigned s0) ->
  step G' s (enter st) st' -> step G s0 st (leave st') /\ sub (replace_ (leave st')) (replace_ st) /\
  declared (leave st') = declared st.
Proof.
  intros I IG Fr D As T. pose proof T as [T1 T2 T3 T4 T5 T6 T7]. cbn in T2, T3, T4, T5, T6, T7.
  assert (Sb : sub (replace_ (leave st')) (replace_ st)) by exact T3.
  assert (Ed : declared (leave st') = declared st) by exact T2.
  split; [|split; auto].
  assert (I' : inv_st G (leave st')).
  { unfold inv_st. rewrite Ed. assert (N : NoDup (keys (replace_ (leave st')))).
    { pose proof (i_nodup _ _ _ _ T1) as N. unfold keys in N |- *. rewrite concat_hd in N by apply T1. rewrite map_app in N.
      apply NoDup_app_inv in N. apply N. }
    pose proof (inv_sub _ _ _ _ _ I Sb N) as [].
    constructor; auto.
    - intros x k y H. cbn. apply T6. eauto.
    - exact (i_copy _ _ _ _ T1). }
  constructor.
  - rewrite D. exact I'.
  - rewrite Ed. reflexivity.
  - apply sub_tl; auto.
  - intros p H. left. eapply sub_hd; eauto.
  - exact T5.
  - exact T6.
  - intros p H. destruct (T7 p H) as [H'|(v & Hv & H')]; [|right; exists v; split; auto].
    left. rewrite concat_hd in H' by apply T1. apply in_app_or in H' as [H'|H']; [|exact H'].
    destruct (T4 p H') as [[]|H'']. exfalso. destruct p as [x [k y]]. exact (Fr _ H'' (proj1 (i_scope _ _ _ _ I _ _ _ H))).
Qed.
Lemma step_trans G (a b s : stmt) st st1 st2 : inv_st G st -> declares s = declares a ++ declares b ->
  assigned s = assigned a ++ assigned b -> (forall x, In x (declares b) -> ~ In x G) ->
  step G a st st1 -> step (declares a ++ G) b st1 st2 ->
  inv_st (declares s ++ G) st2 -> step G s st st2.
Proof.
  intros I D As Fr [A1 A2 A3 A4 A5 A6 A7] [B1 B2 B3 B4 B5 B6 B7] I2. constructor; auto; try congruence.
  - eapply sub_trans; eauto.
  - intros p H. rewrite D. destruct (B4 p H) as [H'|H']; [|right; apply in_or_app; auto].
    destruct (A4 p H'); auto. right. apply in_or_app. auto.
  - eapply incl_tran; eauto.
  - eapply incl_tran; eauto.
  - intros p H. rewrite As. destruct (A7 p H) as [H'|(v & Hv & H')]; [|right; exists v; split; auto; apply in_or_app; auto].
    destruct (B7 p H') as [H''|(v & Hv & H'')]; auto. right. exists v. split; auto. apply in_or_app. auto.
Qed.
Lemma inv_equiv G G' m d dep : inv G m d dep -> (forall x, In x G <-> In x G') -> inv G' m d dep.
Proof.
  intros [] E. constructor; auto.
  - intros x k y H. destruct (i_scope0 x k y H). split; apply E; auto.
  - intros id x e H1 H2. apply E in H2. eauto.
  - intros x id H. apply E. eauto.
Qed.
(** Under the variable of a for loop. *)
Lemma inv_for G x m d dep : inv G m d dep -> ~ In x G -> ~ is_declared x -> inv (x :: G) m d dep.
Proof.
  intros [] N D. constructor; auto.
  - intros y k z H. destruct (i_scope0 _ _ _ H). cbn. auto.
  - intros id y e H [->|H']; [exfalso; apply D; exists id, e; auto|eauto].
  - intros y id H. right. eauto.
Qed.

Ltac ostep E H := match type of E with obind ?o _ = _ => destruct o as [[? ?]| |] eqn:H; cbn [obind] in E; try discriminate end.

Theorem cp_step : forall s G st s' st', part G s -> inv_st G st -> cp s st = Val (s', st') -> step G s st st'.
Proof.
  induction s as [id k x e|k x e|o args raw| |a IHa b IHb|a IHa|c a IHa b IHb|c b IHb|k x e1 e2 e3 b IHb| |];
    intros G st s' st' P I E; cbn [SimplifyStmt.cp] in E.
  - (* declaration *)
    ostep E E1. apply cp_expr_inv in E1 as (Es & ->). injection E as <- <-.
    pose proof (p_typed _ _ P) as T. cbn in T. destruct T as (Te & Ek & Ke). pose proof (p_scoped _ _ P) as W. cbn in W.
    assert (NG : ~ In x G) by (apply (p_fresh _ _ P); cbn; auto).
    assert (Dx : In (id, x, e) (decls S0)) by (apply (p_decls _ _ P); cbn; auto).
    assert (Gd : get x (declared st) = None).
    { destruct (get x (declared st)) eqn:Eg; auto. exfalso. apply NG. eapply i_keys; eauto. }
    assert (Gm : get x (replace_ st) = None).
    { destruct (get x (replace_ st)) as [[kk yy]|] eqn:Eg; auto. exfalso. apply NG. apply get_in in Eg. exact (proj1 (i_scope _ _ _ _ I _ _ _ Eg)). }
    pose proof (cp_keeps _ _ _ _ _ _ I Te Es) as Kp.
    assert (We : incl (evars e0) G) by (eapply incl_tran; [eapply keeps_evars; eauto|eapply subst_within; eauto]).
    assert (I1 : inv (x :: G) (replace_ st) (insert_front x id (declared st)) (depends st)).
    { pose proof I as I'. destruct I'. constructor; auto.
      - rewrite (insert_none x id _ i_d0 Gd). discriminate.
      - intros y k0 z H. destruct (i_scope0 _ _ _ H). cbn. auto.
      - intros id' y e' H1 H2. rewrite get_insert by auto. destruct (Nat.eqb_spec x y).
        + subst. f_equal. eapply once; eauto.
        + destruct H2; [congruence|eauto].
      - intros y id' H. rewrite get_insert in H by auto. destruct (Nat.eqb_spec x y); [left; auto|right; eauto]. }
    assert (B : step G (SDecl id k x e) st (CS (replace_ st) (insert_front x id (declared st)) (depends st) (needed (mark e st)))).
    { constructor; cbn [declares assigned replace_ declared depends needed app].
      - exact I1.
      - rewrite (insert_none x id _ (i_d _ _ _ _ I) Gd). reflexivity.
      - apply sub_refl.
      - auto.
      - apply needed_mark.
      - apply incl_refl.
      - auto. }
    destruct e0; try exact B. destruct (is_int k && negb (mem x L)) eqn:C; [|exact B].
    apply andb_true_iff in C as [C1 C2].
    assert (NL : ~ In x L).
    { intro H. unfold mem in C2. apply negb_true_iff in C2. assert (existsb (Nat.eqb x) L = true) by (apply existsb_exists; exists x; rewrite Nat.eqb_refl; auto). congruence. }
    rename x0 into y, k0 into ky.
    assert (Gy : In y G) by (apply We; cbn; auto).
    destruct Kp as (Ty & Kd & _). cbn in Ty, Kd. rewrite (subst_kind ty (replace_ st)) in Kd; [|eapply inv_m_kind; eauto|auto].
    destruct (renamed_var _ _ _ _ _ _ _ I Te Es) as (k0 & z & Ez & Cz).
    assert (Cx : copies x y).
    { assert (C0 : copies x z) by (apply t_step; exists id, e, k0; auto). destruct Cz as [->|Cz]; auto. eapply t_trans; eauto. }
    pose proof B as [B1 B2 B3 B4 B5 B6 B7].
    constructor; cbn [declares assigned replace_ declared depends needed app mark] in *.
    + pose proof (insert_none x (ky, y) _ (i_m _ _ _ _ I) Gm) as Ei. unfold inv_st in *. cbn [replace_ declared depends] in *.
      pose proof B1 as B1'. destruct B1'. constructor; auto.
      * rewrite Ei. discriminate.
      * rewrite Ei. unfold keys. cbn. rewrite <- concat_hd by auto. constructor; auto.
        intro H. apply in_map_iff in H as ([x' [k' y']] & E' & H). cbn in E'. subst. apply NG. exact (proj1 (i_scope _ _ _ _ I _ _ _ H)).
      * rewrite Ei. cbn. rewrite <- concat_hd by auto. intros x' k' y' [[= <- <- <-]|H]; eauto.
      * rewrite Ei. cbn. rewrite <- concat_hd by auto. intros x' k' y' [[= <- <- <-]|H]; eauto.
        repeat split; congruence.
      * rewrite Ei. cbn. rewrite <- concat_hd by auto. intros x' k' y' [[= <- <- <-]|H]; eauto. exists id, e. auto.
      * rewrite Ei. cbn. rewrite <- concat_hd by auto. intros x' k' y' [[= <- <- <-]|H]; eauto.
      * rewrite Ei. cbn. rewrite <- concat_hd by auto. intros x' k' y' [[= <- <- <-]|H]; apply in_or_app; cbn; eauto.
      * intros y' x' H. apply in_app_or in H as [H|[[= <- <-]|[]]]; auto.
    + exact B2.
    + rewrite (insert_none x (ky, y) _ (i_m _ _ _ _ I) Gm). apply sub_refl.
    + rewrite (insert_none x (ky, y) _ (i_m _ _ _ _ I) Gm). cbn. intros p [<-|H]; cbn; auto.
    + exact B5.
    + apply incl_appl, incl_refl.
    + rewrite (insert_none x (ky, y) _ (i_m _ _ _ _ I) Gm). intros p H. left. cbn. rewrite <- concat_hd by apply I. auto.
  - (* assignment *)
    ostep E E1. apply cp_expr_inv in E1 as (Es & ->). cbn [declared mark replace_ depends needed] in E.
    assert (N0 : incl (needed st) (match get x (declared st) with
             | Some i => i :: ids (declared st) (evars (subst (replace_ st) e)) ++ needed st
             | None => ids (declared st) (evars (subst (replace_ st) e)) ++ needed st end)).
    { destruct (get x (declared st)); [apply incl_tl|]; apply incl_appr, incl_refl. }
    destruct (is_int k) eqn:Ek.
    + destruct (invalidate (2 + length (depends st)) [x] (depends st) (replace_ st)) as [m'| |] eqn:Ei; cbn [obind] in E; try discriminate.
      injection E as <- <-. pose proof (invalidate_sub _ _ _ _ _ Ei) as Sb.
      pose proof (invalidate_nodup _ _ _ _ _ Ei (i_nodup _ _ _ _ I)) as Nd.
      constructor; cbn [declares assigned replace_ declared depends needed app]; auto.
      * unfold inv_st. cbn. eapply inv_sub; eauto.
      * apply sub_tl; auto.
      * intros p H. left. eapply sub_hd; eauto.
      * apply incl_refl.
      * eapply invalidate_killed; [| |exact Ei].
        -- intros ? ? ? H1 H2. eapply t_trans; eauto.
        -- intros y z H. eapply i_copy; eauto.
    + injection E as <- <-. apply step_refl; auto.
  - (* effect *)
    ostep E E1. ostep E E2. injection E as <- <-.
    apply cp_exprs_inv in E1 as (A1 & A2 & A3 & A4). apply cp_exprs_inv in E2 as (B1 & B2 & B3 & B4).
    apply step_refl; auto; try congruence. eapply incl_tran; eauto.
  - injection E as <- <-. apply step_refl; auto. apply incl_refl.
  - (* block *)
    ostep E E1. ostep E E2. injection E as <- <-. pose proof (part_cons _ _ _ P) as (Pa & Pb).
    pose proof (IHa _ _ _ _ Pa I E1) as Ta. pose proof (IHb _ _ _ _ Pb (t_inv _ _ _ _ Ta) E2) as Tb.
    eapply step_trans; [exact I|reflexivity|reflexivity| |exact Ta|exact Tb|].
    + intros x Hx. apply (p_fresh _ _ P). cbn. apply in_or_app. right. apply declares_bound. auto.
    + eapply inv_equiv; [apply Tb|]. intro x. cbn. rewrite !in_app_iff. tauto.
  - (* scope *)
    ostep E E1. injection E as <- <-. pose proof (part_scope _ _ P) as Pa.
    pose proof (IHa _ _ _ _ Pa (inv_enter _ _ I) E1) as Ta.
    eapply (leave_ok G G a); eauto using incl_refl. intros x Hx. apply (p_fresh _ _ Pa). apply declares_bound. auto.
  - (* if *)
    ostep E E0. apply cp_expr_inv in E0 as (Es & ->). ostep E E1. ostep E E2. injection E as <- <-.
    destruct (part_if _ _ _ _ P) as (Pa & Pb).
    assert (I0 : inv_st G (mark c st)) by exact I.
    pose proof (IHa _ _ _ _ Pa (inv_enter _ _ I0) E1) as Ta.
    destruct (leave_ok G G a (SScope a) _ _ I0 (incl_refl _) ltac:(intros x Hx; apply (p_fresh _ _ Pa); apply declares_bound; auto) eq_refl (incl_refl _) Ta) as (La & _ & _).
    pose proof (IHb _ _ _ _ Pb (inv_enter _ _ (t_inv _ _ _ _ La)) E2) as Tb.
    destruct (leave_ok G G b (SScope b) _ _ (t_inv _ _ _ _ La) (incl_refl _) ltac:(intros x Hx; apply (p_fresh _ _ Pb); apply declares_bound; auto) eq_refl (incl_refl _) Tb) as (Lb & _ & _).
    match type of Lb with step _ _ _ ?z => assert (T : step G (SIf c a b) (mark c st) z) end.
    { eapply (step_trans G (SScope a) (SScope b)); [exact I0|reflexivity|reflexivity| |exact La|exact Lb|exact (t_inv _ _ _ _ Lb)]. intros x []. }
    destruct T as [T1 T2 T3 T4 T5 T6 T7]. constructor; auto. eapply incl_tran; [apply (needed_mark c)|exact T5].
  - (* while *)
    ostep E E0. apply cp_expr_inv in E0 as (Es & ->). ostep E E1. injection E as <- <-.
    pose proof (part_while _ _ _ P) as Pb.
    assert (I0 : inv_st G (mark c st)) by exact I.
    pose proof (IHb _ _ _ _ Pb (inv_enter _ _ I0) E1) as Tb.
    destruct (leave_ok G G b (SWhile c b) _ _ I0 (incl_refl _) ltac:(intros x Hx; apply (p_fresh _ _ Pb); apply declares_bound; auto) eq_refl (incl_refl _) Tb) as (Lb & _ & _).
    destruct Lb as [T1 T2 T3 T4 T5 T6 T7]. constructor; auto. eapply incl_tran; [apply (needed_mark c)|exact T5].
  - (* for *)
    ostep E E0. apply cp_expr_inv in E0 as (Es0 & ->). ostep E E1. apply cp_expr_inv in E1 as (Es1 & ->).
    ostep E E2. apply cp_expr_inv in E2 as (Es2 & ->). ostep E E3. apply cp_expr_inv in E3 as (Es3 & ->).
    ostep E E4. injection E as <- <-.
    destruct (part_for _ _ _ _ _ _ _ P) as (Pb & Nx & Dx).
    set (st1 := mark e3 _) in *.
    assert (I0 : inv_st G st1) by exact I.
    assert (I1 : inv_st (x :: G) (enter st1)) by (apply inv_for; auto; apply (inv_enter _ _ I0)).
    pose proof (IHb _ _ _ _ Pb I1 E4) as Tb.
    destruct (leave_ok G (x :: G) b (SFor k x e1 e2 e3 b) _ _ I0 (incl_tl _ (incl_refl _)) ltac:(intros y Hy H; eapply (p_fresh _ _ Pb); [apply declares_bound; exact Hy|right; exact H]) eq_refl (incl_refl _) Tb) as (Lb & _ & _).
    destruct Lb as [T1 T2 T3 T4 T5 T6 T7]. constructor; auto. eapply incl_tran; [|exact T5].
    unfold st1. cbn. repeat apply incl_appr. apply incl_refl.
  - injection E as <- <-. apply step_refl; auto. apply incl_refl.
  - injection E as <- <-. apply step_refl; auto. apply incl_refl.
Qed.
End Cp.
