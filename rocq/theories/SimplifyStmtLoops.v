(** The closed forms of counting loops. *)
From Coq Require Import List ZArith Lia Bool.
From Verif Require Import Outcome Types TypesProofs Simplify SimplifySpec SimplifyProofs SimplifyStmt SimplifyStmtSpec
  SimplifyStmtExpr SimplifyStmtCopy SimplifyStmtMaps.
Import ListNotations.
Local Open Scope nat_scope.

Section Loops.
Variable F : Type.
Variable FL : flits F.
Variable FO : fops F.
Variable M : Type.
Variable op1 : M -> kind -> nat -> value F -> option (value F).
Variable op2 : M -> kind -> nat -> value F -> value F -> option (value F).
Variable cast : kind -> value F -> option (value F).
Variable eff : nat -> list (value F) -> M -> option M.
Hypothesis TO : forall m, typed_operations (op1 m) (op2 m) cast FL.
Hypothesis LAW : float_laws FO FL.
Hypothesis LT : compares F M op2.
Variable ty : nat -> kind.
Notation expr := (expr F).
Notation stmt := (stmt F).
Notation state := (state F M).
Notation value_in := (value_in F FO M op1 op2 cast).
Notation values_in := (values_in F FO M op1 op2 cast).
Notation exec := (exec F FO M op1 op2 cast eff).
Notation kinded := (kinded F M ty).

Lemma simplify_value st (e e' : expr) v : kinded st -> typed ty e -> simplify_ FL e = Val e' -> value_in st e = Some v -> value_in st e' = Some v.
Proof.
  intros K T E V. unfold simplify_ in E. destruct (simplify_expr FL e) as [e1| |] eqn:Es; try discriminate. injection E as ->.
  assert (Wt : well_typed (fst st) e) by (eapply typed_wt; eauto). unfold simplify_expr in Es.
  destruct (simp_ok F FL FO (fst st) (op1 (snd st)) (op2 (snd st)) cast (TO _) LAW _ _ _ Wt Es) as (_ & _ & H). apply H. exact V.
Qed.
Lemma simplify_keeps (e e' : expr) : typed ty e -> simplify_ FL e = Val e' -> keeps ty e e'.
Proof.
  intros T E. unfold simplify_ in E. destruct (simplify_expr FL e) as [e1| |] eqn:Es; try discriminate. injection E as ->.
  eapply simp_keeps; eauto.
Qed.
Lemma keeps_vars (e e' : expr) : keeps ty e e' -> incl (evars e') (evars e).
Proof. intros (_ & _ & I) x H. unfold evars in *. apply in_map_iff in H as (p & <- & Hp). apply in_map. auto. Qed.

(** *** Updates *)
Inductive upd := USet (l : lit F) | UInc (z : Z).
Fixpoint ups (s : stmt) : list (nat * upd) :=
  match s with
  | SAssign _ x (ELit l) => [(x, USet l)]
  | SAssign _ x (EAdd _ (ELit (LInt _ z))) => [(x, UInc z)]
  | SCons a b => ups a ++ ups b
  | SScope a => ups a
  | _ => []
  end.
Variable t : itype.
Definition newv (u : upd) (v : value F) : value F :=
  match u with
  | USet l => value_of_lit l
  | UInc z => match v with VInt a => VInt (wrap t (a + z)) | _ => v end
  end.
Definition upd1 (st : state) (p : nat * upd) : state := set_var (fst p) (newv (snd p) (fst st (fst p))) st.
Definition run (us : list (nat * upd)) (st : state) : state := fold_left upd1 us st.

Lemma run_mem : forall us st, snd (run us st) = snd st.
Proof. induction us as [|p us IH]; cbn; intros; auto. rewrite IH. reflexivity. Qed.
Lemma run_app us vs st : run (us ++ vs) st = run vs (run us st).
Proof. apply fold_left_app. Qed.
Lemma run_other : forall us st y, ~ In y (map fst us) -> fst (run us st) y = fst st y.
Proof.
  induction us as [|p us IH]; cbn; intros st y N; auto. rewrite IH by auto. cbn.
  destruct (Nat.eqb_spec y (fst p)); auto. subst. exfalso. auto.
Qed.
Lemma run_look : forall us st y, NoDup (map fst us) ->
  fst (run us st) y = match assoc y us with Some u => newv u (fst st y) | None => fst st y end.
Proof.
  induction us as [|[x u] us IH]; cbn; intros st y N; auto. inversion N; subst.
  destruct (Nat.eqb_spec x y).
  - subst. change (fst (run us (upd1 st (y, u))) y = newv u (fst st y)). rewrite run_other by auto. cbn. rewrite Nat.eqb_refl. reflexivity.
  - change (fst (run us (upd1 st (x, u))) y = match assoc y us with Some u0 => newv u0 (fst st y) | None => fst st y end).
    rewrite IH by auto. cbn. destruct (Nat.eqb_spec y x); [congruence|]. reflexivity.
Qed.

(** Bodies that consist of updates. *)
Inductive quiet : stmt -> Prop :=
| Q_nil : quiet SNil
| Q_cons : forall a b, quiet a -> quiet b -> quiet (SCons a b)
| Q_scope : forall a, quiet a -> quiet (SScope a)
| Q_set : forall k x l, has_kind (ty x) (value_of_lit l) -> quiet (SAssign k x (ELit l))
| Q_inc : forall k x z, ty x = KInt t -> in_range t z -> quiet (SAssign k x (EAdd (EVar (KInt t) x) (ELit (LInt t z)))).

Lemma dup_quiet (count : expr) : forall s s', duplicate FL count s = Val (Some s') -> styped ty s ->
  (forall y e, In (y, e) (assigns s) -> ty y = KInt t \/ exists l, e = ELit l) -> quiet s.
Proof.
  induction s as [id k x e|k x e|o args raw| |a IHa b IHb|a IHa|c a IHa b IHb|c b IHb|k x e1 e2 e3 b IHb| |];
    cbn [duplicate]; intros s' E T A; try discriminate.
  - cbn in T. destruct T as (Te & -> & Ke).
    destruct e as [l|ke xe|e0|e1 e2|e1 e2|e1 e2|e1 e2|e1 e2|e1 e2|ke e0|ke o e0|ke o e1 e2]; try discriminate.
    + constructor. cbn in Te, Ke. rewrite <- Ke. exact Te.
    + destruct e1; try discriminate. destruct e2; try discriminate.
      destruct (Nat.eqb_spec x0 x); [|discriminate]. subst x0.
      destruct (A x (EAdd (EVar k x) (ELit l))) as [At|(l' & El)]; [cbn; auto| |discriminate].
      cbn in Te. destruct Te as (-> & Tl & Kl & _). rewrite At in *. destruct l; cbn in Kl; try discriminate. injection Kl as <-.
      constructor; auto.
  - constructor.
  - destruct (duplicate FL count a) as [[a'|]| |] eqn:Ea; cbn [obind] in E; try discriminate.
    destruct (duplicate FL count b) as [[b'|]| |] eqn:Eb; cbn [obind] in E; try discriminate. destruct T.
    constructor; [eapply IHa|eapply IHb]; eauto; intros; apply A; cbn; apply in_or_app; auto.
  - destruct (duplicate FL count a) as [[a'|]| |] eqn:Ea; cbn [obind] in E; try discriminate.
    constructor. eapply IHa; eauto.
Qed.
Lemma quiet_assigned s : quiet s -> map fst (ups s) = assigned s.
Proof. induction 1; cbn; auto. rewrite map_app. congruence. Qed.
Lemma quiet_counting s : quiet s -> counting s.
Proof. induction 1; cbn; auto. Qed.
Lemma value_int st (e : expr) v : kinded st -> typed ty e -> kind_of e = KInt t -> value_in st e = Some v -> exists a, v = VInt a /\ in_range t a.
Proof.
  intros K T Kd E. assert (H : has_kind (kind_of e) v) by (eapply value_kind; eauto).
  rewrite Kd in H. destruct v; cbn in H; try contradiction. eauto.
Qed.
Lemma kinded_newv st x z : kinded st -> ty x = KInt t -> exists a, fst st x = VInt a /\ in_range t a /\ newv (UInc z) (fst st x) = VInt (wrap t (a + z)).
Proof.
  intros K E. specialize (K x). rewrite E in K. cbn. destruct (fst st x) as [a| |]; cbn in K; try contradiction. eauto.
Qed.
Lemma eval_inc st x z : kinded st -> ty x = KInt t -> 
  value_in st (EAdd (EVar (KInt t) x) (ELit (LInt t z))) = Some (newv (UInc z) (fst st x)).
Proof.
  intros K E. destruct (kinded_newv st x z K E) as (a & Ea & _ & ->). unfold SimplifyStmtSpec.value_in. cbn. rewrite Ea. cbn.
  rewrite max_itype_same. reflexivity.
Qed.
Lemma quiet_exec : forall s, quiet s -> forall st g st', kinded st -> exec (Code s) st g st' ->
  g = Go /\ st' = run (ups s) st /\ kinded st'.
Proof.
  induction 1 as [|a b Qa IHa Qb IHb|a Qa IHa|k x l Hl|k x z Ex Hz]; intros st g st' K E; inversion E; subst.
  - auto.
  - match goal with X1 : exec (Code a) _ _ ?s, X2 : exec (Code b) ?s _ _ |- _ =>
      destruct (IHa _ _ _ K X1) as (_ & -> & K1); destruct (IHb _ _ _ K1 X2) as (-> & -> & K2) end. cbn. rewrite run_app. auto.
  - match goal with X1 : exec (Code a) _ _ _ |- _ => destruct (IHa _ _ _ K X1) as (-> & _) end. congruence.
  - cbn. eauto.
  - unfold SimplifyStmtSpec.value_in in *. cbn in *. match goal with H : Some _ = Some _ |- _ => injection H as <- end.
    split; auto. split; auto. apply kinded_set; auto.
  - match goal with H : value_in _ _ = Some v |- _ => rewrite eval_inc in H by auto; injection H as <- end. split; auto. split; auto.
    assert (N : has_kind (ty x) (newv (UInc z) (fst st x))) by (destruct (kinded_newv st x z K Ex) as (a & _ & _ & ->); rewrite Ex; apply wrap_range).
    apply kinded_set; auto.
Qed.

(** *** The duplicated body *)
Definition scale (n : Z) (us : list (nat * upd)) : list (nat * upd) :=
  map (fun p => (fst p, match snd p with USet l => USet l | UInc z => UInc (n * z) end)) us.
Lemma scale_keys n us : map fst (scale n us) = map fst us.
Proof. unfold scale. rewrite map_map. apply map_ext. auto. Qed.
Lemma assoc_scale n us y : assoc y (scale n us) = match assoc y us with Some (USet l) => Some (USet l) | Some (UInc z) => Some (UInc (n * z)) | None => None end.
Proof. induction us as [|[x u] us IH]; cbn; auto. destruct (x =? y); auto. destruct u; auto. Qed.

Lemma dup_run (count : expr) cnt : typed ty count -> kind_of count = KInt t ->
  forall s, quiet s -> forall s' st, duplicate FL count s = Val (Some s') -> kinded st ->
  (forall v, In v (evars count) -> ~ In v (assigned s)) -> value_in st count = Some (VInt cnt) ->
  exec (Code s') st Go (run (scale cnt (ups s)) st) /\ kinded (run (scale cnt (ups s)) st).
Proof.
  intros Tc Kc. induction 1 as [|a b Qa IHa Qb IHb|a Qa IHa|k x l Hl|k x z Ex Hz]; intros s' st E K D V; cbn [duplicate] in E.
  - injection E as <-. split; [constructor|auto].
  - destruct (duplicate FL count a) as [[a'|]| |] eqn:Ea; cbn [obind] in E; try discriminate.
    destruct (duplicate FL count b) as [[b'|]| |] eqn:Eb; cbn [obind] in E; try discriminate. injection E as <-.
    destruct (IHa _ _ eq_refl K) as (X1 & K1); auto.
    { intros v Hv H. apply (D v Hv). cbn. apply in_or_app. auto. }
    destruct (IHb _ _ eq_refl K1) as (X2 & K2).
    { intros v Hv H. apply (D v Hv). cbn. apply in_or_app. auto. }
    { rewrite <- V. symmetry. apply value_ext; [symmetry; apply run_mem|]. intros v Hv. symmetry. apply run_other.
      rewrite scale_keys, quiet_assigned by auto. intro H. apply (D v Hv). cbn. apply in_or_app. auto. }
    cbn [ups]. unfold scale in *. rewrite map_app, run_app. split; auto. apply exec_cons_. econstructor; eauto.
  - destruct (duplicate FL count a) as [[a'|]| |] eqn:Ea; cbn [obind] in E; try discriminate. injection E as <-.
    destruct (IHa _ _ eq_refl K D V) as (X1 & K1). split; auto. constructor. exact X1.
  - injection E as <-. cbn. split; [constructor; reflexivity|]. apply kinded_set; auto.
  - rewrite Nat.eqb_refl in E. destruct (simplify_ FL (EMul count (ELit (LInt t z)))) as [inc| |] eqn:Ei; cbn [obind] in E; try discriminate.
    injection E as <-.
    assert (Tm : typed ty (EMul count (ELit (LInt t z)))).
    { cbn. split; auto. split; auto. rewrite Kc. split; [reflexivity|discriminate]. }
    destruct (kinded_newv st x (cnt * z) K Ex) as (a & Ea & Ra & En).
    assert (Vm : value_in st (EMul count (ELit (LInt t z))) = Some (VInt (wrap t (cnt * z)))).
    { unfold SimplifyStmtSpec.value_in in *. cbn. rewrite V. cbn. rewrite Kc. cbn. rewrite max_itype_same. reflexivity. }
    pose proof (simplify_value _ _ _ _ K Tm Ei Vm) as Vi.
    destruct (simplify_keeps _ _ Tm Ei) as (_ & Ki & _). cbn in Ki. rewrite Kc in Ki. cbn in Ki. rewrite max_itype_same in Ki.
    cbn [ups scale map fst snd run fold_left]. unfold upd1. cbn [fst snd]. rewrite En. split.
    + constructor. unfold SimplifyStmtSpec.value_in in *. cbn. rewrite Ea. rewrite Vi. cbn. rewrite Ki. cbn. rewrite max_itype_same. cbn.
      do 2 f_equal. destruct (wrap_cong t (cnt * z)) as [q ->]. apply wrap_spec. exists q. lia.
    + apply kinded_set; auto. rewrite Ex. apply wrap_range.
Qed.

(** *** Iterations *)
Definition after (n : Z) (us : list (nat * upd)) (env : nat -> value F) (y : nat) : value F :=
  if (n =? 0)%Z then env y
  else match assoc y us with
       | Some (USet l) => value_of_lit l
       | Some (UInc z) => match env y with VInt a => VInt (wrap t (a + n * z)) | v => v end
       | None => env y
       end.
Lemma after_step n us st y env : (0 <= n)%Z -> NoDup (map fst us) -> env y = fst (run us st) y ->
  after n us env y = after (n + 1) us (fst st) y.
Proof.
  intros Hn N E. unfold after. rewrite E, run_look by auto. destruct (Z.eqb_spec (n + 1) 0); [lia|].
  destruct (Z.eqb_spec n 0) as [->|].
  - destruct (assoc y us) as [[l|z]|]; cbn; auto. destruct (fst st y); auto. do 3 f_equal. destruct z; reflexivity.
  - destruct (assoc y us) as [[l|z]|]; cbn; auto. destruct (fst st y) as [a| |]; auto.
    f_equal. destruct (wrap_cong t (a + z)) as [q ->]. apply wrap_spec. exists q. lia.
Qed.
(** n iterations, or the body once with the increments multiplied. *)
Lemma after_scale n cnt us st y : (0 < n)%Z -> (exists q, cnt = n + q * 2 ^ bits t)%Z -> NoDup (map fst us) ->
  fst (run (scale cnt us) st) y = after n us (fst st) y.
Proof.
  intros Hn (q & ->) N. rewrite run_look by (rewrite scale_keys; auto). rewrite assoc_scale. unfold after.
  destruct (Z.eqb_spec n 0); [lia|]. destruct (assoc y us) as [[l|z]|]; cbn [newv]; auto. destruct (fst st y) as [a| |]; auto.
  f_equal. apply wrap_spec. exists (q * z)%Z. ring.
Qed.

Lemma lt_value st k x (stop : expr) r : value_in st (lt_ (EVar k x) stop) = Some r -> exists v, value_in st stop = Some v /\ op2 (snd st) KBool op_lt (fst st x) v = Some r.
Proof.
  unfold SimplifyStmtSpec.value_in. cbn. destruct (eval FO (fst st) (op1 (snd st)) (op2 (snd st)) cast stop) as [v|]; [|discriminate]. eauto.
Qed.

(** A for loop. *)
Lemma for_iterates x (stop inc : expr) b c : quiet b -> NoDup (assigned b) -> ~ In x (assigned b) -> ty x = KInt t ->
  (forall y, In y (evars stop ++ evars inc) -> ~ In y (assigned b) /\ y <> x) -> kind_of inc = KInt t ->
  (0 < c)%Z ->
  forall cd st g st', exec cd st g st' -> cd = Loop (KInt t) x stop inc b -> kinded st ->
  forall a e, fst st x = VInt a -> value_in st stop = Some (VInt e) -> in_range t e -> value_in st inc = Some (VInt c) -> (c | e - a)%Z ->
  exists n, (0 <= n)%Z /\ (a + n * c = if a <? e then e else a)%Z /\ snd st' = snd st /\ kinded st' /\
    forall y, y <> x -> fst st' y = after n (ups b) (fst st) y.
Proof.
  intros Q Nd Nx Tx Dj Ki Hc.
  intros cd st g st' X.
  induction X as [id0 k0 x0 e0 st v0 Ev|k0 x0 e0 st v0 Ev|o args raw st vs ws m Ev0 Er Em|st|s0 r0 st st1 g st2 H1 IH1 H2 IH2
    |s0 r0 st g st1 H1 IH1 Hg|s0 st g st1 H1 IH1|c0 a0 b0 st t0 g st1 Ec H1 IH1|c0 b0 st Ec|c0 b0 st g st1 st2 Ec H1 IH1 Hg H2 IH2
    |c0 b0 st st1 Ec H1 IH1|k0 x0 start0 stop0 inc0 b0 st v0 st1 Es H1 IH1|k0 x0 stop0 inc0 b0 st Ec|k0 x0 stop0 inc0 b0 st g st1 v st2 Ec H1 IH1 Hg Ei H2 IH2
    |k0 x0 stop0 inc0 b0 st st1 Ec H1 IH1|st|st];
    intros Ecd K a e Ea Ve Re Vi Dv; try discriminate; injection Ecd as -> -> -> -> ->.
  - exists 0%Z. apply lt_value in Ec as (w & Vw & Hlt). rewrite Ve in Vw. injection Vw as <-. rewrite Ea, LT in Hlt. injection Hlt as Hlt. rewrite Hlt.
    split; [lia|]. split; [lia|]. auto.
  - apply lt_value in Ec as (w & Vw & Hlt). rewrite Ve in Vw. injection Vw as <-. rewrite Ea, LT in Hlt. injection Hlt as Hlt. rewrite Hlt.
    apply Z.ltb_lt in Hlt.
    destruct (quiet_exec _ Q _ _ _ K H1) as (-> & -> & K1).
    assert (Un : forall y, In y (evars stop ++ evars inc) -> fst (run (ups b) st) y = fst st y).
    { intros y Hy. apply run_other. rewrite quiet_assigned by auto. apply Dj. auto. }
    assert (Ex1 : fst (run (ups b) st) x = VInt a) by (rewrite run_other; auto; rewrite quiet_assigned; auto).
    assert (Vi1 : value_in (run (ups b) st) inc = Some (VInt c)).
    { rewrite <- Vi. apply value_ext; [apply run_mem|]. intros y Hy. apply Un. apply in_or_app. auto. }
    assert (Ra : in_range t a) by (pose proof (K x) as Kx; rewrite Tx, Ea in Kx; exact Kx).
    assert (Le : (a + c <= e)%Z) by (apply Z.divide_pos_le in Dv; lia).
    assert (Rc : in_range t (a + c)) by (unfold in_range in *; destruct (signed t); lia).
    assert (Ev : v = VInt (a + c)).
    { unfold SimplifyStmtSpec.value_in in Ei, Vi1. cbn in Ei. rewrite Ex1, Vi1 in Ei. cbn in Ei. rewrite Ki in Ei. cbn in Ei.
      rewrite max_itype_same in Ei. cbn in Ei. rewrite wrap_id in Ei by auto. congruence. }
    subst v.
    assert (K2 : kinded (set_var x (VInt (a + c)) (run (ups b) st))) by (apply kinded_set; auto; rewrite Tx; auto).
    assert (Un2 : forall y, In y (evars stop ++ evars inc) -> fst (set_var x (VInt (a + c)) (run (ups b) st)) y = fst st y).
    { intros y Hy. cbn. destruct (Nat.eqb_spec y x); [subst; exfalso; apply (Dj x Hy); auto|auto]. }
    destruct (IH2 eq_refl K2 (a + c)%Z e) as (n & Hn & En & Hm & K' & Hy).
    + cbn. rewrite Nat.eqb_refl. reflexivity.
    + rewrite <- Ve. apply value_ext; [apply run_mem|]. intros y Hy. apply Un2. apply in_or_app. auto.
    + auto.
    + rewrite <- Vi. apply value_ext; [apply run_mem|]. intros y Hy. apply Un2. apply in_or_app. auto.
    + destruct Dv as (q & Eq). exists (q - 1)%Z. lia.
    + exists (n + 1)%Z. split; [lia|]. split; [|split; [|split; auto]].
      * destruct (Z.ltb_spec (a + c) e); lia.
      * rewrite Hm. apply run_mem.
      * intros y Ny. rewrite (Hy y Ny). apply after_step; auto; [rewrite quiet_assigned; auto|]. cbn.
        destruct (Nat.eqb_spec y x); [congruence|auto].
  - destruct (quiet_exec _ Q _ _ _ K H1) as (A & _). discriminate.
Qed.

(** A while loop that counts [i] up to [e]. *)
Lemma unlast_cons (s : stmt) i l : unlast s = Some (i, l) -> exists a r, s = SCons a r.
Proof. destruct s; cbn; try discriminate. eauto. Qed.
Lemma unlast_exec : forall (s i l : stmt), unlast s = Some (i, l) -> forall st g st', exec (Code s) st g st' ->
  (exists st1, exec (Code i) st Go st1 /\ exec (Code l) st1 g st') \/ (exec (Code i) st g st' /\ g <> Go).
Proof.
  induction s as [id k x e|k x e|o args raw| |a IHa r IHr|a IHa|c a IHa b IHb|c b IHb|k x e1 e2 e3 b IHb| |];
    cbn [unlast]; intros i l E st g st' X; try discriminate.
  assert (ONE : (r = SNil /\ i = SNil /\ l = a) \/ (i = SCons a SNil /\ l = r) \/ exists i', i = SCons a i' /\ unlast r = Some (i', l)).
  { destruct r; try (injection E as <- <-; auto; fail).
    destruct (unlast (SCons r1 r2)) as [[i' l']|] eqn:Eu; [|discriminate]. injection E as <- <-. right. right. eauto. }
  destruct ONE as [(-> & -> & ->)|[(-> & ->)|(i' & -> & Eu)]].
  - left. exists st. split; [constructor|]. inversion X; subst; auto. match goal with X2 : exec (Code SNil) _ _ _ |- _ => inversion X2; subst end. auto.
  - inversion X; subst.
    + left. exists st1. split; [econstructor; [eassumption|constructor]|auto].
    + right. split; [constructor|]; auto.
  - inversion X; subst.
    + match goal with X2 : exec (Code r) _ _ _ |- _ => pose proof (IHr _ _ Eu _ _ _ X2) as D end.
      destruct D as [(s2 & X1 & X2)|(X1 & X2)].
      * left. exists s2. split; auto. eapply X_cons; eauto.
      * right. split; auto. eapply X_cons; eauto.
    + right. split; auto. apply X_cons_end; auto.
Qed.
Lemma unlast_parts : forall s i l : stmt, unlast s = Some (i, l) ->
  assigned s = assigned i ++ assigned l /\ assigns s = assigns i ++ assigns l /\
  (styped ty s -> styped ty i /\ styped ty l) /\ (counting i -> counting l -> counting s).
Proof.
  induction s as [id k x e|k x e|o args raw| |a IHa r IHr|a IHa|c a IHa b IHb|c b IHb|k x e1 e2 e3 b IHb| |];
    cbn [unlast]; intros i l E; try discriminate.
  assert (ONE : (r = SNil /\ i = SNil /\ l = a) \/ (i = SCons a SNil /\ l = r) \/ exists i', i = SCons a i' /\ unlast r = Some (i', l)).
  { destruct r; try (injection E as <- <-; auto; fail).
    destruct (unlast (SCons r1 r2)) as [[i' l']|] eqn:Eu; [|discriminate]. injection E as <- <-. right. right. eauto. }
  destruct ONE as [(-> & -> & ->)|[(-> & ->)|(i' & -> & Eu)]]; cbn; rewrite ?app_nil_r; try tauto.
  destruct (IHr _ _ Eu) as (A & B & C & D). rewrite A, B, !app_assoc. tauto.
Qed.
Lemma while_iterates i e (rest last b : stmt) kc : quiet rest -> unlast b = Some (rest, last) ->
  last = SAssign (KInt t) i (EAdd (EVar (KInt t) i) (ELit (LInt t 1))) ->
  NoDup (assigned rest) -> ~ In i (assigned rest) -> ~ In e (assigned rest) -> e <> i -> ty i = KInt t -> ty e = KInt t -> kc = KBool ->
  forall cd st g st', exec cd st g st' -> cd = Code (SWhile (EOp2 kc op_lt (EVar (KInt t) i) (EVar (KInt t) e)) b) -> kinded st ->
  forall a z, fst st i = VInt a -> fst st e = VInt z ->
  exists n, (0 <= n)%Z /\ (a + n = if a <? z then z else a)%Z /\ g = Go /\ snd st' = snd st /\ kinded st' /\
    fst st' i = VInt (a + n) /\ forall y, y <> i -> fst st' y = after n (ups rest) (fst st) y.
Proof.
  intros Q Un -> Nd Ni Ne Nei Ti Te ->.
  intros cd st g st' X.
  induction X as [id0 k0 x0 e0 st v0 Ev|k0 x0 e0 st v0 Ev|o args raw st vs ws m Ev0 Er Em|st|s0 r0 st st1 g st2 H1 IH1 H2 IH2
    |s0 r0 st g st1 H1 IH1 Hg|s0 st g st1 H1 IH1|c0 a0 b0 st t0 g st1 Ec H1 IH1|c0 b0 st Ec|c0 b0 st g st1 st2 Ec H1 IH1 Hg H2 IH2
    |c0 b0 st st1 Ec H1 IH1|k0 x0 start0 stop0 inc0 b0 st v0 st1 Es H1 IH1|k0 x0 stop0 inc0 b0 st Ec|k0 x0 stop0 inc0 b0 st g st1 v st2 Ec H1 IH1 Hg Ei H2 IH2
    |k0 x0 stop0 inc0 b0 st st1 Ec H1 IH1|st|st];
    intros Ecd K a z Ea Ez; try discriminate; injection Ecd as -> ->.
  - exists 0%Z. unfold SimplifyStmtSpec.value_in in Ec. cbn in Ec. rewrite Ea, Ez, LT in Ec. injection Ec as Hlt. rewrite Hlt.
    split; [lia|]. split; [lia|]. split; auto. split; auto. split; auto. split; auto. rewrite Ea. f_equal. lia.
  - unfold SimplifyStmtSpec.value_in in Ec. cbn in Ec. rewrite Ea, Ez, LT in Ec. injection Ec as Hlt. rewrite Hlt. apply Z.ltb_lt in Hlt.
    assert (X : st1 = set_var i (VInt (a + 1)) (run (ups rest) st) /\ kinded (set_var i (VInt (a + 1)) (run (ups rest) st))).
    { destruct (unlast_exec _ _ _ Un _ _ _ H1) as [(s1 & X1 & X2)|(X1 & X2)].
      - destruct (quiet_exec _ Q _ _ _ K X1) as (_ & -> & K1). inversion X2; subst. match goal with H : value_in _ _ = Some _ |- _ => rewrite eval_inc in H by auto; injection H as <- end.
        cbn [newv]. rewrite run_other by (rewrite quiet_assigned; auto). rewrite Ea.
        assert (Ra : in_range t a) by (pose proof (K i) as Kx; rewrite Ti, Ea in Kx; exact Kx).
        assert (Rz : in_range t z) by (pose proof (K e) as Kx; rewrite Te, Ez in Kx; exact Kx).
        assert (R1 : in_range t (a + 1)) by (unfold in_range in *; destruct (signed t); lia).
        rewrite wrap_id by auto. split; auto. apply kinded_set; auto. rewrite Ti. exact R1.
      - destruct (quiet_exec _ Q _ _ _ K X1) as (-> & _). congruence. }
    destruct X as (-> & K1).
    destruct (IH2 eq_refl K1 (a + 1)%Z z) as (n & Hn & En & _ & Hm & K' & Hi & Hy).
    + cbn. rewrite Nat.eqb_refl. reflexivity.
    + cbn. destruct (Nat.eqb_spec e i); [congruence|]. rewrite run_other; auto. rewrite quiet_assigned; auto.
    + exists (n + 1)%Z. split; [lia|]. split; [destruct (Z.ltb_spec (a + 1) z); lia|]. split; auto. split; [rewrite Hm; apply run_mem|]. split; auto.
      split; [rewrite Hi; f_equal; lia|]. intros y Ny. rewrite (Hy y Ny). apply after_step; auto; [rewrite quiet_assigned; auto|]. cbn.
      destruct (Nat.eqb_spec y i); [congruence|auto].
  - exfalso. destruct (unlast_exec _ _ _ Un _ _ _ H1) as [(s1 & X1 & X2)|(X1 & X2)].
    + inversion X2.
    + destruct (quiet_exec _ Q _ _ _ K X1) as (A & _). discriminate.
Qed.
End Loops.
