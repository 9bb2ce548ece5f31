(** Replacing counting loops by their closed forms preserves the variables in scope
    and memory. *)
From Coq Require Import List ZArith Lia Bool.
From Verif Require Import Outcome Types TypesProofs Simplify SimplifySpec SimplifyProofs SimplifyStmt SimplifyStmtSpec
  SimplifyStmtExpr SimplifyStmtCopy SimplifyStmtMaps SimplifyStmtLoops.
Import ListNotations.
Local Open Scope nat_scope.

Section Remove.
Variable F : Type.
Variable FL : flits F.
Variable FO : fops F.
Variable M : Type.
Variable op1 : M -> kind -> nat -> value F -> option (value F).
Variable op2 : M -> kind -> nat -> value F -> value F -> option (value F).
Variable cast : kind -> value F -> option (value F).
Variable eff : nat -> list (value F) -> M -> option M.
Hypothesis TO : forall m, typed_operations (op1 m) (op2 m) cast FL.
Hypothesis LAW : float_laws FO FL.
Hypothesis LT : compares F M op2.
Variable ty : nat -> kind.
Notation expr := (expr F).
Notation stmt := (stmt F).
Notation state := (state F M).
Notation value_in := (value_in F FO M op1 op2 cast).
Notation values_in := (values_in F FO M op1 op2 cast).
Notation exec := (exec F FO M op1 op2 cast eff).
Notation kinded := (kinded F M ty).

Definition same_on (H : list nat) (st st1 : state) : Prop := snd st = snd st1 /\ forall v, In v H -> fst st v = fst st1 v.
Lemma same_value H st st1 (e : expr) : same_on H st st1 -> within H e -> value_in st e = value_in st1 e.
Proof. intros (A & B) W. apply value_ext; auto. Qed.
Lemma same_set H x v st st1 : same_on H st st1 -> same_on (x :: H) (set_var x v st) (set_var x v st1).
Proof. intros (A & B). split; auto. cbn. intros y Hy. destruct (Nat.eqb_spec y x); auto. destruct Hy; [congruence|auto]. Qed.
Lemma same_set' H x v st st1 : same_on H st st1 -> same_on H (set_var x v st) (set_var x v st1).
Proof. intros (A & B). split; auto. cbn. intros y Hy. destruct (Nat.eqb_spec y x); auto. Qed.
Lemma same_incl G H st st1 : same_on H st st1 -> incl G H -> same_on G st st1.
Proof. intros (A & B) I. split; auto. Qed.

Lemma quot_range t x c : (0 < c)%Z -> (c | x)%Z -> in_range t x -> in_range t (Z.quot x c) /\ (Z.quot x c * c = x)%Z.
Proof.
  intros Hc (q & ->) R. rewrite Z.quot_mul by lia. split; auto. unfold in_range in *. destruct (signed t); nia.
Qed.
(** The number of iterations, as the generated code computes it. *)
Lemma count_value t st (start stop inc : expr) a e : value_in st start = Some (VInt a) -> value_in st stop = Some (VInt e) ->
  kind_of start = KInt t -> kind_of stop = KInt t -> kind_of inc = KInt t -> divides start stop inc ->
  exists c cnt, value_in st inc = Some (VInt c) /\ (0 < c)%Z /\ (c | e - a)%Z /\
    value_in st (EDiv (ESub stop start) inc) = Some (VInt cnt) /\
    forall n, (a + n * c = e)%Z -> exists q, (cnt = n + q * 2 ^ bits t)%Z.
Proof.
  intros Va Ve Ka Ke Ki D. unfold SimplifyStmtSpec.value_in in *.
  destruct D as [(t1 & ->)|(t1 & a0 & b0 & c & -> & -> & -> & Hc & Hd & Hr)].
  - cbn in Ki. injection Ki as ->. exists 1%Z, (wrap t (e - a)). split; [reflexivity|]. split; [lia|]. split; [apply Z.divide_1_l|]. split.
    + cbn [eval]. rewrite Va, Ve. cbn [bind2 arith2 kind_of option_map value_of_lit kind_of_lit]. rewrite Ka, Ke, !max_kind_same.
      unfold c_div. cbn [in_kind Z.eqb]. rewrite Z.quot_1_r.
      rewrite (proj2 (in_rangeb_ok t _) (wrap_range t _)). reflexivity.
    + intros n En. destruct (wrap_cong t (e - a)) as [q ->]. exists q. lia.
  - cbn in Ka. injection Ka as ->. cbn in Va, Ve. injection Va as <-. injection Ve as <-.
    destruct (quot_range t (b0 - a0) c Hc Hd Hr) as (Rq & Eq).
    exists c, (Z.quot (b0 - a0) c). split; [reflexivity|]. split; [lia|]. split; [auto|]. split.
    + cbn [eval bind2 arith2 kind_of option_map value_of_lit kind_of_lit]. rewrite !max_kind_same. cbn [in_kind].
      rewrite (wrap_id t _ Hr). unfold c_div.
      destruct (Z.eqb_spec c 0); [lia|]. rewrite (proj2 (in_rangeb_ok t _) Rq). reflexivity.
    + intros n En. exists 0%Z. nia.
Qed.

Lemma loop_stop k x (stop inc : expr) b st g st' : exec (Loop k x stop inc b) st g st' -> exists v, value_in st stop = Some v /\ g = Go.
Proof. intro X. inversion X; subst; match goal with H : value_in _ (lt_ _ _) = Some _ |- _ => apply lt_value in H as (w & Vw & _) end; eauto. Qed.

Lemma dup_counting (count : expr) : forall b b', duplicate FL count b = Val (Some b') -> counting b.
Proof.
  induction b as [id k x e|k x e|o args raw| |a IHa b IHb|a IHa|c a IHa b IHb|c b IHb|k x e1 e2 e3 b IHb| |];
    cbn [duplicate]; intros b' Ed; try discriminate; cbn; auto.
  - destruct (duplicate FL count a) as [[a'|]| |]; cbn [obind] in Ed; try discriminate.
    destruct (duplicate FL count b) as [[b''|]| |]; cbn [obind] in Ed; try discriminate. eauto.
  - destruct (duplicate FL count a) as [[a'|]| |]; cbn [obind] in Ed; try discriminate. eauto.
Qed.

Lemma closed_for H k x (start stop inc : expr) b s' st st1 g st' :
  for_closed FL start stop inc b = Val (Some s') -> styped ty (SFor k x start stop inc b) ->
  countable ty (SFor k x start stop inc b) -> within H start -> within H stop -> within H inc -> ~ In x H ->
  kinded st -> kinded st1 -> same_on H st st1 -> exec (Code (SFor k x start stop inc b)) st g st' ->
  exists st1', g = Go /\ exec (Code s') st1 Go st1' /\ kinded st' /\ kinded st1' /\ same_on H st' st1'.
Proof.
  intros E T C W1 W2 W3 Nx K K1 Ha X. unfold for_closed in E.
  destruct (simplify_ FL (EDiv (ESub stop start) inc)) as [count| |] eqn:Es; cbn [obind] in E; try discriminate.
  destruct (duplicate FL count b) as [[b'|]| |] eqn:Ed; cbn [obind] in E; try discriminate. injection E as <-.
  cbn in T. destruct T as (Ek & (t & Kt) & T1 & K1' & T2 & K2' & T3 & K3' & Tb). subst k. rewrite Kt in *.
  pose proof (dup_counting _ _ _ Ed) as CB.
  destruct (C CB) as (Nd & Nxb & Db & Dv & At).
  assert (Q : quiet F ty t b) by (eapply dup_quiet; eauto).
  inversion X; subst.
  match goal with H : value_in st start = Some _ |- _ => rename H into Vs end.
  match goal with H : exec (Loop _ _ _ _ _) _ _ _ |- _ => rename H into XL end.
  destruct (value_int F FL FO M op1 op2 cast eff TO ty t st _ _ K T1 K1' Vs) as (a & -> & Ra).
  assert (Kx : kinded (set_var x (VInt a) st)) by (apply kinded_set; auto; rewrite Kt; auto).
  destruct (loop_stop _ _ _ _ _ _ _ _ XL) as (w & Vw & _).
  assert (NS : forall y, In y (evars start ++ evars stop ++ evars inc) -> y <> x).
  { intros y Hy ->. apply Nx. rewrite !in_app_iff in Hy. destruct Hy as [Hy|[Hy|Hy]]; auto. }
  assert (Un : forall y, In y (evars start ++ evars stop ++ evars inc) -> fst (set_var x (VInt a) st) y = fst st y).
  { intros y Hy. cbn. destruct (Nat.eqb_spec y x); auto. exfalso. eapply NS; eauto. }
  assert (Vw0 : value_in st stop = Some w).
  { rewrite <- Vw. apply value_ext; auto. intros y Hy. symmetry. apply Un. rewrite !in_app_iff. auto. }
  destruct (value_int F FL FO M op1 op2 cast eff TO ty t st _ _ K T2 K2' Vw0) as (e & -> & Re).
  destruct (count_value t st start stop inc a e Vs Vw0 K1' K2' K3' Dv) as (c & cnt & Vi & Hc & Hd & Vc & Hcnt).
  assert (Vix : value_in (set_var x (VInt a) st) inc = Some (VInt c)).
  { rewrite <- Vi. apply value_ext; auto. intros y Hy. apply Un. rewrite !in_app_iff. auto. }
  destruct (for_iterates F FO M op1 op2 cast eff LT ty t x stop inc b c Q Nd Nxb Kt) with (st := set_var x (VInt a) st) (g := Go) (st' := st') (a := a) (e := e) (cd := Loop (KInt t) x stop inc b)
    as (n & Hn & En & Hm & K' & Hy); auto.
  { intros y Hy. split; [apply Db|apply NS]; rewrite !in_app_iff in *; tauto. }
  { cbn. rewrite Nat.eqb_refl. reflexivity. }
  assert (Vs1 : value_in st1 start = Some (VInt a)) by (rewrite <- Vs; symmetry; eapply same_value; eauto).
  assert (Vw1 : value_in st1 stop = Some (VInt e)) by (rewrite <- Vw0; symmetry; eapply same_value; eauto).
  assert (Vlt : value_in st1 (lt_ start stop) = Some (VBool (a <? e)%Z)).
  { unfold SimplifyStmtSpec.value_in in *. cbn. rewrite Vs1, Vw1. cbn. apply LT. }
  assert (Same : forall y, In y H -> fst st' y = after F t n (ups F b) (fst st1) y).
  { intros y Hin. assert (Nyx : y <> x) by (intros ->; auto). rewrite (Hy y Nyx). unfold after. cbn.
    destruct (Nat.eqb_spec y x); [congruence|]. rewrite (proj2 Ha y Hin). reflexivity. }
  destruct (Z.ltb_spec a e) as [Hlt|Hge].
  - assert (Td : typed ty (EDiv (ESub stop start) inc)).
    { cbn [typed kind_of]. rewrite K1', K2', K3', max_kind_same. repeat split; auto; discriminate. }
    destruct (simplify_keeps F FL ty _ _ Td Es) as (Tc & Kc & _). cbn [kind_of] in Kc.
    rewrite K1', K2', K3', !max_kind_same in Kc.
    pose proof (keeps_vars _ _ _ _ (simplify_keeps F FL ty _ _ Td Es)) as Ic.
    assert (Ic' : forall v, In v (evars count) -> In v (evars start ++ evars stop ++ evars inc)).
    { intros v Hv. apply Ic in Hv. unfold evars in *. cbn in Hv. rewrite !map_app, !in_app_iff in Hv. rewrite !in_app_iff. tauto. }
    assert (Vd1 : value_in st1 (EDiv (ESub stop start) inc) = Some (VInt cnt)).
    { rewrite <- Vc. symmetry. eapply same_value; eauto. intros v Hv. unfold evars in Hv. cbn in Hv. rewrite !map_app, !in_app_iff in Hv.
      destruct Hv as [[Hv|Hv]|Hv]; auto. }
    pose proof (simplify_value F FL FO M op1 op2 cast eff TO LAW ty _ _ _ _ K1 Td Es Vd1) as Vc1.
    destruct (dup_run F FL FO M op1 op2 cast eff TO LAW ty t count cnt Tc Kc b Q b' st1 Ed K1) as (X1 & K1''); auto.
    exists (run F M t (scale F cnt (ups F b)) st1). split; auto. split; [|split; [|split]]; auto.
    + eapply X_if with (t := true); auto.
    + split; [rewrite Hm, run_mem; apply Ha|]. intros y Hin. rewrite (Same y Hin).
      assert (Hpos : (0 < n)%Z) by nia. symmetry. apply after_scale; auto. rewrite quiet_assigned with (t := t) (ty := ty); auto.
  - assert (n = 0)%Z by nia. subst n. exists st1. split; auto. split; [|split; [|split]]; auto.
    + eapply X_if with (t := false); [rewrite Vlt; f_equal; f_equal; lia|constructor].
    + split; [rewrite Hm; apply Ha|]. intros y Hin. rewrite (Same y Hin). reflexivity.
Qed.

Lemma modifies_spec v : forall s : stmt, modifies v s = false -> ~ In v (assigned s).
Proof.
  induction s as [id k x e|k x e|o args raw| |a IHa b IHb|a IHa|c a IHa b IHb|c b IHb|k x e1 e2 e3 b IHb| |]; cbn; intro E; auto.
  - apply Nat.eqb_neq in E. intros [H|[]]; auto.
  - apply orb_false_iff in E as [E1 E2]. intro Hin. apply in_app_or in Hin as [Hin|Hin]; [exact (IHa E1 Hin)|exact (IHb E2 Hin)].
  - apply orb_false_iff in E as [E1 E2]. intro Hin. apply in_app_or in Hin as [Hin|Hin]; [exact (IHa E1 Hin)|exact (IHb E2 Hin)].
Qed.
Lemma closed_while H (c : expr) b s' st st1 g st' :
  while_closed FL c b = Val (Some s') -> styped ty (SWhile c b) -> countable ty (SWhile c b) -> within H c ->
  kinded st -> kinded st1 -> same_on H st st1 -> exec (Code (SWhile c b)) st g st' ->
  exists st1', g = Go /\ exec (Code s') st1 Go st1' /\ kinded st' /\ kinded st1' /\ same_on H st' st1'.
Proof.
  intros E T C W K K1 Ha X. unfold while_closed in E.
  destruct c as [l|kc xc|c0|c1 c2|c1 c2|c1 c2|c1 c2|c1 c2|c1 c2|kc c0|kc oc c0|kc oc c1 c2]; try discriminate.
  destruct c1 as [l|ki i|c0|c1 c2'|c1 c2'|c1 c2'|c1 c2'|c1 c2'|c1 c2'|k1 c0|k1 o1 c0|k1 o1 c1 c2']; try discriminate.
  destruct c2 as [l|ke e|c0|c1 c2'|c1 c2'|c1 c2'|c1 c2'|c1 c2'|c1 c2'|k1 c0|k1 o1 c0|k1 o1 c1 c2']; try discriminate.
  destruct (Nat.eqb_spec oc op_lt) as [->|]; [|discriminate]. cbn [negb orb] in E.
  destruct (modifies e b) eqn:Em; [discriminate|]. apply modifies_spec in Em.
  assert (U : exists rest last, unlast b = Some (rest, last) /\ is_increment i last = true /\
    exists count rest', simplify_ FL (ESub (EVar ke e) (EVar ki i)) = Val count /\ duplicate FL count rest = Val (Some rest') /\
    s' = SIf (EOp2 kc op_lt (EVar ki i) (EVar ke e)) (cons_ rest' (SCons (SAssign ki i (EVar ke e)) SNil)) SNil).
  { destruct b; try discriminate. destruct (unlast (SCons b1 b2)) as [[rest last]|]; [|discriminate].
    destruct (is_increment i last) eqn:Ei; [|discriminate].
    destruct (simplify_ FL (ESub (EVar ke e) (EVar ki i))) as [count| |] eqn:Es; cbn [obind] in E; try discriminate.
    destruct (duplicate FL count rest) as [[rest'|]| |] eqn:Ed; cbn [obind] in E; try discriminate. injection E as <-.
    exists rest, last. split; auto. split; auto. exists count, rest'. auto. }
  destruct U as (rest & last & Un & Inc & count & rest' & Es & Ed & ->). clear E.
  cbn in T. destruct T as ((Ti & Te & Tl) & _ & Tb). destruct (Tl eq_refl) as (-> & Kie).
  assert (Kie' : ki = ke) by exact Kie. clear Kie. subst ke.
  destruct (unlast_parts F ty _ _ _ Un) as (Ua & Us & Ut & Uc). destruct (Ut Tb) as (Tr & Tlast).
  assert (L : exists kl t1, last = SAssign kl i (EAdd (EVar ki i) (ELit (LInt t1 1)))).
  { unfold is_increment in Inc. destruct last; try discriminate. destruct e0; try discriminate. destruct e0_1; try discriminate.
    destruct e0_2; try discriminate. destruct l; try discriminate. apply andb_true_iff in Inc as [Inc I3]. apply andb_true_iff in Inc as [I1 I2].
    apply Nat.eqb_eq in I1, I2. apply Z.eqb_eq in I3. subst. cbn in Tlast. destruct Tlast as ((-> & _) & -> & _). subst. eauto. }
  destruct L as (kl & t1 & ->).
  pose proof (dup_counting _ _ _ Ed) as CR.
  destruct (C (Uc CR I)) as (Nd & t & At).
  cbn in Tlast. destruct Tlast as ((_ & Rl & Kl & _) & -> & _).
  assert (Tyi : ty i = KInt t).
  { destruct (At i (EAdd (EVar ki i) (ELit (LInt t1 1)))) as [A|(l & A)]; auto; [|discriminate]. rewrite Us. apply in_or_app. right. cbn. auto. }
  assert (Tye : ty e = KInt t) by congruence.
  assert (Et : t1 = t) by congruence. subst t1 ki. clear Tl. try rewrite Tyi in *. try rewrite Tye in *.
  assert (Q : quiet F ty t rest).
  { eapply dup_quiet; eauto. intros y e0 Hy. apply (At y e0). rewrite Us. apply in_or_app. auto. }
  rewrite Ua in Nd, Em. apply NoDup_app_inv in Nd as (Nd & _ & Dis).
  assert (Ni : ~ In i (assigned rest)) by (intro Hi; apply (Dis _ Hi); cbn; auto).
  assert (Nei : e <> i) by (intros ->; apply Em; apply in_or_app; right; cbn; auto).
  assert (Ne : ~ In e (assigned rest)) by (intro He; apply Em; apply in_or_app; auto).
  assert (VI : exists a, fst st i = VInt a) by (pose proof (K i) as Kx; rewrite Tyi in Kx; destruct (fst st i); cbn in Kx; try contradiction; eauto).
  assert (VE : exists z, fst st e = VInt z) by (pose proof (K e) as Kx; rewrite Tye in Kx; destruct (fst st e); cbn in Kx; try contradiction; eauto).
  destruct VI as (a & Va). destruct VE as (z & Vz).
  destruct (while_iterates F FO M op1 op2 cast eff LT ty t i e rest _ b KBool Q Un eq_refl Nd Ni Ne Nei Tyi Tye eq_refl _ _ _ _ X eq_refl K a z Va Vz)
    as (n & Hn & En & -> & Hm & K' & Hi & Hy).
  assert (Hi1 : fst st1 i = VInt a) by (rewrite <- Va; symmetry; apply Ha; apply W; cbn; auto).
  assert (He1 : fst st1 e = VInt z) by (rewrite <- Vz; symmetry; apply Ha; apply W; cbn; auto).
  assert (Vlt : value_in st1 (EOp2 KBool op_lt (EVar (KInt t) i) (EVar (KInt t) e)) = Some (VBool (a <? z)%Z)).
  { unfold SimplifyStmtSpec.value_in. cbn. rewrite Hi1, He1. apply LT. }
  assert (Same : forall y, In y H -> y <> i -> fst st' y = after F t n (ups F rest) (fst st1) y).
  { intros y Hin Nyi. rewrite (Hy y Nyi). unfold after. rewrite (proj2 Ha y Hin). reflexivity. }
  destruct (Z.ltb_spec a z) as [Hlt|Hge].
  - assert (Td : typed ty (ESub (EVar (KInt t) e) (EVar (KInt t) i) : expr)) by (cbn; repeat split; try congruence).
    destruct (simplify_keeps F FL ty _ _ Td Es) as (Tc & Kc & _). cbn [kind_of] in Kc. rewrite max_kind_same in Kc.
    pose proof (keeps_vars _ _ _ _ (simplify_keeps F FL ty _ _ Td Es)) as Ic.
    assert (Vd1 : value_in st1 (ESub (EVar (KInt t) e) (EVar (KInt t) i)) = Some (VInt (wrap t (z - a)))).
    { unfold SimplifyStmtSpec.value_in. cbn. rewrite Hi1, He1. cbn. rewrite max_itype_same. reflexivity. }
    pose proof (simplify_value F FL FO M op1 op2 cast eff TO LAW ty _ _ _ _ K1 Td Es Vd1) as Vc1.
    destruct (dup_run F FL FO M op1 op2 cast eff TO LAW ty t count (wrap t (z - a)) Tc Kc rest Q rest' st1 Ed K1) as (X1 & K1''); auto.
    { intros v Hv. apply Ic in Hv. cbn in Hv. destruct Hv as [<-|[<-|[]]]; auto. }
    set (st2 := run F M t (scale F (wrap t (z - a)) (ups F rest)) st1) in *.
    assert (E2 : fst st2 e = VInt z).
    { unfold st2. rewrite run_other; auto. rewrite scale_keys, (quiet_assigned F ty t) by auto. auto. }
    exists (set_var i (VInt z) st2). split; auto. split; [|split; [|split]]; auto.
    + eapply X_if with (t := true); auto. apply exec_cons_. eapply X_cons; [exact X1|]. eapply X_cons; [|constructor].
      constructor. unfold SimplifyStmtSpec.value_in. cbn. congruence.
    + apply kinded_set; auto. rewrite Tyi. pose proof (K e) as Kx. rewrite Tye, Vz in Kx. exact Kx.
    + split; [rewrite Hm; cbn; unfold st2; rewrite run_mem; apply Ha|]. intros y Hin. cbn. destruct (Nat.eqb_spec y i) as [->|Nyi].
      * rewrite Hi. f_equal. lia.
      * rewrite (Same y Hin Nyi). symmetry. apply after_scale; [lia| |rewrite (quiet_assigned F ty t); auto].
        destruct (wrap_cong t (z - a)) as [q ->]. exists q. lia.
  - assert (n = 0)%Z by lia. subst n. exists st1. split; auto. split; [|split; [|split]]; auto.
    + eapply X_if with (t := false); [rewrite Vlt; f_equal; f_equal; lia|constructor].
    + split; [rewrite Hm; apply Ha|]. intros y Hin. destruct (Nat.eq_dec y i) as [->|Nyi].
      * rewrite Hi, Hi1. f_equal. lia.
      * rewrite (Same y Hin Nyi). reflexivity.
Qed.

Lemma values_same H st st1 : forall es : list expr, same_on H st st1 -> Forall (within H) es -> values_in st es = values_in st1 es.
Proof.
  induction es as [|e es IH]; cbn; intros S W; auto. inversion W; subst. rewrite (same_value H st st1 e S) by auto. rewrite IH; auto.
Qed.
Definition goes (g : signal) (D H : list nat) : list nat := match g with Go => D ++ H | _ => H end.
Lemma same_goes g D H st st1 : same_on (goes g D H) st st1 -> same_on H st st1.
Proof. intro S. eapply same_incl; [exact S|]. destruct g; cbn; try apply incl_refl. apply incl_appr, incl_refl. Qed.

Theorem remove_ok : forall cd st g st', exec cd st g st' ->
  match cd with
  | Code s => forall s' H st1, remove_loops FL s = Val s' -> styped ty s -> scoped H s -> NoDup (bound s) ->
      (forall x, In x (bound s) -> ~ In x H) -> (forall l, In l (loops s) -> countable ty l) ->
      kinded st -> kinded st1 -> same_on H st st1 ->
      exists st1', exec (Code s') st1 g st1' /\ kinded st' /\ kinded st1' /\ same_on (goes g (declares s) H) st' st1'
  | Loop k x stop inc b => forall b' H st1, remove_loops FL b = Val b' -> styped ty b -> k = ty x -> (exists t, k = KInt t) ->
      typed ty stop -> kind_of stop = k -> typed ty inc -> kind_of inc = k ->
      within H stop -> within H inc -> scoped (x :: H) b -> NoDup (bound b) ->
      (forall y, In y (bound b) -> ~ In y (x :: H)) -> (forall l, In l (loops b) -> countable ty l) ->
      kinded st -> kinded st1 -> same_on (x :: H) st st1 ->
      exists st1', exec (Loop k x stop inc b') st1 g st1' /\ kinded st' /\ kinded st1' /\ same_on H st' st1'
  end.
Proof.
  intros cd st g st' X.
  induction X as [id k x e st v Ev|k x e st v Ev|o args raw st vs ws m Ea Er Em|st|s r st st1 g st2 H1 IH1 H2 IH2
    |s r st g st1 H1 IH1 Hg|s st g st1 H1 IH1|c a b st t g st1 Ec H1 IH1|c b st Ec|c b st g st1 st2 Ec H1 IH1 Hg H2 IH2
    |c b st st1 Ec H1 IH1|k x start stop inc b st v st1 Es H1 IH1|k x stop inc b st Ec|k x stop inc b st g st1 v st2 Ec H1 IH1 Hg Ei H2 IH2
    |k x stop inc b st st1 Ec H1 IH1|st|st].
  - (* decl *) intros s' H su E T S Nd Fr C K K1 Ha. injection E as <-. cbn in T, S. destruct T as (Te & -> & Ke).
    assert (Hkv : has_kind (ty x) v) by (rewrite <- Ke; eapply (value_kind F FL FO M op1 op2 cast eff TO ty _ st); eauto).
    exists (set_var x v su). split; [constructor; rewrite <- Ev; symmetry; eapply same_value; eauto|].
    split; [apply kinded_set; auto|]. split; [apply kinded_set; auto|]. apply same_set. auto.
  - (* assign *) intros s' H su E T S Nd Fr C K K1 Ha. injection E as <-. cbn in T, S. destruct T as (Te & -> & Ke). destruct S as (Sx & Se).
    assert (Hkv : has_kind (ty x) v) by (rewrite <- Ke; eapply (value_kind F FL FO M op1 op2 cast eff TO ty _ st); eauto).
    exists (set_var x v su). split; [constructor; rewrite <- Ev; symmetry; eapply same_value; eauto|].
    split; [apply kinded_set; auto|]. split; [apply kinded_set; auto|]. cbn. apply same_set'. auto.
  - (* eff *) intros s' H su E T S Nd Fr C K K1 Ha. injection E as <-. destruct S as (Sa & Sr).
    exists (fst su, m). split; [|split; [exact K|split; [exact K1|split; [reflexivity|apply Ha]]]].
    econstructor.
    + rewrite <- (values_same H st su) by auto. exact Ea.
    + rewrite <- (values_same H st su) by auto. exact Er.
    + destruct Ha as (<- & _). exact Em.
  - (* nil *) intros s' H su E T S Nd Fr C K K1 Ha. injection E as <-. exists su. split; [constructor|]. auto.
  - (* cons *) intros s' H su E T S Nd Fr C K K1 Ha. cbn [remove_loops] in E.
    destruct (remove_loops FL s) as [s1'| |] eqn:E1; cbn [obind] in E; try discriminate.
    destruct (remove_loops FL r) as [r1'| |] eqn:E2; cbn [obind] in E; try discriminate. injection E as <-.
    destruct T as (Ts & Tr). destruct S as (Ss & Sr). cbn in Nd, Fr, C. apply NoDup_app_inv in Nd as (N1 & N2 & Dj).
    destruct (IH1 s1' H su) as (su1 & X1 & Ka & Kb & A1); auto.
    { intros x Hx. apply Fr. apply in_or_app. auto. }
    { intros l Hl. apply C. apply in_or_app. auto. }
    cbn [goes] in A1.
    destruct (IH2 r1' (declares s ++ H) su1) as (su2 & X2 & Ka2 & Kb2 & A2); auto.
    { intros x Hx Hin. apply in_app_or in Hin as [Hin|Hin].
      - assert (Hb : In x (bound s)) by (clear - Hin; induction s; cbn in *; try contradiction; auto; rewrite in_app_iff in *; tauto). exact (Dj _ Hb Hx).
      - apply (Fr x); auto. apply in_or_app. auto. }
    { intros l Hl. apply C. apply in_or_app. auto. }
    exists su2. split; [apply exec_cons_; eapply X_cons; eauto|]. split; auto. split; auto.
    eapply same_incl; [exact A2|]. destruct g; cbn; [|apply incl_appr, incl_refl|apply incl_appr, incl_refl].
    intros y Hy. rewrite !in_app_iff in *. tauto.
  - (* cons, signal *) intros s' H su E T S Nd Fr C K K1 Ha. cbn [remove_loops] in E.
    destruct (remove_loops FL s) as [s1'| |] eqn:E1; cbn [obind] in E; try discriminate.
    destruct (remove_loops FL r) as [r1'| |] eqn:E2; cbn [obind] in E; try discriminate. injection E as <-.
    destruct T as (Ts & Tr). destruct S as (Ss & Sr). cbn in Nd, Fr, C. apply NoDup_app_inv in Nd as (N1 & N2 & Dj).
    destruct (IH1 s1' H su) as (su1 & X1 & Ka & Kb & A1); auto.
    { intros x Hx. apply Fr. apply in_or_app. auto. }
    { intros l Hl. apply C. apply in_or_app. auto. }
    exists su1. split; [apply exec_cons_; apply X_cons_end; auto|]. split; auto. split; auto. destruct g; [congruence|exact A1|exact A1].
  - (* scope *) intros s' H su E T S Nd Fr C K K1 Ha. cbn [remove_loops] in E.
    destruct (remove_loops FL s) as [s1'| |] eqn:E1; cbn [obind] in E; try discriminate. injection E as <-.
    destruct (IH1 s1' H su) as (su1 & X1 & Ka & Kb & A1); auto.
    exists su1. split; [constructor; auto|]. split; auto. split; auto. apply same_goes in A1. destruct g; exact A1.
  - (* if *) intros s' H su E T S Nd Fr C K K1 Ha. cbn [remove_loops] in E.
    destruct (remove_loops FL a) as [a'| |] eqn:E1; cbn [obind] in E; try discriminate.
    destruct (remove_loops FL b) as [b'| |] eqn:E2; cbn [obind] in E; try discriminate. injection E as <-.
    destruct T as (Tc & Kc & Ta & Tb). destruct S as (Sc & Sa & Sb). cbn in Nd, Fr, C. apply NoDup_app_inv in Nd as (N1 & N2 & Dj).
    destruct (IH1 (if t then a' else b') H su) as (su1 & X1 & Ka & Kb & A1); auto; try (destruct t; auto; fail).
    { intros x Hx. apply Fr. apply in_or_app. destruct t; auto. }
    { intros l Hl. apply C. apply in_or_app. destruct t; auto. }
    exists su1. split; [eapply X_if with (t := t); [rewrite <- Ec; symmetry; eapply same_value; eauto|destruct t; exact X1]|].
    split; auto. split; auto. apply same_goes in A1. destruct g; exact A1.
  - (* while end *) intros s' H su E T S Nd Fr C K K1 Ha. cbn [remove_loops] in E.
    destruct (while_closed FL c b) as [[w|]| |] eqn:Ew; cbn [obind] in E; try discriminate.
    + injection E as <-. edestruct (closed_while H) as (su1 & _ & X1 & Ka & Kb & A1); [exact Ew|exact T|apply C; cbn; auto|apply S|exact K|exact K1|exact Ha| |].
      { apply X_while_end. exact Ec. }
      exists su1. auto.
    + destruct (remove_loops FL b) as [b'| |] eqn:E1; cbn [obind] in E; try discriminate. injection E as <-.
      exists su. split; [constructor; rewrite <- Ec; symmetry; eapply same_value; [exact Ha|apply S]|]. auto.
  - (* while step *) intros s' H su E T S Nd Fr C K K1 Ha. pose proof E as E0. cbn [remove_loops] in E.
    destruct (while_closed FL c b) as [[w|]| |] eqn:Ew; cbn [obind] in E; try discriminate.
    + injection E as <-. edestruct (closed_while H) as (su1 & _ & X1 & Ka & Kb & A1); [exact Ew|exact T|apply C; cbn; auto|apply S|exact K|exact K1|exact Ha| |].
      { eapply X_while; eauto. }
      exists su1. auto.
    + destruct (remove_loops FL b) as [b'| |] eqn:E1; cbn [obind] in E; try discriminate. injection E as <-.
      destruct (IH1 b' H su) as (su1 & X1 & Ka & Kb & A1); auto; try apply T; try apply S.
      { intros l Hl. apply C. cbn. auto. }
      apply same_goes in A1.
      destruct (IH2 (SWhile c b') H su1) as (su2 & X2 & Ka2 & Kb2 & A2); auto.
      exists su2. split; [|auto]. eapply X_while; eauto. rewrite <- Ec. symmetry. eapply same_value; [exact Ha|apply S].
  - (* while break *) intros s' H su E T S Nd Fr C K K1 Ha. cbn [remove_loops] in E.
    destruct (while_closed FL c b) as [[w|]| |] eqn:Ew; cbn [obind] in E; try discriminate.
    + injection E as <-. edestruct (closed_while H) as (su1 & _ & X1 & Ka & Kb & A1); [exact Ew|exact T|apply C; cbn; auto|apply S|exact K|exact K1|exact Ha| |].
      { eapply X_while_break; eauto. }
      exists su1. auto.
    + destruct (remove_loops FL b) as [b'| |] eqn:E1; cbn [obind] in E; try discriminate. injection E as <-.
      destruct (IH1 b' H su) as (su1 & X1 & Ka & Kb & A1); auto; try apply T; try apply S.
      { intros l Hl. apply C. cbn. auto. }
      exists su1. split; [|auto]. eapply X_while_break; eauto. rewrite <- Ec. symmetry. eapply same_value; [exact Ha|apply S].
  - (* for *) intros s' H su E T S Nd Fr C K K1 Ha. cbn [remove_loops] in E.
    pose proof S as S'. cbn in S'. destruct S' as (S1 & S2 & S3 & S4).
    destruct (for_closed FL start stop inc b) as [[w|]| |] eqn:Ew; cbn [obind] in E; try discriminate.
    + injection E as <-. edestruct (closed_for H) as (su1 & _ & X1 & Ka & Kb & A1); [exact Ew|exact T|apply C; cbn; auto|exact S1|exact S2|exact S3| |exact K|exact K1|exact Ha| |].
      { apply Fr. cbn. auto. }
      { eapply X_for; eauto. }
      exists su1. auto.
    + destruct (remove_loops FL b) as [b'| |] eqn:E1; cbn [obind] in E; try discriminate. injection E as <-.
      cbn in T. destruct T as (-> & Kt & T1 & T2 & T3 & T4 & T5 & T6 & T7).
      assert (Hkv : has_kind (ty x) v) by (rewrite <- T2; eapply (value_kind F FL FO M op1 op2 cast eff TO ty _ st); eauto).
      cbn in Nd. inversion Nd; subst.
      destruct (IH1 b' H (set_var x v su)) as (su1 & X1 & Ka & Kb & A1); auto.
      { intros y Hy [->|Hin]; [contradiction|]. apply (Fr y); cbn; auto. }
      { intros l Hl. apply C. cbn. auto. }
      { apply kinded_set; auto. }
      { apply kinded_set; auto. }
      { apply same_set; auto. }
      exists su1. split; [|auto]. eapply X_for; [|exact X1]. rewrite <- Es. symmetry. eapply same_value; eauto.
  - (* loop end *) intros b' H su E T -> Kt T1 T2 T3 T4 W1 W2 S Nd Fr C K K1 Ha.
    exists su. split; [|split; auto; split; auto; eapply same_incl; [exact Ha|apply incl_tl, incl_refl]].
    constructor. rewrite <- Ec. symmetry. eapply same_value; [exact Ha|]. intros y Hy. cbn in Hy. destruct Hy as [<-|Hy]; [left; auto|right; apply W1; exact Hy].
  - (* loop step *) intros b' H su E T -> Kt T1 T2 T3 T4 W1 W2 S Nd Fr C K K1 Ha.
    destruct (IH1 b' (x :: H) su) as (su1 & X1 & Ka & Kb & A1); auto. apply same_goes in A1.
    assert (Wi : within (x :: H) (EAdd (EVar (ty x) x) inc)).
    { intros y Hy. cbn in Hy. destruct Hy as [<-|Hy]; [left; auto|right; apply W2; exact Hy]. }
    assert (Hkv : has_kind (ty x) v).
    { assert (Ke : kind_of (EAdd (EVar (ty x) x) inc) = ty x) by (cbn; rewrite T4; apply max_kind_same).
      rewrite <- Ke. eapply (value_kind F FL FO M op1 op2 cast eff TO ty); [exact Ka| |exact Ei]. cbn. rewrite T4. repeat split; auto. destruct Kt as (t & ->). discriminate. }
    destruct (IH2 b' H (set_var x v su1)) as (su2 & X2 & Ka2 & Kb2 & A2); auto.
    { apply kinded_set; auto. }
    { apply kinded_set; auto. }
    { apply same_set'. exact A1. }
    exists su2. split; [|auto]. eapply X_loop with (g := g); [|exact X1|exact Hg| |exact X2].
    + rewrite <- Ec. symmetry. eapply same_value; [exact Ha|]. intros y Hy. cbn in Hy. destruct Hy as [<-|Hy]; [left; auto|right; apply W1; exact Hy].
    + rewrite <- Ei. symmetry. eapply same_value; [exact A1|exact Wi].
  - (* loop break *) intros b' H su E T -> Kt T1 T2 T3 T4 W1 W2 S Nd Fr C K K1 Ha.
    destruct (IH1 b' (x :: H) su) as (su1 & X1 & Ka & Kb & A1); auto.
    exists su1. split; [|split; auto; split; auto; eapply same_incl; [exact A1|apply incl_tl, incl_refl]].
    eapply X_loop_break; [|exact X1].
    rewrite <- Ec. symmetry. eapply same_value; [exact Ha|]. intros y Hy. cbn in Hy. destruct Hy as [<-|Hy]; [left; auto|right; apply W1; exact Hy].
  - intros s' H su E T S Nd Fr C K K1 Ha. injection E as <-. exists su. split; [constructor|]. auto.
  - intros s' H su E T S Nd Fr C K K1 Ha. injection E as <-. exists su. split; [constructor|]. auto.
Qed.
End Remove.
