(** Concrete notation (C21). *)
From Coq Require Import List Arith Lia Bool Ring_theory Ring Permutation.
Import ListNotations.
From Verif Require Import IndexExpr Eval Notation NotationSpec NotationProofs NotationRun.
Local Open Scope nat_scope.

Section P.
Context {V : Type}.
Variable R : ring_ops V.
Hypothesis RT : ring_theory (r0 R) (r1 R) (radd R) (rmul R) (rsub R) (ropp R) eq.
Variable fn : nat -> V -> V.
Variable dv : V -> V -> V.
Variable dim : ivar -> nat.
Add Ring Rr4 : RT.

Notation "0r" := (r0 R). Notation "a +r b" := (radd R a b) (at level 50, left associativity).
Notation ev := (neval R fn dv dim).
Notation run := (run R fn dv dim).
Notation ups := (ups R fn dv dim).
Notation stmt := (nstmt V).
Notation store := (@store V).
Notation sum := (sum R).
Notation so := (sum_over R dim).

(** *** Sums of updates *)
Definition sumv (us : list (option redop * V)) : V := fold_right (fun u a => snd u +r a) 0r us.
Lemma apply_sum : forall us a, (forall u, In u us -> fst u = Some RSum) -> apply R a us = a +r sumv us.
Proof.
  unfold apply, sumv. induction us as [|u us IH]; cbn [fold_left fold_right]; intros a H; [ring|].
  rewrite IH by (intros; apply H; right; auto). unfold apply1. rewrite (H u) by (left; auto). cbn. ring.
Qed.
Lemma sumv_app : forall us us', sumv (us ++ us') = sumv us +r sumv us'.
Proof. unfold sumv. induction us; cbn; intros; [ring|]. rewrite IHus. ring. Qed.
Lemma sumv_flat : forall l (f : nat -> list (option redop * V)),
  sumv (flat_map f l) = fold_right (fun c a => sumv (f c) +r a) 0r l.
Proof. induction l; cbn; intros; auto. rewrite sumv_app, IHl. auto. Qed.
Lemma sumv_forall : forall n f, sumv (flat_map f (seq 0 n)) = sum n (fun c => sumv (f c)).
Proof. intros. apply sumv_flat. Qed.

(** *** Replacing reductions *)
Inductive rf (fr : tensor) (op : redop) (i : ivar) (b : nexpr V) : nexpr V -> nexpr V -> Prop :=
| rf_red : rf fr op i b (NRed op i b) (NAcc fr [])
| rf_neg : forall a a', rf fr op i b a a' -> rf fr op i b (NNeg a) (NNeg a')
| rf_fun : forall f a a', rf fr op i b a a' -> rf fr op i b (NFun f a) (NFun f a')
| rf_add1 : forall a a' c, rf fr op i b a a' -> rf fr op i b (NAdd a c) (NAdd a' c)
| rf_add2 : forall a a' c, rf fr op i b a a' -> rf fr op i b (NAdd c a) (NAdd c a')
| rf_sub1 : forall a a' c, rf fr op i b a a' -> rf fr op i b (NSub a c) (NSub a' c)
| rf_sub2 : forall a a' c, rf fr op i b a a' -> rf fr op i b (NSub c a) (NSub c a')
| rf_mul1 : forall a a' c, rf fr op i b a a' -> rf fr op i b (NMul a c) (NMul a' c)
| rf_mul2 : forall a a' c, rf fr op i b a a' -> rf fr op i b (NMul c a) (NMul c a')
| rf_div1 : forall a a' c, rf fr op i b a a' -> rf fr op i b (NDiv a c) (NDiv a' c)
| rf_div2 : forall a a' c, rf fr op i b a a' -> rf fr op i b (NDiv c a) (NDiv c a').

Definition rf_spec (fr : tensor) (e : nexpr V) : Prop :=
  match replace_first fr e with
  | (e', None) => e' = e /\ nreds e = 0
  | (e', Some (op, i, b)) => rf fr op i b e e'
  end.
Lemma rf_ok : forall fr e, rf_spec fr e.
Proof.
  intros fr. induction e; unfold rf_spec in *; cbn [replace_first nreds]; auto;
    try (destruct (replace_first fr e) as [a' [[[o i1] b]|]]; [constructor; auto|destruct IHe as [-> ->]; auto]; fail);
    try (destruct (replace_first fr e1) as [a' [[[o i1] b]|]]; [constructor; auto|destruct IHe1 as [-> N1]];
         destruct (replace_first fr e2) as [b' [[[o i1] b]|]]; [constructor; auto|destruct IHe2 as [-> N2]; rewrite N1, N2; auto]).
  constructor.
Qed.
Lemma rf_facts : forall fr op i b e e', rf fr op i b e e' -> sum_only e ->
  op = RSum /\ sum_only e' /\ sum_only b /\ (forall u, In u (reads e') -> u = fr \/ In u (reads e)) /\
  (forall u, In u (reads b) -> In u (reads e)) /\ nreds e' + S (nreds b) = nreds e.
Proof.
  induction 1; cbn; intros S; try (apply IHrf; exact S);
    try (destruct S as [S1 S2]; destruct IHrf as (A & B & C & D & E & F); auto;
         repeat split; auto; try lia; intros u U; rewrite ?in_app_iff in *;
         [destruct U as [U|U]; [try apply D in U|try apply D in U]; tauto|apply E in U; tauto]).
  destruct S. repeat split; auto; intros u U; intuition.
Qed.
Lemma rf_value : forall fr i b e e', rf fr RSum i b e e' -> forall T T' r, (forall u, In u (reads e) -> u <> fr) ->
  (forall t x, t <> fr -> T' t x = T t x) -> T' fr [] = sum (dim i) (fun c => ev T (ext r i c) b) ->
  ev T' r e' = ev T r e.
Proof.
  assert (SAME : forall fr e T T' r, (forall u, In u (reads e) -> u <> fr) -> (forall t x, t <> fr -> T' t x = T t x) -> ev T' r e = ev T r e).
  { intros. apply neval_ext; auto. }
  induction 1; cbn [neval reads map]; intros T T' r N HT H0; auto;
    try (f_equal; eapply IHrf; eauto; fail);
    f_equal; try (eapply IHrf; eauto; intros; apply N; apply in_app_iff; auto; fail);
    eapply SAME; eauto; intros; apply N; apply in_app_iff; auto.
Qed.

Lemma rr_ok : forall fuel fr t vs op (e : nexpr V) s next, replace_reductions fuel fr t vs op e = Some (s, next) ->
  sum_only e -> (forall u, In u (reads e) -> u < fr) -> t < fr ->
  res s = t /\ fr <= next /\ forall r T, eqT (run s r T) (run (NAssign t vs op e) r T).
Proof.
  induction fuel as [|fuel IH]; intros fr t vs op e s next H SO RD L; cbn [replace_reductions] in H;
    pose proof (rf_ok fr e) as RF; unfold rf_spec in RF; destruct (replace_first fr e) as [e' [[[o i] b]|]].
  - discriminate.
  - injection H as <- <-. split; auto. split; auto. intros; apply eqT_refl.
  - destruct (replace_reductions fuel (S fr) t vs op e') as [[cons nx]|] eqn:EC; [|discriminate].
    destruct (replace_reductions fuel nx fr [] (Some o) b) as [[prod nx']|] eqn:EP; [|discriminate].
    injection H as <- <-. destruct (rf_facts _ _ _ _ _ _ RF SO) as (-> & SO' & SOb & RD' & RDb & _).
    destruct (IH _ _ _ _ _ _ _ EC SO') as (R1 & L1 & G1); [|lia|].
    { intros u U. destruct (RD' u U) as [->|U']; [lia|]. specialize (RD u U'). lia. }
    destruct (IH _ _ _ _ _ _ _ EP SOb) as (R2 & L2 & G2); [|lia|].
    { intros u U. specialize (RD u (RDb u U)). lia. }
    split; auto. split; [lia|]. intros r T. cbn [NotationSpec.run res]. rewrite R2.
    set (T1 := fold_left (fun T0 c => run prod (ext r i c) T0) (seq 0 (dim i)) (clear R fr T)).
    assert (H1 : eqT T1 (run (NForall no_annot i (NAssign fr [] (Some RSum) b)) r (clear R fr T))).
    { unfold T1. cbn [NotationSpec.run]. apply fold_ext; [|apply eqT_refl]. intros A B c _ E.
      eapply eqT_trans; [apply G2|]. apply (run_ext R fn dv dim (NAssign fr [] (Some RSum) b)); auto. }
    assert (NF : forall u, In u (reads e) -> u <> fr) by (intros u U; specialize (RD u U); lia).
    assert (H2 : forall t' x, t' <> fr -> T1 t' x = T t' x).
    { intros t' x N. rewrite H1, frame by auto. unfold clear, set_tensor. destruct (Nat.eqb_spec t' fr); congruence. }
    assert (H3 : T1 fr [] = sum (dim i) (fun c => ev T (ext r i c) b)).
    { rewrite H1. change fr with (res (NForall no_annot i (NAssign fr [] (Some RSum) b))) at 2. rewrite run_ups; cbn [res rhs_reads temps]; auto.
      2:{ intro I. apply (NF fr); auto. }
      rewrite apply_sum.
      - assert (EB : forall c, ev (clear R fr T) (ext r i c) b = ev T (ext r i c) b).
        { intros c. apply neval_ext; auto. intros u x U. unfold clear, set_tensor. destruct (Nat.eqb_spec u fr) as [E|]; auto. exfalso. apply (NF u); auto. }
        cbn [NotationRun.ups]. rewrite sumv_forall.
        rewrite (sum_ext R (dim i) _ (fun c => ev T (ext r i c) b)) by (intros c _; cbn; rewrite EB; ring).
        unfold clear, set_tensor. rewrite Nat.eqb_refl. ring.
      - intros u U. apply ups_op in U. auto. }
    intros t' x. unfold set_tensor at 1.
    destruct (Nat.eqb_spec t' fr) as [->|N].
    + unfold upd. destruct (Nat.eqb_spec fr t); [lia|auto].
    + rewrite G1. cbn [NotationSpec.run]. rewrite (rf_value _ _ _ _ _ RF T T1 r) by auto.
      unfold upd. rewrite !(H2 t) by lia. destruct (Nat.eqb_spec t' t); auto. destruct (list_eqb x (map r vs)); auto.
  - injection H as <- <-. split; auto. split; auto. intros; apply eqT_refl.
Qed.
Lemma rr_total : forall fuel fr t vs op (e : nexpr V), nreds e <= fuel -> sum_only e -> exists s next, replace_reductions fuel fr t vs op e = Some (s, next).
Proof.
  induction fuel as [|fuel IH]; intros fr t vs op e L SO; cbn [replace_reductions];
    pose proof (rf_ok fr e) as RF; unfold rf_spec in RF; destruct (replace_first fr e) as [e' [[[o i] b]|]]; eauto.
  - destruct (rf_facts _ _ _ _ _ _ RF SO) as (_ & _ & _ & _ & _ & N). lia.
  - destruct (rf_facts _ _ _ _ _ _ RF SO) as (_ & SO' & SOb & _ & _ & N).
    destruct (IH (S fr) t vs op e') as (s & nx & ->); [lia|auto|].
    destruct (IH nx fr [] (Some o) b) as (s' & nx' & ->); [lia|auto|]. eauto.
Qed.

(** *** Top-level reductions *)
Lemma peel_ok : forall (e : nexpr V) is op e', peel e = (is, op, e') -> sum_only e ->
  sum_only e' /\ op = (match is with [] => None | _ => Some RSum end) /\
  (forall T r, ev T r e = so is (fun r => ev T r e') r) /\ reads e' = reads e /\
  (forall i, In i is -> In i (red_vars e)) /\ (forall v, In v (vars e') -> In v is \/ In v (vars e)).
Proof.
  induction e; cbn [peel]; intros is op0 e' H SO; try (injection H as <- <- <-; split; [exact SO|]; split; [reflexivity|]; split; [reflexivity|]; split; [reflexivity|]; split; [intros j []|]; intros w W; right; exact W).
  destruct (peel e) as [[is1 op1] e1]. destruct SO as [-> SO].
  destruct (IHe _ _ _ eq_refl SO) as (A & B & C & D & E & F).
  assert (H' : is = i :: is1 /\ op0 = Some RSum /\ e' = e1).
  { subst op1. destruct is1; injection H as <- <- <-; auto. }
  destruct H' as (-> & -> & ->). split; auto. split; auto. split; [|split; [|split]]; auto.
  - intros T r. cbn. apply sum_ext. intros. apply C.
  - cbn. intros j [->|J]; auto.
  - intros v W. cbn. destruct (F v W) as [|K]; auto. destruct (Nat.eq_dec v i); [left; left; auto|right].
    apply in_in_remove; auto.
Qed.

(** *** Loops over the left-hand side *)
Definition over (r : val) (ws : list ivar) (r' : val) : val := fun i => if mem i ws then r' i else r i.
Lemma flat_map_single : forall {B} n k (f : nat -> list B), k < n -> (forall c, c <> k -> f c = []) -> flat_map f (seq 0 n) = f k.
Proof.
  intros B n k f L H.
  assert (G : forall m s, flat_map f (seq s m) = if (s <=? k) && (k <? s + m) then f k else []).
  { induction m as [|m IH]; intros s; cbn [seq flat_map].
    - destruct (Nat.leb_spec s k), (Nat.ltb_spec k (s + 0)); cbn; auto; lia.
    - rewrite IH. destruct (Nat.eq_dec s k) as [->|N].
      + destruct (Nat.leb_spec k k), (Nat.leb_spec (S k) k), (Nat.ltb_spec k (k + S m)); cbn; try lia. apply app_nil_r.
      + rewrite (H s N). destruct (Nat.leb_spec s k), (Nat.leb_spec (S s) k), (Nat.ltb_spec k (s + S m)), (Nat.ltb_spec k (S s + m)); cbn; auto; lia. }
  rewrite G. destruct (Nat.leb_spec 0 k), (Nat.ltb_spec k (0 + n)); cbn; auto; lia.
Qed.
Lemma flat_map_nil : forall {A B} (f : A -> list B) l, (forall c, In c l -> f c = []) -> flat_map f l = [].
Proof. induction l; cbn; intros; auto. rewrite H by auto. apply IHl. auto. Qed.

Lemma ups_point : forall ws (S : stmt) T x (r' : val), NoDup ws -> (forall v, In v ws -> r' v < dim v) ->
  (forall r v, In v ws -> r v <> r' v -> ups S r T x = []) ->
  forall r, ups (foralls ws S) r T x = ups S (over r ws r') T x.
Proof.
  induction ws as [|w ws IH]; intros S T x r' N B Z r.
  - cbn. apply ups_ext; [apply eqT_refl|]. auto.
  - inversion N as [|? ? N1 N2]; subst. cbn [foralls fold_right NotationRun.ups].
    change (fold_right (NForall no_annot) S ws) with (foralls ws S).
    assert (G : forall c, ups (foralls ws S) (ext r w c) T x = ups S (over (ext r w c) ws r') T x).
    { intros c. apply IH; auto. intros; apply B; right; auto. intros r1 v I; apply Z; right; auto. }
    rewrite (flat_map_single _ (r' w)).
    + rewrite G. apply ups_ext; [apply eqT_refl|]. intros i _. unfold over, ext. cbn.
      destruct (Nat.eqb_spec i w) as [->|]; cbn; auto. destruct (mem w ws); auto.
    + apply B. left. auto.
    + intros c Ne. rewrite G. apply (Z _ w); [left; auto|]. unfold over, ext.
      destruct (mem_spec w ws); [tauto|]. rewrite Nat.eqb_refl. auto.
Qed.
Lemma sumv_foralls : forall is t vs (e : nexpr V) T r, (forall i, In i is -> ~ In i vs) ->
  sumv (ups (foralls is (NAssign t vs (Some RSum) e)) r T (map r vs)) = so is (fun r => ev T r e) r.
Proof.
  induction is as [|i is IH]; intros t vs e T r D.
  - cbn. rewrite list_eqb_refl. unfold sumv. cbn. ring.
  - cbn [foralls fold_right NotationRun.ups sum_over]. rewrite sumv_forall. apply sum_ext. intros c _.
    rewrite <- (IH t vs) by (intros; apply D; right; auto). f_equal. f_equal. apply map_ext_in. intros j J. rewrite ext_other; auto.
    intro; subst. apply (D i); auto. left. auto.
Qed.
Lemma ups_hit : forall is t vs op (e : nexpr V) r T x u, In u (ups (foralls is (NAssign t vs op e)) r T x) ->
  exists r', x = map r' vs /\ (forall i, In i is -> r' i < dim i) /\ (forall i, ~ In i is -> r' i = r i).
Proof.
  induction is as [|i is IH]; intros t vs op e r T x u H.
  - cbn in H. destruct (list_eqb_spec x (map r vs)) as [->|]; [|destruct H]. exists r. repeat split; auto. intros i [].
  - cbn [foralls fold_right NotationRun.ups] in H. apply in_flat_map in H as (c & C & H). apply in_seq in C.
    destruct (IH _ _ _ _ _ _ _ _ H) as (r' & A & B & D). exists r'. split; auto. split.
    + intros j [->|J]; auto. destruct (in_dec Nat.eq_dec j is); auto. rewrite D, ext_same by auto. lia.
    + intros j J. rewrite D, ext_other; cbn in J; tauto || (intro; subst; apply J; left; auto).
Qed.
Lemma foralls_cong : forall is (s s' : stmt), (forall r T, eqT (run s r T) (run s' r T)) ->
  forall r T, eqT (run (foralls is s) r T) (run (foralls is s') r T).
Proof.
  induction is as [|i is IH]; intros s s' H r T; auto. cbn [foralls fold_right NotationSpec.run].
  apply fold_ext; [|apply eqT_refl]. intros A B c _ E. eapply eqT_trans; [apply IH; exact H|]. apply run_ext; auto.
Qed.
Lemma foralls_app : forall is js (s : stmt), foralls (is ++ js) s = foralls is (foralls js s).
Proof. intros. unfold foralls. apply fold_right_app. Qed.

Lemma bind_map : forall vs x, NoDup vs -> length x = length vs -> map (bind vs x) vs = x.
Proof.
  unfold bind. induction vs as [|v vs IH]; intros [|c x] N L; try discriminate; auto. cbn. inversion N; subst.
  rewrite ext_same. f_equal. rewrite <- (IH x) at 2 by (auto; cbn in L; lia). apply map_ext_in. intros i I. apply ext_other. intro; subst; auto.
Qed.
Lemma in_dims_bind : forall vs x, NoDup vs -> in_dims dim vs x -> forall v, In v vs -> bind vs x v < dim v.
Proof.
  intros vs x N D. induction D; intros v I; [destruct I|]. inversion N; subst. cbn. unfold ext. destruct (Nat.eqb_spec v x) as [->|]; auto.
  apply IHD; auto. destruct I; congruence.
Qed.

Theorem concrete_ok : forall fr t vs op (e : nexpr V) s,
  makeConcreteNotation fr t vs op e = Some s -> sum_only e -> (op = None \/ op = Some RSum) ->
  t < fr -> (forall u, In u (reads e) -> u < fr /\ u <> t) -> NoDup vs ->
  (forall i, In i (red_vars e) -> ~ In i vs) -> (forall v, In v (vars e) -> In v vs) ->
  forall r T,
  (forall x, in_dims dim vs x -> (op = None -> T t x = 0r) ->
     run s r T t x = T t x +r ev T (bind vs x) e) /\
  (forall x, ~ in_dims dim vs x -> run s r T t x = T t x) /\
  (forall t' x, t' <> t -> run s r T t' x = T t' x).
Proof.
  intros fr t vs op e s H SO OP L RD ND RV VS r T. unfold makeConcreteNotation in H.
  destruct (peel e) as [[is rop] e'] eqn:P. destruct (peel_ok _ _ _ _ P SO) as (SO' & -> & PV & PR & PI & PF).
  set (op' := match match is with [] => None | _ :: _ => Some RSum end with None => op | Some _ => match is with [] => None | _ :: _ => Some RSum end end) in *.
  destruct (replace_reductions (nreds e') fr t vs op' e') as [[b nx]|] eqn:ER; [|discriminate]. cbn in H. injection H as <-.
  destruct (rr_ok _ _ _ _ _ _ _ _ ER SO') as (RB & _ & G); auto.
  { intros u U. rewrite PR in U. apply RD; auto. }
  set (S0 := NAssign t vs op' e') in *.
  assert (G2 : forall r T, eqT (run (foralls vs (foralls is b)) r T) (run (foralls vs (foralls is S0)) r T)).
  { apply foralls_cong. apply foralls_cong. exact G. }
  assert (NR : ~ In t (reads e')). { intro I. rewrite PR in I. destruct (RD t I). auto. }
  assert (RUN : forall x, run (foralls vs (foralls is S0)) r T t x = apply R (T t x) (ups (foralls vs (foralls is S0)) r T x)).
  { intros x. assert (ET : res (foralls vs (foralls is S0)) = t) by (rewrite !foralls_res; auto).
    pose proof (run_ups R fn dv dim (foralls vs (foralls is S0)) r T x) as RU. rewrite ET in RU. apply RU.
    - rewrite !foralls_reads. cbn. auto.
    - rewrite !foralls_temps. cbn. auto. }
  split; [|split].
  - intros x ID Z. rewrite G2, RUN.
    assert (LX : length x = length vs) by (clear - ID; induction ID; cbn; auto).
    pose proof (bind_map vs x ND LX) as BM. pose proof (in_dims_bind vs x ND ID) as BD.
    rewrite (ups_point vs (foralls is S0) T x (bind vs x)); auto.
    + assert (EX : x = map (over r vs (bind vs x)) vs).
      { rewrite <- BM at 1. apply map_ext_in. intros i I. unfold over. destruct (mem_spec i vs); tauto. }
      assert (EV : so is (fun r => ev T r e') (over r vs (bind vs x)) = ev T (bind vs x) e).
      { rewrite <- PV. apply neval_ext; auto. intros i I. unfold over. destruct (mem_spec i vs) as [|Nn]; auto. exfalso. auto. }
      destruct is as [|i is].
      * cbn in EV. subst op'. cbn [foralls fold_right NotationRun.ups]. unfold S0. cbn [NotationRun.ups].
        rewrite <- EX, list_eqb_refl. rewrite EV. unfold apply, apply1. cbn. destruct OP as [->| ->]; cbn; auto. rewrite Z by auto. ring.
      * cbv in op'. rewrite apply_sum by (intros u U; apply ups_op in U; rewrite U; clear; generalize (i :: is); induction l; cbn; auto).
        f_equal. rewrite <- EV. rewrite EX at 2. apply sumv_foralls. intros j J. apply RV. auto.
    + intros r1 v I Ne. destruct (ups (foralls is S0) r1 T x) as [|u us] eqn:EU; auto. exfalso.
      destruct (ups_hit is t vs op' e' r1 T x u) as (r2 & A & _ & C). { fold S0. rewrite EU. left. auto. }
      rewrite <- BM in A. assert (A' : forall w, In w vs -> bind vs x w = r2 w) by (apply map_ext_in_iff; auto).
      apply Ne. rewrite A' by auto. symmetry. apply C. intro J. apply (RV v); auto.
  - intros x NID. rewrite G2, RUN. destruct (ups (foralls vs (foralls is S0)) r T x) as [|u us] eqn:EU; auto. exfalso. apply NID.
    rewrite <- foralls_app in EU. destruct (ups_hit (vs ++ is) t vs op' e' r T x u) as (r2 & -> & B & _). { fold S0. rewrite EU. left. auto. }
    unfold in_dims. clear - B. assert (B' : forall i, In i vs -> r2 i < dim i) by (intros; apply B; apply in_app_iff; auto).
    clear B. induction vs; cbn; constructor; auto. apply B'. left. auto. apply IHvs. intros. apply B'. right. auto.
  - intros t' x N. apply frame. rewrite !foralls_res, RB. auto.
Qed.
Theorem concrete_total : forall fr t vs op (e : nexpr V), sum_only e -> exists s, makeConcreteNotation fr t vs op e = Some s.
Proof.
  intros fr t vs op e SO. unfold makeConcreteNotation. destruct (peel e) as [[is rop] e'] eqn:P.
  destruct (peel_ok _ _ _ _ P SO) as (SO' & _). 
  destruct (rr_total (nreds e') fr t vs (match rop with None => op | Some _ => rop end) e') as (s & nx & ->); auto. cbn. eauto.
Qed.

(** *** From Einsum notation to loops *)
Definition red_facts (free : list ivar) (e e' : nexpr V) : Prop :=
  sum_only e' /\ (forall i, In i (red_vars e') -> ~ In i free) /\ (forall v, In v (vars e') -> In v free) /\ reads e' = reads e.
Lemma einsum_sum_only : forall (e : nexpr V) b, is_einsum b e = true -> sum_only e /\ red_vars e = [].
Proof.
  induction e; cbn; intros b0 H; auto; try discriminate; eauto.
  - rewrite !andb_true_iff in H. destruct H as [[_ H1] H2]. destruct (IHe1 _ H1) as [A ->], (IHe2 _ H2) as [B ->]. auto.
  - rewrite !andb_true_iff in H. destruct H as [[_ H1] H2]. destruct (IHe1 _ H1) as [A ->], (IHe2 _ H2) as [B ->]. auto.
  - rewrite !andb_true_iff in H. destruct H as [H1 H2]. destruct (IHe1 _ H1) as [A ->], (IHe2 _ H2) as [B ->]. auto.
Qed.
Lemma addReductions_facts : forall free (e : nexpr V) b, is_einsum b e = true -> red_facts free e (addReductions free e).
Proof.
  intros free e b H. destruct (einsum_sum_only _ _ H) as [SO RV]. unfold addReductions.
  assert (G : forall l, let e' := fold_left (fun e v => if mem v free then e else NRed RSum v e) l e in
    sum_only e' /\ (forall i, In i (red_vars e') -> ~ In i free) /\
    (forall v, In v (vars e') -> In v (vars e) /\ (In v l -> In v free)) /\ reads e' = reads e).
  { induction l as [|v l IH] using rev_ind; cbn zeta in *.
    - cbn. rewrite RV. split; auto. split; [intros i []|]. split; auto. intros; split; auto. intros [].
    - rewrite fold_left_app. cbn [fold_left]. destruct IH as (A & B & C & D).
      destruct (mem_spec v free) as [M|M].
      + repeat split; auto. apply C; auto. intros I. apply in_app_iff in I as [I|[->|[]]]; auto. apply C; auto.
      + cbn. split; auto. split; [|split; auto].
        * intros i [->|I]; auto.
        * intros w W. apply in_remove in W as [W Nw]. split; [apply C; auto|]. intros I. apply in_app_iff in I as [I|[->|[]]]; [apply C; auto|congruence]. }
  destruct (G (rev (getIndexVars e))) as (A & B & C & D). split; auto. split; auto. split; auto.
  intros v W. destruct (C v W) as [C1 C2]. apply C2. rewrite <- in_rev. unfold getIndexVars. apply (expr_vars_In fn dv dim); [destruct b; auto|]. auto.
Qed.
Lemma mrn_facts : forall free (e : nexpr V), is_einsum false e = true ->
  (snd (mrn free e) = true -> fst (mrn free e) = e) /\ (snd (mrn free e) = false -> red_facts free e (fst (mrn free e))).
Proof.
  intros free. induction e; cbn [is_einsum]; intros H; try (split; auto; discriminate).
  - specialize (IHe H). cbn [mrn]. destruct (mrn free e) as [a o]. cbn in *. destruct IHe as [A B]. split; intros; [f_equal; auto|].
    destruct (B H0) as (B1 & B2 & B3 & B4). repeat split; auto.
  - specialize (IHe H). cbn [mrn]. destruct (mrn free e) as [a o]. cbn in *. destruct IHe as [A B]. split; intros; [f_equal; auto|].
    destruct (B H0) as (B1 & B2 & B3 & B4). repeat split; auto.
  - rewrite !andb_true_iff in H. destruct H as [[_ H1] H2]. cbn. split; [discriminate|]. intros _.
    destruct (addReductions_facts free _ _ H1) as (A1 & A2 & A3 & A4), (addReductions_facts free _ _ H2) as (B1 & B2 & B3 & B4).
    repeat split; auto; cbn; [intros i I|intros i I|congruence]; apply in_app_iff in I as [I|I]; auto.
  - rewrite !andb_true_iff in H. destruct H as [[_ H1] H2]. cbn. split; [discriminate|]. intros _.
    destruct (addReductions_facts free _ _ H1) as (A1 & A2 & A3 & A4), (addReductions_facts free _ _ H2) as (B1 & B2 & B3 & B4).
    repeat split; auto; cbn; [intros i I|intros i I|congruence]; apply in_app_iff in I as [I|I]; auto.
  - apply andb_true_iff in H as [H1 H2]. cbn. rewrite !mrn_no_add by (apply einsum_mul_no_add; auto). cbn. split; auto. discriminate.
Qed.
Lemma reduction_facts : forall free (e : nexpr V), is_einsum false e = true -> red_facts free e (makeReductionNotation free e).
Proof.
  intros free e H. unfold makeReductionNotation. rewrite H. destruct (mrn_facts free e H) as [A B].
  destruct (mrn free e) as [e' o]. cbn in *. destruct o; auto. rewrite (A eq_refl). eapply addReductions_facts; eauto.
Qed.
End P.
