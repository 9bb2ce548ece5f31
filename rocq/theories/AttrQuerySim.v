(** Proofs about AttrQuery.v: the lowered queries compute the coordinates that the
    statement inserts, and what becomes of them. *)
From Coq Require Import List Arith ZArith Bool Lia.
Import ListNotations.
From Verif Require Import Notation NotationSpec NotationProofs Transform TransformSpec PromoteProofs PromoteSem AttrQuery AttrQuerySpec AttrQueryHits AttrQueryWf.
Local Open Scope nat_scope.

Lemma to_of : forall b, to_bool (of_bool b) = b.
Proof. intros [|]; auto. Qed.

Section Sim.
Variable dim : ivar -> nat.
Variable stored : marks.
Variable sparse : tensor -> bool.
Variables (levels : list level) (ord : list nat).
Variable qtmp : tensor -> tensor.
Variables dd nz : tensor.
Variables args tmps : list tensor.
Variable A : tensor.
Hypothesis qinj : forall a b, qtmp a = qtmp b -> a = b.
Hypothesis qdd : forall a, qtmp a <> dd.
Hypothesis qnz : forall a, qtmp a <> nz.
Hypothesis dnz : dd <> nz.
Hypothesis disj : forall t, In t tmps -> ~ In t args.
Hypothesis Aa : ~ In A args.
Hypothesis At : ~ In A tmps.
Hypothesis add_ : forall t, In t args -> t <> dd /\ t <> nz.

Notation lower_expr := (lower_expr qtmp args tmps).
Notation lower_stmt := (lower_stmt levels ord qtmp dd args tmps A).
Notation qeval := (qeval stored sparse nz).
Notation qrun := (qrun dim stored sparse nz).
Notation qbool := (qbool nz).
Notation qstored := (qstored nz).
Notation hits := (hits dim).
Notation mark_run := (mark_run dim).

Definition Inv (T : qstore) (M : marks) : Prop :=
  (forall t x, In t args -> M t x = stored t x) /\ (forall t x, In t tmps -> T (qtmp t) x = of_bool (M t x)).
Definition known (l : list tensor) : Prop := forall t, In t l -> In t args \/ In t tmps.
Definition okc (p : stmt) : Prop :=
  NoDup (res p :: temps p) /\ (forall t, In t (temps p) -> In t tmps) /\ known (rhs_reads p) /\ every assigned_once p /\ positive_stmt p = true.

Lemma okc_forall : forall an i b, okc (NForall an i b) -> okc b.
Proof.
  intros an i b (ND & TT & K & [[E N] P] & PO). split; auto. split; auto. split; auto. split; [|auto]. split; auto.
  cbn [op_of spine lhs] in *. split; [intros O v I; apply E; auto; right; auto|]. inversion N; auto.
Qed.
Lemma okc_where : forall c p, okc (NWhere c p) -> okc c /\ okc p /\ In (res p) tmps /\ res p <> res c /\ ~ In (res c) (temps p) /\ ~ In (res p) (temps c).
Proof.
  intros c p (ND & TT & K & [[E N] P] & PO). cbn [res temps rhs_reads op_of spine lhs producers positive_stmt] in *.
  inversion ND as [|? ? N1 ND1]; subst. inversion ND1 as [|? ? N2 ND2]; subst. cbn [In] in *. rewrite in_app_iff in *. apply andb_true_iff in PO. destruct PO.
  assert (okc c). { split; [constructor; [tauto|eapply nodup_r; eauto]|]. split; [intros; apply TT; rewrite in_app_iff; auto|]. split; [intros t I; apply K; rewrite in_app_iff; auto|].
    split; auto. split; [split; auto|]. intros q I. apply P. right. apply in_app_iff. auto. }
  assert (okc p). { split; [constructor; [tauto|eapply nodup_l; eauto]|]. split; [intros; apply TT; rewrite in_app_iff; auto|]. split; [intros t I; apply K; rewrite in_app_iff; auto|].
    split; auto. split; [apply P; left; auto|]. intros q I. apply P. right. apply in_app_iff. auto. }
  split; auto. split; auto. split; [apply TT; auto|]. intuition.
Qed.

(** Expressions. *)
Lemma known_app : forall a b, known (a ++ b) -> known a /\ known b.
Proof. intros a b K. split; intros t I; apply K; apply in_app_iff; auto. Qed.
Lemma eval_ok : forall e, positive e = true -> known (reads e) -> qbool (lower_expr e) = true /\
  forall r T M, Inv T M -> match qeval T r (lower_expr e) with Some v => v = of_bool (present M r e) | None => present M r e = false end.
Proof.
  induction e; intros P K; try discriminate P; cbn [reads] in K.
  - cbn [AttrQuery.lower_expr]. destruct (mem t args) eqn:Ma; [|destruct (mem t tmps) eqn:Mt].
    + split; auto. intros r T M [I1 I2]. apply mem_in in Ma. cbn [AttrQuerySpec.qeval present]. rewrite I1 by auto. destruct (stored t (map r vs)); auto.
    + apply mem_in in Mt. split. { cbn. unfold is_bool. destruct (Nat.eqb_spec (qtmp t) nz); auto. exfalso; eapply qnz; eauto. }
      intros r T M [I1 I2]. cbn [AttrQuerySpec.qeval present]. rewrite I2, to_of by auto. destruct (sparse (qtmp t)), (M t (map r vs)); cbn; auto.
    + exfalso. apply mem_out in Ma. apply mem_out in Mt. destruct (K t); [left; auto|tauto|tauto].
  - cbn in P. apply andb_true_iff in P. destruct P as [P1 P2]. apply known_app in K. destruct K as [K1 K2].
    destruct (IHe1 P1 K1) as [Q1 H1], (IHe2 P2 K2) as [Q2 H2]. cbn [AttrQuery.lower_expr AttrQuery.qbool]. rewrite Q1, Q2. split; auto.
    intros r T M I. specialize (H1 r T M I). specialize (H2 r T M I). cbn [AttrQuerySpec.qeval present]. rewrite Q1, Q2.
    destruct (qeval T r (lower_expr e1)), (qeval T r (lower_expr e2)); subst; rewrite ?H1, ?H2, ?to_of, ?orb_false_r; auto.
  - cbn in P. apply andb_true_iff in P. destruct P as [P1 P2]. apply known_app in K. destruct K as [K1 K2].
    destruct (IHe1 P1 K1) as [Q1 H1], (IHe2 P2 K2) as [Q2 H2]. cbn [AttrQuery.lower_expr AttrQuery.qbool]. rewrite Q1, Q2. split; auto.
    intros r T M I. specialize (H1 r T M I). specialize (H2 r T M I). cbn [AttrQuerySpec.qeval present]. rewrite Q1, Q2.
    destruct (qeval T r (lower_expr e1)), (qeval T r (lower_expr e2)); subst; rewrite ?H1, ?H2, ?to_of, ?andb_false_r; auto.
Qed.
Lemma pos_reads : forall e, positive e = true -> exists t, In t (reads e).
Proof.
  induction e; intros P; try discriminate P; cbn [reads] in *.
  - exists t. left; auto.
  - cbn in P. apply andb_true_iff in P. destruct (IHe1 (proj1 P)) as [t I]. exists t. apply in_app_iff; auto.
  - cbn in P. apply andb_true_iff in P. destruct (IHe1 (proj1 P)) as [t I]. exists t. apply in_app_iff; auto.
Qed.
Lemma rewritten_pos : forall e, positive e = true -> known (reads e) -> rewritten args tmps e = true.
Proof.
  intros e P K. unfold rewritten. apply existsb_exists. destruct (pos_reads e P) as [t I]. exists t. split; auto.
  destruct (K t I) as [J|J]; apply mem_in in J; rewrite J; auto using orb_true_r.
Qed.

(** Producers. *)
Definition lowered (p : stmt) : qstmt := match lower_stmt p with Some (Some q) => q | _ => QAssign 0 [] false (QLit 0) end.
Definition writes (p : stmt) (r : val) (x : list nat) : Prop := exists r' : val, (forall j, ~ In j (spine p) -> r' j = r j) /\ x = map r' (lhs p).

Lemma lowered_assign : forall t vs op e, okc (NAssign t vs op e) -> In t tmps ->
  lower_stmt (NAssign t vs op e) = Some (Some (QAssign (qtmp t) vs (match op with Some _ => true | None => false end) (lower_expr e))).
Proof.
  intros t vs op e (_ & _ & K & _ & P) I. cbn [AttrQuery.lower_stmt rhs_reads positive_stmt] in *. destruct (Nat.eqb_spec t A); [subst; tauto|]. cbn [negb].
  rewrite rewritten_pos by auto. destruct (mem t args) eqn:Ma; [apply mem_in in Ma; exfalso; eapply disj; eauto|].
  apply mem_in in I. rewrite I. auto.
Qed.
Lemma lowered_some : forall p, okc p -> In (res p) tmps -> lower_stmt p = Some (Some (lowered p)) /\ qres (lowered p) = qtmp (res p).
Proof.
  induction p as [t vs op e|an i b IH|c IHc p IHp]; intros O I.
  - unfold lowered. rewrite lowered_assign by auto. auto.
  - destruct (IH (okc_forall _ _ _ O) I) as [E Q]. unfold lowered in *. cbn [AttrQuery.lower_stmt res]. rewrite E. cbn. auto.
  - destruct (okc_where _ _ O) as (Oc & Op & Ip & _). cbn [res] in I. destruct (IHc Oc I) as [Ec Qc], (IHp Op Ip) as [Ep Qp].
    unfold lowered in *. cbn [AttrQuery.lower_stmt res]. rewrite Ec, Ep. cbn. auto.
Qed.
Lemma lowered_forall : forall an i b, okc (NForall an i b) -> In (res b) tmps -> lowered (NForall an i b) = QForall an i (lowered b).
Proof.
  intros an i b O I. destruct (lowered_some b (okc_forall _ _ _ O) I) as [E _]. unfold lowered at 1. cbn [AttrQuery.lower_stmt]. rewrite E. auto.
Qed.
Lemma lowered_where : forall c p, okc (NWhere c p) -> In (res c) tmps -> lowered (NWhere c p) = QWhere (lowered c) (lowered p).
Proof.
  intros c p O I. destruct (okc_where _ _ O) as (Oc & Op & Ip & _). destruct (lowered_some c Oc I) as [Ec _], (lowered_some p Op Ip) as [Ep _].
  unfold lowered at 1. cbn [AttrQuery.lower_stmt]. rewrite Ec, Ep. auto.
Qed.

Lemma inv_where : forall T M p, In p tmps -> Inv T M -> Inv (qclear (qtmp p) T) (unmark p M).
Proof.
  intros T M p Ip [I1 I2]. split; intros t x I.
  - rewrite unmark_other; auto. intros ->. eapply disj; eauto.
  - unfold qclear, unmark. destruct (Nat.eqb_spec t p) as [->|NE]; [rewrite Nat.eqb_refl; auto|].
    destruct (Nat.eqb_spec (qtmp t) (qtmp p)) as [E|_]; auto. apply qinj in E. tauto.
Qed.

Lemma prod_ok : forall p, okc p -> In (res p) tmps -> forall r T M, Inv T M ->
  (op_of p = None -> forall x, writes p r x -> M (res p) x = false) ->
  Inv (qrun (lowered p) r T) (mark_run p r M) /\
  (forall t x, (forall u, In u (res p :: temps p) -> t <> qtmp u) -> qrun (lowered p) r T t x = T t x).
Proof.
  induction p as [t vs op e|an i b IH|c IHc p IHp]; intros O I r T M IN F.
  - unfold lowered. rewrite lowered_assign by auto. destruct O as (_ & _ & K & _ & P). cbn [rhs_reads positive_stmt res temps op_of] in *.
    destruct (eval_ok e P K) as [QB EV]. specialize (EV r T M IN). cbn [AttrQuerySpec.qrun AttrQuerySpec.mark_run].
    destruct (qeval T r (lower_expr e)) as [v|]; [|rewrite EV; auto]. subst v. destruct IN as [I1 I2].
    assert (S : qstored (qtmp t) (match op with Some _ => true | None => false end) (qbool (lower_expr e)) (T (qtmp t) (map r vs)) (of_bool (present M r e)) =
                of_bool (M t (map r vs) || present M r e)).
    { unfold AttrQuerySpec.qstored, is_bool. destruct (Nat.eqb_spec (qtmp t) nz) as [E|_]; [exfalso; eapply qnz; eauto|]. cbn [negb]. rewrite QB, I2 by auto.
      destruct op; rewrite !to_of; auto. rewrite F; auto. exists r. auto. }
    rewrite S. split; [split|].
    + intros t' x J. assert (t' <> t) by (intros ->; eapply disj; eauto). destruct (present M r e); [rewrite mark_other; auto|auto].
    + intros t' x J. unfold qupd. destruct (Nat.eqb_spec (qtmp t') (qtmp t)) as [E|NE].
      * apply qinj in E. subst t'. cbn [andb]. destruct (list_eqb_spec x (map r vs)) as [->|NX].
        -- destruct (present M r e) eqn:PR; [|rewrite orb_false_r; auto]. unfold mark. rewrite Nat.eqb_refl. destruct (list_eqb_spec (map r vs) (map r vs)); [|congruence].
           rewrite orb_true_r. auto.
        -- rewrite I2 by auto. destruct (present M r e); auto. unfold mark. rewrite Nat.eqb_refl. destruct (list_eqb_spec x (map r vs)); [congruence|auto].
      * cbn [andb]. rewrite I2 by auto. destruct (present M r e); auto. rewrite mark_other; auto.
    + intros t' x J. unfold qupd. destruct (Nat.eqb_spec t' (qtmp t)) as [->|]; auto. exfalso. apply (J t); auto. left; auto.
  - rewrite lowered_forall by auto. pose proof (okc_forall _ _ _ O) as Ob. cbn [res temps op_of AttrQuerySpec.mark_run AttrQuerySpec.qrun] in *.
    destruct O as (ND & _ & _ & [[E1 E2] _] & _). cbn [op_of spine lhs] in *. inversion E2 as [|? ? Ni _]; subst. inversion ND; subst.
    assert (G : forall l T M, NoDup l -> Inv T M -> (op_of b = None -> forall c, In c l -> forall x, writes b (ext r i c) x -> M (res b) x = false) ->
      Inv (fold_left (fun T c => qrun (lowered b) (ext r i c) T) l T) (fold_left (fun M c => mark_run b (ext r i c) M) l M) /\
      (forall t x, (forall u, In u (res b :: temps b) -> t <> qtmp u) -> fold_left (fun T c => qrun (lowered b) (ext r i c) T) l T t x = T t x)).
    { clear T M IN F. induction l as [|c0 l IHl]; intros T M NL IN F; [cbn; auto|]. inversion NL; subst. cbn [fold_left].
      destruct (IH Ob I (ext r i c0) T M IN) as [J1 J2]. { intros OP x W. apply (F OP c0); auto. left; auto. }
      destruct (IHl (qrun (lowered b) (ext r i c0) T) (mark_run b (ext r i c0) M)) as [L1 L2]; auto.
      - intros OP c Ic x W. rewrite hits_mark by auto. rewrite (F OP c (or_intror Ic) x W). cbn [orb].
        destruct (existsb _ _) eqn:EX; auto. exfalso. apply existsb_exists in EX. destruct EX as (r' & Ir & Hx). unfold hit_at in Hx.
        destruct (list_eqb_spec (map r' (lhs b)) x) as [X|]; [|discriminate]. apply hits_spine in Ir. destruct Ir as [Ir _].
        destruct W as (r'' & W1 & W2). assert (Li : In i (lhs b)) by (apply E1; auto; left; auto).
        assert (r' i = r'' i). { clear - X W2 Li. rewrite W2 in X. clear W2. induction (lhs b); [destruct Li|]. cbn in X. injection X; intros. destruct Li as [->|]; auto. }
        rewrite Ir, W1, !ext_same in H by auto. subst c. auto.
      - split; auto. intros t x N. rewrite L2 by auto. auto. }
    apply G; auto using seq_NoDup. intros OP c Ic x (r' & W1 & W2). apply F; auto. exists r'. cbn [spine lhs]. split; auto.
    intros j J. rewrite W1 by (intro; apply J; right; auto). apply ext_other. intro; apply J; left; auto.
  - rewrite lowered_where by auto. destruct (okc_where _ _ O) as (Oc & Op & Ip & NE & N1 & N2). cbn [res temps op_of AttrQuerySpec.mark_run AttrQuerySpec.qrun] in *.
    destruct (lowered_some p Op Ip) as [_ Q]. rewrite Q.
    destruct (IHp Op Ip r (qclear (qtmp (res p)) T) (unmark (res p) M)) as [P1 P2]; [apply inv_where; auto| |].
    { intros _ x _. unfold unmark. rewrite Nat.eqb_refl. auto. }
    destruct (IHc Oc I r _ _ P1) as [C1 C2].
    { intros OP x W. rewrite mark_off by (cbn; intuition). rewrite unmark_other by auto. apply F; auto. }
    split; auto. intros t x N. rewrite C2, P2.
    + unfold qclear. destruct (Nat.eqb_spec t (qtmp (res p))) as [->|]; auto. exfalso. apply (N (res p)); auto. right; left; auto.
    + intros u [<-|U]; apply N; [right; left; auto|right; right; apply in_app_iff; auto].
    + intros u [<-|U]; apply N; [left; auto|right; right; apply in_app_iff; auto].
Qed.

(** The statement of the result, with another assignment in its place. *)
Section Chain.
Variables (red : bool) (tgt : tensor) (tvs : list ivar) (wrap : qexpr -> qexpr).
Fixpoint form (s : stmt) : qstmt :=
  match s with
  | NAssign _ _ _ e => QAssign tgt tvs red (wrap (lower_expr e))
  | NForall an i b => QForall an i (form b)
  | NWhere c p => QWhere (form c) (lowered p)
  end.
Lemma form_res : forall s, qres (form s) = tgt.
Proof. induction s; cbn; auto. Qed.

Hypothesis tq : forall u, qtmp u <> tgt.
Hypothesis wrap_eval : forall T r e, qeval T r (wrap e) = qeval T r e.
Variable bt : bool.
Hypothesis wrap_bool : forall e, qbool e = true -> qbool (wrap e) = bt.
Variables (good : Z -> Prop) (step : Z -> Z).
Hypothesis st0 : forall v, good v -> qstored tgt red bt v 0%Z = v.
Hypothesis st1 : forall v, good v -> qstored tgt red bt v 1%Z = step v.
Hypothesis stg : forall v, good v -> good (step v).
Definition bumps (x : list nat) (H : list val) (v : Z) : Z := fold_left (fun v r' => if hit_at tvs x r' then step v else v) H v.

Lemma bumps_app : forall x H H' v, bumps x (H ++ H') v = bumps x H' (bumps x H v).
Proof. intros. apply fold_left_app. Qed.
Lemma chain_ok : forall s, okc s -> ~ In (res s) tmps -> ~ In (res s) args -> forall r T M, Inv T M -> (forall x, good (T tgt x)) ->
  Inv (qrun (form s) r T) (mark_run s r M) /\ (forall x, good (qrun (form s) r T tgt x)) /\
  (forall x, qrun (form s) r T tgt x = bumps x (hits s r M) (T tgt x)) /\
  (forall t x, t <> tgt -> (forall u, In u (temps s) -> t <> qtmp u) -> qrun (form s) r T t x = T t x).
Proof.
  induction s as [t vs op e|an i b IH|c IHc p IHp]; intros O NT NA r T M IN G; cbn [res temps form AttrQuerySpec.qrun AttrQuerySpec.mark_run] in *.
  - destruct O as (_ & _ & K & _ & P). cbn [rhs_reads positive_stmt] in *. destruct (eval_ok e P K) as [QB EV]. specialize (EV r T M IN).
    rewrite wrap_eval, (wrap_bool _ QB). cbn [AttrQueryHits.hits].
    assert (IM : Inv T (if present M r e then mark M t (map r vs) else M)).
    { destruct IN as [I1 I2]. destruct (present M r e); [|split; auto]. split; intros t' x J; rewrite mark_other by (intros ->; auto); auto. }
    destruct (qeval T r (lower_expr e)) as [v|]; [subst v|rewrite EV in *; repeat (split; auto)].
    assert (S : forall x, qupd T tgt (map r tvs) (qstored tgt red bt (T tgt (map r tvs)) (of_bool (present M r e))) tgt x = bumps x (if present M r e then [r] else []) (T tgt x)).
    { intros x. unfold qupd. rewrite Nat.eqb_refl. cbn [andb].
      destruct (present M r e); cbn [of_bool bumps fold_left].
      - rewrite st1 by auto. unfold hit_at. destruct (list_eqb_spec x (map r tvs)), (list_eqb_spec (map r tvs) x); congruence.
      - rewrite st0 by auto. destruct (list_eqb_spec x (map r tvs)); congruence. }
    assert (F : forall t' x, t' <> tgt -> qupd T tgt (map r tvs) (qstored tgt red bt (T tgt (map r tvs)) (of_bool (present M r e))) t' x = T t' x).
    { intros t' x N. unfold qupd. destruct (Nat.eqb_spec t' tgt); [congruence|auto]. }
    split; [|split; [|split; [auto|intros; apply F; auto]]].
    + destruct IM as [I1 I2]. split; auto. intros u x J. rewrite F; auto.
    + intros x. rewrite S. unfold bumps. destruct (present M r e); cbn [fold_left]; auto. destruct (hit_at tvs x r); auto.
  - pose proof (okc_forall _ _ _ O) as Ob. rewrite hits_forall. revert T M IN G. induction (seq 0 (dim i)) as [|c0 l IHl]; intros T M IN G.
    + cbn. auto.
    + cbn [fold_left]. rewrite lhits_step. destruct (IH Ob NT NA (ext r i c0) T M IN G) as (J1 & J2 & J3 & J4).
      destruct (IHl _ _ J1 J2) as (L1 & L2 & L3 & L4). split; auto. split; auto. split.
      * intros x. rewrite L3, J3, bumps_app. auto.
      * intros t x N1 N2. rewrite L4, J4; auto.
  - destruct (okc_where _ _ O) as (Oc & Op & Ip & NE & N1 & N2). destruct (lowered_some p Op Ip) as [_ Q]. rewrite Q.
    destruct (prod_ok p Op Ip r (qclear (qtmp (res p)) T) (unmark (res p) M)) as [P1 P2]; [apply inv_where; auto| |].
    { intros _ x _. unfold unmark. rewrite Nat.eqb_refl. auto. }
    assert (TT : forall x, qrun (lowered p) r (qclear (qtmp (res p)) T) tgt x = T tgt x).
    { intros x. rewrite P2 by (intros u _; auto). unfold qclear. destruct (Nat.eqb_spec tgt (qtmp (res p))) as [E|]; auto. exfalso; eapply tq; eauto. }
    destruct (IHc Oc NT NA r _ _ P1) as (C1 & C2 & C3 & C4). { intros x. rewrite TT. auto. }
    cbn [AttrQueryHits.hits]. split; auto. split; auto. split; [intros x; rewrite C3, TT; auto|].
    intros t x N3 N4. rewrite C4, P2; auto.
    + unfold qclear. destruct (Nat.eqb_spec t (qtmp (res p))) as [->|]; auto. exfalso. apply (N4 (res p)); auto. left; auto.
    + intros u [<-|U]; apply N4; [left; auto|right; apply in_app_iff; auto].
    + intros u U. apply N4. right. apply in_app_iff; auto.
Qed.
End Chain.

(** *** From the statement to the queries *)
Lemma lower_chain : forall s, okc s -> res s = A ->
  lower_stmt s = match op_of s with
                 | Some _ => None
                 | None => match first_query levels [] (storage_vars ord (lhs s)) with
                           | Some (g, ps) => Some (Some (form true dd (g ++ ps) (fun e => e) s))
                           | None => Some None
                           end
                 end.
Proof.
  induction s as [t vs op e|an i b IH|c IHc p IHp]; intros O R; cbn [res op_of lhs] in *.
  - subst t. cbn [AttrQuery.lower_stmt form]. rewrite Nat.eqb_refl. cbn [negb]. destruct op; auto. 
  - cbn [AttrQuery.lower_stmt]. rewrite IH by (auto; eapply okc_forall; eauto). destruct (op_of b); auto.
    destruct (first_query _ _ _) as [[g ps]|]; auto.
  - destruct (okc_where _ _ O) as (Oc & Op & Ip & _). cbn [AttrQuery.lower_stmt]. rewrite IHc by auto.
    destruct (lowered_some p Op Ip) as [E _]. rewrite E. destruct (op_of c); auto. destruct (first_query _ _ _) as [[g ps]|]; auto.
Qed.

Notation eliminate := (eliminate [dd; nz]).
Notation inline := (inline nz [dd; nz]).
Lemma not_new : forall u, mem (qtmp u) [dd; nz] = false.
Proof. intros u. apply mem_out. intros [E|[E|[]]]; [eapply qdd; eauto|eapply qnz; eauto]. Qed.
Lemma elim_prod : forall p, okc p -> In (res p) tmps -> forall av, eliminate av (lowered p) = lowered p.
Proof.
  induction p as [t vs op e|an i b IH|c IHc p IHp]; intros O I av.
  - unfold lowered. rewrite lowered_assign by auto. cbn [AttrQuery.eliminate]. rewrite not_new, andb_false_r. auto.
  - rewrite lowered_forall by auto. cbn [AttrQuery.eliminate]. rewrite IH; auto. eapply okc_forall; eauto.
  - rewrite lowered_where by auto. destruct (okc_where _ _ O) as (Oc & Op & Ip & _). cbn [AttrQuery.eliminate]. rewrite IHc, IHp; auto.
Qed.
Lemma rhs_old : forall e rt rvs, positive e = true -> known (reads e) -> rhs_access (lower_expr e) = Some (rt, rvs) -> mem rt [dd; nz] = false.
Proof.
  intros e rt rvs P K E. destruct e; try discriminate P; try discriminate E.
  cbn [AttrQuery.lower_expr] in E. destruct (mem t args) eqn:Ma; [|destruct (mem t tmps) eqn:Mt]; cbn in E; injection E; intros; subst.
  - apply mem_in in Ma. apply add_ in Ma. apply mem_out. cbn. intuition congruence.
  - apply not_new.
  - exfalso. apply mem_out in Ma. apply mem_out in Mt. destruct (K rt); [left; auto|tauto|tauto].
Qed.
Lemma inline_prod : forall p, okc p -> In (res p) tmps -> forall u il, (forall t, use_of (qtmp t) u = None) -> inline u il (lowered p) = (lowered p, u, il).
Proof.
  induction p as [t vs op e|an i b IH|c IHc p IHp]; intros O I u il U.
  - unfold lowered. rewrite lowered_assign by auto. cbn [AttrQuery.inline]. rewrite U. destruct O as (_ & _ & K & _ & P).
    destruct (rhs_access (lower_expr e)) as [[rt rvs]|] eqn:E; auto. rewrite (rhs_old e rt rvs); auto.
  - rewrite lowered_forall by auto. cbn [AttrQuery.inline]. rewrite IH; auto. eapply okc_forall; eauto.
  - rewrite lowered_where by auto. destruct (okc_where _ _ O) as (Oc & Op & Ip & _). cbn [AttrQuery.inline]. rewrite IHc, IHp; auto.
Qed.

Lemma avail_map : forall t i av, In t (map fst av) -> available t (map (fun p : tensor * list ivar => (fst p, i :: snd p)) av) = i :: available t av.
Proof.
  induction av as [|[t' vs] av IH]; intros I; [destruct I|]. cbn. destruct (Nat.eqb_spec t' t); auto. destruct I as [E|I]; [cbn in E; congruence|auto].
Qed.
Lemma map_fst_same : forall (i : ivar) (av : list (tensor * list ivar)), map fst (map (fun p : tensor * list ivar => (fst p, i :: snd p)) av) = map fst av.
Proof. intros. rewrite map_map. reflexivity. Qed.
Lemma elim_chain : forall tvs s, okc s -> forall av, In dd (map fst av) ->
  eliminate av (form true dd tvs (fun e => e) s) = form (negb (set_eqb tvs (rev (spine s) ++ available dd av))) dd tvs (fun e => e) s.
Proof.
  intros tvs. induction s as [t vs op e|an i b IH|c IHc p IHp]; intros O av I; cbn [form spine].
  - cbn [AttrQuery.eliminate rev app]. unfold mem. cbn [existsb]. rewrite Nat.eqb_refl. cbn [orb andb]. rewrite andb_true_r.
    destruct (set_eqb tvs (available dd av)); auto.
  - cbn [AttrQuery.eliminate]. rewrite IH by (rewrite ?map_fst_same; auto; eapply okc_forall; eauto). rewrite avail_map by auto. cbn [rev]. rewrite <- app_assoc. auto.
  - destruct (okc_where _ _ O) as (Oc & Op & Ip & _). cbn [AttrQuery.eliminate]. rewrite elim_prod by auto. rewrite IHc by (auto; right; auto).
    destruct (lowered_some p Op Ip) as [_ Q]. rewrite Q. cbn [available]. destruct (Nat.eqb_spec (qtmp (res p)) dd) as [E|_]; [exfalso; eapply qdd; eauto|]. auto.
Qed.
Lemma index_map_id : forall l v, index_map (combine l l) v = v.
Proof. induction l; intros v; cbn; auto. destruct (Nat.eqb_spec a v); auto. Qed.
Lemma inline_chain : forall red dc g s, okc s -> forall il,
  let u := [(dd, (dc, (nz, g, true)))] in
  inline u il (form red dd dc (fun e => e) s) =
  if red then (form red dd dc (fun e => e) s, u, il) else (form true nz g QCast s, u, nz :: il).
Proof.
  intros red dc g. induction s as [t vs op e|an i b IH|c IHc p IHp]; intros O il u; cbn [form].
  - cbn [AttrQuery.inline]. unfold u at 1. cbn [use_of]. rewrite Nat.eqb_refl. destruct O as (_ & _ & K & _ & P). destruct (eval_ok e P K) as [QB _].
    destruct red.
    + destruct (rhs_access (lower_expr e)) as [[rt rvs]|] eqn:E; auto. rewrite (rhs_old e rt rvs); auto.
    + rewrite QB. unfold is_bool. rewrite Nat.eqb_refl. cbn [negb Bool.eqb]. rewrite (map_ext _ (fun v => v)), map_id; auto. apply index_map_id.
  - cbn [AttrQuery.inline]. rewrite IH by (eapply okc_forall; eauto). destruct red; auto.
  - destruct (okc_where _ _ O) as (Oc & Op & Ip & _). cbn [AttrQuery.inline]. rewrite IHc by auto.
    destruct red; rewrite inline_prod; auto; intros t'; cbn; destruct (Nat.eqb_spec dd (qtmp t')) as [E|]; auto; exfalso; eapply qdd; eauto.
Qed.

Lemma elim_foralls : forall b is av, (forall a, map fst a = map fst av -> available nz a = rev is ++ available nz av -> eliminate a b = b) -> In nz (map fst av) ->
  eliminate av (qforalls is b) = qforalls is b.
Proof.
  induction is as [|i is IH]; intros av H I; cbn [qforalls fold_right]; [apply H; auto|].
  cbn [AttrQuery.eliminate]. f_equal. apply IH; [|rewrite map_fst_same; auto].
  intros a E1 E2. rewrite map_fst_same in E1. apply H; auto. rewrite E2, avail_map by auto. cbn [rev]. rewrite <- app_assoc. auto.
Qed.
Lemma inline_foralls : forall b is u il b' u' il', inline u il b = (b', u', il') -> inline u il (qforalls is b) = (qforalls is b', u', il').
Proof. induction is; intros; cbn [qforalls fold_right AttrQuery.inline]; auto. erewrite IHis; eauto. auto. Qed.
Lemma drop_foralls : forall b is l, drop_redundant l (qforalls is b) = option_map (qforalls is) (drop_redundant l b).
Proof. induction is; intros; cbn [qforalls fold_right drop_redundant]; [destruct (drop_redundant l b); auto|]. rewrite IHis. destruct (drop_redundant l b); auto. Qed.

Definition epi (g ps : list ivar) : qstmt := qforalls (g ++ ps) (QAssign nz g true (QCast (QAcc dd (g ++ ps)))).
Lemma simplify_ok : forall s g p0 ps, okc s -> ~ In p0 g ->
  simplify_queries dd nz (QWhere (epi g (p0 :: ps)) (form true dd (g ++ p0 :: ps) (fun e => e) s)) =
  Some (if set_eqb (g ++ p0 :: ps) (rev (spine s)) then form true nz g QCast s
        else QWhere (epi g (p0 :: ps)) (form true dd (g ++ p0 :: ps) (fun e => e) s)).
Proof.
  intros s g p0 ps O N. unfold simplify_queries, eliminateRedundantReductions. cbn [qres AttrQuery.eliminate].
  rewrite form_res. rewrite elim_chain by (auto; left; auto). cbn [available]. rewrite Nat.eqb_refl, app_nil_r.
  assert (R : qres (epi g (p0 :: ps)) = nz). { unfold epi. generalize (g ++ p0 :: ps) at 1. induction l; cbn; auto. }
  rewrite R.
  assert (EE : eliminate [(dd, []); (nz, [])] (epi g (p0 :: ps)) = epi g (p0 :: ps)).
  { unfold epi. apply elim_foralls; [|right; left; auto]. intros a _ E. cbn [available] in E. destruct (Nat.eqb_spec dd nz); [tauto|]. rewrite Nat.eqb_refl, app_nil_r in E.
    cbn [AttrQuery.eliminate]. rewrite E. destruct (set_eqb g (rev (g ++ p0 :: ps))) eqn:S; auto. exfalso. apply N. apply set_eqb_spec with (v := p0) in S. apply S.
    rewrite <- in_rev. apply in_app_iff. right; left; auto. }
  rewrite EE. cbn [AttrQuery.inline].
  assert (IE : inline [] [] (epi g (p0 :: ps)) = (epi g (p0 :: ps), [(dd, (g ++ p0 :: ps, (nz, g, true)))], [])).
  { unfold epi. apply inline_foralls. cbn [AttrQuery.inline use_of rhs_access]. unfold mem. cbn [existsb]. rewrite Nat.eqb_refl. auto. }
  rewrite IE. rewrite inline_chain by auto. destruct (set_eqb (g ++ p0 :: ps) (rev (spine s))); cbn [negb].
  - cbn [drop_redundant]. unfold epi. rewrite drop_foralls. cbn [drop_redundant]. unfold mem. cbn [existsb]. rewrite Nat.eqb_refl. auto.
  - cbn [drop_redundant]. unfold epi. rewrite drop_foralls. auto.
Qed.
End Sim.
