(** Rule for a whole loop nest: what has to be shown about the result code
    (hooks) so that the nest as lowered computes what the hooks maintain. *)
From Coq Require Import List Arith Lia Bool.
Import ListNotations.
From Verif Require Import Storage StorageProofs IndexExpr Eval Lattice LatticeSpec LatticeLoop LoopIR Lower Walk LowerBase LoopRule.

Local Arguments inb : simpl never.

Section Nest.
Context {V : Type}.
Variable R : ring_ops V.
Variable fn : nat -> V -> V.
Variable T : nat -> storage V.
Variable junkV : nat -> V.
Variable junkI : nat -> nat.
Variable dimf : ivar -> nat.
Variable srt : list point -> list point.
Hypothesis SRT : admissible_sort srt.
Notation exec := (exec R fn T junkV junkI).
Notation stored := (stored T).
Notation posok := (posok T dimf).
Notation idxok := (idxok dimf).

Definition same_ctl (st st' : state V) : Prop := forall v, is_ctl v = true -> env st' v = env st v.

Variable H : @hooks V.
Variable G : Type.
Variables A B : G -> list ivar -> list ivar -> (ivar -> nat) -> expr V -> state V -> Prop.
Variable I : G -> list ivar -> list ivar -> (ivar -> nat) -> expr V -> ivar -> nat -> state V -> Prop.

Hypothesis ACTL : forall g vars bound rho e st st', ctl st st' -> A g vars bound rho e st -> A g vars bound rho e st'.
Hypothesis ICTL : forall g vars bound rho e i c st st', ctl st st' ->
  I g vars bound rho e i c st -> I g vars bound rho e i c st'.
Hypothesis HPRE : forall g i vars bound rho e st, A g (i :: vars) bound rho e st -> idxok bound rho st ->
  ~ In i bound ->
  exists st', exec (hk_pre H bound i) st st' /\ same_ctl st st' /\ I g vars bound rho e i 0 st'.
Hypothesis HPOST : forall g i vars bound rho e st, I g vars bound rho e i (dimf i) st -> idxok bound rho st ->
  exists st', exec (hk_post H bound i) st st' /\ same_ctl st st' /\ B g (i :: vars) bound rho e st'.
Hypothesis HSKIP : forall g i vars bound rho e c st, ~ In i bound -> c < dimf i ->
  restrict i (stored rho i c) e = None ->
  I g vars bound rho e i c st -> I g vars bound rho e i (S c) st.
Hypothesis HSTEP : forall g i vars bound rho e c e' st, ~ In i bound -> c < dimf i ->
  restrict i (stored rho i c) e = Some e' ->
  I g vars bound rho e i c st -> idxok (i :: bound) (upd rho i c) st ->
  exists st' g', exec (hk_enter H bound i) st st' /\ same_ctl st st' /\
    A g' vars (i :: bound) (upd rho i c) e' st' /\
    forall st1, idxok (i :: bound) (upd rho i c) st1 -> B g' vars (i :: bound) (upd rho i c) e' st1 ->
      exists st2, exec (hk_exit H bound i) st1 st2 /\ same_ctl st1 st2 /\ I g vars bound rho e i (S c) st2.
Hypothesis HLEAF : forall g bound rho e st, A g [] bound rho e st -> posok bound rho (accesses e) st ->
  exists st', exec (hk_leaf H e) st st' /\ agree bound st st' /\ B g [] bound rho e st'.

Lemma same_ctl_agree : forall b st st', same_ctl st st' -> agree b st st'.
Proof. intros b st st' S v Hv. apply S. eapply prot_ctl; eauto. Qed.

Lemma idxok_agree : forall b rho (st st' : state V), agree b st st' -> idxok b rho st -> idxok b rho st'.
Proof.
  intros b rho st st' AG IX j Hj. destruct (IX j Hj) as [E L]. split; auto. rewrite AG; auto.
  simpl. apply inb_In. auto.
Qed.

Lemma posok_agree : forall b rho acs (st st' : state V), agree b st st' -> posok b rho acs st -> posok b rho acs st'.
Proof.
  intros b rho acs st st' AG [IX P]. split; [eapply idxok_agree; eauto|].
  intros a Ha l L. destruct (P a Ha l L) as (q & E1 & E2). exists q. split; auto. rewrite AG; auto.
  simpl. apply Nat.ltb_lt. auto.
Qed.

Lemma idxok_upd : forall i bound rho c (st : state V), ~ In i bound -> c < dimf i -> env st (VIdx i) = Some c ->
  idxok bound rho st -> idxok (i :: bound) (upd rho i c) st.
Proof.
  intros i bound rho c st NI C E IX j [<-|Hj].
  - rewrite upd_eq. auto.
  - rewrite upd_neq by (intros ->; contradiction). auto.
Qed.

Theorem nest_ok : forall vars bound rho e g st,
  NoDup (rev vars ++ bound) -> NoDup (accesses e) ->
  (forall a, In a (accesses e) -> wf_access T dimf (a_tensor a) (a_vars a) /\
     forall pre post, vars = pre ++ post -> legal (rev pre ++ bound) (a_vars a)) ->
  posok bound rho (accesses e) st -> A g vars bound rho e st ->
  exists st', exec (lower srt dimf H vars bound e) st st' /\ agree bound st st' /\ B g vars bound rho e st'.
Proof.
  induction vars as [|i vars IH]; intros bound rho e g st ND LIN ACC POS PA.
  - destruct (HLEAF g bound rho e st PA POS) as (st' & X & S & PB).
    exists st'. auto.
  - simpl rev in ND. rewrite <- app_assoc in ND. simpl app in ND.
    assert (NI : ~ In i bound).
    { apply NoDup_remove_2 in ND. intros Hi. apply ND. apply in_app_iff. auto. }
    destruct (HPRE g i vars bound rho e st PA (proj1 POS) NI) as (st1 & X1 & S1 & I1).
    assert (POS1 : posok bound rho (accesses e) st1)
      by (eapply posok_agree; [apply same_ctl_agree; eauto|auto]).
    set (InvE := fun c st => forall e', restrict i (stored rho i c) e = Some e' ->
       exists g', A g' vars (i :: bound) (upd rho i c) e' st /\
        forall st1, idxok (i :: bound) (upd rho i c) st1 -> B g' vars (i :: bound) (upd rho i c) e' st1 ->
         exists st2, exec (hk_exit H bound i) st1 st2 /\ same_ctl st1 st2 /\ I g vars bound rho e i (S c) st2).
    destruct (loop_rule R fn T junkV junkI dimf srt SRT i bound rho e st1 NI LIN)
      with (enter := hk_enter H bound i) (inner := lower srt dimf H vars (i :: bound))
           (exit := hk_exit H bound i) (Inv := I g vars bound rho e i) (InvE := InvE) (st := st1)
      as (st2 & X2 & AG2 & I2); auto.
    + intros a Ha. destruct (ACC a Ha) as [W LG]. split; auto. split.
      * apply (LG [] (i :: vars)). auto.
      * apply (LG [i] vars). auto.
    + apply ICTL.
    + intros c s s' CT IE e' RS. destruct (IE e' RS) as (g' & PA' & K). exists g'. split; auto. eapply ACTL; eauto.
    + intros c s C RS IC AG EI.
      destruct (restrict i (stored rho i c) e) as [e1|] eqn:RE; [|congruence].
      destruct (HSTEP g i vars bound rho e c e1 s) as (s' & g' & XE & SE & PA' & K); auto.
      { apply idxok_upd; auto. eapply idxok_agree; [exact AG|]. apply (proj1 POS1). }
      exists s'. split; auto. split; auto. intros e' RS'. rewrite RE in RS'. inversion RS'; subst. exists g'. auto.
    + intros c e' s C RS IE AG PO. destruct (IE e' RS) as (g' & PA' & K).
      destruct (IH (i :: bound) (upd rho i c) e' g' s) as (s1 & XI & AGI & PB); auto.
      { eapply zero_linear; eauto. }
      { intros a Ha. destruct (zero_accesses _ _ _ RS a Ha) as [Hae _]. destruct (ACC a Hae) as [W LG].
        split; auto. intros pre post E. specialize (LG (i :: pre) post). simpl rev in LG.
        rewrite <- app_assoc in LG. apply LG. simpl. congruence. }
      destruct (K s1) as (s2 & XX & SX & IX); auto.
      { eapply idxok_agree; [exact AGI|apply PO]. }
      exists s2. split; [|split]; auto.
      * eapply block_cons; [exact XI|]. apply block1. auto.
      * eapply agree_trans; [exact AGI|]. apply same_ctl_agree; auto.
    + apply agree_refl.
    + destruct (HPOST g i vars bound rho e st2 I2) as (st3 & X3 & S3 & PB).
      { eapply idxok_agree; [exact AG2|]. apply (proj1 POS1). }
      exists st3. split; [|split]; auto.
      * simpl. eapply block_cons; [exact X1|]. eapply block_cons; [exact X2|]. apply block1. auto.
      * eapply agree_trans; [apply same_ctl_agree; exact S1|].
        eapply agree_trans; [exact AG2|]. apply same_ctl_agree; auto.
Qed.
End Nest.
