(** Proofs about AttrQuery.v: what scalar promotion and renaming keep. *)
From Coq Require Import List Arith ZArith Bool Lia.
Import ListNotations.
From Verif Require Import Notation NotationSpec NotationProofs Transform TransformSpec PromoteProofs PromoteSem AttrQuery AttrQuerySpec AttrQueryHits.
Local Open Scope nat_scope.

Definition assigned_once (p : stmt) : Prop := (op_of p = None -> forall v, In v (spine p) -> In v (lhs p)) /\ NoDup (spine p).

(** *** Scalar promotion *)
Section Promote.
Variable tmp : tensor -> tensor.
Hypothesis inj : forall A B, tmp A = tmp B -> A = B.
Notation prom := (prom true false tmp).
Notation wf1 := (wf1 tmp).

Lemma wf1_names : forall s, wf1 s -> forall B, ~ In (tmp B) (res s :: temps s).
Proof. intros s (_ & TF & _) B I. apply (TF B). unfold tensors. destruct I as [I|I]; [left; auto|right; apply in_app_iff; auto]. Qed.
Lemma prom_temps_in : forall (s : stmt) hd idx, wf1 s -> forall u, In u (temps (prom hd idx s)) -> In u (temps s) \/ In u (map tmp (own hd s)).
Proof.
  intros s hd idx W. destruct (prom_names tmp (fun _ x => x) (fun x => x) true false s (proj1 W) (wf1_names s W) hd idx) as (_ & H & _). exact H.
Qed.
Lemma prom_reads_in : forall (s : stmt) hd idx, wf1 s -> forall u, In u (rhs_reads (prom hd idx s)) -> In u (rhs_reads s) \/ In u (map tmp (own hd s)).
Proof.
  intros s hd idx W. destruct (prom_names tmp (fun _ x => x) (fun x => x) true false s (proj1 W) (wf1_names s W) hd idx) as (H & _ & _). exact H.
Qed.
Lemma own_all : forall hd (s : stmt) u, In u (own hd s) -> In u (res s :: temps s).
Proof. intros [|] s u I; cbn in *; auto. Qed.
Lemma subst_spine : forall A vs t (s : stmt), spine (subst_lhs (A, vs) t s) = spine s.
Proof.
  intros A vs t. induction s as [t' vs' op e|an i b IH|c IHc p IHp]; cbn [subst_lhs spine]; auto; [destruct (acc_eqb _ _); auto|rewrite IH; auto].
Qed.
Lemma subst_lhs_nil : forall A vs t (s : stmt), res s = A -> lhs s = vs -> lhs (subst_lhs (A, vs) t s) = [].
Proof.
  intros A vs t. induction s as [t' vs' op e|an i b IH|c IHc p IHp]; intros HA HV; cbn [subst_lhs res lhs] in *; auto.
  subst. rewrite acc_eqb_refl. auto.
Qed.
Lemma subst_producers : forall A vs t (s : stmt), ~ In A (temps s) -> producers (subst_lhs (A, vs) t s) = producers s.
Proof.
  intros A vs t. induction s as [t' vs' op e|an i b IH|c IHc p IHp]; intros N; cbn [subst_lhs producers temps] in *; auto.
  - destruct (acc_eqb _ _); auto.
  - cbn in N. rewrite in_app_iff in N. rewrite (subst_id (fun x => x)) with (s := p) by (cbn; tauto). rewrite IHc; auto.
Qed.

Lemma prom_temps_nodup : forall (s : stmt) hd idx, wf1 s -> NoDup (temps (prom hd idx s)).
Proof.
  induction s as [t' vs op e|an i b IH|c IHc p IHp]; intros hd idx W; cbn [PromoteProofs.prom].
  - constructor.
  - pose proof (wf1_forall _ _ _ _ W) as WB. pose proof (wf1_names _ WB) as TF. pose proof WB as (ND & _). inversion ND as [|? ? NA NDt]; subst.
    destruct (negb hd && cond false idx b) eqn:C; [|cbn [temps]; auto].
    apply andb_true_iff in C. destruct C as [_ C]. rewrite C, orb_true_r.
    set (b' := prom true (i :: idx) b). assert (N' : ~ In (res b) (temps b')).
    { intro I. apply prom_temps_in in I; auto. cbn [own] in I. destruct I as [I|I]; auto. apply in_map_iff in I. destruct I as (B & E & _). apply (TF B). left; auto. }
    destruct (subst_facts (fun x => x) (res b) (lhs b) (tmp (res b)) b' (prom_res _ _ _ _ _ _) (prom_lhs _ _ _ _ _ _) N') as (R & T & _).
    cbn [temps res]. rewrite R, T, app_nil_r. constructor; [|apply IH; auto].
    intro I. apply prom_temps_in in I; auto. cbn [own] in I. destruct I as [I|I]; [apply (TF (res b)); right; auto|].
    apply in_map_iff in I. destruct I as (B & E & I). apply inj in E. subst B. auto.
  - destruct (wf1_where (fun _ => 0) tmp inj _ _ W) as (Wc & Wp & Npc & Ncp & Npp & D). cbn [temps]. rewrite prom_res.
    pose proof (wf1_names _ Wc) as TFc. pose proof (wf1_names _ Wp) as TFp. pose proof (wf1_names _ W) as TF.
    assert (Dp : forall t, In t (res p :: temps p) -> ~ In t (res c :: temps c)). { intros t [<-|I]; auto. }
    constructor.
    + rewrite in_app_iff. intros [I|I]; apply prom_temps_in in I; auto; destruct I as [I|I]; try tauto.
      * apply in_map_iff in I. destruct I as (B & E & _). apply (TFp B). left; auto.
      * apply Npc. right; auto.
      * apply in_map_iff in I. destruct I as (B & E & _). apply (TFp B). left; auto.
    + apply nodup_app; auto. intros t I J. apply prom_temps_in in I; auto. apply prom_temps_in in J; auto.
      destruct I as [I|I], J as [J|J].
      * apply (D t I). right; auto.
      * apply in_map_iff in J. destruct J as (B & <- & _). apply (TFp B). right; auto.
      * apply in_map_iff in I. destruct I as (B & <- & _). apply (TFc B). right; auto.
      * apply in_map_iff in I. destruct I as (B & <- & I). apply in_map_iff in J. destruct J as (B' & E & J). apply inj in E. subst B'.
        apply own_all in I. apply own_all in J. eapply Dp; eauto.
Qed.
Lemma prom_distinct : forall (s : stmt) hd idx, wf1 s -> distinct_results (prom hd idx s).
Proof.
  intros s hd idx W. unfold distinct_results. rewrite prom_res. constructor; [|apply prom_temps_nodup; auto].
  intro I. apply prom_temps_in in I; auto. destruct I as [I|I]; [destruct W as (ND & _); inversion ND; auto|].
  apply in_map_iff in I. destruct I as (B & E & _). apply (wf1_names _ W B). left; auto.
Qed.

Lemma prom_spine_sub : forall (s : stmt) hd idx v, In v (spine (prom hd idx s)) -> In v (spine s).
Proof.
  induction s as [t' vs op e|an i b IH|c IHc p IHp]; intros hd idx v I; cbn [PromoteProofs.prom spine] in *; auto.
  - destruct (negb hd && cond false idx b); [destruct I|]. cbn [spine] in I. destruct I as [->|I]; [left; auto|right; eapply IH; eauto].
  - eapply IHc; eauto.
Qed.
Lemma prom_spine_nodup : forall (s : stmt) hd idx, no_shadow idx s -> NoDup (spine (prom hd idx s)).
Proof.
  induction s as [t' vs op e|an i b IH|c IHc p IHp]; intros hd idx N; cbn [PromoteProofs.prom no_shadow] in *; try constructor.
  - destruct N as [Ni N]. destruct (negb hd && cond false idx b); cbn [spine]; constructor; [|apply IH; auto].
    intro I. apply prom_spine_sub in I. eapply shadow_spine; eauto. left; auto.
  - cbn [spine]. apply IHc. tauto.
Qed.
Lemma shadow_nodup : forall (s : stmt) idx, no_shadow idx s -> NoDup (spine s).
Proof.
  induction s as [t' vs op e|an i b IH|c IHc p IHp]; intros idx N; cbn [spine no_shadow] in *; try constructor.
  - destruct N. intro I. eapply shadow_spine; eauto. left; auto.
  - destruct N. eauto.
  - destruct N. eauto.
Qed.
Lemma prom_plain : forall (s : stmt) hd idx, wf1 s -> no_shadow idx s -> op_of (prom hd idx s) = None ->
  (op_of s = None \/ forall v, In v idx -> In v (lhs s)) /\ (forall v, In v (spine (prom hd idx s)) -> In v (lhs s)).
Proof.
  induction s as [t' vs op e|an i b IH|c IHc p IHp]; intros hd idx W N O; cbn [PromoteProofs.prom no_shadow lhs] in *.
  - cbn in *. split; [auto|intros v []].
  - destruct N as [Ni N]. pose proof (wf1_forall _ _ _ _ W) as WB. destruct W as (_ & _ & (SA & _) & _). unfold sums_or_assigns in SA. cbn [op_of spine lhs] in *.
    destruct (negb hd && cond false idx b) eqn:C.
    + cbn [op_of spine] in *. apply andb_true_iff in C. destruct C as [_ C]. unfold cond in C. apply andb_true_iff in C. destruct C as [_ C]. rewrite subset_spec in C.
      split; [|intros v []]. unfold opx in O. cbn [negb orb] in O. destruct (set_eqb (lhs b) idx) eqn:S; cbn in O.
      * right. intros v I. apply set_eqb_spec with (v := v) in S. tauto.
      * left; auto.
    + cbn [op_of spine] in *. destruct (IH _ _ WB N O) as [H1 H2]. destruct H1 as [H1|H1].
      * split; [auto|]. intros v [<-|I]; auto. destruct SA as [E|[_ SA]]; [congruence|]. apply SA. left; auto.
      * split; [right; intros; apply H1; right; auto|]. intros v [<-|I]; auto. apply H1. left; auto.
  - destruct (wf1_where (fun _ => 0) tmp inj _ _ W) as (Wc & _). destruct N as [Nc _]. cbn [op_of spine] in *. eapply IHc; eauto.
Qed.
Lemma prom_once : forall (s : stmt) hd idx, wf1 s -> no_shadow idx s -> every assigned_once (prom hd idx s).
Proof.
  intros s hd idx W N. split.
  - split; [|apply prom_spine_nodup; auto]. rewrite prom_lhs. intros O. eapply prom_plain; eauto.
  - revert hd idx W N. induction s as [t' vs op e|an i b IH|c IHc p IHp]; intros hd idx W N; cbn [PromoteProofs.prom no_shadow] in *.
    + intros q [].
    + destruct N as [Ni N]. pose proof (wf1_forall _ _ _ _ W) as WB. pose proof W as (_ & _ & (SA & _) & _). unfold sums_or_assigns in SA. cbn [op_of spine lhs] in SA.
      pose proof (wf1_names _ WB) as TF. pose proof WB as (ND & _). inversion ND as [|? ? NA NDt]; subst.
      destruct (negb hd && cond false idx b) eqn:C; [|cbn [producers]; exact (IH _ _ WB N)].
      apply andb_true_iff in C. destruct C as [_ C]. rewrite C, orb_true_r. unfold cond in C. apply andb_true_iff in C. destruct C as [_ C]. rewrite subset_spec in C.
      set (b' := prom true (i :: idx) b). assert (N' : ~ In (res b) (temps b')).
      { intro I. apply prom_temps_in in I; auto. cbn [own] in I. destruct I as [I|I]; auto. apply in_map_iff in I. destruct I as (B & E & _). apply (TF B). left; auto. }
      destruct (subst_facts (fun x => x) (res b) (lhs b) (tmp (res b)) b' (prom_res _ _ _ _ _ _) (prom_lhs _ _ _ _ _ _) N') as (_ & _ & _ & OP).
      destruct (prom_names tmp (fun _ x => x) (fun x => x) true false b ND TF true (i :: idx)) as (_ & _ & PN). destruct (PN eq_refl) as [PS PO]. fold b' in PS, PO.
      intros q I. cbn [producers] in I. rewrite app_nil_r in I. destruct I as [<-|I].
      * split.
        -- cbn [op_of spine lhs]. rewrite OP, PO. intros O. exfalso. destruct SA as [E|[_ SA]]; [congruence|]. apply Ni. apply C. apply SA. left; auto.
        -- cbn [spine]. rewrite subst_spine, PS. constructor; [eapply shadow_spine; eauto; left; auto|eapply shadow_nodup; eauto].
      * rewrite subst_producers in I by auto. apply (IH true (i :: idx)); auto.
    + destruct (wf1_where (fun _ => 0) tmp inj _ _ W) as (Wc & Wp & _). destruct N as [Nc Np]. intros q I. cbn [producers] in I. destruct I as [<-|I].
      * split; [|apply prom_spine_nodup; auto]. rewrite prom_lhs. intros O. eapply prom_plain; eauto.
      * apply in_app_iff in I. destruct I as [I|I]; [eapply IHp; eauto|eapply IHc; eauto].
Qed.
Lemma prom_loops : forall (s : stmt) hd idx v, In v (lhs s) -> In v (spine s) \/ In v idx -> In v (spine (prom hd idx s)) \/ In v idx.
Proof.
  induction s as [t' vs op e|an i b IH|c IHc p IHp]; intros hd idx v L I; cbn [PromoteProofs.prom spine lhs] in *; auto.
  destruct (negb hd && cond false idx b) eqn:C.
  - apply andb_true_iff in C. destruct C as [_ C]. unfold cond in C. apply andb_true_iff in C. destruct C as [_ C]. rewrite subset_spec in C. auto.
  - cbn [spine]. destruct (IH (hd || cond false idx b) (i :: idx) v L) as [J|J]; [cbn in *; tauto|left; right; auto|].
    destruct J as [->|J]; auto. left; left; auto.
Qed.
Lemma subst_positive : forall A vs t s, positive_stmt (subst_lhs (A, vs) t s) = positive_stmt s.
Proof.
  intros A vs t. induction s as [t' vs' op e|an i b IH|c IHc p IHp]; cbn [subst_lhs positive_stmt]; auto; [destruct (acc_eqb _ _); auto|rewrite IHc, IHp; auto].
Qed.
Lemma prom_positive : forall (s : stmt) hd idx, positive_stmt s = true -> positive_stmt (prom hd idx s) = true.
Proof.
  induction s as [t' vs op e|an i b IH|c IHc p IHp]; intros hd idx P; cbn [PromoteProofs.prom positive_stmt] in *; auto.
  - destruct (negb hd && cond false idx b); cbn [positive_stmt positive andb]; rewrite ?subst_positive; apply IH; auto.
  - apply andb_true_iff in P. destruct P. rewrite IHc, IHp; auto.
Qed.
End Promote.

(** *** Renaming *)
Section Rename.
Variable rho : ivar -> ivar.
Notation rename := (@rename Z rho).
Lemma ren_res : forall s, res (rename s) = res s.
Proof. induction s; cbn; auto. Qed.
Lemma ren_temps : forall s, temps (rename s) = temps s.
Proof. induction s; cbn; auto. rewrite ren_res. congruence. Qed.
Lemma ren_reads_e : forall e, reads (@rename_expr Z rho e) = reads e.
Proof. induction e; cbn; congruence. Qed.
Lemma ren_reads : forall s, rhs_reads (rename s) = rhs_reads s.
Proof. induction s; cbn; auto using ren_reads_e. congruence. Qed.
Lemma ren_lhs : forall s, lhs (rename s) = map rho (lhs s).
Proof. induction s; cbn; auto. Qed.
Lemma ren_spine : forall s, spine (rename s) = map rho (spine s).
Proof. induction s; cbn; auto. congruence. Qed.
Lemma ren_op : forall s, op_of (rename s) = op_of s.
Proof. induction s; cbn; auto. Qed.
Lemma ren_producers : forall s, producers (rename s) = map rename (producers s).
Proof. induction s; cbn; auto. rewrite map_app. congruence. Qed.
Hypothesis rinj : forall i j, rho i = rho j -> i = j.
Lemma ren_in : forall v l, In (rho v) (map rho l) <-> In v l.
Proof. intros. rewrite in_map_iff. split; [intros (w & E & I); apply rinj in E; subst; auto|eauto]. Qed.
Lemma ren_shadow : forall s idx, no_shadow idx s -> no_shadow (map rho idx) (rename s).
Proof.
  induction s as [t' vs op e|an i b IH|c IHc p IHp]; intros idx N; cbn [no_shadow AttrQuery.rename] in *; auto.
  - destruct N as [Ni N]. split; [rewrite ren_in; auto|]. apply (IH (i :: idx)); auto.
  - destruct N; auto.
Qed.
Lemma ren_positive : forall s, positive_stmt (rename s) = positive_stmt s.
Proof.
  assert (E : forall e, positive (@rename_expr Z rho e) = positive e) by (induction e; cbn; congruence).
  induction s; cbn; auto. congruence.
Qed.
Lemma ren_every : forall s, every (fun p => sums_or_assigns p /\ not_own_operand p) s -> every (fun p => sums_or_assigns p /\ not_own_operand p) (rename s).
Proof.
  assert (O : forall s, sums_or_assigns s /\ not_own_operand s -> sums_or_assigns (rename s) /\ not_own_operand (rename s)).
  { intros s [S N]. unfold sums_or_assigns, not_own_operand in *. rewrite ren_op, ren_res, ren_reads, ren_spine, ren_lhs. split; auto.
    destruct S as [S|[S H]]; auto. right. split; auto. intros v I. apply in_map_iff in I. destruct I as (w & <- & I). apply ren_in. auto. }
  intros s [H P]. split; auto. rewrite ren_producers. intros q I. apply in_map_iff in I. destruct I as (p & <- & I). auto.
Qed.
Lemma ren_countable : forall s, countable s -> countable (rename s).
Proof.
  intros s (D & N & E & NL & L & P). split. { unfold distinct_results. rewrite ren_res, ren_temps. exact D. }
  split; [exact (ren_shadow s [] N)|]. split; [apply ren_every; auto|]. split.
  { rewrite ren_lhs. clear - NL rinj. induction NL; cbn; constructor; auto. rewrite ren_in. auto. }
  split; [|rewrite ren_positive; auto].
  rewrite ren_lhs, ren_spine. intros v I. apply in_map_iff in I. destruct I as (w & <- & I). apply ren_in. auto.
Qed.

Variable dim : ivar -> nat.
Hypothesis rdim : forall i, dim (rho i) = dim i.
Lemma present_val : forall e r r' M, (forall j, r j = r' j) -> present M r e = present M r' e.
Proof.
  induction e; intros r r' M E; cbn [present]; auto; try (erewrite IHe1, IHe2 by eauto; reflexivity).
  f_equal. apply map_ext. auto.
Qed.
Lemma fold_step : forall (A B : Type) (f g : A -> B -> A) l a, (forall a b, f a b = g a b) -> fold_left f l a = fold_left g l a.
Proof. induction l; intros; cbn; auto. rewrite H. auto. Qed.
Lemma mark_val : forall s r r' M, (forall j, r j = r' j) -> mark_run dim s r M = mark_run dim s r' M.
Proof.
  induction s as [t' vs op e|an i b IH|c IHc p IHp]; intros r r' M E; cbn [mark_run].
  - rewrite (present_val e r r' M E), (map_ext r r' E). auto.
  - apply fold_step. intros. apply IH. intros j. unfold ext. destruct (_ =? _); auto.
  - erewrite IHp by eauto. apply IHc. auto.
Qed.
Lemma ren_present : forall e r M, present M r (@rename_expr Z rho e) = present M (fun i => r (rho i)) e.
Proof.
  induction e; intros; cbn [present rename_expr]; auto; try (rewrite IHe1, IHe2; auto). rewrite map_map. auto.
Qed.
Lemma ren_mark : forall s r M, mark_run dim (rename s) r M = mark_run dim s (fun i => r (rho i)) M.
Proof.
  induction s as [t' vs op e|an i b IH|c IHc p IHp]; intros r M; cbn [mark_run AttrQuery.rename].
  - rewrite ren_present, map_map. auto.
  - rewrite rdim. apply fold_step. intros. rewrite IH. apply mark_val. intros j. unfold ext.
    destruct (Nat.eqb_spec (rho j) (rho i)), (Nat.eqb_spec j i); auto; [exfalso; auto|congruence].
  - rewrite ren_res, IHp. apply IHc.
Qed.
Lemma ren_inserts : forall stored s x, inserts dim stored (rename s) x <-> inserts dim stored s x.
Proof. intros. unfold inserts. rewrite ren_mark. unfold operands_only. rewrite ren_res, ren_temps. reflexivity. Qed.
End Rename.
