(** The order of a kernel's parameters is kept by the automatic
    transformations. *)
From Coq Require Import List Arith Bool Lia Permutation.
Import ListNotations.
From Verif Require Import IndexExpr Eval Notation NotationSpec NotationProofs NotationRun Transform TransformSpec TransformProofs TopoProofs PromoteProofs PromoteSem Iso.
Local Open Scope nat_scope.

Section Order.
Context {V : Type}.
Notation stmt := (nstmt V).
Lemma assigned_head : forall s : stmt, assigned s = res s :: getTemporaries s.
Proof.
  unfold getTemporaries. induction s as [t vs op e|an i b IH|c IHc p IHp]; cbn [assigned res tl]; auto. rewrite IHc. cbn. auto.
Qed.
Lemma assigned_perm : forall s : stmt, Permutation (assigned s) (res s :: temps s).
Proof.
  induction s as [t vs op e|an i b IH|c IHc p IHp]; cbn [assigned res temps]; auto.
  eapply perm_trans; [apply Permutation_app; [exact IHc|exact IHp]|]. cbn. apply perm_skip.
  eapply perm_trans; [apply Permutation_app_comm|]. cbn. apply perm_skip. first [apply Permutation_refl | apply Permutation_app_comm].
Qed.
Lemma nest_same : forall is (s b : stmt), nest_of is s b -> assigned s = assigned b /\ stmt_accesses s = stmt_accesses b.
Proof. induction 1; cbn; auto. Qed.
Lemma args_of : forall s s' : stmt, assigned s = assigned s' -> stmt_accesses s = stmt_accesses s' -> getArguments s = getArguments s'.
Proof. intros s s' A B. unfold getArguments, argument_accesses, getTemporaries. rewrite A, B. auto. Qed.

Lemma subst_acc : forall a t (s : stmt), stmt_accesses (subst_lhs a t s) = stmt_accesses s.
Proof. induction s as [t' vs op e|an i b IH|c IHc p IHp]; cbn; auto. { destruct (acc_eqb _ _); auto. } congruence. Qed.
Lemma subst_not : forall A vs t (s : stmt), ~ In A (assigned s) -> subst_lhs (A, vs) t s = s.
Proof. intros A vs t s N. apply (subst_id (fun x => x)). intro I. apply N. eapply Permutation_in; [symmetry; apply assigned_perm|auto]. Qed.
Lemma subst_assigned : forall A vs t (s : stmt), res s = A -> lhs s = vs -> ~ In A (getTemporaries s) ->
  assigned (subst_lhs (A, vs) t s) = t :: getTemporaries s.
Proof.
  intros A vs t. induction s as [t' vs' op e|an i b IH|c IHc p IHp]; intros HA HV N; cbn [subst_lhs res lhs assigned] in *.
  - subst. rewrite acc_eqb_refl. auto.
  - auto.
  - assert (E : getTemporaries (NWhere c p) = getTemporaries c ++ assigned p). { unfold getTemporaries at 1. cbn. rewrite assigned_head. auto. }
    rewrite E in N. rewrite in_app_iff in N. rewrite (subst_not A vs t p) by tauto. rewrite IHc by tauto. rewrite E. auto.
Qed.

Variables whole scalars : bool.
Variable tmp : tensor -> tensor.
Variable keep : tensor -> bool.
Hypothesis keep_tmp : forall A, keep (tmp A) = false.
Notation kacc := (fun a : tensor * list ivar => keep (fst a)).
Lemma prom_args : forall (s : stmt) hd idx, NoDup (assigned s) -> (forall t, In t (assigned s) -> keep t = true) ->
  (forall a, In a (stmt_accesses s) -> keep (fst a) = true) ->
  NoDup (filter keep (assigned (prom whole scalars tmp hd idx s))) /\
  filter keep (assigned (prom whole scalars tmp hd idx s)) = assigned s /\ filter kacc (stmt_accesses (prom whole scalars tmp hd idx s)) = stmt_accesses s /\
  (forall a, In a (stmt_accesses (prom whole scalars tmp hd idx s)) -> keep (fst a) = false -> In (fst a) (assigned (prom whole scalars tmp hd idx s))).
Proof.
  induction s as [t' vs' op e|an i b IH|c IHc p IHp]; intros hd idx ND KA KR.
  - cbn [prom]. assert (F : filter keep (assigned (NAssign t' vs' op e)) = [t']) by (cbn in *; rewrite KA; auto). rewrite F.
    split; [repeat constructor; auto|]. split; auto. split.
    + clear - KR. cbn [stmt_accesses] in *. induction (accesses e) as [|a l IHl]; cbn; auto. rewrite (KR a) by (cbn; auto). rewrite IHl; auto. intros; apply KR; cbn; auto.
    + intros a I K. rewrite (KR a I) in K. discriminate.
  - cbn [assigned stmt_accesses] in ND, KA, KR. destruct (IH (hd || cond scalars idx b) (i :: idx) ND KA KR) as (N1 & I1 & I2 & I3).
    cbn [prom]. set (b' := prom whole scalars tmp (hd || cond scalars idx b) (i :: idx) b) in *. destruct (negb hd && cond scalars idx b); [|auto].
    assert (RB : res b' = res b) by apply prom_res. assert (LB : lhs b' = lhs b) by apply prom_lhs.
    assert (KB : keep (res b) = true) by (apply KA; rewrite assigned_head; cbn; auto).
    assert (HB := assigned_head b'). rewrite RB in HB. rewrite HB in N1. cbn [filter] in N1. rewrite KB in N1.
    assert (SA : assigned (subst_lhs (res b, lhs b) (tmp (res b)) b') = tmp (res b) :: getTemporaries b').
    { apply subst_assigned; auto. intro I. inversion N1; subst. apply H1. apply filter_In. auto. }
    cbn [assigned stmt_accesses accesses]. rewrite SA, subst_acc. cbn [app filter]. rewrite KB, keep_tmp.
    rewrite HB in I1. cbn [filter] in I1. rewrite KB in I1. split; [auto|]. split; [auto|]. split.
    + rewrite filter_app, I2. cbn. rewrite keep_tmp. apply app_nil_r.
    + intros a I K. apply in_app_iff in I as [I|[<-|[]]]; [|cbn; auto]. specialize (I3 a I K). rewrite HB in I3.
      destruct I3 as [E|I3]; [congruence|]. cbn. auto.
  - cbn [assigned stmt_accesses] in ND, KA, KR.
    assert (NDc : NoDup (assigned c)) by (eapply nodup_l; eauto). assert (NDp : NoDup (assigned p)) by (eapply nodup_r; eauto).
    destruct (IHc hd idx NDc) as (N1 & I1 & I2 & I3); [intros; apply KA, in_app_iff; auto|intros; apply KR, in_app_iff; auto|].
    destruct (IHp false idx NDp) as (M1 & J1 & J2 & J3); [intros; apply KA, in_app_iff; auto|intros; apply KR, in_app_iff; auto|].
    cbn [prom assigned stmt_accesses]. rewrite !filter_app, I1, I2, J1, J2. split; auto. split; auto. split; auto.
    intros a I K. apply in_app_iff in I as [I|I]; apply in_app_iff; auto.
Qed.
End Order.

Lemma promote_args : forall V (tmp : tensor -> tensor) whole scalars (s : nstmt V), distinct_results s -> no_shadow [] s -> fresh_for tmp s ->
  getArguments (scalarPromote tmp whole scalars s) = getArguments s.
Proof.
  intros V tmp whole scalars s ND NS [TI TF]. rewrite promote_prom by auto. set (keep := fun t => mem t (tensors s)).
  assert (KT : forall A, keep (tmp A) = false).
  { intros A. unfold keep. destruct (mem (tmp A) (tensors s)) eqn:E; auto. unfold mem in E. apply existsb_exists in E as (y & I & E).
    apply Nat.eqb_eq in E. subst y. exfalso. eapply TF; eauto. }
  assert (KK : forall t, In t (tensors s) -> keep t = true).
  { intros t I. unfold keep, mem. apply existsb_exists. exists t. split; auto. apply Nat.eqb_refl. }
  clearbody keep.
  assert (RA : forall s : nstmt V, forall a, In a (stmt_accesses s) -> In (fst a) (rhs_reads s)).
  { assert (EA : forall e : nexpr V, map fst (accesses e) = reads e).
    { induction e; cbn [accesses reads map]; auto; rewrite ?map_app; congruence. }
    induction s0 as [t vs op e|an i b IH|c IHc p IHp]; cbn [stmt_accesses rhs_reads]; intros a I; auto.
    - rewrite <- EA. apply in_map; auto.
    - apply in_app_iff. apply in_app_iff in I as [I|I]; auto. }
  assert (P := assigned_perm s).
  destruct (prom_args whole scalars tmp keep KT s false []) as (N1 & I1 & I2 & I3).
  - eapply Permutation_NoDup; [symmetry; exact P|auto].
  - intros t I. apply KK. unfold tensors. eapply Permutation_in in I; [|exact P]. destruct I as [<-|I]; cbn; auto. right. apply in_app_iff; auto.
  - intros a I. apply KK. unfold tensors. right. apply in_app_iff. right. apply RA; auto.
  - set (q := prom whole scalars tmp false [] s) in *. unfold getArguments. f_equal. f_equal. unfold argument_accesses. rewrite <- I2 at 1.
    assert (HQ := assigned_head q). assert (RQ : res q = res s) by apply prom_res. rewrite RQ in HQ.
    assert (KR : keep (res s) = true) by (apply KK; cbn; auto).
    assert (G : getTemporaries s = filter keep (getTemporaries q)).
    { assert (X := I1). rewrite HQ in X. cbn [filter] in X. rewrite KR in X. rewrite (assigned_head s) in X. injection X as X. symmetry. exact X. }
    rewrite G. clear - I3 HQ KR. revert I3. generalize (stmt_accesses q) as l. induction l as [|a l IH]; intros I3; cbn [filter]; auto.
    assert (E : mem (fst a) (getTemporaries q) = if keep (fst a) then mem (fst a) (filter keep (getTemporaries q)) else true).
    { destruct (keep (fst a)) eqn:K.
      - clear - K. induction (getTemporaries q) as [|y m IHm]; cbn; auto. destruct (Nat.eqb_spec (fst a) y) as [<-|N].
        + rewrite K. cbn. rewrite Nat.eqb_refl. auto.
        + destruct (keep y); cbn; auto. destruct (Nat.eqb_spec (fst a) y); [congruence|auto].
      - unfold mem. apply existsb_exists. exists (fst a). split; [|apply Nat.eqb_refl]. specialize (I3 a (or_introl eq_refl) K). rewrite HQ in I3.
        destruct I3 as [E|]; auto. congruence. }
    unfold tensor, ivar in *. rewrite E. destruct (keep (fst a)) eqn:K; cbn [negb filter].
    + destruct (mem (fst a) (filter keep (getTemporaries q))); cbn [negb]; [|f_equal]; apply IH; intros; apply I3; cbn; auto.
    + apply IH. intros; apply I3; cbn; auto.
Qed.

(** The argument bound to a tensor is the one passed in its place. *)
Lemma bound_nth : forall V (s : nstmt V) (f : tensor -> tensor_arg) result t, In t (getArguments s) -> t <> res s ->
  bound_arg s result (map f (getArguments s)) t = f t.
Proof.
  intros V s f result t I N. unfold bound_arg. destruct (Nat.eqb_spec t (res s)); [contradiction|].
  induction (getArguments s) as [|u l IH]; [destruct I|]. cbn. destruct (Nat.eqb_spec u t) as [->|M]; auto. destruct I; [contradiction|auto].
Qed.
