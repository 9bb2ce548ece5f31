(** Scalar promotion (C27). *)
From Coq Require Import List Arith Lia Bool Ring_theory Ring Permutation.
Import ListNotations.
From Verif Require Import IndexExpr Eval Notation NotationSpec NotationProofs NotationRun NotationConv NotationConc Transform.
Local Open Scope nat_scope.

(** *** Maps *)
Lemma acc_eqb_spec : forall a b, reflect (a = b) (acc_eqb a b).
Proof.
  intros [t v] [t' v']. unfold acc_eqb. cbn. destruct (Nat.eqb_spec t t') as [->|]; cbn; [|constructor; congruence].
  destruct (list_eqb_spec v v') as [->|]; constructor; congruence.
Qed.
Lemma acc_eqb_refl : forall a, acc_eqb a a = true.
Proof. intros. destruct (acc_eqb_spec a a); congruence. Qed.
Lemma assoc_erase : forall B a k (m : list (acc * B)), a <> k -> assoc k (m_erase a m) = assoc k m.
Proof.
  intros B a k m. unfold m_erase. induction m as [|[k' b] m IH]; intros N; auto. cbn. destruct (acc_eqb_spec k' a); cbn.
  - rewrite IH by auto. destruct (acc_eqb_spec k' k); congruence.
  - destruct (acc_eqb k' k); auto.
Qed.
Lemma assoc_set_same : forall B a b (m : list (acc * B)), assoc a (m_set a b m) = Some b.
Proof. intros. cbn. rewrite acc_eqb_refl. auto. Qed.
Lemma assoc_set_other : forall B a k b (m : list (acc * B)), a <> k -> assoc k (m_set a b m) = assoc k m.
Proof. intros. cbn. destruct (acc_eqb_spec a k); [congruence|]. apply assoc_erase; auto. Qed.

Lemma subset_spec : forall a b, subset a b = true <-> forall v, In v a -> In v b.
Proof.
  unfold subset. intros. rewrite forallb_forall. split; intros H v I; apply H in I.
  - apply mem_In; auto.
  - apply mem_In; auto.
Qed.
Lemma set_eqb_spec : forall a b, set_eqb a b = true <-> forall v, In v a <-> In v b.
Proof.
  intros. unfold set_eqb. rewrite andb_true_iff, !subset_spec. split; [intros [A B] v; split; auto|intros H; split; intros v; apply H].
Qed.

Lemma nodup_l : forall (a b : list nat), NoDup (a ++ b) -> NoDup a.
Proof. induction a; cbn; intros b H; constructor; inversion H; subst; eauto. intro I. apply H2. apply in_app_iff. auto. Qed.
Lemma nodup_r : forall (a b : list nat), NoDup (a ++ b) -> NoDup b.
Proof. induction a; cbn; intros b H; auto. inversion H; subst. auto. Qed.

Section P.
Context {V : Type}.
Variables whole scalars : bool.
Variable tmp : tensor -> tensor.
Notation stmt := (nstmt V).

(** *** The statement that results, without the maps *)
Definition cond (idx : list ivar) (b : stmt) : bool := (scalars || negb (is_nil (lhs b))) && subset (lhs b) idx.
Definition opx (idx : list ivar) (b : stmt) : option redop :=
  if negb whole || negb (set_eqb (lhs b) idx) then op_of b else None.
Fixpoint prom (hd : bool) (idx : list ivar) (s : stmt) : stmt :=
  match s with
  | NAssign _ _ _ _ => s
  | NForall an i b =>
      let b' := prom (hd || cond idx b) (i :: idx) b in
      if negb hd && cond idx b
      then NWhere (NAssign (res b) (lhs b) (opx idx b) (NAcc (tmp (res b)) [])) (NForall an i (subst_lhs (res b, lhs b) (tmp (res b)) b'))
      else NForall an i b'
  | NWhere c p => NWhere (prom hd idx c) (prom false idx p)
  end.

Definition agree (h h' : hoists) (k : acc) : Prop :=
  assoc k (hs_level h) = assoc k (hs_level h') /\ assoc k (hs_op h) = assoc k (hs_op h').

Notation find := (find_hoist whole scalars).
Lemma here_other : forall pth idx a h k, a <> k -> agree (hoist_here whole scalars pth idx a h) h k.
Proof.
  intros. unfold hoist_here. destruct (negb scalars && _); [split; auto|]. destruct (_ && _); [|split; auto].
  split; cbn [hs_level hs_op]; [apply assoc_set_other; auto|]. destruct (_ || _); auto. apply assoc_set_other; auto.
Qed.
Lemma assign_other : forall idx a op h k, a <> k -> agree (hoist_assign idx a op h) h k.
Proof.
  intros. unfold hoist_assign. split; cbn [hs_level hs_op].
  - destruct (assoc a (hs_level h)) as [[pi I]|]; auto. destruct (set_eqb I idx); auto. apply assoc_erase; auto.
  - destruct (assoc a (hs_op h)); auto. apply assoc_set_other; auto.
Qed.
Lemma agree_trans : forall h h' h'' k, agree h h' k -> agree h' h'' k -> agree h h'' k.
Proof. intros h h' h'' k [A B] [C D]. split; congruence. Qed.
Lemma agree_sym : forall h h' k, agree h h' k -> agree h' h k.
Proof. intros h h' k [A B]. split; auto. Qed.

Lemma find_other : forall (s : stmt) pth idx h k, ~ In (fst k) (res s :: temps s) -> agree (find pth idx s h) h k.
Proof.
  induction s as [t vs op e|an i b IH|c IHc p IHp]; intros pth idx h k N; cbn [find_hoist res temps] in *.
  - apply assign_other. intro; subst; apply N; cbn; auto.
  - eapply agree_trans; [apply IH; auto|]. apply here_other. intro; subst; apply N; cbn; auto.
  - eapply agree_trans; [apply IHc|apply IHp]; intro H; apply N; cbn in *; rewrite in_app_iff; tauto.
Qed.

Fixpoint final (m : hoists) (pth : path) (idx : list ivar) (hd : bool) (s : stmt) : Prop :=
  match s with
  | NAssign _ _ _ _ => True
  | NForall an i b =>
      let a := (res b, lhs b) in
      (negb hd && cond idx b = true -> (exists I, assoc a (hs_level m) = Some (pth, I)) /\
         match assoc a (hs_op m) with Some o => o | None => None end = opx idx b) /\
      (negb hd && cond idx b = false -> forall pi I, assoc a (hs_level m) = Some (pi, I) -> pi <> pth) /\
      final m (0 :: pth) (i :: idx) (hd || cond idx b) b
  | NWhere c p => final m (1 :: pth) idx hd c /\ final m (2 :: pth) idx false p
  end.

Lemma hoist_prom : forall (s : stmt) m pth idx hd, final m pth idx hd s -> hoist_writes tmp m pth s = prom hd idx s.
Proof.
  induction s as [t vs op e|an i b IH|c IHc p IHp]; intros m pth idx hd F; cbn [hoist_writes prom final fst snd] in *; auto.
  - destruct F as (F1 & F2 & F3). rewrite (IH _ _ _ _ F3). destruct (negb hd && cond idx b) eqn:E.
    + destruct (F1 eq_refl) as [[I ->] ->]. rewrite list_eqb_refl. auto.
    + destruct (assoc (res b, lhs b) (hs_level m)) as [[pi I]|]; auto.
      destruct (list_eqb_spec pi pth) as [->|]; auto. exfalso. eapply F2; eauto.
  - destruct F as (F1 & F2). rewrite (IHc _ _ _ _ F1), (IHp _ _ _ _ F2). auto.
Qed.

Definition entry_ok (hd : bool) (pth : path) (idx : list ivar) (a : acc) (h : hoists) : Prop :=
  if hd then exists pi I, assoc a (hs_level h) = Some (pi, I) /\ (forall l, pi <> l ++ pth) /\ (exists v, In v idx /\ ~ In v I)
  else assoc a (hs_level h) = None /\ assoc a (hs_op h) = None.

Lemma not_suffix : forall (l pth : path) k, l ++ k :: pth <> pth.
Proof. intros l pth k H. apply (f_equal (@length nat)) in H. rewrite app_length in H. cbn in H. lia. Qed.

Lemma find_final : forall (s : stmt) pth idx hd h,
  NoDup (res s :: temps s) -> no_shadow idx s -> entry_ok hd pth idx (res s, lhs s) h ->
  (forall k, In (fst k) (temps s) -> assoc k (hs_level h) = None /\ assoc k (hs_op h) = None) ->
  let h' := find pth idx s h in
  (hd = true -> assoc (res s, lhs s) (hs_level h') = assoc (res s, lhs s) (hs_level h) /\
     assoc (res s, lhs s) (hs_op h') = option_map (fun _ => op_of s) (assoc (res s, lhs s) (hs_op h))) /\
  (hd = false -> forall pi I, assoc (res s, lhs s) (hs_level h') = Some (pi, I) -> exists l, pi = l ++ pth) /\
  (forall m, (forall k, In (fst k) (res s :: temps s) -> agree m h' k) -> final m pth idx hd s).
Proof.
  induction s as [t vs op e|an i b IH|c IHc p IHp]; intros pth idx hd h ND NS E TM; cbn [find_hoist res temps lhs op_of no_shadow] in *.
  - cbv zeta. split; [|split]; [| |intros; exact I].
    + intros ->. cbn in E. destruct E as (pi & I & E & _ & v & Iv & Nv). unfold hoist_assign. cbn [hs_level hs_op]. rewrite E. split.
      * destruct (set_eqb I idx) eqn:S; auto. exfalso. apply Nv. apply (proj1 (set_eqb_spec _ _) S). auto.
      * destruct (assoc (t, vs) (hs_op h)) eqn:O; cbn [option_map]; [rewrite assoc_set_same|rewrite O]; auto.
    + intros ->. cbn in E. destruct E as [E _]. unfold hoist_assign. cbn [hs_level]. rewrite E, E. discriminate.
  - destruct NS as [Ni NS]. set (a := (res b, lhs b)) in *.
    destruct (hd || cond idx b) eqn:HC.
    + (* hoisted here or above *)
      set (h1 := hoist_here whole scalars pth idx a h).
      assert (E1 : entry_ok true (0 :: pth) (i :: idx) a h1 /\ (hd = true -> h1 = h) /\
                   (hd = false -> assoc a (hs_level h1) = Some (pth, idx) /\
                      assoc a (hs_op h1) = if negb whole || negb (set_eqb (lhs b) idx) then Some None else None)).
      { destruct hd.
        - destruct E as (pi & I & E & Ex & v & Iv & Nv). assert (h1 = h) as ->.
          { unfold h1, hoist_here. destruct (negb scalars && _); auto. rewrite E, andb_false_r. auto. }
          split; [|split; [auto|discriminate]]. exists pi, I. split; auto. split; [|exists v; cbn; auto].
          intros l H. apply (Ex (l ++ [0])). rewrite <- app_assoc. auto.
        - cbn in HC, E. destruct E as [E Eo]. unfold cond in HC. apply andb_true_iff in HC as [C1 C2].
          unfold h1, hoist_here. cbn [a snd]. replace (negb scalars && is_nil (lhs b)) with false.
          2: { symmetry. destruct scalars; auto. cbn in C1. destruct (is_nil (lhs b)); auto. }
          rewrite C2. fold a. rewrite E. cbn [andb]. split; [|split; [discriminate|]].
          + exists pth, idx. cbn [hs_level]. rewrite assoc_set_same. split; auto. split; [intros l H; symmetry in H; eapply not_suffix; eauto|].
            exists i. cbn; auto.
          + intros _. cbn [hs_level hs_op]. rewrite assoc_set_same. split; auto.
            destruct (negb whole || negb (set_eqb (lhs b) idx)); auto. apply assoc_set_same. }
      destruct E1 as (E1 & Ht & Hf).
      destruct (IH (0 :: pth) (i :: idx) true h1) as (I1 & _ & I3); auto.
      { intros k Ik. assert (A : agree h1 h k). { apply here_other. intro; subst k. inversion ND; subst. auto. }
        destruct A as [-> ->]. auto. }
      fold a in I1. destruct (I1 eq_refl) as [J1 J2]. split; [|split].
      * intros Hd. rewrite (Ht Hd) in *. auto.
      * intros Hd pi I. destruct (Hf Hd) as [F1 F2]. rewrite J1, F1. intros Q. inversion Q; subst. exists []. auto.
      * intros m M. destruct (M a (or_introl eq_refl)) as [Ml Mo]. cbn [final]. fold a. split; [|split].
        -- intros Q. apply andb_true_iff in Q as [Q _]. destruct hd; [discriminate|]. destruct (Hf eq_refl) as [F1 F2].
           rewrite Ml, Mo, J1, J2, F1, F2. split; [eexists; reflexivity|]. unfold opx. destruct (negb whole || negb (set_eqb (lhs b) idx)); auto.
        -- intros Q pi I. rewrite Ml, J1. destruct hd; [|cbn in Q, HC; congruence]. rewrite (Ht eq_refl).
           destruct E as (pi' & I' & E & Ex & _). fold a. rewrite E. intros W. inversion W; subst. apply (Ex []).
        -- rewrite HC. apply I3. auto.
    + apply orb_false_iff in HC as [-> HC]. assert (Hh : hoist_here whole scalars pth idx a h = h).
      { unfold hoist_here. cbn [a snd]. unfold cond in HC. destruct scalars; cbn [orb negb andb] in *; [rewrite HC; auto|].
        destruct (is_nil (lhs b)); cbn [negb andb] in *; auto. rewrite HC. auto. }
      rewrite Hh. destruct (IH (0 :: pth) (i :: idx) false h) as (_ & I2 & I3); auto. split; [discriminate|]. split.
      * intros _ pi I Q. destruct (I2 eq_refl pi I Q) as [l ->]. exists (l ++ [0]). rewrite <- app_assoc. auto.
      * intros m M. destruct (M a (or_introl eq_refl)) as [Ml Mo]. cbn [final]. fold a. cbn [negb andb orb]. rewrite HC. split; [discriminate|]. split.
        -- intros _ pi I. rewrite Ml. intros Q. destruct (I2 eq_refl pi I Q) as [l ->]. apply not_suffix.
        -- apply I3. auto.
  - destruct NS as [NSc NSp].
    inversion ND as [|? ? N1 ND1]; subst. inversion ND1 as [|? ? N2 ND2]; subst. rewrite in_app_iff in N2. cbn [In] in N1. rewrite in_app_iff in N1.
    assert (NDp : NoDup (res p :: temps p)). { constructor; [tauto|]. eapply nodup_l; eauto. }
    assert (NDc : NoDup (res c :: temps c)). { constructor; [tauto|]. eapply nodup_r; eauto. }
    assert (DJ : forall t, In t (res c :: temps c) -> ~ In t (res p :: temps p)).
    { intros t I J. cbn [In] in I, J. destruct I as [<-|I].
      - destruct J as [J|J]; [rewrite J in N1|]; tauto.
      - destruct J as [<-|J]; [tauto|]. clear - ND2 I J. induction (temps p) as [|y l IHl]; [destruct J|]. cbn in ND2. inversion ND2; subst. rewrite in_app_iff in H1. destruct J as [<-|J]; [tauto|]. auto. }
    destruct (IHp (2 :: pth) idx false h) as (_ & P2 & P3); auto.
    { cbn. apply TM. cbn. auto. } { intros k Ik. apply TM. cbn. rewrite in_app_iff. auto. }
    set (h1 := find (2 :: pth) idx p h) in *.
    assert (A1 : forall k, In (fst k) (res c :: temps c) -> agree h1 h k). { intros k Ik. apply find_other. apply DJ. auto. }
    destruct (A1 (res c, lhs c) (or_introl eq_refl)) as [Al Ao].
    destruct (IHc (1 :: pth) idx hd h1) as (C1 & C2 & C3); auto.
    { destruct hd; cbn in E |- *; rewrite ?Al, ?Ao; auto. destruct E as (pi & I & E & Ex & Ev). exists pi, I. split; auto. split; auto.
      intros l H. apply (Ex (l ++ [1])). rewrite <- app_assoc. auto. }
    { intros k Ik. destruct (A1 k (or_intror Ik)) as [-> ->]. apply TM. cbn. rewrite in_app_iff. auto. }
    split; [|split].
    + intros Hd. destruct (C1 Hd) as [D1 D2]. rewrite D1, D2, Al, Ao. auto.
    + intros Hd pi I Q. destruct (C2 Hd pi I Q) as [l ->]. exists (l ++ [1]). rewrite <- app_assoc. auto.
    + intros m M. cbn [final]. split.
      * apply C3. intros k Ik. apply M. cbn in Ik |- *. rewrite in_app_iff. tauto.
      * apply P3. intros k Ik. eapply agree_trans; [apply M; cbn in Ik |- *; rewrite in_app_iff; tauto|].
        apply find_other. intro J. eapply DJ; eauto.
Qed.

Lemma promote_prom : forall s : stmt, NoDup (res s :: temps s) -> no_shadow [] s -> scalarPromote tmp whole scalars s = prom false [] s.
Proof.
  intros s ND NS. unfold scalarPromote. apply hoist_prom.
  destruct (find_final s [] [] false no_hoists) as (_ & _ & F); try (cbn; auto; fail).
  apply F. intros. split; auto.
Qed.
End P.
