(** Basic facts about the loop language and the declared positions. *)
From Coq Require Import List Arith Lia Bool.
Import ListNotations.
From Verif Require Import Storage StorageProofs IndexExpr Eval Lattice LoopIR Lower Walk.

Local Arguments inb : simpl never.

Section Base.
Context {V : Type}.
Variable R : ring_ops V.
Variable fn : nat -> V -> V.
Variable T : nat -> storage V.
Variable junkV : nat -> V.
Variable junkI : nat -> nat.
Variable dimf : ivar -> nat.
Notation exec := (exec R fn T junkV junkI).
Notation ieval := (ieval T).
Notation beval := (beval T).

Definition is_ctl (v : var) : bool :=
  match v with VIdx _ | VPos _ _ | VEnd _ _ | VCrd _ _ => true | _ => false end.

(** [st'] differs from [st] only in control variables satisfying [M]. *)
Definition only_ctl (M : var -> Prop) (st st' : state V) : Prop :=
  ibuf st' = ibuf st /\ vbuf st' = vbuf st /\
  forall v, ~ (is_ctl v = true /\ M v) -> env st' v = env st v.

Lemma only_refl : forall M st, only_ctl M st st.
Proof. repeat split; auto. Qed.

Lemma only_trans : forall M st1 st2 st3, only_ctl M st1 st2 -> only_ctl M st2 st3 -> only_ctl M st1 st3.
Proof.
  intros M st1 st2 st3 (A & B & C) (A' & B' & C'). repeat split; try congruence.
  intros v H. rewrite C', C; auto.
Qed.

Lemma only_weaken : forall (M M' : var -> Prop) st st', (forall v, M v -> M' v) ->
  only_ctl M st st' -> only_ctl M' st st'.
Proof. intros M M' st st' H (A & B & C). repeat split; auto. intros v N. apply C. firstorder. Qed.

Lemma setv_eq : forall (st : state V) v n, env (setv st v n) v = Some n.
Proof. intros. simpl. destruct (var_eq_dec v v); congruence. Qed.

Lemma setv_neq : forall (st : state V) v w n, w <> v -> env (setv st v n) w = env st w.
Proof. intros. simpl. destruct (var_eq_dec w v); congruence. Qed.

Lemma only_setv : forall (M : var -> Prop) st v n, is_ctl v = true -> M v -> only_ctl M st (setv st v n).
Proof.
  intros M st v n C H. repeat split; auto. intros w N. apply setv_neq. intros ->. auto.
Qed.

Definition upd (rho : ivar -> nat) (i c : nat) : ivar -> nat := fun j => if j =? i then c else rho j.

Lemma upd_eq : forall rho i c, upd rho i c i = c.
Proof. intros. unfold upd. rewrite Nat.eqb_refl. auto. Qed.
Lemma upd_neq : forall rho i c j, j <> i -> upd rho i c j = rho j.
Proof. intros. unfold upd. apply Nat.eqb_neq in H. rewrite H. auto. Qed.

Lemma inb_In : forall i l, inb i l = true <-> In i l.
Proof.
  intros. unfold inb. rewrite existsb_exists. split.
  - intros (x & H & E). apply Nat.eqb_eq in E. subst; auto.
  - intros. exists i. rewrite Nat.eqb_refl. auto.
Qed.
Lemma inb_false : forall i l, inb i l = false <-> ~ In i l.
Proof. intros. rewrite <- inb_In. destruct (inb i l); split; congruence. Qed.

Lemma inb_cons : forall v i bound, inb v (i :: bound) = (v =? i) || inb v bound.
Proof. reflexivity. Qed.

(** Number of leading levels whose variables are all bound. *)
Fixpoint depth (bound : list ivar) (vs : list (ivar * kind)) : nat :=
  match vs with
  | [] => 0
  | (v, _) :: t => if inb v bound then S (depth bound t) else 0
  end.

Definition var_at (vs : list (ivar * kind)) (l : nat) : ivar := fst (nth l vs (0, KDense)).
Definition kind_at (vs : list (ivar * kind)) (l : nat) : kind := snd (nth l vs (0, KDense)).

Lemma depth_le : forall bound vs, depth bound vs <= length vs.
Proof. induction vs as [|[v k] t]; simpl; auto. destruct (inb v bound); lia. Qed.

Lemma depth_bound : forall bound vs l, l < depth bound vs -> inb (var_at vs l) bound = true.
Proof.
  induction vs as [|[v k] t]; simpl; intros l H; [lia|].
  destruct (inb v bound) eqn:E; [|lia]. destruct l; simpl; auto.
  apply IHt. lia.
Qed.

Lemma depth_stop : forall bound vs, depth bound vs < length vs ->
  inb (var_at vs (depth bound vs)) bound = false.
Proof.
  induction vs as [|[v k] t]; simpl; intros H; [lia|].
  destruct (inb v bound) eqn:E; simpl; auto. apply IHt. lia.
Qed.

Lemma depth_ge : forall bound vs l, l <= length vs ->
  (forall m, m < l -> inb (var_at vs m) bound = true) -> l <= depth bound vs.
Proof.
  intros bound vs l L H. destruct (Nat.le_gt_cases l (depth bound vs)); auto.
  assert (inb (var_at vs (depth bound vs)) bound = true) by (apply H; auto).
  rewrite depth_stop in H1; [discriminate|lia].
Qed.

Lemma depth_mono : forall b b' vs, (forall x, In x b -> In x b') -> depth b vs <= depth b' vs.
Proof.
  intros. apply depth_ge; [apply depth_le|]. intros m L. apply depth_bound in L.
  apply inb_In, H, inb_In. auto.
Qed.

Lemma depth_skip : forall bound vs l, l <= depth bound vs ->
  depth bound vs = l + depth bound (skipn l vs).
Proof.
  induction vs as [|[v k] t]; intros l H.
  - simpl in H. assert (l = 0) by lia. subst. auto.
  - destruct l; auto. simpl in H. simpl. destruct (inb v bound); [|lia].
    rewrite (IHt l) by lia. auto.
Qed.

(** Position of the first [l] levels of an access under an assignment. *)
Definition apos (rho : ivar -> nat) (t : nat) (vs : list (ivar * kind)) (l : nat) : option nat :=
  walk (st_levels (T t)) 0 (map rho (map fst (firstn l vs))).

Definition kind_of (lv : level) : kind := match lv with LDense _ => KDense | LComp _ _ => KComp end.

Definition wf_access (t : nat) (vs : list (ivar * kind)) : Prop :=
  map kind_of (st_levels (T t)) = map snd vs /\
  wf_storage (map dimf (map fst vs)) (T t) /\
  NoDup (map fst vs).

Lemma apos_ext : forall rho rho' t vs l,
  (forall m, m < l -> m < length vs -> rho (var_at vs m) = rho' (var_at vs m)) ->
  apos rho t vs l = apos rho' t vs l.
Proof.
  intros rho rho' t vs l H. unfold apos. f_equal. rewrite !map_map.
  revert vs H. induction l; intros vs H; auto. destruct vs as [|[v k] vs]; auto. simpl. f_equal.
  - apply (H 0); simpl; lia.
  - apply IHl. intros m M1 M2. apply (H (S m)); simpl; lia.
Qed.

Lemma firstn_snoc : forall A (l : list A) n d, n < length l -> firstn (S n) l = firstn n l ++ [nth n l d].
Proof.
  induction l; simpl; intros n d H; [lia|]. destruct n; simpl; auto. f_equal. apply IHl. lia.
Qed.

Lemma wf_levels_len : forall t vs, wf_access t vs -> length (st_levels (T t)) = length vs.
Proof.
  intros t vs (K & _ & _). rewrite <- (map_length kind_of), K, map_length. auto.
Qed.

Lemma wf_level_get : forall t vs l, wf_access t vs -> l < length vs ->
  exists lv, nth_error (st_levels (T t)) l = Some lv /\ kind_of lv = kind_at vs l /\
  forall rho q, apos rho t vs l = Some q -> level_ok lv q (dimf (var_at vs l)).
Proof.
  intros t vs l W L. assert (LE := wf_levels_len _ _ W). destruct W as (K & W & _).
  destruct (nth_error (st_levels (T t)) l) as [lv|] eqn:E.
  - exists lv. split; auto. split.
    + assert (E1 := map_nth_error kind_of _ _ E). rewrite K in E1.
      unfold kind_at.
      assert (E2 := map_nth_error snd l vs (nth_error_nth' vs (0, KDense) L)). congruence.
    + intros rho q A. unfold apos in A.
      assert (LL : length (map rho (map fst (firstn l vs))) = l) by (rewrite !map_length, firstn_length; lia).
      eapply wf_level_at; eauto.
      * rewrite LL. auto.
      * rewrite LL. rewrite map_map. unfold var_at.
        apply (map_nth_error (fun x => dimf (fst x)) l vs (nth_error_nth' vs (0, KDense) L)).
  - apply nth_error_None in E. lia.
Qed.

Lemma apos_S : forall rho t vs l lv, wf_access t vs -> l < length vs ->
  nth_error (st_levels (T t)) l = Some lv ->
  apos rho t vs (S l) = match apos rho t vs l with
                        | Some q => step lv q (rho (var_at vs l)) | None => None end.
Proof.
  intros rho t vs l lv W L E. unfold apos. rewrite (firstn_snoc _ vs l (0, KDense) L), !map_app. simpl.
  apply walk_snoc. rewrite !map_length, firstn_length, Nat.min_l by lia. auto.
Qed.

(** ** Control state *)
Definition idxok (bound : list ivar) (rho : ivar -> nat) (st : state V) : Prop :=
  forall j, In j bound -> env st (VIdx j) = Some (rho j) /\ rho j < dimf j.

Definition posok1 (n : nat) (rho : ivar -> nat) (pv : nat -> var) (t : nat) (vs : list (ivar * kind))
    (st : state V) : Prop :=
  forall l, l < n -> exists q, apos rho t vs (S l) = Some q /\ env st (pv l) = Some q.

Definition pv_ok (pv : nat -> var) : Prop :=
  (forall l l', pv l = pv l' -> l = l') /\ (forall l j, pv l <> VIdx j).

(** The schedules taco accepts for an access: on every prefix of the loops, a
    bound variable of a level requires the variables of the levels above it if
    one of the two levels is compressed. *)
Definition legal (bound : list ivar) (vs : list (ivar * kind)) : Prop :=
  forall l1 l2, l1 < l2 -> l2 < length vs ->
    (kind_at vs l1 = KComp \/ kind_at vs l2 = KComp) ->
    In (var_at vs l2) bound -> In (var_at vs l1) bound.

Definition only_var (M : var -> Prop) (st st' : state V) : Prop :=
  ibuf st' = ibuf st /\ vbuf st' = vbuf st /\ forall v, ~ M v -> env st' v = env st v.

Lemma ieval_parent : forall rho pv t vs st l, posok1 l rho pv t vs st ->
  exists q, apos rho t vs l = Some q /\ ieval st (parent_pos pv l) = Some q.
Proof.
  intros rho pv t vs st l H. destruct l.
  - exists 0. split; reflexivity.
  - destruct (H l) as (q & A & E); [lia|]. exists q. simpl. auto.
Qed.

Lemma var_at_skip : forall vs l m, var_at (skipn l vs) m = var_at vs (l + m).
Proof. intros. unfold var_at. f_equal. revert vs. induction l; simpl; intros; auto. destruct vs; simpl; auto. destruct m; auto. Qed.
Lemma kind_at_skip : forall vs l m, kind_at (skipn l vs) m = kind_at vs (l + m).
Proof. intros. unfold kind_at. f_equal. revert vs. induction l; simpl; intros; auto. destruct vs; simpl; auto. destruct m; auto. Qed.

Lemma locate_down_ok : forall bound rho pv t vs, wf_access t vs -> pv_ok pv ->
  forall down l st, down = skipn l vs -> l <= length vs ->
  idxok bound rho st -> posok1 l rho pv t vs st ->
  (forall m, l <= m -> m < l + depth bound down -> kind_at vs m = KDense) ->
  exists st', exec (locate_down bound pv t l down) st st' /\
    only_var (fun v => exists m, l <= m < length vs /\ v = pv m) st st' /\
    posok1 (l + depth bound down) rho pv t vs st'.
Proof.
  intros bound rho pv t vs W [PI PX]. induction down as [|[v k] down IH]; intros l st E L IX P D.
  - simpl. exists st. split; [constructor|]. split; [repeat split; auto|]. rewrite Nat.add_0_r; auto.
  - assert (LT : l < length vs).
    { destruct (Nat.eq_dec l (length vs)); [|lia]. subst. rewrite skipn_all in E. discriminate. }
    assert (E0 : (v, k) = nth l vs (0, KDense) /\ down = skipn (S l) vs).
    { assert (N := nth_error_nth' vs (0, KDense) LT).
      apply skipn_nth_error in N. rewrite <- E in N. inversion N; subst. auto. }
    destruct E0 as [EV ED].
    assert (VA : var_at vs l = v) by (unfold var_at; rewrite <- EV; auto).
    assert (KA : kind_at vs l = k) by (unfold kind_at; rewrite <- EV; auto).
    simpl. simpl in D. destruct (inb v bound) eqn:IB.
    + assert (k = KDense) by (rewrite <- KA; apply D; lia). subst k.
      destruct (ieval_parent _ _ _ _ _ _ P) as (q & A & EQ).
      destruct (wf_level_get t vs l W LT) as (lv & NE & KE & OK).
      rewrite H in KE. destruct lv as [d|]; [|discriminate]. simpl in OK. specialize (OK rho q A).
      rewrite VA in OK. subst d.
      apply inb_In in IB. destruct (IX v IB) as [IV IL].
      set (p := q * dimf v + rho v).
      assert (AS : apos rho t vs (S l) = Some p).
      { rewrite (apos_S rho t vs l _ W LT NE), A, VA. simpl. apply Nat.ltb_lt in IL. rewrite IL. auto. }
      destruct (IH (S l) (setv st (pv l) p) ED ltac:(lia)) as (st' & X & O & P').
      { intros j Hj. rewrite setv_neq by (intros C; apply (PX l j); auto). auto. }
      { intros m M. destruct (Nat.eq_dec m l) as [->|N].
        - exists p. split; auto. apply setv_eq.
        - destruct (P m ltac:(lia)) as (q' & A' & E'). exists q'. split; auto.
          rewrite setv_neq; auto. }
      { intros m M1 M2. apply D; lia. }
      exists st'. split; [|split].
      * try rewrite H. econstructor; [|exact X]. constructor.
        cbn [LoopIR.ieval] in *. rewrite EQ, NE, IV. reflexivity.
      * destruct O as (O1 & O2 & O3). repeat split; simpl in *; auto.
        intros w N. rewrite O3.
        -- apply setv_neq. intros ->. apply N. exists l. split; auto.
        -- intros (m & M & ->). apply N. exists m. split; [lia|auto].
      * rewrite Nat.add_succ_r. exact P'.
    + exists st. split; [destruct k; constructor|]. split; [repeat split; auto|]. rewrite Nat.add_0_r; auto.
Qed.

Lemma ancestors_ok_iff : forall bound vs l, l <= length vs ->
  (ancestors_ok bound (rev (firstn l vs)) = true <->
   forall m, m < l -> (forall m', m <= m' -> m' < l -> kind_at vs m' = KDense) -> In (var_at vs m) bound).
Proof.
  intros bound vs l. induction l; intros L.
  - simpl. split; auto. intros; lia.
  - rewrite (firstn_snoc _ vs l (0, KDense)) by lia. rewrite rev_app_distr. simpl.
    destruct (nth l vs (0, KDense)) as [v k] eqn:E.
    assert (VA : var_at vs l = v) by (unfold var_at; rewrite E; auto).
    assert (KA : kind_at vs l = k) by (unfold kind_at; rewrite E; auto).
    destruct k.
    + rewrite andb_true_iff, IHl by lia. rewrite inb_In. split.
      * intros [B H] m M D. destruct (Nat.eq_dec m l) as [->|N]; [congruence|].
        apply H; [lia|]. intros; apply D; lia.
      * intros H. split.
        -- rewrite <- VA. apply H; [lia|]. intros m' M1 M2. assert (m' = l) by lia. subst; auto.
        -- intros m M D. apply H; [lia|]. intros m' M1 M2.
           destruct (Nat.eq_dec m' l) as [->|N]; auto. apply D; lia.
    + split; auto. intros _ m M D. rewrite (D l) in KA; [discriminate|lia|lia].
Qed.

Lemma index_of_nth : forall i vs l, index_of i vs = Some l -> l < length vs /\ var_at vs l = i.
Proof.
  induction vs as [|[v k] t]; simpl; intros l H; [discriminate|].
  destruct (v =? i) eqn:E.
  - inversion H; subst. apply Nat.eqb_eq in E. split; [lia|]. unfold var_at; simpl. auto.
  - destruct (index_of i t); [|discriminate]. inversion H; subst.
    destruct (IHt n eq_refl). split; [lia|]. unfold var_at in *. simpl. auto.
Qed.

Lemma index_of_none : forall i vs l, index_of i vs = None -> l < length vs -> var_at vs l <> i.
Proof.
  induction vs as [|[v k] t]; simpl; intros l H L; [lia|].
  destruct (v =? i) eqn:E; [discriminate|]. apply Nat.eqb_neq in E.
  destruct (index_of i t); [discriminate|]. destruct l; unfold var_at in *; simpl; auto.
  apply IHt; auto. lia.
Qed.

Lemma var_at_inj : forall vs l m, NoDup (map fst vs) -> l < length vs -> m < length vs ->
  var_at vs l = var_at vs m -> l = m.
Proof.
  intros vs l m ND L M E. unfold var_at in E.
  rewrite (NoDup_nth (map fst vs) 0) in ND. apply ND; rewrite ?map_length; auto.
  change 0 with (fst (0, KDense)). rewrite !map_nth. auto.
Qed.

Lemma depth_cons_none : forall i bound vs, index_of i vs = None -> depth (i :: bound) vs = depth bound vs.
Proof.
  induction vs as [|[v k] t]; cbn [depth index_of]; intros H; auto.
  destruct (v =? i) eqn:E; [discriminate|]. rewrite inb_cons, E. cbn [orb].
  destruct (index_of i t); [discriminate|]. rewrite IHt; auto.
Qed.

(** Declaring a locator makes the positions correct that became known. *)
Lemma decl_locate_ok : forall i bound rho pv t vs l st,
  wf_access t vs -> pv_ok pv -> ~ In i bound ->
  legal bound vs -> legal (i :: bound) vs ->
  index_of i vs = Some l -> kind_at vs l = KDense ->
  idxok (i :: bound) rho st -> posok1 (depth bound vs) rho pv t vs st ->
  exists st', exec (decl_locate (i :: bound) pv t l vs) st st' /\
    only_var (fun v => exists m, depth bound vs <= m < length vs /\ v = pv m) st st' /\
    posok1 (depth (i :: bound) vs) rho pv t vs st'.
Proof.
  intros i bound rho pv t vs l st W PV NI LG LG' IO K IX P.
  destruct (index_of_nth _ _ _ IO) as [LT VA].
  assert (ND : NoDup (map fst vs)) by apply W.
  assert (DL : depth bound vs <= l).
  { destruct (Nat.le_gt_cases (depth bound vs) l); auto.
    apply depth_bound in H. rewrite VA in H. apply inb_In in H. contradiction. }
  unfold decl_locate. destruct (Nat.eq_dec (depth bound vs) l) as [EQ|NE].
  - assert (ancestors_ok (i :: bound) (rev (firstn l vs)) = true) as ->.
    { apply ancestors_ok_iff; [lia|]. intros m M _. right. apply inb_In, depth_bound. lia. }
    assert (DD : depth (i :: bound) vs = l + depth (i :: bound) (skipn l vs)).
    { apply depth_skip. rewrite <- EQ. apply depth_mono. simpl; auto. }
    destruct (locate_down_ok (i :: bound) rho pv t vs W PV (skipn l vs) l st) as (st' & X & O & P'); auto.
    { lia. }
    { rewrite <- EQ. auto. }
    { intros m M1 M2. rewrite <- DD in M2. destruct (kind_at vs m) eqn:KM; auto.
      assert (MV := depth_bound _ _ _ M2). rewrite inb_cons in MV.
      destruct (var_at vs m =? i) eqn:EM.
      - apply Nat.eqb_eq in EM. rewrite <- VA in EM.
        assert (m = l). { apply (var_at_inj vs); auto. eapply Nat.lt_le_trans; [exact M2|apply depth_le]. }
        subst. congruence.
      - simpl in MV. apply inb_In in MV.
        assert (m <> l) by congruence.
        exfalso. apply NI. rewrite <- VA. apply (LG l m); auto; try lia.
        eapply Nat.lt_le_trans; [exact M2|apply depth_le]. }
    exists st'. split; auto. split.
    + destruct O as (O1 & O2 & O3). repeat split; auto. intros v N. apply O3.
      intros (m & M & ->). apply N. exists m. split; auto. lia.
    + rewrite DD. auto.
  - (* an outer dense level is not yet bound *)
    set (d := depth bound vs) in *.
    assert (DU : ~ In (var_at vs d) bound).
    { intros C. apply inb_In in C. unfold d in C. rewrite depth_stop in C; [discriminate|]. fold d. lia. }
    assert (DI : var_at vs d <> i).
    { rewrite <- VA. intros C. apply NE. apply (var_at_inj vs); auto; lia. }
    assert (DU' : ~ In (var_at vs d) (i :: bound)) by (simpl; intuition).
    assert (DK : forall m, d <= m -> m < l -> kind_at vs m = KDense).
    { intros m M1 M2. destruct (kind_at vs m) eqn:KM; auto. exfalso.
      assert (MB : In (var_at vs m) (i :: bound)).
      { apply (LG' m l); auto. rewrite VA. simpl; auto. }
      destruct (Nat.eq_dec m d) as [->|N]; auto.
      apply DU'. apply (LG' d m); auto; lia. }
    assert (ancestors_ok (i :: bound) (rev (firstn l vs)) = false) as ->.
    { destruct (ancestors_ok (i :: bound) (rev (firstn l vs))) eqn:A; auto.
      exfalso. rewrite ancestors_ok_iff in A by lia. apply DU'. apply A; [lia|]. intros; apply DK; lia. }
    assert (DD : depth (i :: bound) vs = d).
    { apply Nat.le_antisymm; [|apply depth_mono; simpl; auto].
      destruct (Nat.le_gt_cases (depth (i :: bound) vs) d); auto.
      apply depth_bound in H. apply inb_In in H. contradiction. }
    exists st. split; [constructor|]. split; [repeat split; auto|]. rewrite DD. auto.
Qed.

End Base.
