(** Proofs about loop lattices: the points that loops and cases are generated
    from pick exactly the operands that are present. *)
From Coq Require Import List Arith Lia Bool Permutation Sorted.
Import ListNotations.
From Verif Require Import Storage IndexExpr Lattice LatticeSpec LatticeProofs.

(* ------------------------------------------------------------ zeroing *)
Section Zero.
Context {V : Type}.

Lemma zero_ext : forall z1 z2 (e : expr V),
  (forall a, In a (accesses e) -> z1 a = z2 a) -> zero z1 e = zero z2 e.
Proof.
  induction e; simpl; intros H; auto;
    try (rewrite H by auto; reflexivity);
    try (rewrite IHe by auto; reflexivity);
    rewrite IHe1, IHe2 by (intros; apply H, in_app_iff; auto); reflexivity.
Qed.

Lemma zero_accesses : forall z (e e' : expr V), zero z e = Some e' ->
  forall a, In a (accesses e') -> In a (accesses e) /\ z a = false.
Proof.
  induction e; simpl; intros e' H a'.
  - inversion H; subst. simpl. tauto.
  - destruct (z a) eqn:Z; inversion H; subst. simpl. intros [<-|[]]; auto.
  - destruct (zero z e); inversion H; subst. simpl. eauto.
  - destruct (zero z e); inversion H; subst. simpl. eauto.
  - rewrite in_app_iff.
    destruct (zero z e1), (zero z e2); inversion H; subst; simpl; rewrite ?in_app_iff.
    + intros [X|X]; [destruct (IHe1 _ eq_refl _ X)|destruct (IHe2 _ eq_refl _ X)]; auto.
    + intros X; destruct (IHe1 _ eq_refl _ X); auto.
    + intros X; destruct (IHe2 _ eq_refl _ X); auto.
  - rewrite in_app_iff.
    destruct (zero z e1), (zero z e2); inversion H; subst; simpl; rewrite ?in_app_iff.
    + intros [X|X]; [destruct (IHe1 _ eq_refl _ X)|destruct (IHe2 _ eq_refl _ X)]; auto.
    + intros X; destruct (IHe1 _ eq_refl _ X); auto.
    + intros X; destruct (IHe2 _ eq_refl _ X); auto.
  - rewrite in_app_iff.
    destruct (zero z e1), (zero z e2); inversion H; subst; simpl; rewrite ?in_app_iff.
    intros [X|X]; [destruct (IHe1 _ eq_refl _ X)|destruct (IHe2 _ eq_refl _ X)]; auto.
Qed.

Definition ozero (z : access -> bool) (o : option (expr V)) : option (expr V) :=
  match o with Some e => zero z e | None => None end.

Lemma zero_zero : forall z1 z2 (e : expr V),
  ozero z2 (zero z1 e) = zero (fun a => z1 a || z2 a) e.
Proof.
  induction e; simpl; auto.
  - destruct (z1 a); simpl; auto.
  - rewrite <- IHe. destruct (zero z1 e); simpl; auto.
  - rewrite <- IHe. destruct (zero z1 e); simpl; auto.
  - rewrite <- IHe1, <- IHe2. destruct (zero z1 e1), (zero z1 e2); simpl; auto;
      destruct (zero z2 e); auto.
  - rewrite <- IHe1, <- IHe2. destruct (zero z1 e1), (zero z1 e2); simpl; auto;
      destruct (zero z2 e); auto.
  - rewrite <- IHe1, <- IHe2. destruct (zero z1 e1), (zero z1 e2); simpl; auto;
      destruct (zero z2 e); auto.
Qed.

(** Zeroing more operands cannot bring an expression back. *)
Lemma zero_mono_none : forall z1 z2 (e : expr V),
  (forall a, In a (accesses e) -> z1 a = true -> z2 a = true) ->
  zero z1 e = None -> zero z2 e = None.
Proof.
  induction e; simpl; intros H N; try discriminate.
  - destruct (z1 a) eqn:Z; [|discriminate]. rewrite (H a); auto.
  - destruct (zero z1 e); [discriminate|]. rewrite IHe; auto.
  - destruct (zero z1 e); [discriminate|]. rewrite IHe; auto.
  - destruct (zero z1 e1), (zero z1 e2); try discriminate.
    rewrite IHe1, IHe2; auto; intros; apply H; auto; apply in_app_iff; auto.
  - destruct (zero z1 e1), (zero z1 e2); try discriminate.
    rewrite IHe1, IHe2; auto; intros; apply H; auto; apply in_app_iff; auto.
  - assert (zero z1 e1 = None \/ zero z1 e2 = None) as [X|X]
      by (destruct (zero z1 e1), (zero z1 e2); auto; discriminate).
    + rewrite IHe1; auto. intros; apply H; auto; apply in_app_iff; auto.
    + rewrite IHe2; auto; [destruct (zero z2 e1); auto|].
      intros; apply H; auto; apply in_app_iff; auto.
Qed.

(** Linearity is preserved. *)
Lemma zero_linear : forall z (e e' : expr V), NoDup (accesses e) -> zero z e = Some e' -> NoDup (accesses e').
Proof.
  induction e; simpl; intros e' ND H.
  - inversion H; subst. constructor.
  - destruct (z a); inversion H; subst. auto.
  - destruct (zero z e); inversion H; subst. simpl; auto.
  - destruct (zero z e); inversion H; subst. simpl; auto.
  - apply NoDup_app_inv in ND. destruct ND as (N1 & N2 & D).
    destruct (zero z e1) eqn:Z1, (zero z e2) eqn:Z2; inversion H; subst; simpl; auto.
    apply NoDup_app_intro; auto. intros x X1 X2.
    apply (zero_accesses _ _ _ Z1) in X1. apply (zero_accesses _ _ _ Z2) in X2. eapply D; [apply X1 | apply X2].
  - apply NoDup_app_inv in ND. destruct ND as (N1 & N2 & D).
    destruct (zero z e1) eqn:Z1, (zero z e2) eqn:Z2; inversion H; subst; simpl; auto.
    apply NoDup_app_intro; auto. intros x X1 X2.
    apply (zero_accesses _ _ _ Z1) in X1. apply (zero_accesses _ _ _ Z2) in X2. eapply D; [apply X1 | apply X2].
  - apply NoDup_app_inv in ND. destruct ND as (N1 & N2 & D).
    destruct (zero z e1) eqn:Z1, (zero z e2) eqn:Z2; inversion H; subst; simpl; auto.
    apply NoDup_app_intro; auto. intros x X1 X2.
    apply (zero_accesses _ _ _ Z1) in X1. apply (zero_accesses _ _ _ Z2) in X2. eapply D; [apply X1 | apply X2].
Qed.

End Zero.

Lemma SS_filter : forall A (R : A -> A -> Prop) f (l : list A),
  StronglySorted R l -> StronglySorted R (filter f l).
Proof.
  intros A R f l X. induction X; simpl; [constructor|].
  destruct (f a); auto. constructor; auto. rewrite Forall_forall in *.
  intros x Hx. apply filter_In in Hx. apply H. tauto.
Qed.

Lemma FOP_filter : forall A (R : A -> A -> Prop) f (l : list A),
  ForallOrdPairs R l -> ForallOrdPairs R (filter f l).
Proof.
  intros A R f l X. induction X; simpl; [constructor|].
  destruct (f a); auto. constructor; auto. rewrite Forall_forall in *.
  intros x Hx. apply filter_In in Hx. apply H. tauto.
Qed.

Lemma filter_all : forall A (f : A -> bool) (l : list A),
  (forall x, In x l -> f x = true) -> filter f l = l.
Proof.
  induction l; simpl; intros H; auto. rewrite (H a) by auto. f_equal. auto.
Qed.

Section Loop.
Context {V : Type}.
Variable i : ivar.

Lemma reg_lev : forall here (e : expr V) it, In it (reg i here e) ->
  exists a l, it = Lev a l /\ find_level i a = Some l /\ In a (accesses e) /\ absent i here a = false.
Proof.
  induction e; simpl; intros it H.
  - destruct H.
  - destruct (absent i here a) eqn:A; [destruct H|]. unfold acc_reg in H.
    destruct (find_level i a) eqn:F; [|destruct H]. destruct H as [<-|[]]. eauto 8.
  - eauto.
  - eauto.
  - apply in_app_iff in H. destruct H as [H|H].
    + destruct (supp i here e1); [|destruct H]. destruct (IHe1 _ H) as (a & l & ? & ? & ? & ?).
      exists a, l. rewrite in_app_iff. auto.
    + destruct (supp i here e2); [|destruct H]. destruct (IHe2 _ H) as (a & l & ? & ? & ? & ?).
      exists a, l. rewrite in_app_iff. auto.
  - apply in_app_iff in H. destruct H as [H|H].
    + destruct (supp i here e1); [|destruct H]. destruct (IHe1 _ H) as (a & l & ? & ? & ? & ?).
      exists a, l. rewrite in_app_iff. auto.
    + destruct (supp i here e2); [|destruct H]. destruct (IHe2 _ H) as (a & l & ? & ? & ? & ?).
      exists a, l. rewrite in_app_iff. auto.
  - apply in_app_iff in H. destruct H as [H|H].
    + destruct (IHe1 _ H) as (a & l & ? & ? & ? & ?). exists a, l. rewrite in_app_iff. auto.
    + destruct (IHe2 _ H) as (a & l & ? & ? & ? & ?). exists a, l. rewrite in_app_iff. auto.
Qed.

Lemma reg_all : forall (e : expr V) a l, In a (accesses e) -> find_level i a = Some l ->
  In (Lev a l) (reg i (fun _ => true) e).
Proof.
  induction e; simpl; intros a' l H F; rewrite ?supp_all.
  - destruct H.
  - destruct H as [<-|[]]. unfold absent. simpl. rewrite andb_false_r. unfold acc_reg. rewrite F. simpl; auto.
  - auto.
  - auto.
  - rewrite in_app_iff in *. destruct H; auto.
  - rewrite in_app_iff in *. destruct H; auto.
  - rewrite in_app_iff in *. destruct H; auto.
Qed.

(** The accesses that index [i] but are not in a region. *)
Definition outside (r : list iter) (a : access) : bool :=
  match find_level i a with Some l => negb (mem (Lev a l) r) | None => false end.

Lemma absent_outside : forall here (e : expr V) a, absent i here a = true -> outside (reg i here e) a = true.
Proof.
  intros here e a A. unfold outside. generalize A. unfold absent, compressed.
  destruct (find_level i a) as [l|] eqn:F; [|discriminate]. intros _.
  apply negb_true_iff, mem_false. intros H.
  destruct (reg_lev _ _ _ H) as (a' & l' & E & _ & _ & A'). inversion E; subst. congruence.
Qed.

Lemma outside_app : forall here (e1 e2 : expr V) r1 r2 a,
  In a (accesses e1) -> ~ In a (accesses e2) ->
  incl r2 (reg i here e2) ->
  outside (r1 ++ r2) a = outside r1 a.
Proof.
  intros here e1 e2 r1 r2 a H1 H2 I. unfold outside. destruct (find_level i a) as [l|]; auto.
  f_equal. apply bool_iff. rewrite !mem_In, in_app_iff. split; auto. intros [|H]; auto.
  apply I in H. destruct (reg_lev _ _ _ H) as (a' & l' & E & _ & Ha & _). inversion E; subst. contradiction.
Qed.

Lemma outside_app_r : forall here (e1 e2 : expr V) r1 r2 a,
  In a (accesses e2) -> ~ In a (accesses e1) ->
  incl r1 (reg i here e1) ->
  outside (r1 ++ r2) a = outside r2 a.
Proof.
  intros here e1 e2 r1 r2 a H1 H2 I. unfold outside. destruct (find_level i a) as [l|]; auto.
  f_equal. apply bool_iff. rewrite !mem_In, in_app_iff. split; auto. intros [H|]; auto.
  apply I in H. destruct (reg_lev _ _ _ H) as (a' & l' & E & _ & Ha & _). inversion E; subst. contradiction.
Qed.

Lemma incl_if : forall (b : bool) (l : list iter), incl (if b then l else []) l.
Proof. intros []; intros; [apply incl_refl | intros x []]. Qed.

(** Zeroing what is outside the region needed at [here] is zeroing what is
    absent at [here]. *)
Lemma zero_outside : forall here (e : expr V), NoDup (accesses e) ->
  zero (outside (reg i here e)) e = restrict i here e.
Proof.
  intros here. unfold restrict.
  assert (Anone : forall e : expr V, supp i here e = false -> zero (absent i here) e = None).
  { intros e H. rewrite supp_zero in H. unfold restrict in H. destruct (zero (absent i here) e); [discriminate|auto]. }
  assert (NS : forall (e : expr V) r, supp i here e = false ->
             (forall a, absent i here a = true -> outside r a = true) -> zero (outside r) e = None).
  { intros e r H O. apply zero_mono_none with (z1 := absent i here); auto. }
  induction e; simpl; intros ND; auto;
    try (apply NoDup_app_inv in ND; destruct ND as (N1 & N2 & DJ)).
  - destruct (absent i here a) eqn:A.
    + unfold outside. generalize A. unfold absent, compressed. destruct (find_level i a); [|discriminate]. auto.
    + unfold outside, acc_reg. destruct (find_level i a); auto. simpl.
      unfold iter_eqb. destruct (iter_eq_dec (Lev a n) (Lev a n)); [auto | congruence].
  - rewrite IHe; auto.
  - rewrite IHe; auto.
  - set (r := (if supp i here e1 then reg i here e1 else []) ++ (if supp i here e2 then reg i here e2 else [])).
    assert (O : forall a, absent i here a = true -> outside r a = true)
      by (intros a A; apply (absent_outside here (EAdd e1 e2) a A)).
    assert (E1 : zero (outside r) e1 = zero (absent i here) e1).
    { destruct (supp i here e1) eqn:S1.
      - rewrite <- IHe1 by auto. apply zero_ext. intros a Ha.
        eapply outside_app; eauto. apply incl_if.
      - rewrite (Anone e1 S1). apply NS; auto. }
    assert (E2 : zero (outside r) e2 = zero (absent i here) e2).
    { destruct (supp i here e2) eqn:S2.
      - rewrite <- IHe2 by auto. apply zero_ext. intros a Ha.
        eapply outside_app_r with (e1 := e1) (e2 := e2); [auto | intros X; eapply DJ; eauto | apply incl_if].
      - rewrite (Anone e2 S2). apply NS; auto. }
    rewrite E1, E2. reflexivity.
  - set (r := (if supp i here e1 then reg i here e1 else []) ++ (if supp i here e2 then reg i here e2 else [])).
    assert (O : forall a, absent i here a = true -> outside r a = true)
      by (intros a A; apply (absent_outside here (EAdd e1 e2) a A)).
    assert (E1 : zero (outside r) e1 = zero (absent i here) e1).
    { destruct (supp i here e1) eqn:S1.
      - rewrite <- IHe1 by auto. apply zero_ext. intros a Ha.
        eapply outside_app; eauto. apply incl_if.
      - rewrite (Anone e1 S1). apply NS; auto. }
    assert (E2 : zero (outside r) e2 = zero (absent i here) e2).
    { destruct (supp i here e2) eqn:S2.
      - rewrite <- IHe2 by auto. apply zero_ext. intros a Ha.
        eapply outside_app_r with (e1 := e1) (e2 := e2); [auto | intros X; eapply DJ; eauto | apply incl_if].
      - rewrite (Anone e2 S2). apply NS; auto. }
    rewrite E1, E2. reflexivity.
  - assert (E1 : zero (outside (reg i here e1 ++ reg i here e2)) e1 = zero (absent i here) e1).
    { rewrite <- IHe1 by auto. apply zero_ext. intros a Ha. eapply outside_app; eauto. apply incl_refl. }
    assert (E2 : zero (outside (reg i here e1 ++ reg i here e2)) e2 = zero (absent i here) e2).
    { rewrite <- IHe2 by auto. apply zero_ext. intros a Ha.
      eapply outside_app_r with (e1 := e1) (e2 := e2); [auto | intros X; eapply DJ; eauto | apply incl_refl]. }
    rewrite E1, E2. reflexivity.
Qed.

Lemma outside_eqset : forall r r' a, eqset r r' -> outside r a = outside r' a.
Proof.
  intros r r' a [I1 I2]. unfold outside. destruct (find_level i a); auto. f_equal.
  apply bool_iff. rewrite !mem_In. split; auto.
Qed.

(* ------------------------------------------------------------ loop lattice *)
(** What is known about the loop lattice of [e]. *)
Record loopsem (e : expr V) (L : list point) : Prop := {
  ls_wf : forall p, In p L -> wfp i (accesses e) p;
  ls_sorted : StronglySorted desc L;
  ls_dim : forall p, In p L -> has_dim p = hdim i e;
  ls_sound : forall here p, In p L -> applies here p = true ->
     supp i here e = true /\ incl (region p) (reg i here e);
  ls_complete : forall here, supp i here e = true ->
     exists p, In p L /\ applies here p = true /\ eqset (region p) (reg i here e);
  ls_distinct : ForallOrdPairs (fun p q => same_set (p_iters q) (p_iters p) = false) L }.

Lemma full_iters : forall acs p it, wfp i acs p -> In it (p_iters p) -> is_full it = is_dim it.
Proof.
  intros acs p it W H. destruct (wfp_it _ _ _ W _ H) as [->|(a & l & -> & _ & K & _)]; simpl; auto.
  rewrite K. auto.
Qed.

Lemma loopsem_of_sem : forall e L, sem i e L -> loopsem e (getLoopLattice L).
Proof.
  intros e L S. unfold getLoopLattice.
  assert (N := sem_nonempty i e L S).
  destruct (sem_top i e L S) as [RT DT].
  assert (WT := sem_wf i _ _ S _ (hd_In L N)).
  assert (HF : forall p, In p (removePointsThatLackFullIterators L) <->
                 In p L /\ has_dim p = hdim i e).
  { intros p. unfold removePointsThatLackFullIterators. rewrite filter_In, subset_incl.
    split; intros [H1 H2]; split; auto.
    - destruct (hdim i e) eqn:D.
      + apply has_dim_iff. apply H2. apply filter_In. split; [|reflexivity].
        apply has_dim_iff. auto.
      + destruct (has_dim p) eqn:Dp; auto. rewrite (sem_dim i _ _ S _ H1 Dp) in D. discriminate.
    - intros it H. apply filter_In in H. destruct H as [Hi F]. unfold lat_iters in Hi.
      rewrite (full_iters _ _ _ WT Hi) in F. destruct it; [|discriminate].
      apply has_dim_iff. rewrite H2, <- DT. apply has_dim_iff. auto. }
  assert (SF : StronglySorted desc (removePointsThatLackFullIterators L)).
  { apply SS_filter. apply (sem_sorted i _ _ S). }
  unfold removePointsWithIdenticalIterators.
  set (same := fun p q => same_set (p_iters p) (p_iters q)).
  set (F := removePointsThatLackFullIterators L) in *.
  assert (Sub : forall p, In p (keep_first same [] F) -> In p L /\ has_dim p = hdim i e).
  { intros p H. apply keep_first_sub in H. apply HF. auto. }
  constructor.
  - intros p H. apply Sub in H. eapply sem_wf; [eauto|tauto].
  - apply keep_first_sorted. auto.
  - intros p H. apply Sub in H. tauto.
  - intros here p H A. eapply sem_sound; eauto. apply Sub; auto.
  - intros here HS. destruct (sem_complete i _ _ S here HS) as (p & Hp & Ap & Rp & Dp).
    destruct (keep_first_rep same) with (l := F) (seen := @nil point) (p := p)
      as [(q & [] & _)|(q & Hq & Sq & Lq)]; auto.
    + intros; apply same_set_iff, eqset_refl.
    + apply HF. auto.
    + apply same_set_iff in Sq. destruct (Sub _ Hq) as [HqL Dq].
      assert (Aq : applies here q = true).
      { rewrite applies_iff in *. intros a l Hin. apply (Ap a l). apply Sq. auto. }
      exists q. split; auto. split; auto.
      destruct (sem_sound i _ _ S _ _ HqL Aq) as [_ I].
      assert (Wp := sem_wf i _ _ S _ Hp). assert (Wq := sem_wf i _ _ S _ HqL).
      rewrite (psize_region _ _ _ Wp), (psize_region _ _ _ Wq), Dp, Dq in Lq.
      eapply eqset_trans; [|exact Rp].
      eapply region_size_eq; eauto; [|lia].
      eapply incl_tran; [apply I | apply Rp].
  - apply keep_first_distinct.
Qed.

Section WithLoop.
Variable e : expr V.
Variable L : list point.
Hypothesis LS : loopsem e L.

Lemma find_first : forall here p, find (applies here) L = Some p ->
  In p L /\ applies here p = true /\ eqset (region p) (reg i here e).
Proof.
  intros here p F. destruct (find_some _ _ F) as [Hp Ap].
  destruct (ls_sound _ _ LS _ _ Hp Ap) as [Sp Ip].
  destruct (ls_complete _ _ LS _ Sp) as (m & Hm & Am & Rm).
  split; auto. split; auto.
  assert (LE : psize m <= psize p).
  { assert (S := ls_sorted _ _ LS). clear -S F Hm Am. induction L as [|x t IH]; simpl in *; [tauto|].
    inversion S; subst. destruct (applies here x) eqn:A.
    - inversion F; subst. destruct Hm as [->|Hm]; auto. rewrite Forall_forall in H2. auto.
    - destruct Hm as [->|Hm]; [congruence | auto]. }
  assert (Wp := ls_wf _ _ LS _ Hp). assert (Wm := ls_wf _ _ LS _ Hm).
  rewrite (psize_region _ _ _ Wp), (psize_region _ _ _ Wm), (ls_dim _ _ LS _ Hp), (ls_dim _ _ LS _ Hm) in LE.
  eapply eqset_trans; [|exact Rm]. eapply region_size_eq; eauto; [|lia].
  eapply incl_tran; [apply Ip | apply Rm].
Qed.

Lemma find_none_supp : forall here, find (applies here) L = None -> supp i here e = false.
Proof.
  intros here F. destruct (supp i here e) eqn:S; auto.
  destruct (ls_complete _ _ LS _ S) as (m & Hm & Am & _).
  rewrite (find_none _ _ F m Hm) in Am. discriminate.
Qed.

Lemma loop_nonempty : L <> [].
Proof.
  intros E. destruct (ls_complete _ _ LS _ (supp_all i e)) as (m & Hm & _). rewrite E in Hm. destruct Hm.
Qed.

Lemma loop_hd : find (applies (fun _ => true)) L = Some (hd pt0 L).
Proof.
  assert (N := loop_nonempty). destruct L as [|p t]; [congruence|]. simpl.
  assert (applies (fun _ => true) p = true) as -> by (apply applies_iff; auto). auto.
Qed.

Lemma top_region : eqset (region (hd pt0 L)) (reg i (fun _ => true) e).
Proof. apply (find_first _ _ loop_hd). Qed.

Lemma exhausted_In : forall M p it, In it (exhausted M p) <->
  In it (lat_iters M ++ lat_locs M) /\ it <> Dim /\ ~ In it (region p).
Proof.
  intros. unfold exhausted. rewrite !filter_In, !negb_true_iff, mem_false.
  destruct it; simpl; intuition congruence.
Qed.

Lemma region_hd : forall M it, it <> Dim -> (In it (lat_iters M ++ lat_locs M) <-> In it (region (hd pt0 M))).
Proof. intros. rewrite region_In, in_app_iff. unfold lat_iters, lat_locs. tauto. Qed.

(** The accesses exhausted at a point are those outside its region. *)
Lemma exhausted_outside : forall p a, In p L -> In a (accesses e) ->
  exhaustedAccess L p a = outside (region p) a.
Proof.
  intros p a Hp Ha. apply bool_iff. unfold exhaustedAccess, outside. rewrite existsb_exists. split.
  - intros ([|b l] & Hin & E); [discriminate|]. unfold access_eqb in E.
    destruct (access_eq_dec a b); [subst b|discriminate].
    apply exhausted_In in Hin. destruct Hin as (H1 & H2 & H3).
    apply region_hd in H1; auto. apply top_region in H1.
    destruct (reg_lev _ _ _ H1) as (a' & l' & E' & F & _). inversion E'; subst. rewrite F.
    apply negb_true_iff, mem_false. auto.
  - destruct (find_level i a) as [l|] eqn:F; [|discriminate].
    intros H. apply negb_true_iff, mem_false in H.
    exists (Lev a l). split; [|unfold access_eqb; destruct (access_eq_dec a a); congruence].
    apply exhausted_In. split; [|split]; auto; [|congruence].
    apply region_hd; [congruence|]. apply top_region. apply reg_all; auto.
Qed.

Hypothesis LIN : NoDup (accesses e).

Theorem case_exact : forall here,
  match find (applies here) L with
  | Some p => zero (exhaustedAccess L p) e = restrict i here e /\ restrict i here e <> None
  | None => restrict i here e = None
  end.
Proof.
  intros here. destruct (find (applies here) L) as [p|] eqn:F.
  - destruct (find_first _ _ F) as (Hp & Ap & Rp). split.
    + rewrite <- (zero_outside here e LIN). apply zero_ext. intros a Ha.
      rewrite exhausted_outside by auto. apply outside_eqset. auto.
    + destruct (ls_sound _ _ LS _ _ Hp Ap) as [S _]. rewrite supp_zero in S.
      destruct (restrict i here e); congruence.
  - apply find_none_supp in F. rewrite supp_zero in F. destruct (restrict i here e); congruence.
Qed.

(* ------------------------------------------------ the loop of one point *)
(** [iters_here p]: the presence pattern in which exactly the sparse iterators
    of [p] are present. *)
Definition only (p : point) (a : access) : bool :=
  existsb (fun it => match it with Lev b _ => access_eqb a b | Dim => false end) (p_iters p).

Lemma only_iff : forall p a, only p a = true <-> exists l, In (Lev a l) (p_iters p).
Proof.
  intros. unfold only. rewrite existsb_exists. split.
  - intros ([|b l] & H & E); [discriminate|]. unfold access_eqb in E.
    destruct (access_eq_dec a b); [subst|discriminate]. eauto.
  - intros (l & H). exists (Lev a l). split; auto. unfold access_eqb. destruct (access_eq_dec a a); congruence.
Qed.

Lemma applies_only : forall p, applies (only p) p = true.
Proof. intros. apply applies_iff. intros a l H. apply only_iff. eauto. Qed.

Lemma iters_of_region : forall p q, In p L -> In q L ->
  incl (region p) (region q) -> incl (p_iters p) (p_iters q).
Proof.
  intros p q Hp Hq I it H.
  destruct it as [|a l].
  - apply has_dim_iff. rewrite (ls_dim _ _ LS _ Hq), <- (ls_dim _ _ LS _ Hp). apply has_dim_iff. auto.
  - assert (Wp := ls_wf _ _ LS _ Hp). assert (Wq := ls_wf _ _ LS _ Hq).
    destruct (wfp_it _ _ _ Wp _ H) as [|(a' & l' & E & _ & K & _)]; [discriminate|]. inversion E; subst.
    apply (region_comp _ _ _ _ _ Wq K). apply I. apply (region_comp _ _ _ _ _ Wp K). auto.
Qed.

Lemma distinct_iters : forall p q, In p L -> In q L -> eqset (p_iters p) (p_iters q) -> p = q.
Proof.
  intros p q Hp Hq E. assert (D := ls_distinct _ _ LS).
  destruct (ForallOrdPairs_In D p q Hp Hq) as [|[X|X]]; auto.
  - apply eqset_sym in E. apply same_set_iff in E. congruence.
  - apply same_set_iff in E. congruence.
Qed.

(** A point is the first one that applies when exactly its own iterators are present. *)
Lemma find_only : forall p, In p L -> find (applies (only p)) L = Some p.
Proof.
  intros p Hp. destruct (find (applies (only p)) L) as [q|] eqn:F.
  - destruct (find_first _ _ F) as (Hq & Aq & Rq). f_equal.
    destruct (ls_sound _ _ LS _ _ Hp (applies_only p)) as [_ I].
    symmetry. apply distinct_iters; auto. split.
    + apply iters_of_region; auto. eapply incl_tran; [apply I | apply Rq].
    + intros it H. destruct it as [|a l].
      * apply has_dim_iff. rewrite (ls_dim _ _ LS _ Hp), <- (ls_dim _ _ LS _ Hq). apply has_dim_iff. auto.
      * rewrite applies_iff in Aq. specialize (Aq a l H). apply only_iff in Aq. destruct Aq as (l' & H').
        assert (Wp := ls_wf _ _ LS _ Hp). assert (Wq := ls_wf _ _ LS _ Hq).
        destruct (wfp_it _ _ _ Wq _ H) as [|(a1 & l1 & E1 & F1 & _)]; [discriminate|].
        destruct (wfp_it _ _ _ Wp _ H') as [|(a2 & l2 & E2 & F2 & _)]; [discriminate|].
        inversion E1; inversion E2; subst. congruence.
  - assert (X := applies_only p).
    rewrite (find_none _ _ F p Hp) in X. discriminate.
Qed.

Lemma find_filter : forall (f g : point -> bool) M,
  (forall p, In p M -> f p = true -> g p = true) -> find f (filter g M) = find f M.
Proof.
  induction M; simpl; intros H; auto.
  destruct (f a) eqn:Fa.
  - rewrite (H a) by auto. simpl. rewrite Fa. auto.
  - destruct (g a); simpl; rewrite ?Fa; auto.
Qed.

Lemma sub_first : forall lp, In lp L -> hd pt0 (subLattice L lp) = lp.
Proof.
  intros lp H. unfold subLattice.
  assert (F : find (applies (only lp)) (filter (fun lq => subset (p_iters lq) (p_iters lp)) L) = Some lp).
  { rewrite find_filter; [apply find_only; auto|].
    intros p Hp A. apply subset_incl. intros it Hit. destruct it as [|a l].
    + apply has_dim_iff. rewrite (ls_dim _ _ LS _ H), <- (ls_dim _ _ LS _ Hp). apply has_dim_iff. auto.
    + rewrite applies_iff in A. specialize (A a l Hit). apply only_iff in A. destruct A as (l' & H').
      destruct (wfp_it _ _ _ (ls_wf _ _ LS _ Hp) _ Hit) as [|(a1 & l1 & E1 & F1 & _)]; [discriminate|].
      destruct (wfp_it _ _ _ (ls_wf _ _ LS _ H) _ H') as [|(a2 & l2 & E2 & F2 & _)]; [discriminate|].
      inversion E1; inversion E2; subst. congruence. }
  assert (A : forall q, In q (filter (fun lq => subset (p_iters lq) (p_iters lp)) L) -> applies (only lp) q = true).
  { intros q Hq. apply filter_In in Hq. destruct Hq as [_ Sq]. apply subset_incl in Sq.
    apply applies_iff. intros a l Hin. apply only_iff. exists l. apply Sq. auto. }
  destruct (filter (fun lq => subset (p_iters lq) (p_iters lp)) L) as [|x t]; [discriminate|].
  simpl in F. rewrite (A x) in F by (left; auto). inversion F. reflexivity.
Qed.

(** The loop of point [lp] runs while the operands [live] have coordinates
    left, [lp] being the first point that applies to [live].  For the operands
    present at a coordinate, the cases of its sub-lattice agree with those of
    the whole lattice. *)
Theorem sub_cases : forall live here lp,
  find (applies live) L = Some lp ->
  (forall a, here a = true -> live a = true) ->
  find (applies here) (subLattice L lp) = find (applies here) L.
Proof.
  intros live here lp F I. unfold subLattice. apply find_filter. intros p Hp A.
  destruct (find_first _ _ F) as (Hl & Al & Rl).
  apply subset_incl. apply iters_of_region; auto.
  assert (A' : applies live p = true).
  { rewrite applies_iff in *. intros a l H. apply I. eapply A; eauto. }
  destruct (ls_sound _ _ LS _ _ Hp A') as [_ Ip]. eapply incl_tran; [apply Ip | apply Rl].
Qed.

(** Zeroing for the loop point and then for the case point. *)
Theorem sub_zero : forall live here lp p,
  find (applies live) L = Some lp ->
  (forall a, here a = true -> live a = true) ->
  find (applies here) (subLattice L lp) = Some p ->
  ozero (exhaustedAccess (subLattice L lp) p) (zero (exhaustedAccess L lp) e) = restrict i here e.
Proof.
  intros live here lp p F I Fp. rewrite (sub_cases _ _ _ F I) in Fp.
  destruct (find_first _ _ F) as (Hl & Al & Rl).
  destruct (find_first _ _ Fp) as (Hp & Ap & Rp).
  rewrite zero_zero, <- (zero_outside here e LIN). apply zero_ext. intros a Ha.
  rewrite exhausted_outside by auto. rewrite <- (outside_eqset _ _ a Rp).
  assert (A' : applies live p = true).
  { rewrite applies_iff in *. intros b l H. apply I. eapply Ap; eauto. }
  destruct (ls_sound _ _ LS _ _ Hp A') as [_ Ip].
  assert (Ipl : incl (region p) (region lp)) by (eapply incl_tran; [apply Ip | apply Rl]).
  assert (E2 : exhaustedAccess (subLattice L lp) p a =
               match find_level i a with
               | Some l => mem (Lev a l) (region lp) && negb (mem (Lev a l) (region p)) | None => false end).
  { apply bool_iff. unfold exhaustedAccess. rewrite existsb_exists. split.
    - intros ([|b l] & Hin & E); [discriminate|]. unfold access_eqb in E.
      destruct (access_eq_dec a b); [subst b|discriminate].
      apply exhausted_In in Hin. destruct Hin as (H1 & H2 & H3).
      apply region_hd in H1; auto. rewrite (sub_first _ Hl) in H1.
      destruct (region_lev _ _ _ _ (ls_wf _ _ LS _ Hl) H1) as (a' & l' & E' & Fa & _).
      inversion E'; subst. rewrite Fa. apply andb_true_iff. rewrite negb_true_iff, mem_false, mem_In. auto.
    - destruct (find_level i a) as [l|] eqn:Fa; [|discriminate].
      rewrite andb_true_iff, negb_true_iff, mem_false, mem_In. intros [H1 H2].
      exists (Lev a l). split; [|unfold access_eqb; destruct (access_eq_dec a a); congruence].
      apply exhausted_In. split; [|split]; auto; [|congruence].
      apply region_hd; [congruence|]. rewrite (sub_first _ Hl). auto. }
  rewrite E2. unfold outside. destruct (find_level i a) as [l|]; auto.
  destruct (mem (Lev a l) (region lp)) eqn:M1, (mem (Lev a l) (region p)) eqn:M2; auto.
  apply mem_In in M2. apply Ipl in M2. apply mem_In in M2. congruence.
Qed.

(** The sub-lattice of the loop lattice is its own loop lattice. *)
Lemma getLoopLattice_sub : forall lp, In lp L ->
  getLoopLattice (subLattice L lp) = subLattice L lp.
Proof.
  intros lp Hl. unfold getLoopLattice.
  assert (Sub : forall p, In p (subLattice L lp) -> In p L) by (intros p H; apply filter_In in H; tauto).
  assert (E : removePointsThatLackFullIterators (subLattice L lp) = subLattice L lp).
  { unfold removePointsThatLackFullIterators. apply filter_all.
    intros p Hp. apply subset_incl. intros it Hit. apply filter_In in Hit. destruct Hit as [Hi Fi].
    unfold lat_iters in Hi. rewrite (sub_first _ Hl) in Hi.
    rewrite (full_iters _ _ _ (ls_wf _ _ LS _ Hl) Hi) in Fi. destruct it; [|discriminate].
    apply has_dim_iff. rewrite (ls_dim _ _ LS _ (Sub _ Hp)), <- (ls_dim _ _ LS _ Hl). apply has_dim_iff. auto. }
  rewrite E. unfold removePointsWithIdenticalIterators.
  assert (D : ForallOrdPairs (fun p q => same_set (p_iters q) (p_iters p) = false) (subLattice L lp)).
  { apply FOP_filter. apply (ls_distinct _ _ LS). }
  assert (G : forall M seen, ForallOrdPairs (fun p q => same_set (p_iters q) (p_iters p) = false) M ->
     (forall p s, In p M -> In s seen -> same_set (p_iters p) (p_iters s) = false) ->
     keep_first (fun p q => same_set (p_iters p) (p_iters q)) seen M = M).
  { induction M; simpl; intros seen DM HS; auto. inversion DM; subst.
    destruct (existsb (fun q => same_set (p_iters a) (p_iters q)) seen) eqn:X.
    - apply existsb_exists in X. destruct X as (s & Hs & X). rewrite (HS a s) in X by auto. discriminate.
    - f_equal. apply IHM; auto. intros p s Hp [<-|Hs]; auto. rewrite Forall_forall in H1. apply H1; auto. }
  apply G; auto. intros p s _ [].
Qed.

End WithLoop.

(** [exact]: at a coordinate where at least one of the iterators is present
    (which the generated code visits), some case applies. *)
Theorem exact_covers : forall (L : list point) here acs,
  (forall p, In p L -> wfp i acs p) ->
  exact L = true ->
  (exists it, In it (lat_iters L) /\ match it with Dim => True | Lev a _ => here a = true end) ->
  find (applies here) L <> None.
Proof.
  intros L here acs W E (it & Hit & Pit) F.
  unfold exact in E. apply orb_true_iff in E. destruct E as [E|E].
  - apply existsb_exists in E. destruct E as (p & Hp & A). rewrite forallb_forall in A.
    assert (applies here p = true); [|rewrite (find_none _ _ F p Hp) in H; discriminate].
    apply applies_iff. intros a l H. specialize (A _ H). simpl in A.
    destruct (wfp_it _ _ _ (W p Hp) _ H) as [|(a' & l' & E' & _ & K & _)]; [discriminate|].
    inversion E'; subst. rewrite K in A. discriminate.
  - apply subset_incl in E. specialize (E _ Hit). apply in_flat_map in E. destruct E as (p & Hp & E).
    destruct (p_iters p) as [|x [|y t]] eqn:X; simpl in E; try tauto. destruct E as [->|[]].
    assert (applies here p = true); [|rewrite (find_none _ _ F p Hp) in H; discriminate].
    apply applies_iff. rewrite X. intros a l [->|[]]. auto.
Qed.

End Loop.
