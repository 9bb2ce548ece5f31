(** Proofs about the lattices of iteration algebras. *)
From Coq Require Import List Arith Lia Bool Permutation Sorted.
Import ListNotations.
From Verif Require Import Checks ChecksSpec.
From Verif Require Import Storage IndexExpr Lattice LatticeSpec LatticeProofs AlgLattice AlgLatticeSpec.

(* ------------------------------------------------------------ okeep_first *)
Notation odesc := (fun p q : opoint => opsize q <= opsize p).

Lemma okeep_first_sub : forall same l seen p, In p (okeep_first same seen l) -> In p l.
Proof.
  induction l; simpl; intros; auto.
  destruct (existsb (same a) seen); [right; eauto|].
  destruct H; [left; auto | right; eauto].
Qed.

Lemma okeep_first_sorted : forall same l seen,
  StronglySorted odesc l -> StronglySorted odesc (okeep_first same seen l).
Proof.
  induction l; simpl; intros; auto. inversion H; subst.
  destruct (existsb (same a) seen); auto. constructor; auto.
  rewrite Forall_forall in *. intros q Hq. apply H3. eapply okeep_first_sub; eauto.
Qed.

Lemma okeep_first_rep : forall same, (forall p, same p p = true) ->
  forall l seen p, StronglySorted odesc l -> In p l ->
  (exists q, In q seen /\ same p q = true) \/
  (exists q, In q (okeep_first same seen l) /\ same p q = true /\ opsize p <= opsize q).
Proof.
  intros same R. induction l; simpl; intros seen p S Hp; [tauto|].
  inversion S; subst. rewrite Forall_forall in H2.
  destruct (existsb (same a) seen) eqn:E.
  - destruct Hp as [->|Hp]; auto. left. apply existsb_exists in E. exact E.
  - destruct Hp as [->|Hp].
    + right. exists p. split; [left; auto|]. auto.
    + destruct (IHl (a :: seen) p H1 Hp) as [(q & [->|Hq] & Sq)|(q & Hq & Sq & L)].
      * right. exists q. split; [left; auto|]. split; auto.
      * left; eauto.
      * right. exists q. split; [right|]; auto.
Qed.

Lemma sorted_map_pt : forall (f : opoint -> opoint) l, (forall p, o_pt (f p) = o_pt p) ->
  StronglySorted odesc l -> StronglySorted odesc (map f l).
Proof.
  intros f l E S. induction S; simpl; constructor; auto.
  rewrite Forall_forall in *. intros q Hq. apply in_map_iff in Hq. destruct Hq as (r & <- & Hr).
  unfold opsize in *. rewrite !E. auto.
Qed.

(* ------------------------------------------------------------ semantics *)
Section Alg.
Variable i : ivar.

Fixpoint sup (m : access -> bool) (x : alg access) : bool :=
  match x with
  | Region a => m a
  | Complement _ => true
  | Intersect x y => sup m x && sup m y
  | Union x y => sup m x || sup m y
  end.

Fixpoint rg (m : access -> bool) (x : alg access) : list iter :=
  match x with
  | Region a => if m a then acc_reg i a else []
  | Complement x => rg m x
  | Intersect x y => rg m x ++ rg m y
  | Union x y => (if sup m x then rg m x else []) ++ (if sup m y then rg m y else [])
  end.

Fixpoint topd (x : alg access) : bool :=
  match x with
  | Region a => dense_at i a
  | Complement _ => true
  | Intersect x y => topd x && topd y
  | Union x y => topd x || topd y
  end.
Fixpoint hd_ (m : access -> bool) (x : alg access) : bool :=
  match x with
  | Region a => dense_at i a
  | Complement _ => true
  | Intersect x y => hd_ m x && topd y
  | Union x y => (sup m x && hd_ m x) || (sup m y && hd_ m y)
  end.

Fixpoint cov (m : access -> bool) (x : alg access) : bool :=
  match x with
  | Region a => m a
  | Complement x => negb (cov m x)
  | Intersect x y => cov m x && cov m y
  | Union x y => cov m x || cov m y
  end.

Lemma cov_inside : forall m x, cov m x = true <-> in_space m x.
Proof.
  intros m. unfold in_space. induction x; simpl.
  - tauto.
  - rewrite negb_true_iff. rewrite <- IHx. destruct (cov m x); intuition congruence.
  - rewrite andb_true_iff. tauto.
  - rewrite orb_true_iff. tauto.
Qed.

Definition inr (R : list iter) (a : access) : bool :=
  existsb (fun it => match it with Lev b _ => access_eqb a b | Dim => false end) R.

Lemma access_eqb_iff : forall a b, access_eqb a b = true <-> a = b.
Proof. intros. unfold access_eqb. destruct (access_eq_dec a b); intuition congruence. Qed.

Lemma inr_iff : forall R a, inr R a = true <-> exists l, In (Lev a l) R.
Proof.
  intros. unfold inr. rewrite existsb_exists. split.
  - intros ([|b l] & H & E); [discriminate|]. apply access_eqb_iff in E. subst. eauto.
  - intros (l & H). exists (Lev a l). split; auto. apply access_eqb_iff. auto.
Qed.

Lemma inr_eqset : forall R R' a, eqset R R' -> inr R a = inr R' a.
Proof.
  intros R R' a [A B]. apply bool_iff. rewrite !inr_iff. split; intros (l & H); exists l; auto.
Qed.

Lemma sup_ext : forall m m' x, (forall a, In a (regions x) -> m a = m' a) -> sup m x = sup m' x.
Proof.
  induction x; simpl; intros H; auto; rewrite IHx1, IHx2; auto; intros; apply H, in_app_iff; auto.
Qed.
Lemma cov_ext : forall m m' x, (forall a, In a (regions x) -> m a = m' a) -> cov m x = cov m' x.
Proof.
  induction x; simpl; intros H; auto; [rewrite IHx; auto| |];
    rewrite IHx1, IHx2; auto; intros; apply H, in_app_iff; auto.
Qed.

Lemma sup_mono : forall m m' x, (forall a, In a (regions x) -> m a = true -> m' a = true) ->
  sup m x = true -> sup m' x = true.
Proof.
  induction x; simpl; intros H; auto; rewrite ?andb_true_iff, ?orb_true_iff.
  - intros []; split; [apply IHx1|apply IHx2]; auto; intros; apply H; auto; apply in_app_iff; auto.
  - intros [K|K]; [left; apply IHx1|right; apply IHx2]; auto; intros; apply H; auto; apply in_app_iff; auto.
Qed.

Lemma cov_sup : forall m x, complements_at_regions x -> cov m x = true -> sup m x = true.
Proof.
  induction x; simpl; auto; intros [H1 H2]; rewrite ?andb_true_iff, ?orb_true_iff; tauto.
Qed.

Lemma sup_all : forall x, sup (fun _ => true) x = true.
Proof. induction x; simpl; auto; [rewrite IHx1, IHx2 | rewrite IHx1]; auto. Qed.

(** Where no argument is present nothing is omitted. *)
Lemma sup_none : forall m x, complements_at_regions x -> (forall a, In a (regions x) -> m a = false) ->
  cov m x = sup m x.
Proof.
  induction x; simpl; intros N H; auto.
  - destruct x; simpl in *; try tauto. rewrite H; auto.
  - rewrite IHx1, IHx2; try tauto; intros; apply H, in_app_iff; auto.
  - rewrite IHx1, IHx2; try tauto; intros; apply H, in_app_iff; auto.
Qed.

Lemma acc_reg_In : forall a it, In it (acc_reg i a) <-> exists l, it = Lev a l /\ find_level i a = Some l.
Proof.
  intros. unfold acc_reg. destruct (find_level i a); simpl; split.
  - intros [<-|[]]; eauto.
  - intros (l & -> & E). inversion E; auto.
  - tauto.
  - intros (l & _ & E). discriminate.
Qed.

Lemma rg_In : forall m x it, In it (rg m x) ->
  exists a l, it = Lev a l /\ find_level i a = Some l /\ In a (regions x) /\ m a = true.
Proof.
  induction x; simpl; intros it H.
  - destruct (m r) eqn:M; [|destruct H]. apply acc_reg_In in H. destruct H as (l & -> & F). eauto 8.
  - auto.
  - apply in_app_iff in H. destruct H as [H|H]; [apply IHx1 in H|apply IHx2 in H];
      destruct H as (a & l & -> & F & I & M); exists a, l; rewrite in_app_iff; auto.
  - apply in_app_iff in H. destruct H as [H|H].
    + destruct (sup m x1); [|destruct H]. apply IHx1 in H.
      destruct H as (a & l & -> & F & I & M); exists a, l; rewrite in_app_iff; auto.
    + destruct (sup m x2); [|destruct H]. apply IHx2 in H.
      destruct H as (a & l & -> & F & I & M); exists a, l; rewrite in_app_iff; auto.
Qed.

Lemma rg_mono : forall m m' x, (forall a, In a (regions x) -> m a = true -> m' a = true) ->
  incl (rg m x) (rg m' x).
Proof.
  induction x; simpl; intros H.
  - destruct (m r) eqn:M; [rewrite (H r); auto; apply incl_refl | intros ? []].
  - auto.
  - apply incl_app; [apply incl_appl, IHx1|apply incl_appr, IHx2]; intros; apply H; auto; apply in_app_iff; auto.
  - apply incl_app.
    + apply incl_appl. destruct (sup m x1) eqn:E; [|intros ? []].
      rewrite (sup_mono m m' x1); auto; [apply IHx1|]; intros; apply H; auto; apply in_app_iff; auto.
    + apply incl_appr. destruct (sup m x2) eqn:E; [|intros ? []].
      rewrite (sup_mono m m' x2); auto; [apply IHx2|]; intros; apply H; auto; apply in_app_iff; auto.
Qed.

Lemma hd_mono : forall m m' x, (forall a, In a (regions x) -> m a = true -> m' a = true) ->
  hd_ m x = true -> hd_ m' x = true.
Proof.
  induction x; simpl; intros H; auto; rewrite ?andb_true_iff, ?orb_true_iff, ?andb_true_iff.
  - intros []; split; auto. apply IHx1; auto. intros; apply H; auto; apply in_app_iff; auto.
  - intros [[A B]|[A B]]; [left|right]; split.
    + apply (sup_mono m); auto. intros; apply H; auto; apply in_app_iff; auto.
    + apply IHx1; auto. intros; apply H; auto; apply in_app_iff; auto.
    + apply (sup_mono m); auto. intros; apply H; auto; apply in_app_iff; auto.
    + apply IHx2; auto. intros; apply H; auto; apply in_app_iff; auto.
Qed.

Lemma hd_all : forall x, hd_ (fun _ => true) x = topd x.
Proof.
  induction x; simpl; auto; rewrite IHx1; auto. rewrite IHx2, !sup_all. auto.
Qed.

(** The arguments of the region that is selected decide as all that are
    present do. *)
Lemma rg_restrict : forall m x, complements_at_regions x ->
  (forall a, In a (regions x) -> find_level i a <> None) -> NoDup (regions x) ->
  sup m x = true -> cov (inr (rg m x)) x = cov m x.
Proof.
  intros m x. revert m.
  assert (K : forall m x, (forall a, inr (rg m x) a = true -> In a (regions x) /\ m a = true)).
  { intros m y a H. apply inr_iff in H. destruct H as (l & H). apply rg_In in H.
    destruct H as (b & l' & E & _ & I & M). inversion E; subst. auto. }
  assert (L : forall a R1 R2, inr (R1 ++ R2) a = inr R1 a || inr R2 a)
    by (intros; unfold inr; apply existsb_app).
  induction x; simpl; intros m N F ND S.
  - rewrite S. apply inr_iff.
    destruct (find_level i r) eqn:E; [|destruct (F r); auto].
    exists n. apply acc_reg_In. eauto.
  - destruct x; simpl in *; try tauto. f_equal.
    destruct (m r) eqn:M.
    + apply inr_iff. destruct (find_level i r) eqn:E; [|destruct (F r); auto].
      exists n. apply acc_reg_In. eauto.
    + reflexivity.
  - apply NoDup_app_inv in ND. destruct ND as (N1 & N2 & DJ). apply andb_true_iff in S. destruct S as [S1 S2].
    f_equal.
    + rewrite <- (IHx1 m); try tauto; [|intros; apply F, in_app_iff; auto].
      apply cov_ext. intros a Ha. rewrite L.
      destruct (inr (rg m x2) a) eqn:E; [|apply orb_false_r].
      apply K in E. destruct (DJ a); tauto.
    + rewrite <- (IHx2 m); try tauto; [|intros; apply F, in_app_iff; auto].
      apply cov_ext. intros a Ha. rewrite L.
      destruct (inr (rg m x1) a) eqn:E; [|auto].
      apply K in E. destruct (DJ a); tauto.
  - apply NoDup_app_inv in ND. destruct ND as (N1 & N2 & DJ).
    assert (A : forall y z, (forall a, In a (regions y) -> ~ In a (regions z)) -> complements_at_regions y ->
              (sup m y = true -> cov (inr (rg m y)) y = cov m y) ->
              forall R, (forall a, inr R a = true -> In a (regions z)) ->
              cov (inr ((if sup m y then rg m y else []) ++ R)) y = cov m y /\
              cov (inr (R ++ (if sup m y then rg m y else []))) y = cov m y).
    { intros y z D CN IH R HR.
      assert (E : forall a, In a (regions y) -> inr R a = false).
      { intros a Ha. destruct (inr R a) eqn:X; auto. destruct (D a Ha); auto. }
      destruct (sup m y) eqn:SY.
      - rewrite <- (IH eq_refl). split; apply cov_ext; intros a Ha; rewrite L, (E a Ha); auto using orb_false_r.
      - assert (C0 : cov m y = false).
        { destruct (cov m y) eqn:C; auto. apply cov_sup in C; congruence. }
        rewrite C0. assert (G : forall f, (forall a, In a (regions y) -> f a = false) -> cov f y = false).
        { intros f Hf. destruct (cov f y) eqn:C; auto. apply cov_sup in C; auto.
          rewrite <- SY. symmetry. apply (sup_mono f); auto. intros a Ha. rewrite Hf; auto. discriminate. }
        split; apply G; intros a Ha; rewrite L, (E a Ha); auto. }
    f_equal.
    + apply (A x1 x2); try tauto.
      * intros. apply IHx1; try tauto. intros; apply F, in_app_iff; auto.
      * intros a Ha. destruct (sup m x2); [apply K in Ha; tauto | discriminate].
    + apply (A x2 x1); try tauto.
      * intros a H1 H2. apply (DJ a); auto.
      * intros. apply IHx2; try tauto. intros; apply F, in_app_iff; auto.
      * intros a Ha. destruct (sup m x1); [apply K in Ha; tauto | discriminate].
Qed.

(* ------------------------------------------------------------ lattices *)
Definition rapp (m : access -> bool) (p : point) : Prop :=
  forall a l, In (Lev a l) (region p) -> m a = true.

Record osem (x : alg access) (L : list opoint) : Prop := {
  os_wf : forall p, In p L -> wfp i (regions x) (o_pt p);
  os_sorted : StronglySorted odesc L;
  os_sound : forall m p, In p L -> rapp m (o_pt p) ->
     sup m x = true /\ incl (oregion p) (rg m x) /\ (has_dim (o_pt p) = true -> hd_ m x = true);
  os_complete : forall m, sup m x = true ->
     exists p, In p L /\ eqset (oregion p) (rg m x) /\ has_dim (o_pt p) = hd_ m x;
  os_flag : forall p, In p L -> o_omit p = negb (cov (inr (oregion p)) x) }.

Record opre (x : alg access) (L : list opoint) : Prop := {
  op_wf : forall p, In p L -> wfp i (regions x) (o_pt p);
  op_sound : forall m p, In p L -> rapp m (o_pt p) ->
     sup m x = true /\ incl (oregion p) (rg m x) /\ (has_dim (o_pt p) = true -> hd_ m x = true);
  op_complete : forall m, sup m x = true ->
     exists p, In p L /\ eqset (oregion p) (rg m x) /\ has_dim (o_pt p) = hd_ m x }.

Lemma rapp_inr : forall p, rapp (inr (region p)) p.
Proof. intros p a l H. apply inr_iff. eauto. Qed.

Lemma rapp_eqset : forall m p q, eqset (region p) (region q) -> rapp m p -> rapp m q.
Proof. intros m p q [_ E] H a l Hin. eapply H. eauto. Qed.

Lemma rapp_rg : forall m x p, incl (region p) (rg m x) -> rapp m p.
Proof.
  intros m x p I a l H. apply I, rg_In in H. destruct H as (b & k & E & _ & _ & M). inversion E; subst. auto.
Qed.

Lemma has_region_iff : forall o l r, has_region o l r = true <->
  exists p, In p l /\ o_omit p = o /\ eqset (oregion p) r.
Proof.
  intros. unfold has_region. rewrite existsb_exists. split; intros (p & H & E); exists p; split; auto.
  - apply andb_true_iff in E. destruct E as [E1 E2]. apply eqb_prop in E1. apply same_set_iff in E2. auto.
  - destruct E as [E1 E2]. apply andb_true_iff. split; [rewrite E1; apply eqb_reflx | apply same_set_iff; auto].
Qed.

Lemma osem_dedup : forall x L b, StronglySorted odesc L -> opre x L ->
  (forall p, In p L -> o_omit p = false -> cov (inr (oregion p)) x = true) ->
  (forall p, In p L -> o_omit p = true -> cov (inr (oregion p)) x = false \/
      (b = false /\ exists q, In q L /\ eqset (oregion q) (oregion p) /\ o_omit q = false)) ->
  osem x (oremoveDuplicated b L).
Proof.
  intros x L b SS PR F1 F2. unfold oremoveDuplicated.
  set (same := fun p q => same_set (oregion p) (oregion q)).
  match goal with |- osem _ (map ?g _) => set (fix_ := g) end.
  assert (FP : forall p, o_pt (fix_ p) = o_pt p).
  { intros p. unfold fix_. destruct (_ && _); auto. }
  assert (FR : forall p, oregion (fix_ p) = oregion p) by (intros; unfold oregion; rewrite FP; auto).
  assert (Sub : forall p, In p (map fix_ (okeep_first same [] L)) -> exists q, In q L /\ p = fix_ q).
  { intros p H. apply in_map_iff in H. destruct H as (q & <- & H). apply okeep_first_sub in H. eauto. }
  constructor.
  - intros p H. destruct (Sub p H) as (q & Hq & ->). rewrite FP. apply (op_wf _ _ PR). auto.
  - apply sorted_map_pt; auto. apply okeep_first_sorted. auto.
  - intros m p H R. destruct (Sub p H) as (q & Hq & ->). rewrite FP in *. rewrite FR.
    apply (op_sound _ _ PR); auto.
  - intros m S. destruct (op_complete _ _ PR m S) as (p & Hp & Ep & Dp).
    destruct (okeep_first_rep same) with (l := L) (seen := @nil opoint) (p := p)
      as [(q & [] & _)|(q & Hq & Sq & Lq)]; auto.
    + intros. apply same_set_iff. apply eqset_refl.
    + apply same_set_iff in Sq. assert (HqL := okeep_first_sub _ _ _ _ Hq).
      assert (Wp := op_wf _ _ PR p Hp). assert (Wq := op_wf _ _ PR q HqL).
      exists (fix_ q). rewrite FR, FP. split; [apply List.in_map; auto|]. split.
      * eapply eqset_trans; [apply eqset_sym|]; eauto.
      * unfold opsize in Lq. rewrite (psize_region _ _ _ Wp), (psize_region _ _ _ Wq) in Lq.
        assert (length (region (o_pt q)) <= length (region (o_pt p))).
        { apply NoDup_incl_length; [eapply region_NoDup; eauto | apply Sq]. }
        destruct (has_dim (o_pt q)) eqn:Dq.
        -- symmetry. eapply (op_sound _ _ PR m q HqL); auto. apply (rapp_rg m x).
           eapply incl_tran; [apply Sq | apply Ep].
        -- destruct (has_dim (o_pt p)) eqn:Dp'; [lia | auto].
  - intros p H. destruct (Sub p H) as (q & Hq & ->). rewrite FR. unfold fix_.
    destruct (has_region false L (oregion q) && has_region true L (oregion q)) eqn:HR.
    + apply andb_true_iff in HR. destruct HR as [HR1 HR2].
      apply has_region_iff in HR1. destruct HR1 as (r & Hr & Or & Er).
      assert (C : cov (inr (oregion q)) x = true).
      { rewrite <- (F1 r Hr Or). apply cov_ext. intros. symmetry. apply inr_eqset. auto. }
      rewrite C. simpl. destruct b; auto. exfalso.
      apply has_region_iff in HR2. destruct HR2 as (s & Hs & Os & Es).
      destruct (F2 s Hs Os) as [C'|[E _]]; [|discriminate].
      rewrite (cov_ext _ (inr (oregion q))) in C'; [congruence|]. intros. apply inr_eqset. auto.
    + destruct (o_omit q) eqn:Oq.
      * destruct (F2 q Hq Oq) as [->|(_ & r & Hr & Er & Or)]; auto. exfalso.
        apply andb_false_iff in HR. destruct HR as [HR|HR].
        -- assert (X : has_region false L (oregion q) = true) by (apply has_region_iff; eauto). congruence.
        -- assert (X : has_region true L (oregion q) = true)
             by (apply has_region_iff; exists q; split; [auto|split; [auto|apply eqset_refl]]). congruence.
      * rewrite (F1 q Hq Oq). auto.
Qed.

(* ------------------------------------------------------------ building *)
Variable srt : list opoint -> list opoint.
Hypothesis SRT : admissible_osort srt.

Lemma osrt_In : forall l p, In p (srt l) <-> In p l.
Proof.
  intros l p. destruct (SRT l) as [P _]. split; apply Permutation_in; auto. apply Permutation_sym; auto.
Qed.
Lemma osrt_out : forall l p, In p (srt l) -> In p l.
Proof. intros. apply osrt_In. auto. Qed.
Lemma osrt_intro : forall l p, In p l -> In p (srt l).
Proof. intros. apply osrt_In. auto. Qed.
Lemma osrt_ne : forall l, l <> [] -> srt l <> [].
Proof.
  intros l H E. destruct (SRT l) as [P _]. rewrite E in P. apply Permutation_sym, Permutation_nil in P. auto.
Qed.
Lemma ohd_In : forall (L : list opoint), L <> [] -> In (hd opt0 L) L.
Proof. destruct L; simpl; [congruence | auto]. Qed.

Lemma osem_nonempty : forall x L, osem x L -> L <> [].
Proof.
  intros x L S ->. destruct (os_complete _ _ S (fun _ => true) (sup_all x)) as (p & [] & _).
Qed.

Lemma sorted_hd : forall L p, StronglySorted odesc L -> In p L -> opsize p <= opsize (hd opt0 L).
Proof.
  intros L p X H. destruct L as [|q t]; [destruct H|]. simpl. destruct H as [->|H]; auto.
  inversion X; subst. rewrite Forall_forall in H3. apply H3. auto.
Qed.

(** A point not smaller than the one for [m] whose arguments are among [m]. *)
Lemma osem_max : forall x L m p c, osem x L -> In p L -> rapp m (o_pt p) ->
  In c L -> eqset (oregion c) (rg m x) -> has_dim (o_pt c) = hd_ m x -> opsize c <= opsize p ->
  eqset (oregion p) (rg m x) /\ has_dim (o_pt p) = hd_ m x.
Proof.
  intros x L m p c S Hp R Hc Rc Dc L0.
  destruct (os_sound _ _ S m p Hp R) as (_ & I & D).
  assert (W0 := os_wf _ _ S _ Hp). assert (Wm := os_wf _ _ S _ Hc).
  unfold opsize in L0. rewrite (psize_region _ _ _ W0), (psize_region _ _ _ Wm) in L0.
  assert (I2 : incl (region (o_pt p)) (region (o_pt c))) by (eapply incl_tran; [apply I | apply Rc]).
  assert (LL := NoDup_incl_length (region_NoDup _ _ _ W0) I2).
  assert (E : length (region (o_pt c)) <= length (region (o_pt p))).
  { destruct (has_dim (o_pt p)), (has_dim (o_pt c)); try lia. rewrite <- Dc in D. specialize (D eq_refl). discriminate. }
  split.
  - eapply eqset_trans; [eapply (region_size_eq i)|]; eauto.
  - destruct (has_dim (o_pt p)) eqn:D0; [symmetry; auto|].
    destruct (has_dim (o_pt c)) eqn:D1; [lia | congruence].
Qed.

Lemma osem_top : forall x L, osem x L ->
  eqset (oregion (hd opt0 L)) (rg (fun _ => true) x) /\ has_dim (o_pt (hd opt0 L)) = topd x.
Proof.
  intros x L S. assert (N := osem_nonempty _ _ S).
  destruct (os_complete _ _ S _ (sup_all x)) as (c & Hc & Rc & Dc).
  destruct (osem_max _ _ (fun _ => true) _ c S (ohd_In _ N)) as [A B]; auto.
  - intros a l _. auto.
  - apply sorted_hd; auto. apply S.
  - split; auto. rewrite B. apply hd_all.
Qed.

Lemma lat_iters_map : forall L, L <> [] -> lat_iters (map o_pt L) = p_iters (o_pt (hd opt0 L)).
Proof. destruct L; [congruence|reflexivity]. Qed.
Lemma lat_locs_map : forall L, L <> [] -> lat_locs (map o_pt L) = p_locs (o_pt (hd opt0 L)).
Proof. destruct L; [congruence|reflexivity]. Qed.

Lemma osem_lat_dim : forall x L, osem x L -> existsb is_dim (lat_iters (map o_pt L)) = topd x.
Proof. intros x L S. rewrite lat_iters_map by (eapply osem_nonempty; eauto). apply (osem_top x L S). Qed.

Lemma hd_topd : forall m x, hd_ m x = true -> topd x = true.
Proof. intros m x H. rewrite <- hd_all. eapply hd_mono; eauto. Qed.

Lemma omove_id : forall acs L, (forall p, In p L -> wfp i acs (o_pt p)) -> omoveLocateSubset L = L.
Proof.
  intros acs L WF. unfold omoveLocateSubset.
  destruct (filter is_full (p_iters (o_pt (hd opt0 L)))) as [|f fs]; auto.
  set (mv := fun it => has_locate it && negb (iter_eqb it f)).
  rewrite <- (map_id L) at 2. apply map_ext_in. intros p Hp.
  assert (W := WF p Hp).
  assert (N : forall it, In it (p_iters (o_pt p)) -> mv it = false).
  { intros it H. unfold mv. rewrite (no_locate _ _ _ _ W H). auto. }
  assert (E1 : filter (fun it => negb (mv it)) (p_iters (o_pt p)) = p_iters (o_pt p)).
  { clear -N. induction (p_iters (o_pt p)) as [|x t IH]; simpl; auto.
    rewrite (N x) by (left; auto). simpl. f_equal. apply IH. intros; apply N; right; auto. }
  assert (E2 : filter mv (p_iters (o_pt p)) = []).
  { clear -N. induction (p_iters (o_pt p)) as [|x t IH]; simpl; auto.
    rewrite (N x) by (left; auto). apply IH. intros; apply N; right; auto. }
  fold mv. unfold mv in *. rewrite E1, E2, app_nil_r. unfold mkPoint.
  rewrite !dedup_id; [destruct p as [[]]; reflexivity | apply W | auto | apply W | auto].
Qed.

Lemma opairs_In : forall l r a b, In (a, b) (opairs l r) <-> In a l /\ In b r.
Proof.
  intros. unfold opairs. rewrite in_flat_map. split.
  - intros (x & Hx & Hm). apply in_map_iff in Hm. destruct Hm as (y & E & Hy). inversion E; subst. auto.
  - intros [Ha Hb]. exists a. split; auto. apply in_map_iff. eauto.
Qed.

Lemma inr_region : forall acs p a, wfp i acs p -> inr (region p) a = true -> In a acs.
Proof.
  intros acs p a W H. apply inr_iff in H. destruct H as (l & H).
  destruct (region_lev _ _ _ _ W H) as (a' & l' & E & _ & I). inversion E; subst. auto.
Qed.

(** A region of both sides is empty. *)
Lemma common_region : forall acs1 acs2 p q r, (forall a, In a acs1 -> ~ In a acs2) ->
  wfp i acs1 p -> wfp i acs2 q -> eqset (region p) r -> eqset (region q) r -> forall it, ~ In it r.
Proof.
  intros acs1 acs2 p q r DJ W1 W2 E1 E2 it H.
  destruct (region_lev _ _ _ _ W1 (proj2 E1 _ H)) as (a & l & -> & _ & I1).
  destruct (region_lev _ _ _ _ W2 (proj2 E2 _ H)) as (a' & l' & E & _ & I2).
  inversion E; subst. eapply DJ; eauto.
Qed.

Lemma rapp_In : forall m p a, rapp m p -> inr (region p) a = true -> m a = true.
Proof. intros m p a R H. apply inr_iff in H. destruct H as (l & H). eapply R; eauto. Qed.

(** A point without arguments is a producer. *)
Lemma empty_producer : forall x L p, osem x L -> complements_at_regions x -> In p L ->
  (forall it, ~ In it (oregion p)) -> o_omit p = false.
Proof.
  intros x L p S N Hp E. rewrite (os_flag _ _ S p Hp).
  assert (R : rapp (inr (oregion p)) (o_pt p)) by apply rapp_inr.
  rewrite sup_none; auto.
  - destruct (os_sound _ _ S _ _ Hp R) as [-> _]. auto.
  - intros a _. destruct (inr (oregion p) a) eqn:X; auto. apply inr_iff in X. destruct X as (l & X).
    destruct (E _ X).
Qed.

Lemma osem_union : forall x y L1 L2,
  osem x L1 -> osem y L2 -> complements_at_regions x -> complements_at_regions y ->
  (forall a, In a (regions x) -> ~ In a (regions y)) ->
  osem (Union x y) (ounionNode srt L1 L2).
Proof.
  intros x y L1 L2 S1 S2 C1 C2 DJ.
  assert (N1 := osem_nonempty _ _ S1). assert (N2 := osem_nonempty _ _ S2).
  assert (EU : ounionNode srt L1 L2 = ounionLattices srt L1 L2)
    by (destruct L1, L2; simpl; congruence).
  rewrite EU. unfold ounionLattices.
  set (sa := srt L1). set (sb := srt L2).
  assert (Wa : wfp i (regions x) (o_pt (hd opt0 sa))).
  { apply (os_wf _ _ S1). apply osrt_out. apply ohd_In. apply osrt_ne. auto. }
  assert (Wb : wfp i (regions y) (o_pt (hd opt0 sb))).
  { apply (os_wf _ _ S2). apply osrt_out. apply ohd_In. apply osrt_ne. auto. }
  match goal with |- context [srt (?P ++ _)] => set (points := P) end.
  assert (HP : forall c, In c points <-> exists p q, In p L1 /\ In q L2 /\ c = ounion p q).
  { intros c. unfold points. rewrite in_map_iff. split.
    - intros ([p q] & <- & H). apply filter_In in H. destruct H as [H _].
      apply opairs_In in H. exists p, q. unfold sa, sb in H. rewrite !osrt_In in H. simpl. tauto.
    - intros (p & q & Hp & Hq & ->). exists (p, q). split; auto. apply filter_In. split.
      + apply opairs_In. unfold sa, sb. rewrite !osrt_In. auto.
      + simpl. apply (hasIntersection_linear i _ _ _ _ _ _ DJ); auto; [apply S1|apply S2]; auto. }
  assert (UF := fun p q H1 H2 => union_point_facts i _ _ (o_pt p) (o_pt q) (os_wf _ _ S1 p H1) (os_wf _ _ S2 q H2)).
  (* the arguments of the parts of a pair *)
  assert (CVX : forall p, In p L1 -> cov (inr (oregion p)) y = cov (fun _ => false) y).
  { intros p Hp. apply cov_ext. intros a Ha. destruct (inr (oregion p) a) eqn:X; auto.
    apply (inr_region (regions x)) in X; [destruct (DJ a); auto | apply S1; auto]. }
  assert (CVY : forall q, In q L2 -> cov (inr (oregion q)) x = cov (fun _ => false) x).
  { intros q Hq. apply cov_ext. intros a Ha. destruct (inr (oregion q) a) eqn:X; auto.
    apply (inr_region (regions y)) in X; [destruct (DJ a); auto | apply S2; auto]. }
  assert (CVU : forall p q, In p L1 -> In q L2 ->
     cov (inr (oregion (ounion p q))) x = cov (inr (oregion p)) x /\
     cov (inr (oregion (ounion p q))) y = cov (inr (oregion q)) y).
  { intros p q Hp Hq. destruct (UF p q Hp Hq) as (_ & _ & _ & R).
    split; apply cov_ext; intros a Ha; apply bool_iff; rewrite !inr_iff; split; intros (l & H); exists l.
    - apply R in H. destruct H as [H|H]; auto.
      destruct (region_lev _ _ _ _ (os_wf _ _ S2 _ Hq) H) as (a' & l' & E & _ & I). inversion E; subst.
      destruct (DJ a'); auto.
    - apply R. auto.
    - apply R in H. destruct H as [H|H]; auto.
      destruct (region_lev _ _ _ _ (os_wf _ _ S1 _ Hp) H) as (a' & l' & E & _ & I). inversion E; subst.
      destruct (DJ a'); auto.
    - apply R. auto. }
  assert (CP : correctPointTypes L1 L2 true (srt (points ++ L1 ++ L2)) = srt (points ++ L1 ++ L2)).
  { unfold correctPointTypes. rewrite <- (map_id (srt (points ++ L1 ++ L2))) at 2.
    apply map_ext. intros c.
    destruct (has_region true L1 (oregion c) && has_region true L2 (oregion c)) eqn:HR; auto.
    exfalso. apply andb_true_iff in HR. destruct HR as [H1 H2].
    apply has_region_iff in H1. destruct H1 as (p & Hp & Op & Ep).
    apply has_region_iff in H2. destruct H2 as (q & Hq & Oq & Eq).
    assert (Z := common_region _ _ _ _ _ DJ (os_wf _ _ S1 _ Hp) (os_wf _ _ S2 _ Hq) Ep Eq).
    rewrite (empty_producer _ _ p S1) in Op; auto; [discriminate|].
    intros it Hit. apply (Z it), Ep, Hit. }
  rewrite CP.
  assert (SM : osem (Union x y) (oremoveDuplicated false (srt (points ++ L1 ++ L2)))).
  { apply osem_dedup.
    - apply SRT.
    - constructor.
      + intros p H. apply osrt_out in H. rewrite !in_app_iff in H. simpl. destruct H as [H|[H|H]].
        * apply HP in H. destruct H as (p1 & p2 & H1 & H2 & ->). apply UF; auto.
        * eapply wfp_weaken; [|apply (os_wf _ _ S1); auto]. apply incl_appl, incl_refl.
        * eapply wfp_weaken; [|apply (os_wf _ _ S2); auto]. apply incl_appr, incl_refl.
      + intros m p H A. simpl. apply osrt_out in H. rewrite !in_app_iff in H. destruct H as [H|[H|H]].
        * apply HP in H. destruct H as (p1 & p2 & H1 & H2 & ->).
          destruct (UF p1 p2 H1 H2) as (_ & D & _ & R).
          destruct (os_sound _ _ S1 m _ H1) as (X1 & I1 & D1).
          { intros a l Ha. apply (A a l). apply R. auto. }
          destruct (os_sound _ _ S2 m _ H2) as (X2 & I2 & D2).
          { intros a l Ha. apply (A a l). apply R. auto. }
          rewrite X1, X2. split; auto. split.
          -- intros it Hit. apply R in Hit. apply in_app_iff. destruct Hit; [left|right]; auto.
          -- simpl. rewrite D. rewrite !orb_true_iff. tauto.
        * destruct (os_sound _ _ S1 m _ H A) as (X1 & I1 & D1). rewrite X1. split; auto. split.
          -- apply incl_appl. auto.
          -- intros D. rewrite D1; auto.
        * destruct (os_sound _ _ S2 m _ H A) as (X1 & I1 & D1). rewrite X1. split; [apply orb_true_r|]. split.
          -- apply incl_appr. auto.
          -- intros D. rewrite D1; auto. apply orb_true_r.
      + intros m S. simpl in *.
        destruct (sup m x) eqn:X1, (sup m y) eqn:X2; try discriminate.
        * destruct (os_complete _ _ S1 _ X1) as (p1 & H1 & R1 & D1).
          destruct (os_complete _ _ S2 _ X2) as (p2 & H2 & R2 & D2).
          destruct (UF p1 p2 H1 H2) as (_ & D & _ & R).
          exists (ounion p1 p2). split; [|split].
          -- apply osrt_intro, in_app_iff. left. apply HP. eauto 6.
          -- split; intros it Hit.
             ++ apply R in Hit. apply in_app_iff. destruct Hit; [left; apply R1|right; apply R2]; auto.
             ++ apply R. apply in_app_iff in Hit. destruct Hit; [left; apply R1|right; apply R2]; auto.
          -- simpl. rewrite D. congruence.
        * destruct (os_complete _ _ S1 _ X1) as (p1 & H1 & R1 & D1).
          exists p1. rewrite app_nil_r. split; [|split]; auto.
          -- apply osrt_intro. rewrite !in_app_iff. auto.
          -- simpl. rewrite orb_false_r. auto.
        * destruct (os_complete _ _ S2 _ X2) as (p1 & H1 & R1 & D1).
          exists p1. simpl. split; [|split]; auto.
          apply osrt_intro. rewrite !in_app_iff. auto.
    - intros p H O. apply osrt_out in H. rewrite !in_app_iff in H. simpl. destruct H as [H|[H|H]].
      + apply HP in H. destruct H as (p1 & p2 & H1 & H2 & ->).
        destruct (CVU p1 p2 H1 H2) as [-> ->]. simpl in O.
        rewrite (os_flag _ _ S1 _ H1), (os_flag _ _ S2 _ H2) in O.
        destruct (cov (inr (oregion p1)) x), (cov (inr (oregion p2)) y); auto.
      + rewrite (os_flag _ _ S1 _ H) in O. destruct (cov (inr (oregion p)) x); auto; discriminate.
      + rewrite (os_flag _ _ S2 _ H) in O. destruct (cov (inr (oregion p)) y); auto using orb_true_r; discriminate.
    - intros p H O. apply osrt_out in H. rewrite !in_app_iff in H. simpl. destruct H as [H|[H|H]].
      + apply HP in H. destruct H as (p1 & p2 & H1 & H2 & ->).
        destruct (CVU p1 p2 H1 H2) as [-> ->]. simpl in O.
        rewrite (os_flag _ _ S1 _ H1), (os_flag _ _ S2 _ H2) in O.
        destruct (cov (inr (oregion p1)) x), (cov (inr (oregion p2)) y); auto.
      + rewrite (CVX p H). assert (O' := O). rewrite (os_flag _ _ S1 _ H) in O'.
        destruct (cov (inr (oregion p)) x); [discriminate|]. simpl.
        destruct (cov (fun _ => false) y) eqn:CY; auto. right. split; auto.
        assert (SY := cov_sup _ _ C2 CY).
        destruct (os_complete _ _ S2 _ SY) as (q & Hq & Rq & _).
        assert (Eq : forall it, ~ In it (oregion q)).
        { intros it Hit. apply Rq in Hit. apply rg_In in Hit. destruct Hit as (a & l & _ & _ & _ & X). discriminate. }
        exists (ounion p q). split; [|split].
        * apply osrt_intro, in_app_iff. left. apply HP. eauto 6.
        * destruct (UF p q H Hq) as (_ & _ & _ & R). split; intros it Hit.
          -- apply R in Hit. destruct Hit as [Hit|Hit]; auto. destruct (Eq it Hit).
          -- apply R. auto.
        * simpl. rewrite (empty_producer _ _ q S2); auto. apply andb_false_r.
      + rewrite (CVY p H). assert (O' := O). rewrite (os_flag _ _ S2 _ H) in O'.
        destruct (cov (inr (oregion p)) y); [discriminate|]. rewrite orb_false_r.
        destruct (cov (fun _ => false) x) eqn:CX; auto. right. split; auto.
        assert (SX := cov_sup _ _ C1 CX).
        destruct (os_complete _ _ S1 _ SX) as (q & Hq & Rq & _).
        assert (Eq : forall it, ~ In it (oregion q)).
        { intros it Hit. apply Rq in Hit. apply rg_In in Hit. destruct Hit as (a & l & _ & _ & _ & X). discriminate. }
        exists (ounion q p). split; [|split].
        * apply osrt_intro, in_app_iff. left. apply HP. eauto 6.
        * destruct (UF q p Hq H) as (_ & _ & _ & R). split; intros it Hit.
          -- apply R in Hit. destruct Hit as [Hit|Hit]; auto. destruct (Eq it Hit).
          -- apply R. auto.
        * simpl. rewrite (empty_producer _ _ q S1); auto. }
  rewrite (omove_id (regions (Union x y)) _ (os_wf _ _ SM)). exact SM.
Qed.

Lemma osem_intersect : forall x y L1 L2,
  osem x L1 -> osem y L2 -> complements_at_regions x -> complements_at_regions y ->
  (forall a, In a (regions x) -> ~ In a (regions y)) ->
  osem (Intersect x y) (ointersectNode srt L1 L2).
Proof.
  intros x y L1 L2 S1 S2 C1 C2 DJ.
  assert (N1 := osem_nonempty _ _ S1). assert (N2 := osem_nonempty _ _ S2).
  assert (EU : ointersectNode srt L1 L2 = ointersectLattices srt L1 L2)
    by (destruct L1, L2; simpl; congruence).
  rewrite EU. unfold ointersectLattices.
  set (left := locateFromLeft (map o_pt L1) (map o_pt L2)).
  assert (HL : forall m, (if left then hd_ m y else hd_ m x) = hd_ m x && topd y).
  { intros m. unfold left, locateFromLeft. rewrite (osem_lat_dim _ _ S1), (osem_lat_dim _ _ S2).
    assert (T1 := hd_topd m x). assert (T2 := hd_topd m y).
    destruct (topd y), (topd x); rewrite ?andb_true_r, ?andb_false_r; auto.
    - destruct (hd_ m y); auto. discriminate T2; auto.
    - destruct (hd_ m x); [discriminate T1; auto|]. destruct (hd_ m y); [discriminate T2; auto|].
      match goal with |- (if ?b then _ else _) = _ => destruct b; reflexivity end. }
  set (sa := srt L1). set (sb := srt L2).
  assert (Wa : wfp i (regions x) (o_pt (hd opt0 sa))).
  { apply (os_wf _ _ S1). apply osrt_out. apply ohd_In. apply osrt_ne. auto. }
  assert (Wb : wfp i (regions y) (o_pt (hd opt0 sb))).
  { apply (os_wf _ _ S2). apply osrt_out. apply ohd_In. apply osrt_ne. auto. }
  match goal with |- context [srt ?P] => set (points := P) end.
  assert (HP : forall c, In c points <-> exists p q, In p L1 /\ In q L2 /\ c = ointersect p q left).
  { intros c. unfold points. rewrite in_map_iff. split.
    - intros ([p q] & <- & H). apply filter_In in H. destruct H as [H _].
      apply opairs_In in H. exists p, q. unfold sa, sb in H. rewrite !osrt_In in H. simpl. tauto.
    - intros (p & q & Hp & Hq & ->). exists (p, q). split; auto. apply filter_In. split.
      + apply opairs_In. unfold sa, sb. rewrite !osrt_In. auto.
      + simpl. apply (hasIntersection_linear i _ _ _ _ _ _ DJ); auto; [apply S1|apply S2]; auto. }
  assert (UF := fun p q H1 H2 => inter_point_facts i _ _ (o_pt p) (o_pt q) left (os_wf _ _ S1 p H1) (os_wf _ _ S2 q H2)).
  assert (CVU : forall p q, In p L1 -> In q L2 ->
     o_omit (ointersect p q left) = negb (cov (inr (oregion (ointersect p q left))) (Intersect x y))).
  { intros p q Hp Hq. destruct (UF p q Hp Hq) as (_ & _ & _ & R). simpl.
    rewrite (os_flag _ _ S1 _ Hp), (os_flag _ _ S2 _ Hq), negb_andb. f_equal; f_equal;
      apply cov_ext; intros a Ha; apply bool_iff; rewrite !inr_iff; split; intros (l & H); exists l.
    - apply R. auto.
    - apply R in H. destruct H as [H|H]; auto.
      destruct (region_lev _ _ _ _ (os_wf _ _ S2 _ Hq) H) as (a' & l' & E & _ & I). inversion E; subst.
      destruct (DJ a'); auto.
    - apply R. auto.
    - apply R in H. destruct H as [H|H]; auto.
      destruct (region_lev _ _ _ _ (os_wf _ _ S1 _ Hp) H) as (a' & l' & E & _ & I). inversion E; subst.
      destruct (DJ a'); auto. }
  assert (CP : correctPointTypes L1 L2 false (srt points) = srt points).
  { unfold correctPointTypes. rewrite <- (map_id (srt points)) at 2.
    apply map_ext_in. intros c Hc. apply osrt_out, HP in Hc. destruct Hc as (p1 & q1 & Hp1 & Hq1 & ->).
    destruct (has_region false L1 (oregion (ointersect p1 q1 left)) &&
              has_region false L2 (oregion (ointersect p1 q1 left))) eqn:HR; auto.
    apply andb_true_iff in HR. destruct HR as [H1 H2].
    apply has_region_iff in H1. destruct H1 as (p & Hp & Op & Ep).
    apply has_region_iff in H2. destruct H2 as (q & Hq & Oq & Eq).
    assert (Z := common_region _ _ _ _ _ DJ (os_wf _ _ S1 _ Hp) (os_wf _ _ S2 _ Hq) Ep Eq).
    destruct (UF p1 q1 Hp1 Hq1) as (_ & _ & _ & R).
    unfold ointersect at 2. rewrite (empty_producer _ _ p1 S1), (empty_producer _ _ q1 S2); auto.
    - intros it Hit. apply (Z it). apply R. auto.
    - intros it Hit. apply (Z it). apply R. auto. }
  rewrite CP. apply osem_dedup.
  - apply SRT.
  - constructor.
    + intros p H. apply osrt_out, HP in H. destruct H as (p1 & p2 & H1 & H2 & ->). apply UF; auto.
    + intros m p H A. simpl. apply osrt_out, HP in H. destruct H as (p1 & p2 & H1 & H2 & ->).
      destruct (UF p1 p2 H1 H2) as (_ & D & _ & R).
      destruct (os_sound _ _ S1 m _ H1) as (X1 & I1 & D1).
      { intros a l Ha. apply (A a l). apply R. auto. }
      destruct (os_sound _ _ S2 m _ H2) as (X2 & I2 & D2).
      { intros a l Ha. apply (A a l). apply R. auto. }
      rewrite X1, X2. split; auto. split.
      * intros it Hit. apply R in Hit. apply in_app_iff. destruct Hit; [left|right]; auto.
      * simpl. rewrite D, <- HL. destruct left; auto.
    + intros m S. simpl in *. apply andb_true_iff in S. destruct S as [X1 X2].
      destruct (os_complete _ _ S1 _ X1) as (p1 & H1 & R1 & D1).
      destruct (os_complete _ _ S2 _ X2) as (p2 & H2 & R2 & D2).
      destruct (UF p1 p2 H1 H2) as (_ & D & _ & R).
      exists (ointersect p1 p2 left). split; [|split].
      * apply osrt_intro, HP. eauto 6.
      * split; intros it Hit.
        -- apply R in Hit. apply in_app_iff. destruct Hit; [left; apply R1|right; apply R2]; auto.
        -- apply R. apply in_app_iff in Hit. destruct Hit; [left; apply R1|right; apply R2]; auto.
      * simpl. rewrite D, <- HL. destruct left; auto.
  - intros p H O. apply osrt_out, HP in H. destruct H as (p1 & p2 & H1 & H2 & ->).
    rewrite (CVU p1 p2 H1 H2) in O. apply negb_false_iff in O. auto.
  - intros p H O. apply osrt_out, HP in H. destruct H as (p1 & p2 & H1 & H2 & ->).
    rewrite (CVU p1 p2 H1 H2) in O. apply negb_true_iff in O. auto.
Qed.

Lemma osem_access : forall a l, find_level i a = Some l -> osem (Region a) (oaccessLattice i a).
Proof.
  intros a l F. unfold oaccessLattice, accessLattice. rewrite F.
  assert (G : exists p, (match level_kind a l with KDense => [mkPoint [Dim] [Lev a l]] | KComp => [mkPoint [Lev a l] []] end) = [p]
     /\ wfp i [a] p /\ region p = [Lev a l] /\ has_dim p = dense_at i a).
  { unfold dense_at. rewrite F. destruct (level_kind a l) eqn:K.
    - exists (mkPoint [Dim] [Lev a l]). split; auto. split; [|split; auto].
      apply wfp_mk; simpl; [intros it [<-|[]]; auto | | congruence].
      intros it [<-|[]]. exists a, l. simpl. auto.
    - exists (mkPoint [Lev a l] []). split; auto. split; [|split; auto].
      apply wfp_mk; simpl; [| tauto | congruence].
      intros it [<-|[]]. right. exists a, l. simpl. auto. }
  destruct G as (p & -> & W & R & D). simpl. constructor.
  - intros q [<-|[]]. auto.
  - repeat constructor.
  - intros m q [<-|[]] A. simpl in *. assert (M : m a = true) by (apply (A a l); rewrite R; left; auto).
    rewrite M. split; auto. split; [|congruence]. unfold oregion. simpl. rewrite R.
    unfold acc_reg. rewrite F. apply incl_refl.
  - intros m M. simpl in M. exists (OPt p false). split; [left; auto|]. simpl. rewrite M. split; auto.
    unfold oregion. simpl. rewrite R. unfold acc_reg. rewrite F. apply eqset_refl.
  - intros q [<-|[]]. simpl. unfold oregion. simpl. rewrite R. simpl.
    assert (access_eqb a a = true) as -> by (apply access_eqb_iff; auto). auto.
Qed.

Lemma osem_complement : forall a l, find_level i a = Some l ->
  osem (Complement (Region a)) (complementLattice i a).
Proof.
  intros a l F. unfold complementLattice, oaccessLattice, accessLattice. rewrite F.
  assert (G : exists p, wfp i [a] p /\ region p = [Lev a l] /\ has_dim p = true /\
     (let points := includeDimensionIterator (flipPoints (map (fun p => OPt p false)
         (match level_kind a l with KDense => [mkPoint [Dim] [Lev a l]] | KComp => [mkPoint [Lev a l] []] end))) in
      let isDimPoint p := match p_locs (o_pt p), p_iters (o_pt p) with [], [Dim] => true | _, _ => false end in
      if existsb isDimPoint points then points
      else points ++ [OPt (mkPoint [Dim] []) false]) = [OPt p true; OPt (mkPoint [Dim] []) false]).
  { destruct (level_kind a l) eqn:K.
    - exists (mkPoint [Dim] [Lev a l]). split; [|split; [|split]]; auto.
      apply wfp_mk; simpl; [intros it [<-|[]]; auto | | congruence].
      intros it [<-|[]]. exists a, l. simpl. auto.
    - exists (mkPoint [Lev a l; Dim] []). split; [|split; [|split]]; auto.
      apply wfp_mk; simpl; [| tauto | congruence].
      intros it [<-|[<-|[]]]; auto. right. exists a, l. simpl. auto. }
  destruct G as (p & W & R & D & E). cbv zeta in *. rewrite E. clear E.
  assert (W0 : wfp i [a] (mkPoint [Dim] [])).
  { apply wfp_mk; simpl; [intros it [<-|[]]; auto | tauto | congruence]. }
  assert (AA : access_eqb a a = true) by (apply access_eqb_iff; auto).
  constructor.
  - intros q [<-|[<-|[]]]; auto.
  - apply SSorted_cons; [repeat constructor|]. apply Forall_cons; [|apply Forall_nil].
    unfold opsize. simpl. rewrite (psize_region _ _ _ W), R, D. simpl. unfold psize. simpl. lia.
  - intros m q [<-|[<-|[]]] A; simpl in *.
    + assert (M : m a = true) by (apply (A a l); rewrite R; left; auto).
      rewrite M. split; auto. split; auto. unfold oregion. simpl. rewrite R.
      unfold acc_reg. rewrite F. apply incl_refl.
    + split; auto. split; auto. intros it [].
  - intros m _. simpl. destruct (m a).
    + exists (OPt p true). split; [left; auto|]. split; auto.
      unfold oregion. simpl. rewrite R. unfold acc_reg. rewrite F. apply eqset_refl.
    + exists (OPt (mkPoint [Dim] []) false). split; [right; left; auto|]. split; auto. apply eqset_refl.
  - intros q [<-|[<-|[]]]; simpl; unfold oregion; simpl; rewrite ?R; simpl; rewrite ?AA; auto.
Qed.

Theorem osem_build : forall x, complements_at_regions x -> NoDup (regions x) ->
  (forall a, In a (regions x) -> find_level i a <> None) -> osem x (buildAlg srt i x).
Proof.
  induction x; intros N ND F.
  - destruct (find_level i r) as [l|] eqn:E; [|destruct (F r); simpl; auto]. apply (osem_access r l E).
  - destruct x; simpl in N; try tauto. simpl in *.
    destruct (find_level i r) as [l|] eqn:E; [|destruct (F r); simpl; auto]. apply (osem_complement r l E).
  - simpl in *. apply NoDup_app_inv in ND. destruct ND as (N1 & N2 & DJ). destruct N as [C1 C2].
    apply osem_intersect; auto; [apply IHx1|apply IHx2]; auto; intros; apply F, in_app_iff; auto.
  - simpl in *. apply NoDup_app_inv in ND. destruct ND as (N1 & N2 & DJ). destruct N as [C1 C2].
    apply osem_union; auto; [apply IHx1|apply IHx2]; auto; intros; apply F, in_app_iff; auto.
Qed.

(* ------------------------------------------------------------ default *)
(** Unions of arguments, and their complements. *)
Fixpoint unions (x : alg access) : Prop :=
  match x with Region _ => True | Union x y => unions x /\ unions y | _ => False end.
Fixpoint neg (x : alg access) : alg access :=
  match x with Union x y => Intersect (neg x) (neg y) | z => Complement z end.

Lemma unions_demorgan : forall x, unions x -> applyDemorgan x = x /\ applier x = neg x.
Proof.
  induction x; intros H; try (simpl in H; tauto). destruct H as [H1 H2].
  destruct (IHx1 H1) as [A1 B1], (IHx2 H2) as [A2 B2]. split.
  - change (Union (applyDemorgan x1) (applyDemorgan x2) = Union x1 x2). congruence.
  - change (Intersect (applier x1) (applier x2) = Intersect (neg x1) (neg x2)). congruence.
Qed.
Lemma neg_regions : forall x, unions x -> regions (neg x) = regions x.
Proof. induction x; simpl; intros H; try tauto. destruct H. rewrite IHx1, IHx2; auto. Qed.
Lemma neg_nnf : forall x, unions x -> complements_at_regions x /\ complements_at_regions (neg x).
Proof. induction x; simpl; intros H; try tauto. Qed.
Lemma neg_sup : forall m x, unions x -> sup m (neg x) = true.
Proof. induction x; simpl; intros H; try tauto. destruct H. rewrite IHx1, IHx2; auto. Qed.
Lemma neg_cov : forall m x, unions x -> cov m (neg x) = negb (cov m x).
Proof.
  induction x; simpl; intros H; try tauto. destruct H. rewrite IHx1, IHx2; auto. symmetry. apply negb_orb.
Qed.
Lemma unions_sup : forall m x, unions x -> sup m x = cov m x.
Proof. induction x; simpl; intros H; try tauto. destruct H. rewrite IHx1, IHx2; auto. Qed.
Lemma unions_cov : forall m x a, unions x -> In a (regions x) -> m a = true -> cov m x = true.
Proof.
  induction x; simpl; intros a H I M; try tauto.
  - destruct I as [->|[]]. auto.
  - apply in_app_iff in I. apply orb_true_iff. destruct I; [left; eapply IHx1|right; eapply IHx2]; eauto; tauto.
Qed.
Lemma neg_hd : forall m x, unions x -> hd_ m (neg x) = true /\ topd (neg x) = true.
Proof.
  induction x; simpl; intros H; try tauto. destruct H as [H1 H2]. destruct (IHx1 H1) as [A B], (IHx2 H2) as [_ D]. rewrite A, B, D. auto.
Qed.
Lemma neg_rg : forall m x a l, unions x -> In a (regions x) -> m a = true -> find_level i a = Some l ->
  In (Lev a l) (rg m (neg x)).
Proof.
  induction x; simpl; intros a l H I M F; try tauto.
  - destruct I as [->|[]]. rewrite M. apply acc_reg_In. eauto.
  - rewrite in_app_iff in *. destruct I; [left; apply IHx1|right; apply IHx2]; tauto.
Qed.
Lemma unions_rg : forall m x a l, unions x -> In a (regions x) -> m a = true -> find_level i a = Some l ->
  In (Lev a l) (rg m x).
Proof.
  induction x; simpl; intros a l H I M F; try tauto.
  - destruct I as [->|[]]. rewrite M. apply acc_reg_In. eauto.
  - destruct H as [U1 U2]. rewrite in_app_iff in *. destruct I as [I|I]; [left|right].
    + rewrite unions_sup by auto. rewrite (unions_cov m x1 a); auto.
    + rewrite unions_sup by auto. rewrite (unions_cov m x2 a); auto.
Qed.

Lemma osem_default : forall x L1 L2, unions x -> osem x L1 -> osem (neg x) L2 ->
  osem (Union x (neg x)) (ounionNode srt L1 L2) /\
  forall p, In p (ounionNode srt L1 L2) -> o_omit p = false.
Proof.
  intros x L1 L2 U S1 S2.
  assert (N1 := osem_nonempty _ _ S1). assert (N2 := osem_nonempty _ _ S2).
  assert (NR := neg_regions x U).
  assert (EU : ounionNode srt L1 L2 = ounionLattices srt L1 L2)
    by (destruct L1, L2; simpl; congruence).
  rewrite EU. unfold ounionLattices.
  set (sa := srt L1). set (sb := srt L2).
  match goal with |- context [srt (?P ++ _)] => set (points := P) end.
  assert (HP : forall c, In c points -> exists p q, In p L1 /\ In q L2 /\ c = ounion p q).
  { intros c. unfold points. rewrite in_map_iff.
    intros ([p q] & <- & H). apply filter_In in H. destruct H as [H _].
    apply opairs_In in H. exists p, q. unfold sa, sb in H. rewrite !osrt_In in H. simpl. tauto. }
  assert (UF := fun p q H1 H2 => union_point_facts i _ _ (o_pt p) (o_pt q) (os_wf _ _ S1 p H1) (os_wf _ _ S2 q H2)).
  assert (P1 : forall p, In p L1 -> o_omit p = false).
  { intros p Hp. rewrite (os_flag _ _ S1 p Hp).
    destruct (os_sound _ _ S1 _ p Hp (rapp_inr (o_pt p))) as [X _].
    rewrite unions_sup in X by auto. unfold oregion. rewrite X. auto. }
  assert (CT : forall m, cov m (Union x (neg x)) = true).
  { intros m. simpl. rewrite neg_cov by auto. destruct (cov m x); auto. }
  assert (CP : correctPointTypes L1 L2 true (srt (points ++ L1 ++ L2)) = srt (points ++ L1 ++ L2)).
  { unfold correctPointTypes. rewrite <- (map_id (srt (points ++ L1 ++ L2))) at 2.
    apply map_ext. intros c.
    destruct (has_region true L1 (oregion c) && has_region true L2 (oregion c)) eqn:HR; auto.
    exfalso. apply andb_true_iff in HR. destruct HR as [H1 _].
    apply has_region_iff in H1. destruct H1 as (p & Hp & Op & Ep). rewrite P1 in Op; auto. discriminate. }
  rewrite CP.
  assert (SM : osem (Union x (neg x)) (oremoveDuplicated false (srt (points ++ L1 ++ L2)))).
  { apply osem_dedup.
    - apply SRT.
    - constructor.
      + intros p H. apply osrt_out in H. rewrite !in_app_iff in H. simpl. destruct H as [H|[H|H]].
        * apply HP in H. destruct H as (p1 & p2 & H1 & H2 & ->). apply UF; auto.
        * eapply wfp_weaken; [|apply (os_wf _ _ S1); auto]. apply incl_appl, incl_refl.
        * eapply wfp_weaken; [|apply (os_wf _ _ S2); auto]. apply incl_appr, incl_refl.
      + intros m p H A. cbn [sup rg hd_]. rewrite (neg_sup m x U), orb_true_r.
        destruct (neg_hd m x U) as [HD _]. rewrite HD. simpl andb. rewrite orb_true_r.
        split; auto. split; auto.
        apply osrt_out in H. rewrite !in_app_iff in H. destruct H as [H|[H|H]].
        * apply HP in H. destruct H as (p1 & p2 & H1 & H2 & ->).
          destruct (UF p1 p2 H1 H2) as (_ & D & _ & R).
          destruct (os_sound _ _ S1 m _ H1) as (X1 & I1 & D1).
          { intros a l Ha. apply (A a l). apply R. auto. }
          destruct (os_sound _ _ S2 m _ H2) as (X2 & I2 & D2).
          { intros a l Ha. apply (A a l). apply R. auto. }
          rewrite X1. intros it Hit. apply R in Hit. apply in_app_iff. destruct Hit; [left|right]; auto.
        * destruct (os_sound _ _ S1 m _ H A) as (X1 & I1 & D1). rewrite X1. apply incl_appl. auto.
        * destruct (os_sound _ _ S2 m _ H A) as (X1 & I1 & D1). apply incl_appr. auto.
      + intros m _. cbn [sup rg hd_]. rewrite (neg_sup m x U).
        destruct (neg_hd m x U) as [HD _]. rewrite HD. simpl andb. rewrite orb_true_r.
        destruct (os_complete _ _ S2 m (neg_sup m x U)) as (q & Hq & Rq & Dq).
        exists q. split; [|split].
        * apply osrt_intro. rewrite !in_app_iff. auto.
        * split; intros it Hit.
          -- apply in_app_iff. right. apply Rq. auto.
          -- apply Rq. apply in_app_iff in Hit. destruct Hit as [Hit|Hit]; auto.
             destruct (sup m x); [|destruct Hit]. apply rg_In in Hit.
             destruct Hit as (a & l & -> & F & I & M). apply neg_rg; auto.
        * congruence.
    - intros p H O. apply CT.
    - intros p H O. right. split; auto.
      apply osrt_out in H. rewrite !in_app_iff in H. destruct H as [H|[H|H]].
      + apply HP in H. destruct H as (p1 & p2 & H1 & H2 & ->). simpl in O. rewrite (P1 p1 H1) in O. discriminate.
      + rewrite (P1 p H) in O. discriminate.
      + assert (O' := O). rewrite (os_flag _ _ S2 _ H) in O'. rewrite neg_cov in O' by auto.
        rewrite negb_involutive in O'.
        destruct (os_complete _ _ S1 (inr (oregion p))) as (p1 & H1 & R1 & _); [rewrite unions_sup; auto|].
        exists p1. split; [apply osrt_intro; rewrite !in_app_iff; auto|]. split; auto.
        eapply eqset_trans; [exact R1|]. split; intros it Hit.
        * apply rg_In in Hit. destruct Hit as (a & l & -> & F & I & M). apply inr_iff in M. destruct M as (l' & M).
          destruct (region_lev _ _ _ _ (os_wf _ _ S2 _ H) M) as (a' & l'' & E & F' & _).
          inversion E; subst. rewrite F in F'. inversion F'; subst. auto.
        * destruct (region_lev _ _ _ _ (os_wf _ _ S2 _ H) Hit) as (a & l & -> & F & I).
          rewrite NR in I. apply unions_rg; auto. apply inr_iff. eauto. }
  rewrite (omove_id (regions (Union x (neg x))) _ (os_wf _ _ SM)). split; auto.
  intros p Hp. rewrite (os_flag _ _ SM p Hp), CT. auto.
Qed.
End Alg.
