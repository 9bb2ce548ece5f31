(** Proofs about merge lattice construction. *)
From Coq Require Import List Arith Lia Bool Permutation Sorted.
Import ListNotations.
From Verif Require Import Storage IndexExpr Lattice LatticeSpec.

(* ------------------------------------------------------------ basics *)
Lemma iter_eqb_iff : forall x y, iter_eqb x y = true <-> x = y.
Proof. intros. unfold iter_eqb. destruct (iter_eq_dec x y); split; congruence. Qed.

Lemma mem_In : forall x l, mem x l = true <-> In x l.
Proof.
  intros. unfold mem. rewrite existsb_exists. split.
  - intros (y & Hy & E). apply iter_eqb_iff in E. congruence.
  - intros H. exists x. split; auto. apply iter_eqb_iff; auto.
Qed.

Lemma mem_false : forall x l, mem x l = false <-> ~ In x l.
Proof. intros. rewrite <- mem_In. destruct (mem x l); split; congruence. Qed.

Lemma subset_incl : forall a b, subset a b = true <-> incl a b.
Proof.
  intros. unfold subset. rewrite forallb_forall. unfold incl.
  split; intros H x Hx; apply mem_In; auto.
Qed.

Definition eqset (a b : list iter) : Prop := incl a b /\ incl b a.

Lemma same_set_iff : forall a b, same_set a b = true <-> eqset a b.
Proof. intros. unfold same_set. rewrite andb_true_iff, !subset_incl. reflexivity. Qed.

Lemma eqset_refl : forall a, eqset a a.
Proof. split; apply incl_refl. Qed.
Lemma eqset_sym : forall a b, eqset a b -> eqset b a.
Proof. intros a b []; split; auto. Qed.
Lemma eqset_trans : forall a b c, eqset a b -> eqset b c -> eqset a c.
Proof. intros a b c [] []; split; eapply incl_tran; eauto. Qed.

Lemma dedup_In : forall l seen x, In x (dedup seen l) <-> In x l /\ ~ In x seen.
Proof.
  induction l; simpl; intros; [tauto|].
  destruct (mem a seen) eqn:E.
  - apply mem_In in E. rewrite IHl. intuition congruence.
  - apply mem_false in E. simpl. rewrite IHl. simpl.
    destruct (iter_eq_dec a x); intuition congruence.
Qed.

Lemma dedup_NoDup : forall l seen, NoDup (dedup seen l).
Proof.
  induction l; simpl; intros; [constructor|].
  destruct (mem a seen); auto. constructor; auto.
  rewrite dedup_In. simpl. tauto.
Qed.

Lemma dedup_id : forall l seen, NoDup l -> (forall x, In x l -> ~ In x seen) -> dedup seen l = l.
Proof.
  induction l; simpl; intros seen ND H; auto.
  inversion ND; subst.
  assert (mem a seen = false) as -> by (apply mem_false; auto).
  f_equal. apply IHl; auto. intros x Hx [->|Hs]; [auto | apply (H x); auto].
Qed.

Lemma dedupDims_In : forall l x, In x (dedupDims l) <-> In x l.
Proof.
  intros l x. unfold dedupDims.
  match goal with |- In x (?g false l) <-> _ => set (go := g) end.
  assert (A : forall l, In x (go true l) <-> In x l /\ x <> Dim).
  { induction l0; simpl; [tauto|]. destruct a; simpl; rewrite IHl0; intuition congruence. }
  assert (B : forall l, In x (go false l) <-> In x l).
  { induction l0; simpl; [tauto|].
    destruct a; simpl; [rewrite A | rewrite IHl0]; [|tauto].
    destruct (iter_eq_dec x Dim); intuition congruence. }
  apply B.
Qed.

(* ------------------------------------------------------------ keep_first *)
Lemma keep_first_sub : forall same l seen p, In p (keep_first same seen l) -> In p l.
Proof.
  induction l; simpl; intros; auto.
  destruct (existsb (same a) seen); [right; eauto|].
  destruct H; [left; auto | right; eauto].
Qed.

Notation desc := (fun p q : point => psize q <= psize p).

Lemma keep_first_sorted : forall same l seen,
  StronglySorted desc l -> StronglySorted desc (keep_first same seen l).
Proof.
  induction l; simpl; intros; auto. inversion H; subst.
  destruct (existsb (same a) seen); auto. constructor; auto.
  rewrite Forall_forall in *. intros q Hq. apply H3. eapply keep_first_sub; eauto.
Qed.

Lemma keep_first_rep : forall same, (forall p, same p p = true) ->
  forall l seen p, StronglySorted desc l -> In p l ->
  (exists q, In q seen /\ same p q = true) \/
  (exists q, In q (keep_first same seen l) /\ same p q = true /\ psize p <= psize q).
Proof.
  intros same R. induction l; simpl; intros seen p S Hp; [tauto|].
  inversion S; subst. rewrite Forall_forall in H2.
  destruct (existsb (same a) seen) eqn:E.
  - destruct Hp as [->|Hp]; auto. left. apply existsb_exists in E. exact E.
  - destruct Hp as [->|Hp].
    + right. exists p. split; [left; auto|]. auto.
    + destruct (IHl (a :: seen) p H1 Hp) as [(q & [->|Hq] & Sq)|(q & Hq & Sq & L)].
      * right. exists q. split; [left; auto|]. split; auto.
      * left; eauto.
      * right. exists q. split; [right|]; auto.
Qed.

Lemma keep_first_distinct : forall same l seen,
  ForallOrdPairs (fun p q => same q p = false) (keep_first same seen l) /\
  (forall p s, In p (keep_first same seen l) -> In s seen -> same p s = false).
Proof.
  induction l; simpl; intros.
  - split; [constructor | tauto].
  - destruct (existsb (same a) seen) eqn:E; [apply IHl|].
    destruct (IHl (a :: seen)) as [A B]. split.
    + constructor; auto. apply Forall_forall. intros q Hq. apply B; simpl; auto.
    + intros p s [<-|Hp] Hs.
      * destruct (same a s) eqn:F; auto.
        assert (existsb (same a) seen = true) by (apply existsb_exists; eauto). congruence.
      * apply B; simpl; auto.
Qed.

(* ------------------------------------------------------------ points *)
Section Sem.
Context {V : Type}.
Variable i : ivar.

(** What a well-formed point over accesses [acs] looks like. *)
Definition comp_iter (acs : list access) (it : iter) : Prop :=
  exists a l, it = Lev a l /\ find_level i a = Some l /\ level_kind a l = KComp /\ In a acs.
Definition dense_iter (acs : list access) (it : iter) : Prop :=
  exists a l, it = Lev a l /\ find_level i a = Some l /\ level_kind a l = KDense /\ In a acs.

Record wfp (acs : list access) (p : point) : Prop := {
  wfp_nd1 : NoDup (p_iters p);
  wfp_nd2 : NoDup (p_locs p);
  wfp_it : forall it, In it (p_iters p) -> it = Dim \/ comp_iter acs it;
  wfp_loc : forall it, In it (p_locs p) -> dense_iter acs it;
  wfp_ne : p_iters p <> [] }.

Lemma wfp_weaken : forall acs acs' p, incl acs acs' -> wfp acs p -> wfp acs' p.
Proof.
  intros acs acs' p I []. constructor; auto.
  - intros it H. destruct (wfp_it0 it H) as [|(a & l & ? & ? & ? & ?)]; auto.
    right. exists a, l. auto.
  - intros it H. destruct (wfp_loc0 it H) as (a & l & ? & ? & ? & ?). exists a, l. auto.
Qed.

Lemma region_In : forall p it, In it (region p) <-> (In it (p_iters p) /\ it <> Dim) \/ In it (p_locs p).
Proof.
  intros. unfold region. rewrite in_app_iff, filter_In.
  destruct it; simpl; intuition congruence.
Qed.

Lemma region_lev : forall acs p it, wfp acs p -> In it (region p) ->
  exists a l, it = Lev a l /\ find_level i a = Some l /\ In a acs.
Proof.
  intros acs p it W H. apply region_In in H. destruct H as [[H N]|H].
  - destruct (wfp_it _ _ W _ H) as [|(a & l & ? & ? & ? & ?)]; [congruence | eauto 6].
  - destruct (wfp_loc _ _ W _ H) as (a & l & ? & ? & ? & ?). eauto 6.
Qed.

Lemma region_comp : forall acs p a l, wfp acs p -> level_kind a l = KComp ->
  (In (Lev a l) (region p) <-> In (Lev a l) (p_iters p)).
Proof.
  intros. rewrite region_In. split; [|intros; left; split; [auto|congruence]].
  intros [[]|H1]; auto. destruct (wfp_loc _ _ H _ H1) as (a' & l' & E & _ & K & _).
  inversion E; subst. congruence.
Qed.

Lemma NoDup_app_intro : forall A (l m : list A),
  NoDup l -> NoDup m -> (forall x, In x l -> ~ In x m) -> NoDup (l ++ m).
Proof.
  induction l; simpl; intros; auto. inversion H; subst. constructor.
  - rewrite in_app_iff. intros [|X]; auto. eapply H1; eauto.
  - apply IHl; auto.
Qed.

Lemma region_NoDup : forall acs p, wfp acs p -> NoDup (region p).
Proof.
  intros acs p W. unfold region. apply NoDup_app_intro.
  - apply NoDup_filter. apply W.
  - apply W.
  - intros x H1 H2. apply filter_In in H1. destruct H1 as [H1 N].
    destruct (wfp_it _ _ W _ H1) as [->|(a & l & -> & _ & K & _)]; [discriminate|].
    destruct (wfp_loc _ _ W _ H2) as (a' & l' & E & _ & K' & _).
    inversion E; subst. congruence.
Qed.

Definition has_dim (p : point) : bool := existsb is_dim (p_iters p).

Lemma has_dim_iff : forall p, has_dim p = true <-> In Dim (p_iters p).
Proof.
  intros. unfold has_dim. rewrite existsb_exists. split.
  - intros ([|] & H & E); [auto | discriminate].
  - intros; exists Dim; auto.
Qed.

Lemma filter_dim_length : forall l, NoDup l ->
  length l = length (filter (fun it => negb (is_dim it)) l) + (if existsb is_dim l then 1 else 0).
Proof.
  induction l; simpl; intros ND; auto. inversion ND; subst. rewrite IHl by auto.
  destruct a; simpl; [|lia].
  assert (existsb is_dim l = false) as ->; [|simpl; lia].
  destruct (existsb is_dim l) eqn:E; auto. apply existsb_exists in E.
  destruct E as ([|] & H & D); [contradiction | discriminate].
Qed.

Lemma psize_region : forall acs p, wfp acs p ->
  psize p = length (region p) + (if has_dim p then 1 else 0).
Proof.
  intros acs p W. unfold psize, region, has_dim. rewrite app_length.
  rewrite (filter_dim_length (p_iters p)) by apply W. lia.
Qed.

Lemma region_size_eq : forall acs acs' p q, wfp acs p -> wfp acs' q ->
  incl (region p) (region q) -> length (region q) <= length (region p) -> eqset (region p) (region q).
Proof.
  intros. split; auto. apply NoDup_length_incl; auto. eapply region_NoDup; eauto.
Qed.

Lemma applies_iff : forall here p, applies here p = true <->
  (forall a l, In (Lev a l) (p_iters p) -> here a = true).
Proof.
  intros. unfold applies. rewrite forallb_forall. split.
  - intros H a l Hin. apply (H _ Hin).
  - intros H [|a l] Hin; eauto.
Qed.

Lemma applies_region : forall acs here p, wfp acs p ->
  (applies here p = true <->
   (forall a l, In (Lev a l) (region p) -> level_kind a l = KComp -> here a = true)).
Proof.
  intros acs here p W. rewrite applies_iff. split.
  - intros H a l Hin K. eapply H. apply (region_comp _ _ _ _ W K). eauto.
  - intros H a l Hin.
    destruct (wfp_it _ _ W _ Hin) as [|(a' & l' & E & _ & K & _)]; [discriminate|].
    inversion E; subst. apply (H a' l'); auto. apply (region_comp _ _ _ _ W K). auto.
Qed.

(* ---------------------------------------------- support of an expression *)
(** Structural description: does the expression have a value at a coordinate
    where exactly the operands [here] are stored, and which operands does it
    then depend on. *)
Fixpoint supp (here : access -> bool) (e : expr V) : bool :=
  match e with
  | ELit _ => true
  | EAcc a => negb (absent i here a)
  | ENeg e | EFun _ e => supp here e
  | EAdd e1 e2 | ESub e1 e2 => supp here e1 || supp here e2
  | EMul e1 e2 => supp here e1 && supp here e2
  end.

Definition acc_reg (a : access) : list iter :=
  match find_level i a with Some l => [Lev a l] | None => [] end.

Fixpoint reg (here : access -> bool) (e : expr V) : list iter :=
  match e with
  | ELit _ => []
  | EAcc a => if absent i here a then [] else acc_reg a
  | ENeg e | EFun _ e => reg here e
  | EAdd e1 e2 | ESub e1 e2 =>
      (if supp here e1 then reg here e1 else []) ++ (if supp here e2 then reg here e2 else [])
  | EMul e1 e2 => reg here e1 ++ reg here e2
  end.

Fixpoint hdim (e : expr V) : bool :=
  match e with
  | ELit _ => true
  | EAcc a => negb (compressed i a)
  | ENeg e | EFun _ e => hdim e
  | EAdd e1 e2 | ESub e1 e2 => hdim e1 || hdim e2
  | EMul e1 e2 => hdim e1 && hdim e2
  end.

Lemma supp_zero : forall here (e : expr V),
  supp here e = match restrict i here e with Some _ => true | None => false end.
Proof.
  intros here. unfold restrict.
  induction e; simpl; auto;
    try (destruct (absent i here a); reflexivity);
    try (rewrite IHe; destruct (zero (absent i here) e); reflexivity);
    try (rewrite IHe1, IHe2; destruct (zero (absent i here) e1), (zero (absent i here) e2); reflexivity).
Qed.

Lemma hdim_supp : forall here (e : expr V), hdim e = true -> supp here e = true.
Proof.
  intros here. induction e; simpl; auto; rewrite ?orb_true_iff, ?andb_true_iff; try tauto.
  unfold absent. destruct (compressed i a); simpl; congruence.
Qed.

Lemma supp_all : forall e : expr V, supp (fun _ => true) e = true.
Proof.
  induction e; simpl; auto; rewrite ?IHe1, ?IHe2; auto.
  unfold absent. simpl. rewrite andb_false_r. reflexivity.
Qed.

Record sem (e : expr V) (L : list point) : Prop := {
  sem_wf : forall p, In p L -> wfp (accesses e) p;
  sem_sorted : StronglySorted desc L;
  sem_dim : forall p, In p L -> has_dim p = true -> hdim e = true;
  sem_sound : forall here p, In p L -> applies here p = true ->
     supp here e = true /\ incl (region p) (reg here e);
  sem_complete : forall here, supp here e = true ->
     exists p, In p L /\ applies here p = true /\ eqset (region p) (reg here e) /\ has_dim p = hdim e }.

(** A family of candidate points, before sorting and removing duplicates. *)
Record presem (e : expr V) (L : list point) : Prop := {
  pre_wf : forall p, In p L -> wfp (accesses e) p;
  pre_dim : forall p, In p L -> has_dim p = true -> hdim e = true;
  pre_sound : forall here p, In p L -> applies here p = true ->
     supp here e = true /\ incl (region p) (reg here e);
  pre_complete : forall here, supp here e = true ->
     exists p, In p L /\ applies here p = true /\ eqset (region p) (reg here e) /\ has_dim p = hdim e }.

Variable srt : list point -> list point.
Hypothesis Hsrt : admissible_sort srt.

Lemma srt_In : forall l p, In p (srt l) <-> In p l.
Proof.
  intros. destruct (Hsrt l) as [P _]. split; intros H.
  - eapply Permutation_in; [apply Permutation_sym|]; eauto.
  - eapply Permutation_in; eauto.
Qed.

Lemma srt_ne : forall l, l <> [] -> srt l <> [].
Proof.
  intros [|x t] N E; [congruence|]. assert (H : In x (srt (x :: t))) by (apply srt_In; left; auto).
  rewrite E in H. destruct H.
Qed.

Lemma sem_dedup : forall e L, presem e L -> sem e (removeDuplicatedTensorRegions (srt L)).
Proof.
  intros e L []. unfold removeDuplicatedTensorRegions.
  set (same := fun p q => same_set (region p) (region q)).
  assert (Sub : forall p, In p (keep_first same [] (srt L)) -> In p L).
  { intros p H. apply keep_first_sub in H. apply srt_In. auto. }
  constructor; eauto.
  - apply keep_first_sorted. apply Hsrt.
  - intros here S. destruct (pre_complete0 here S) as (p & Hp & Ap & Rp & Dp).
    destruct (keep_first_rep same) with (l := srt L) (seen := @nil point) (p := p)
      as [(q & [] & _)|(q & Hq & Sq & Lq)].
    + intros. apply same_set_iff. apply eqset_refl.
    + apply Hsrt.
    + apply srt_In; auto.
    + apply same_set_iff in Sq.
      assert (Wp := pre_wf0 p Hp). assert (Wq := pre_wf0 q (Sub _ Hq)).
      exists q. split; [auto|]. split; [|split].
      * rewrite (applies_region _ _ _ Wp) in Ap. apply (applies_region _ _ _ Wq).
        intros a l Hin K. apply (Ap a l); auto. apply Sq. auto.
      * eapply eqset_trans; [apply eqset_sym|]; eauto.
      * rewrite (psize_region _ _ Wp), (psize_region _ _ Wq) in Lq.
        assert (length (region q) <= length (region p)).
        { apply NoDup_incl_length; [eapply region_NoDup; eauto | apply Sq]. }
        destruct (hdim e) eqn:D.
        -- rewrite Dp in Lq. destruct (has_dim q); auto. lia.
        -- destruct (has_dim q) eqn:Dq; auto.
           specialize (pre_dim0 q (Sub _ Hq) Dq). congruence.
Qed.

Lemma moveLocateSubset_id : forall e L, sem e L -> moveLocateSubset L = L.
Proof.
  intros e L S. unfold moveLocateSubset.
  destruct (filter is_full (lat_iters L)) as [|f fs]; auto.
  set (mv := fun it => has_locate it && negb (iter_eqb it f)).
  rewrite <- (map_id L) at 2. apply map_ext_in. intros p Hp.
  assert (W := sem_wf _ _ S p Hp).
  assert (N : forall it, In it (p_iters p) -> mv it = false).
  { intros it H. unfold mv.
    destruct (wfp_it _ _ W _ H) as [->|(a & l & -> & _ & K & _)]; simpl; auto. rewrite K. auto. }
  assert (E1 : filter (fun it => negb (mv it)) (p_iters p) = p_iters p).
  { clear -N. induction (p_iters p) as [|x t IH]; simpl; auto.
    rewrite (N x) by (left; auto). simpl. f_equal. apply IH. intros; apply N; right; auto. }
  assert (E2 : filter mv (p_iters p) = []).
  { clear -N. induction (p_iters p) as [|x t IH]; simpl; auto.
    rewrite (N x) by (left; auto). apply IH. intros; apply N; right; auto. }
  fold mv. unfold mv in *. rewrite E1, E2, app_nil_r. unfold mkPoint.
  rewrite !dedup_id; [destruct p; reflexivity | apply W | auto | apply W | auto].
Qed.

Lemma hd_In : forall (L : list point), L <> [] -> In (hd pt0 L) L.
Proof. destruct L; simpl; [congruence | auto]. Qed.

Lemma sem_nonempty : forall e L, sem e L -> L <> [].
Proof.
  intros e L S ->. destruct (sem_complete _ _ S (fun _ => true) (supp_all e)) as (p & [] & _).
Qed.

(** Any first point, whatever the sort chose among ties, covers everything. *)
Lemma sem_top : forall e L, sem e L ->
  eqset (region (hd pt0 L)) (reg (fun _ => true) e) /\ has_dim (hd pt0 L) = hdim e.
Proof.
  intros e L S. assert (N := sem_nonempty _ _ S).
  destruct (sem_complete _ _ S _ (supp_all e)) as (m & Hm & Am & Rm & Dm).
  assert (H0 := hd_In _ N).
  assert (L0 : psize m <= psize (hd pt0 L)).
  { destruct L as [|p t]; [congruence|]. simpl. destruct Hm as [->|Hm]; auto.
    assert (X := sem_sorted _ _ S). inversion X; subst. rewrite Forall_forall in H3. apply H3. auto. }
  destruct (sem_sound _ _ S (fun _ => true) _ H0) as [_ I].
  { apply applies_iff. auto. }
  assert (W0 := sem_wf _ _ S _ H0). assert (Wm := sem_wf _ _ S _ Hm).
  rewrite (psize_region _ _ W0), (psize_region _ _ Wm) in L0.
  assert (I2 : incl (region (hd pt0 L)) (region m)) by (eapply incl_tran; [apply I | apply Rm]).
  assert (LL := NoDup_incl_length (region_NoDup _ _ W0) I2).
  assert (D : has_dim (hd pt0 L) = true -> has_dim m = true).
  { intros D. rewrite Dm. eapply sem_dim; eauto. }
  assert (E : length (region m) <= length (region (hd pt0 L))).
  { destruct (has_dim (hd pt0 L)), (has_dim m); try lia; specialize (D eq_refl); discriminate. }
  split.
  - eapply eqset_trans; [eapply region_size_eq|]; eauto.
  - destruct (has_dim (hd pt0 L)) eqn:D0; [rewrite <- Dm; symmetry; auto|].
    destruct (has_dim m) eqn:D1; [lia | congruence].
Qed.

Lemma sem_lat_dim : forall e L, sem e L -> existsb is_dim (lat_iters L) = hdim e.
Proof. intros e L S. apply (sem_top e L S). Qed.

(* ------------------------------------------------------------ building *)
Lemma wfp_mk : forall acs its locs,
  (forall it, In it its -> it = Dim \/ comp_iter acs it) ->
  (forall it, In it locs -> dense_iter acs it) ->
  its <> [] -> wfp acs (mkPoint its locs).
Proof.
  intros. constructor; simpl.
  - apply dedup_NoDup.
  - apply dedup_NoDup.
  - intros it Hin. apply dedup_In in Hin. apply H. tauto.
  - intros it Hin. apply dedup_In in Hin. apply H0. tauto.
  - destruct its; [congruence|]. discriminate.
Qed.

Lemma mk_iters_In : forall its locs it, In it (p_iters (mkPoint its locs)) <-> In it its.
Proof. intros. simpl. rewrite dedup_In. simpl. tauto. Qed.
Lemma mk_locs_In : forall its locs it, In it (p_locs (mkPoint its locs)) <-> In it locs.
Proof. intros. simpl. rewrite dedup_In. simpl. tauto. Qed.

Lemma sem_single : forall (e : expr V) p,
  wfp (accesses e) p ->
  has_dim p = hdim e ->
  (forall here, applies here p = true -> supp here e = true) ->
  (forall here, supp here e = true -> applies here p = true /\ eqset (region p) (reg here e)) ->
  sem e [p].
Proof.
  intros e p W D A B. constructor.
  - intros q [<-|[]]; auto.
  - repeat constructor.
  - intros q [<-|[]] H. congruence.
  - intros here q [<-|[]] H. split; auto. destruct (B here (A here H)) as [_ E]. apply E.
  - intros here H. exists p. destruct (B here H). split; [left; auto|auto].
Qed.

Lemma sem_mode : forall e : expr V, hdim e = true -> (forall here, reg here e = []) ->
  sem e modeIterationLattice.
Proof.
  intros e D R. apply sem_single.
  - apply wfp_mk; simpl; [intros it [<-|[]]; auto | tauto | congruence].
  - simpl. auto.
  - intros. apply hdim_supp; auto.
  - intros here H. split; auto. rewrite R. split; intros x [].
Qed.

Lemma sem_access : forall a, sem (@EAcc V a) (accessLattice i a).
Proof.
  intros a. unfold accessLattice.
  destruct (find_level i a) as [l|] eqn:F.
  - destruct (level_kind a l) eqn:K.
    + apply sem_single.
      * apply wfp_mk; simpl; [intros it [<-|[]]; auto | | congruence].
        intros it [<-|[]]. exists a, l. simpl. auto.
      * simpl. unfold compressed. rewrite F, K. reflexivity.
      * intros. simpl. unfold absent, compressed. rewrite F, K. reflexivity.
      * intros. simpl. unfold absent, compressed, acc_reg. rewrite F, K. simpl.
        split; auto. apply eqset_refl.
    + apply sem_single.
      * apply wfp_mk; simpl; [| tauto | congruence].
        intros it [<-|[]]. right. exists a, l. simpl. auto.
      * simpl. unfold compressed. rewrite F, K. reflexivity.
      * intros here. unfold applies. simpl. unfold absent, compressed. rewrite F, K. simpl.
        destruct (here a); auto.
      * intros here. unfold applies. simpl. unfold absent, compressed, acc_reg. rewrite F, K. simpl.
        destruct (here a); simpl; [|discriminate]. intros _. split; auto. apply eqset_refl.
  - apply sem_mode; simpl; unfold absent, compressed, acc_reg; rewrite F; reflexivity.
Qed.

Lemma pairs_In : forall l r a b, In (a, b) (pairs l r) <-> In a l /\ In b r.
Proof.
  intros. unfold pairs. rewrite in_flat_map. split.
  - intros (x & Hx & Hm). apply in_map_iff in Hm. destruct Hm as (y & E & Hy). inversion E; subst. auto.
  - intros [Ha Hb]. exists a. split; auto. apply in_map_iff. eauto.
Qed.

Lemma hasIntersection_linear : forall acs1 acs2 ar br p q,
  (forall a, In a acs1 -> ~ In a acs2) ->
  wfp acs1 p -> wfp acs2 q -> wfp acs1 ar -> wfp acs2 br ->
  hasIntersection (region ar) (region br) p q = true.
Proof.
  intros acs1 acs2 ar br p q D Wp Wq Wa Wb. unfold hasIntersection.
  apply andb_true_iff. split; apply forallb_forall; intros it H; apply orb_true_iff; right;
    apply negb_true_iff; apply mem_false; intros H'.
  - destruct (region_lev _ _ _ Wp H) as (a & l & -> & _ & H1).
    destruct (region_lev _ _ _ Wb H') as (a' & l' & E & _ & H2). inversion E; subst. eapply D; eauto.
  - destruct (region_lev _ _ _ Wq H) as (a & l & -> & _ & H1).
    destruct (region_lev _ _ _ Wa H') as (a' & l' & E & _ & H2). inversion E; subst. eapply D; eauto.
Qed.

Lemma union_iters_In : forall p q it,
  In it (p_iters (unionPoints p q)) <-> In it (p_iters p) \/ In it (p_iters q).
Proof. intros. unfold unionPoints. rewrite mk_iters_In, dedupDims_In, in_app_iff. tauto. Qed.
Lemma union_locs_In : forall p q it,
  In it (p_locs (unionPoints p q)) <-> In it (p_locs p) \/ In it (p_locs q).
Proof. intros. unfold unionPoints. rewrite mk_locs_In, in_app_iff. tauto. Qed.

Lemma bool_iff : forall a b : bool, (a = true <-> b = true) -> a = b.
Proof. intros [] []; intuition congruence. Qed.

Lemma union_point_facts : forall acs1 acs2 p q, wfp acs1 p -> wfp acs2 q ->
  wfp (acs1 ++ acs2) (unionPoints p q) /\
  has_dim (unionPoints p q) = has_dim p || has_dim q /\
  (forall here, applies here (unionPoints p q) = applies here p && applies here q) /\
  (forall it, In it (region (unionPoints p q)) <-> In it (region p) \/ In it (region q)).
Proof.
  intros acs1 acs2 p q Wp Wq.
  assert (Wp' := wfp_weaken _ (acs1 ++ acs2) _ (incl_appl _ (incl_refl _)) Wp).
  assert (Wq' := wfp_weaken _ (acs1 ++ acs2) _ (incl_appr _ (incl_refl _)) Wq).
  repeat split.
  - apply dedup_NoDup.
  - apply dedup_NoDup.
  - intros it H. apply union_iters_In in H. destruct H as [H|H]; [apply (wfp_it _ _ Wp') | apply (wfp_it _ _ Wq')]; auto.
  - intros it H. apply union_locs_In in H. destruct H as [H|H]; [apply (wfp_loc _ _ Wp') | apply (wfp_loc _ _ Wq')]; auto.
  - intros E. destruct (p_iters p) as [|x t] eqn:Ex; [apply (wfp_ne _ _ Wp); auto|].
    assert (X : In x (p_iters (unionPoints p q))) by (apply union_iters_In; rewrite Ex; simpl; auto).
    rewrite E in X. destruct X.
  - apply bool_iff. rewrite orb_true_iff, !has_dim_iff, union_iters_In. reflexivity.
  - intros here. apply bool_iff. rewrite andb_true_iff, !applies_iff. split.
    + intros H. split; intros a l Hin; apply (H a l); apply union_iters_In; auto.
    + intros [H1 H2] a l Hin. apply union_iters_In in Hin. destruct Hin; eauto.
  - rewrite !region_In, union_iters_In, union_locs_In. tauto.
  - rewrite !region_In, union_iters_In, union_locs_In. tauto.
Qed.

Lemma no_locate : forall acs p it, wfp acs p -> In it (p_iters p) -> has_locate it = false.
Proof.
  intros acs p it W H. destruct (wfp_it _ _ W _ H) as [->|(a & l & -> & _ & K & _)]; simpl; auto.
  rewrite K. auto.
Qed.

Lemma filter_no_locate : forall acs p, wfp acs p ->
  filter has_locate (p_iters p) = [] /\
  filter (fun it => negb (has_locate it)) (p_iters p) = p_iters p.
Proof.
  intros acs p W. assert (N : forall it, In it (p_iters p) -> has_locate it = false)
    by (intros; eapply no_locate; eauto).
  induction (p_iters p) as [|x t IH]; simpl; auto.
  rewrite (N x) by (left; auto). simpl.
  destruct IH as [-> ->]; auto. intros; apply N; right; auto.
Qed.

Lemma inter_iters_In : forall acs1 acs2 p q left it, wfp acs1 p -> wfp acs2 q ->
  (In it (p_iters (intersectPoints p q left)) <->
   (In it (p_iters p) /\ (it = Dim -> left = false)) \/
   (In it (p_iters q) /\ (it = Dim -> left = true))).
Proof.
  intros acs1 acs2 p q left it Wp Wq. unfold intersectPoints.
  rewrite mk_iters_In, dedupDims_In.
  destruct left; rewrite in_app_iff, filter_In.
  - rewrite (proj2 (filter_no_locate _ _ Wp)). destruct it; simpl; intuition congruence.
  - rewrite (proj2 (filter_no_locate _ _ Wq)). destruct it; simpl; intuition congruence.
Qed.

Lemma inter_locs_In : forall acs1 acs2 p q left it, wfp acs1 p -> wfp acs2 q ->
  (In it (p_locs (intersectPoints p q left)) <-> In it (p_locs p) \/ In it (p_locs q)).
Proof.
  intros acs1 acs2 p q left it Wp Wq. unfold intersectPoints.
  rewrite mk_locs_In.
  destruct left; rewrite !in_app_iff.
  - rewrite (proj1 (filter_no_locate _ _ Wp)). simpl. tauto.
  - rewrite (proj1 (filter_no_locate _ _ Wq)). simpl. tauto.
Qed.

(** [ne]: the intersected point still iterates over something.  It is
    needed that the side whose dimension iterator is kept is the right one. *)
Lemma inter_point_facts : forall acs1 acs2 p q left, wfp acs1 p -> wfp acs2 q ->
  wfp (acs1 ++ acs2) (intersectPoints p q left) /\
  has_dim (intersectPoints p q left) = (if left then has_dim q else has_dim p) /\
  (forall here, applies here (intersectPoints p q left) = applies here p && applies here q) /\
  (forall it, In it (region (intersectPoints p q left)) <-> In it (region p) \/ In it (region q)).
Proof.
  intros acs1 acs2 p q left Wp Wq.
  assert (Wp' := wfp_weaken _ (acs1 ++ acs2) _ (incl_appl _ (incl_refl _)) Wp).
  assert (Wq' := wfp_weaken _ (acs1 ++ acs2) _ (incl_appr _ (incl_refl _)) Wq).
  assert (II := fun it => inter_iters_In _ _ p q left it Wp Wq).
  assert (IL := fun it => inter_locs_In _ _ p q left it Wp Wq).
  repeat split.
  - apply dedup_NoDup.
  - apply dedup_NoDup.
  - intros it H. apply II in H. destruct H as [[H _]|[H _]]; [apply (wfp_it _ _ Wp') | apply (wfp_it _ _ Wq')]; auto.
  - intros it H. apply IL in H. destruct H as [H|H]; [apply (wfp_loc _ _ Wp') | apply (wfp_loc _ _ Wq')]; auto.
  - intros E. assert (Z : forall x, ~ In x (p_iters (intersectPoints p q left))) by (rewrite E; auto).
    destruct left.
    + assert (Nq := wfp_ne _ _ Wq). destruct (p_iters q) as [|x t]; [congruence|].
      apply (Z x), II. simpl. auto.
    + assert (Np := wfp_ne _ _ Wp). destruct (p_iters p) as [|x t]; [congruence|].
      apply (Z x), II. simpl. auto.
  - apply bool_iff. rewrite has_dim_iff, II. destruct left; rewrite has_dim_iff; intuition congruence.
  - intros here. apply bool_iff. rewrite andb_true_iff, !applies_iff. split.
    + intros H. split; intros a l Hin; apply (H a l); apply II; [left|right]; split; auto; congruence.
    + intros [H1 H2] a l Hin. apply II in Hin. destruct Hin as [[]|[]]; eauto.
  - rewrite !region_In, II, IL. tauto.
  - rewrite !region_In, II, IL. intuition congruence.
Qed.

Lemma incl_app_l : forall A (a b c : list A), incl a b -> incl a (b ++ c).
Proof. intros. apply incl_appl; auto. Qed.

(** Union of operands without a common access. *)
Lemma sem_union : forall e e1 e2 L1 L2,
  sem e1 L1 -> sem e2 L2 ->
  (forall a, In a (accesses e1) -> ~ In a (accesses e2)) ->
  accesses e = accesses e1 ++ accesses e2 ->
  (forall here, supp here e = supp here e1 || supp here e2) ->
  (forall here, reg here e = (if supp here e1 then reg here e1 else []) ++
                             (if supp here e2 then reg here e2 else [])) ->
  hdim e = hdim e1 || hdim e2 ->
  sem e (unionNode srt L1 L2).
Proof.
  intros e e1 e2 L1 L2 S1 S2 DJ EA ES ER ED.
  assert (N1 := sem_nonempty _ _ S1). assert (N2 := sem_nonempty _ _ S2).
  assert (EU : unionNode srt L1 L2 = unionLattices srt L1 L2)
    by (destruct L1, L2; simpl; congruence).
  rewrite EU. unfold unionLattices.
  set (sa := srt L1). set (sb := srt L2).
  assert (Wa : wfp (accesses e1) (hd pt0 sa)).
  { apply (sem_wf _ _ S1). apply srt_In. apply hd_In. apply srt_ne. auto. }
  assert (Wb : wfp (accesses e2) (hd pt0 sb)).
  { apply (sem_wf _ _ S2). apply srt_In. apply hd_In. apply srt_ne. auto. }
  match goal with |- context [srt (?P ++ _)] => set (points := P) end.
  assert (HP : forall c, In c points <-> exists p q, In p L1 /\ In q L2 /\ c = unionPoints p q).
  { intros c. unfold points. rewrite in_map_iff. split.
    - intros ([p q] & <- & H). apply filter_In in H. destruct H as [H _].
      apply pairs_In in H. exists p, q. unfold sa, sb in H. rewrite !srt_In in H. simpl. tauto.
    - intros (p & q & Hp & Hq & ->). exists (p, q). split; auto. apply filter_In. split.
      + apply pairs_In. unfold sa, sb. rewrite !srt_In. auto.
      + simpl. eapply hasIntersection_linear; eauto using sem_wf. }
  assert (PS : presem e (points ++ L1 ++ L2)).
  { constructor.
    - intros p H. rewrite !in_app_iff in H. rewrite EA. destruct H as [H|[H|H]].
      + apply HP in H. destruct H as (p1 & p2 & H1 & H2 & ->).
        apply union_point_facts; [eapply sem_wf; eauto | eapply sem_wf; eauto].
      + eapply wfp_weaken; [|apply (sem_wf _ _ S1); auto]. apply incl_appl, incl_refl.
      + eapply wfp_weaken; [|apply (sem_wf _ _ S2); auto]. apply incl_appr, incl_refl.
    - intros p H D. rewrite ED. apply orb_true_iff. rewrite !in_app_iff in H. destruct H as [H|[H|H]].
      + apply HP in H. destruct H as (p1 & p2 & H1 & H2 & ->).
        destruct (union_point_facts _ _ _ _ (sem_wf _ _ S1 _ H1) (sem_wf _ _ S2 _ H2)) as (_ & E & _).
        rewrite E in D. apply orb_true_iff in D. destruct D; [left|right]; eapply sem_dim; eauto.
      + left. eapply sem_dim; eauto.
      + right. eapply sem_dim; eauto.
    - intros here p H A. rewrite ES, ER. rewrite !in_app_iff in H. destruct H as [H|[H|H]].
      + apply HP in H. destruct H as (p1 & p2 & H1 & H2 & ->).
        destruct (union_point_facts _ _ _ _ (sem_wf _ _ S1 _ H1) (sem_wf _ _ S2 _ H2)) as (_ & _ & E & R).
        rewrite E in A. apply andb_true_iff in A. destruct A as [A1 A2].
        destruct (sem_sound _ _ S1 _ _ H1 A1) as [-> I1].
        destruct (sem_sound _ _ S2 _ _ H2 A2) as [-> I2]. split; auto.
        intros it Hit. apply R in Hit. apply in_app_iff. destruct Hit; [left|right]; auto.
      + destruct (sem_sound _ _ S1 _ _ H A) as [-> I1]. split; auto. apply incl_appl. auto.
      + destruct (sem_sound _ _ S2 _ _ H A) as [-> I1]. split; [apply orb_true_r|]. apply incl_appr. auto.
    - intros here S. rewrite ES in S. rewrite ER, ED.
      destruct (supp here e1) eqn:X1, (supp here e2) eqn:X2; try discriminate.
      + destruct (sem_complete _ _ S1 _ X1) as (p1 & H1 & A1 & R1 & D1).
        destruct (sem_complete _ _ S2 _ X2) as (p2 & H2 & A2 & R2 & D2).
        destruct (union_point_facts _ _ _ _ (sem_wf _ _ S1 _ H1) (sem_wf _ _ S2 _ H2)) as (_ & E & F & R).
        exists (unionPoints p1 p2). split; [|split; [|split]].
        * apply in_app_iff. left. apply HP. eauto 6.
        * rewrite F, A1, A2. auto.
        * split; intros it Hit.
          -- apply R in Hit. apply in_app_iff. destruct Hit; [left; apply R1|right; apply R2]; auto.
          -- apply R. apply in_app_iff in Hit. destruct Hit; [left; apply R1|right; apply R2]; auto.
        * congruence.
      + destruct (sem_complete _ _ S1 _ X1) as (p1 & H1 & A1 & R1 & D1).
        exists p1. rewrite app_nil_r. split; [|split; [|split]]; auto.
        * rewrite !in_app_iff. auto.
        * destruct (hdim e2) eqn:D2; [|rewrite orb_false_r; auto].
          rewrite (hdim_supp here _ D2) in X2. discriminate.
      + destruct (sem_complete _ _ S2 _ X2) as (p1 & H1 & A1 & R1 & D1).
        exists p1. simpl. split; [|split; [|split]]; auto.
        * rewrite !in_app_iff. auto.
        * destruct (hdim e1) eqn:D2; [|auto].
          rewrite (hdim_supp here _ D2) in X1. discriminate. }
  assert (SM := sem_dedup _ _ PS). rewrite (moveLocateSubset_id _ _ SM). exact SM.
Qed.

Lemma sem_intersect : forall e e1 e2 L1 L2,
  sem e1 L1 -> sem e2 L2 ->
  (forall a, In a (accesses e1) -> ~ In a (accesses e2)) ->
  accesses e = accesses e1 ++ accesses e2 ->
  (forall here, supp here e = supp here e1 && supp here e2) ->
  (forall here, reg here e = reg here e1 ++ reg here e2) ->
  hdim e = hdim e1 && hdim e2 ->
  sem e (intersectNode srt L1 L2).
Proof.
  intros e e1 e2 L1 L2 S1 S2 DJ EA ES ER ED.
  assert (N1 := sem_nonempty _ _ S1). assert (N2 := sem_nonempty _ _ S2).
  assert (EU : intersectNode srt L1 L2 = intersectLattices srt L1 L2)
    by (destruct L1, L2; simpl; congruence).
  rewrite EU. unfold intersectLattices.
  set (left := locateFromLeft L1 L2).
  assert (HL : hdim e = if left then hdim e2 else hdim e1).
  { unfold left, locateFromLeft. rewrite (sem_lat_dim _ _ S1), (sem_lat_dim _ _ S2), ED.
    destruct (hdim e1), (hdim e2); auto.
    match goal with |- _ = if ?b then _ else _ => destruct b; reflexivity end. }
  set (sa := srt L1). set (sb := srt L2).
  assert (Wa : wfp (accesses e1) (hd pt0 sa)).
  { apply (sem_wf _ _ S1). apply srt_In. apply hd_In. apply srt_ne. auto. }
  assert (Wb : wfp (accesses e2) (hd pt0 sb)).
  { apply (sem_wf _ _ S2). apply srt_In. apply hd_In. apply srt_ne. auto. }
  match goal with |- context [srt ?P] => set (points := P) end.
  assert (HP : forall c, In c points <-> exists p q, In p L1 /\ In q L2 /\ c = intersectPoints p q left).
  { intros c. unfold points. rewrite in_map_iff. split.
    - intros ([p q] & <- & H). apply filter_In in H. destruct H as [H _].
      apply pairs_In in H. exists p, q. unfold sa, sb in H. rewrite !srt_In in H. simpl. tauto.
    - intros (p & q & Hp & Hq & ->). exists (p, q). split; auto. apply filter_In. split.
      + apply pairs_In. unfold sa, sb. rewrite !srt_In. auto.
      + simpl. eapply hasIntersection_linear; eauto using sem_wf. }
  apply sem_dedup. constructor.
  - intros p H. rewrite EA. apply HP in H. destruct H as (p1 & p2 & H1 & H2 & ->).
    apply inter_point_facts; [eapply sem_wf; eauto | eapply sem_wf; eauto].
  - intros p H D. apply HP in H. destruct H as (p1 & p2 & H1 & H2 & ->).
    destruct (inter_point_facts _ _ _ _ left (sem_wf _ _ S1 _ H1) (sem_wf _ _ S2 _ H2)) as (_ & E & _).
    rewrite E in D. rewrite HL. destruct left; eapply sem_dim; eauto.
  - intros here p H A. rewrite ES, ER. apply HP in H. destruct H as (p1 & p2 & H1 & H2 & ->).
    destruct (inter_point_facts _ _ _ _ left (sem_wf _ _ S1 _ H1) (sem_wf _ _ S2 _ H2)) as (_ & _ & E & R).
    rewrite E in A. apply andb_true_iff in A. destruct A as [A1 A2].
    destruct (sem_sound _ _ S1 _ _ H1 A1) as [-> I1].
    destruct (sem_sound _ _ S2 _ _ H2 A2) as [-> I2]. split; auto.
    intros it Hit. apply R in Hit. apply in_app_iff. destruct Hit; [left|right]; auto.
  - intros here S. rewrite ES in S. rewrite ER. apply andb_true_iff in S. destruct S as [X1 X2].
    destruct (sem_complete _ _ S1 _ X1) as (p1 & H1 & A1 & R1 & D1).
    destruct (sem_complete _ _ S2 _ X2) as (p2 & H2 & A2 & R2 & D2).
    destruct (inter_point_facts _ _ _ _ left (sem_wf _ _ S1 _ H1) (sem_wf _ _ S2 _ H2)) as (_ & E & F & R).
    exists (intersectPoints p1 p2 left). split; [|split; [|split]].
    + apply HP. eauto 6.
    + rewrite F, A1, A2. auto.
    + split; intros it Hit.
      * apply R in Hit. apply in_app_iff. destruct Hit; [left; apply R1|right; apply R2]; auto.
      * apply R. apply in_app_iff in Hit. destruct Hit; [left; apply R1|right; apply R2]; auto.
    + rewrite E, HL. destruct left; auto.
Qed.

Lemma NoDup_app_inv : forall A (l m : list A), NoDup (l ++ m) ->
  NoDup l /\ NoDup m /\ (forall x, In x l -> ~ In x m).
Proof.
  induction l; simpl; intros m H.
  - repeat split; auto. constructor.
  - inversion H; subst. destruct (IHl _ H3) as (A1 & A2 & A3). repeat split; auto.
    + constructor; auto. intros X; apply H2, in_app_iff; auto.
    + intros x [<-|Hx] Hm; [apply H2, in_app_iff; auto | eapply A3; eauto].
Qed.

Theorem sem_build : forall e : expr V, NoDup (accesses e) -> sem e (buildLattice srt i e).
Proof.
  induction e; simpl; intros ND;
    try (apply NoDup_app_inv in ND; destruct ND as (N1 & N2 & DJ)).
  - apply sem_mode; reflexivity.
  - apply sem_access.
  - destruct (IHe ND). constructor; auto.
  - destruct (IHe ND). constructor; auto.
  - eapply sem_union; try reflexivity; auto.
  - eapply sem_union; try reflexivity; auto.
  - eapply sem_intersect; try reflexivity; auto.
Qed.

End Sem.
