(** The results about lattices of iteration algebras, put together for calls. *)
From Coq Require Import List Arith Lia Bool Permutation Sorted.
Import ListNotations.
From Verif Require Import Checks ChecksSpec ChecksProofs.
From Verif Require Import Storage IndexExpr Lattice LatticeSpec LatticeProofs LatticeLoop
  AlgLattice AlgLatticeSpec AlgLatticeProofs AlgLatticeLoop.
Local Open Scope nat_scope.

Lemma oinsert_perm : forall p l, Permutation (p :: l) (oinsert p l).
Proof.
  induction l; simpl; auto. destruct (opsize a <? opsize p); auto.
  eapply perm_trans; [apply perm_swap|]. constructor. auto.
Qed.
Lemma oinsert_sorted : forall p l, StronglySorted odesc l -> StronglySorted odesc (oinsert p l).
Proof.
  induction l; simpl; intros S; [repeat constructor|].
  inversion S; subst. destruct (Nat.ltb_spec (opsize a) (opsize p)).
  - constructor; auto. constructor; [lia|]. rewrite Forall_forall in *. intros x Hx.
    specialize (H2 x Hx). lia.
  - constructor; auto. rewrite Forall_forall in *. intros x Hx.
    eapply Permutation_in in Hx; [|apply Permutation_sym, oinsert_perm].
    destruct Hx as [<-|Hx]; auto.
Qed.
Lemma oisort_admissible : admissible_osort oisort.
Proof.
  intros l. unfold oisort. split.
  - eapply perm_trans; [apply Permutation_rev|].
    induction (rev l); simpl; auto.
    eapply perm_trans; [|apply oinsert_perm]. auto.
  - induction (rev l); simpl; [constructor|]. apply oinsert_sorted. auto.
Qed.

Section Top.
Variables (srt : list opoint -> list opoint) (i : ivar) (keep : bool) (x : alg access).
Variables (args : list access) (live here : access -> bool).
Hypothesis SRT : admissible_osort srt.
Hypothesis SIT : situation i x args live here.

Let y := applyDemorgan x.
Let L := buildAlg srt i y.

Lemma y_regions : regions y = regions x.
Proof. apply demorgan_regions. Qed.
Lemma y_nnf : complements_at_regions y.
Proof. apply demorgan_nnf. Qed.
Lemma y_inn : forall a, In a (regions y) -> innermost i a.
Proof. intros a H. rewrite y_regions in H. apply SIT. auto. Qed.
Lemma y_dense : dense_in i y here.
Proof. intros a H. rewrite y_regions in H. apply SIT. auto. Qed.
Lemma y_live : sub_m y here live.
Proof. intros a H. rewrite y_regions in H. apply SIT. auto. Qed.
Lemma y_args : incl args (regions y).
Proof. rewrite y_regions. apply SIT. Qed.
Lemma y_cases : NoDup (regions y) \/ exists t, unions t /\ NoDup (regions t) /\ y = Union t (neg t).
Proof.
  rewrite y_regions. destruct (sit_linear _ _ _ _ _ SIT) as [H|(a & l & ND & E)]; auto.
  right. unfold constructDefaultAlgebra in E. set (t := fold_left (fun x b => Union x (Region b)) l (Region a)) in *.
  assert (K : forall l t0, unions t0 ->
     unions (fold_left (fun x b => Union x (Region b)) l t0) /\
     regions (fold_left (fun x b => Union x (Region b)) l t0) = regions t0 ++ l).
  { clear. induction l; simpl; intros t0 U; [rewrite app_nil_r; auto|].
    destruct (IHl (Union t0 (Region a))) as [A B]; [simpl; auto|]. split; auto. rewrite B. simpl. rewrite <- app_assoc. auto. }
  destruct (K l (Region a) I) as [U R]. fold t in U, R. exists t. split; [auto|]. split; [rewrite R; auto|].
  destruct (unions_demorgan t U) as [D1 D2]. unfold y. rewrite E.
  change (Union (applyDemorgan t) (applier t) = Union t (neg t)). congruence.
Qed.
Lemma y_sem_omit : osem i y L /\ (NoDup (regions y) \/ (forall p, In p L -> o_omit p = false) /\ forall m, cov m y = true).
Proof.
  assert (FL : forall a, In a (regions y) -> find_level i a <> None).
  { intros a H E. destruct (y_inn a H) as (l & F & _). congruence. }
  destruct y_cases as [ND|(t & U & ND & E)].
  - split; auto. apply osem_build; auto using y_nnf.
  - unfold L. rewrite E in *. destruct (neg_nnf t U) as [N1 N2].
    destruct (osem_default i srt SRT t (buildAlg srt i t) (buildAlg srt i (neg t)) U) as [A B].
    + apply osem_build; auto. intros a H. apply FL. simpl. apply in_app_iff. auto.
    + apply osem_build; auto; rewrite neg_regions; auto. intros a H. apply FL. simpl. apply in_app_iff. auto.
    + split; [exact A|]. right. split; [exact B|].
      intros m. simpl. rewrite neg_cov by auto. destruct (cov m t); auto.
Qed.
Lemma y_sem : osem i y L.
Proof. apply y_sem_omit. Qed.
Lemma y_rr : forall m, sup m y = true -> cov (inr (rg i m y)) y = cov m y.
Proof.
  intros m U. destruct y_sem_omit as [_ [ND|[_ C]]]; [|rewrite !C; auto].
  apply rg_restrict; auto using y_nnf. intros a H E. destruct (y_inn a H) as (l & F & _). congruence.
Qed.
Lemma y_pc : (exists p, In p L /\ o_omit p = true) ->
  forall m, (forall a, In a (regions y) -> ~ In a (plain y) -> m a = false) -> cov m y = sup m y.
Proof.
  intros (p & Hp & O). destruct y_sem_omit as [_ [ND|[C _]]]; [|rewrite C in O by auto; discriminate].
  intros m. apply plain_cov; auto using y_nnf.
Qed.

Lemma y_space : forall m, cov m y = true <-> in_space m x.
Proof.
  intros m. rewrite cov_inside. unfold in_space. apply demorgan_inside.
  intros r. destruct (m r); auto.
Qed.
Lemma y_outside : forall m, cov m y = false <-> ~ in_space m x.
Proof. intros m. rewrite <- y_space, not_true_iff_false. reflexivity. Qed.

Section Run.
Variable lp : opoint.
Hypothesis RUN : runningLoop live (callLattice srt i keep x) = Some lp.
Context {V : Type} (v0 : V) (nonzero : V -> bool).
Variables (f : @func V) (cur : access -> V) (fullResult : bool).
Let explicit := existsb o_omit (osubLattice (callLattice srt i keep x) lp).
Let m := present nonzero here cur explicit.

Lemma visits_visited : visits here lp <-> visited lp here.
Proof.
  unfold visits, visited. split; intros (it & H & A); exists it; split; auto; destruct it; auto.
Qed.

Lemma top_result : visits here lp ->
  result i y L keep live lp v0 f cur fullResult args m (visit v0 nonzero f here cur fullResult (callLattice srt i keep x) args lp).
Proof.
  intros H. apply visits_visited in H.
  apply (visit_result i y L y_sem y_nnf y_rr y_pc y_inn keep live lp RUN v0 nonzero f here cur fullResult args
           y_dense y_live y_args H).
Qed.

Lemma top_sound : visits here lp -> forall v,
  visit v0 nonzero f here cur fullResult (callLattice srt i keep x) args lp = Computed v -> in_space m x.
Proof.
  intros H v E. apply y_space. destruct (top_result H); auto.
  destruct H0 as [X|[X _]]; rewrite E in X; discriminate.
Qed.

Lemma top_outcomes : visits here lp ->
  let o := visit v0 nonzero f here cur fullResult (callLattice srt i keep x) args lp in
  (exists v, o = Computed v) \/ o = Nothing \/ (o = Background /\ fullResult = true).
Proof. intros H. destruct (top_result H); eauto. Qed.

Hypothesis CLEAN : clean y = true.
Hypothesis ZERO : forall v, nonzero v = false -> v = v0.

(** The region of the selected point holds exactly the arguments present. *)
Lemma region_present : forall p, In p L -> cov m y = true -> eqset (oregion p) (rg i m y) ->
  forall a, In a (regions x) -> inr (oregion p) a = m a.
Proof.
  intros p Hp C E a Ha. rewrite <- y_regions in Ha. destruct (y_inn a Ha) as (l & F & _).
  apply bool_iff. rewrite inr_iff. split.
  - intros (k & H). apply E, rg_In in H. destruct H as (b & k' & Eq & _ & _ & M). inversion Eq; subst. auto.
  - intros M. exists l. apply E. apply rg_clean; auto using y_nnf. apply (cov_sup _ _ y_nnf C).
Qed.

Lemma value_present : forall a, (if m a then cur a else v0) = value v0 here cur a.
Proof.
  intros a. unfold m, present, value. destruct (here a); auto. simpl.
  destruct explicit; auto. destruct (nonzero (cur a)) eqn:Z; auto. symmetry. auto.
Qed.

Lemma top_inside : visits here lp -> in_space m x -> f_defs f = [] ->
  visit v0 nonzero f here cur fullResult (callLattice srt i keep x) args lp =
  Computed (f_default f (map (value v0 here cur) args)).
Proof.
  intros H IN NODEF. apply y_space in IN. destruct (top_result H) as [p c Hp R C E [K _] ->|[] O].
  - f_equal. unfold lowerTensorOp, find_def. rewrite NODEF. simpl. f_equal. rewrite K, map_map.
    apply map_ext_in. intros a Ha. rewrite (region_present p Hp C (E (or_intror CLEAN))); [|apply SIT; auto].
    rewrite <- value_present. destruct (m a); auto.
  - rewrite O in IN; auto. discriminate.
  - rewrite O in IN; auto. discriminate.
Qed.

Lemma top_outside : visits here lp -> ~ in_space m x ->
  let o := visit v0 nonzero f here cur fullResult (callLattice srt i keep x) args lp in
  o = Nothing \/ (o = Background /\ fullResult = true).
Proof.
  intros H O. apply y_outside in O. destruct (top_result H) as [p c Hp R C E K Ho|Ho _]; auto. congruence.
Qed.

Lemma nth_indices : forall (g : access -> bool) (l : list access) k d,
  map (fun j => nth (j - k) l d) (map fst (filter (fun ka => g (snd ka)) (combine (seq k (length l)) l))) = filter g l.
Proof.
  induction l as [|a t IH]; simpl; intros k d; auto.
  assert (E : map (fun j => match j - k with 0 => a | S n => nth n t d end)
                (map fst (filter (fun ka => g (snd ka)) (combine (seq (S k) (length t)) t))) = filter g t).
  { rewrite <- (IH (S k) d). apply map_ext_in. intros j Hj. apply in_map_iff in Hj.
    destruct Hj as ([j' b] & <- & Hj). apply filter_In in Hj. destruct Hj as [Hj _].
    apply in_combine_l, in_seq in Hj. simpl. replace (j' - k) with (S (j' - S k)) by lia. auto. }
  destruct (g a); simpl; rewrite E; auto. rewrite Nat.sub_diag. auto.
Qed.

Lemma present_args_lt : forall g (l : list access) j, In j (present_args g l) -> j < length l.
Proof.
  intros g l j H. unfold present_args in H. apply in_map_iff in H. destruct H as ([k a] & <- & H).
  apply filter_In in H. destruct H as [H _]. apply in_combine_l, in_seq in H. simpl. lia.
Qed.

Lemma top_definitions : visits here lp -> (forall a, In a (regions x) -> live a = true) -> in_space m x ->
  visit v0 nonzero f here cur fullResult (callLattice srt i keep x) args lp = Computed (applied v0 here cur f m args).
Proof.
  intros H LV IN. apply y_space in IN. destruct (top_result H) as [p c Hp R C E [K D] ->|[] O].
  - f_equal. assert (RP := region_present p Hp C (E (or_intror CLEAN))).
    assert (AR : forall a, In a args -> inr (oregion p) a = m a) by (intros; apply RP, SIT; auto).
    assert (LV' : forall a, In a (regions y) -> live a = true) by (intros a Ha; rewrite y_regions in Ha; auto).
    assert (PE : present_args (inr (oregion p)) args = present_args m args).
    { unfold present_args. f_equal. apply filter_ext_in. intros [k a] Hk. apply in_combine_r in Hk. simpl. auto. }
    unfold lowerTensorOp, applied. rewrite (D LV'), PE, K. destruct (find_def f (present_args m args)) as [g|].
    + f_equal. rewrite <- (nth_indices m args 0 (Acc 0 [])).
      fold (present_args m args).
      rewrite (map_map _ (value v0 here cur)). apply map_ext_in. intros j Hj.
      assert (Lt := present_args_lt _ _ _ Hj). rewrite Nat.sub_0_r.
      rewrite (nth_indep _ None (Some (Acc 0 []))) by (rewrite map_length; auto).
      assert (NE : nth j (map (fun a => if inr (oregion p) a then Some a else None) args) (Some (Acc 0 [])) =
                   (if m (nth j args (Acc 0 [])) then Some (nth j args (Acc 0 [])) else None)).
      { rewrite (nth_indep _ _ ((fun a => if inr (oregion p) a then Some a else None) (Acc 0 []))) by (rewrite map_length; auto).
        rewrite (map_nth (fun a => if inr (oregion p) a then Some a else None)). rewrite AR; auto. apply nth_In. auto. }
      rewrite NE, <- value_present. destruct (m _); auto.
    + f_equal. rewrite map_map. apply map_ext_in. intros a Ha. rewrite AR; auto.
      rewrite <- value_present. destruct (m a); auto.
  - rewrite O in IN; auto. discriminate.
  - rewrite O in IN; auto. discriminate.
Qed.
End Run.

Lemma top_not_visited : forall lp, runningLoop live (callLattice srt i keep x) = Some lp ->
  forall V (nonzero : V -> bool) (cur : access -> V) b, ~ visits here lp -> ~ in_space (present nonzero here cur b) x.
Proof.
  intros lp RUN V nonzero cur b NV. apply y_outside.
  apply (not_visited i y L y_sem y_nnf y_pc y_inn keep live lp RUN nonzero here cur y_live).
  rewrite <- visits_visited. auto.
Qed.

Lemma top_no_loop : runningLoop live (callLattice srt i keep x) = None ->
  forall m, (forall a, In a (regions x) -> m a = true -> live a = true) -> ~ in_space m x.
Proof.
  intros RUN m SB. apply y_outside. apply (no_loop i y L y_sem y_nnf y_pc y_inn keep live RUN m).
  intros a Ha. rewrite y_regions in Ha. auto.
Qed.

(* ------------------------------------------ when are values compared *)
Lemma falsifiable : forall z : alg access, complements_at_regions z -> NoDup (regions z) -> exists m, cov m z = false.
Proof.
  induction z; simpl; intros N ND.
  - exists (fun _ => false). auto.
  - destruct z; simpl in *; try tauto. exists (fun _ => true). auto.
  - apply NoDup_app_inv in ND. destruct ND as (N1 & N2 & DJ). destruct IHz1 as (m & E); try tauto.
    exists m. rewrite E. auto.
  - apply NoDup_app_inv in ND. destruct ND as (N1 & N2 & DJ).
    destruct IHz1 as (m1 & E1); try tauto. destruct IHz2 as (m2 & E2); try tauto.
    exists (fun a => if in_dec access_eq_dec a (regions z1) then m1 a else m2 a).
    rewrite (cov_ext _ m1 z1), (cov_ext _ m2 z2), E1, E2; auto.
    + intros a Ha. destruct (in_dec access_eq_dec a (regions z1)) as [X|]; auto. destruct (DJ a); auto.
    + intros a Ha. destruct (in_dec access_eq_dec a (regions z1)) as [X|X]; auto. contradiction.
Qed.

Lemma has_complement_omits : forall z : alg access, complements_at_regions z -> NoDup (regions z) ->
  has_complement z = true -> exists m, sup m z = true /\ cov m z = false.
Proof.
  induction z; simpl; intros N ND H; [discriminate|..].
  - destruct z; simpl in *; try tauto. exists (fun _ => true). auto.
  - apply NoDup_app_inv in ND. destruct ND as (N1 & N2 & DJ). apply orb_true_iff in H. destruct H as [H|H].
    + destruct IHz1 as (m1 & E1 & F1); try tauto.
      exists (fun a => if in_dec access_eq_dec a (regions z1) then m1 a else true).
      rewrite (sup_ext _ m1 z1), (cov_ext _ m1 z1), E1, F1.
      * split; auto. rewrite (sup_ext _ (fun _ => true) z2); [rewrite sup_all; auto|].
        intros a Ha. destruct (in_dec access_eq_dec a (regions z1)) as [X|]; auto. destruct (DJ a); auto.
      * intros a Ha. destruct (in_dec access_eq_dec a (regions z1)); tauto.
      * intros a Ha. destruct (in_dec access_eq_dec a (regions z1)); tauto.
    + destruct IHz2 as (m1 & E1 & F1); try tauto.
      exists (fun a => if in_dec access_eq_dec a (regions z2) then m1 a else true).
      rewrite (sup_ext _ m1 z2), (cov_ext _ m1 z2), E1, F1.
      * split; [|apply andb_false_r]. rewrite (sup_ext _ (fun _ => true) z1); [rewrite sup_all; auto|].
        intros a Ha. destruct (in_dec access_eq_dec a (regions z2)) as [X|]; auto. destruct (DJ a); auto.
      * intros a Ha. destruct (in_dec access_eq_dec a (regions z2)); tauto.
      * intros a Ha. destruct (in_dec access_eq_dec a (regions z2)); tauto.
  - apply NoDup_app_inv in ND. destruct ND as (N1 & N2 & DJ). apply orb_true_iff in H. destruct H as [H|H].
    + destruct IHz1 as (m1 & E1 & F1); try tauto. destruct (falsifiable z2) as (m2 & F2); try tauto.
      exists (fun a => if in_dec access_eq_dec a (regions z1) then m1 a else m2 a).
      rewrite (sup_ext _ m1 z1), (cov_ext _ m1 z1), (cov_ext _ m2 z2), E1, F1, F2; auto.
      * intros a Ha. destruct (in_dec access_eq_dec a (regions z1)) as [X|]; auto. destruct (DJ a); auto.
      * intros a Ha. destruct (in_dec access_eq_dec a (regions z1)); tauto.
      * intros a Ha. destruct (in_dec access_eq_dec a (regions z1)); tauto.
    + destruct IHz2 as (m1 & E1 & F1); try tauto. destruct (falsifiable z1) as (m2 & F2); try tauto.
      exists (fun a => if in_dec access_eq_dec a (regions z2) then m1 a else m2 a).
      rewrite (sup_ext _ m1 z2), (cov_ext _ m1 z2), (cov_ext _ m2 z1), E1, F1, F2; auto.
      * split; auto using orb_true_r.
      * intros a Ha. destruct (in_dec access_eq_dec a (regions z2)) as [X|]; auto. destruct (DJ a); auto.
      * intros a Ha. destruct (in_dec access_eq_dec a (regions z2)); tauto.
      * intros a Ha. destruct (in_dec access_eq_dec a (regions z2)); tauto.
Qed.

Lemma no_complement_cov : forall m (z : alg access), has_complement z = false -> cov m z = sup m z.
Proof.
  induction z; simpl; intros H; auto; try discriminate; apply orb_false_iff in H; rewrite IHz1, IHz2; tauto.
Qed.

Lemma top_compares : forall lp, runningLoop live (callLattice srt i keep x) = Some lp ->
  (existsb o_omit (osubLattice (callLattice srt i keep x) lp) = true -> has_complement y = true) /\
  (NoDup (regions x) -> (forall a, In a (regions x) -> live a = true) -> has_complement y = true ->
   existsb o_omit (osubLattice (callLattice srt i keep x) lp) = true).
Proof.
  intros lp RUN. assert (G := gsem_sub i y L y_sem y_pc y_inn keep live lp RUN).
  change (osubLattice (callLattice srt i keep x) lp) with (sub L keep lp).
  assert (FL : forall p, In p L -> o_omit p = true -> has_complement y = true).
  { intros p Hp O. destruct (has_complement y) eqn:HC; auto. exfalso.
    rewrite (os_flag _ _ _ y_sem p Hp), (no_complement_cov _ _ HC) in O.
    destruct (os_sound _ _ _ y_sem _ _ Hp (rapp_inr _)) as (U & _). unfold oregion in O. rewrite U in O. discriminate. }
  split.
  - intros H. apply existsb_exists in H. destruct H as (p & Hp & O). apply (FL p); auto. apply (g_in _ _ _ _ _ _ G). auto.
  - intros ND LV HC. rewrite <- y_regions in ND. destruct (has_complement_omits y y_nnf ND HC) as (m & U & C).
    assert (FR : forall p, In p L -> eqset (oregion p) (rg i m y) -> o_omit p = true).
    { intros p Hp E. rewrite (flag_rg i y L y_sem y_rr p m Hp U E), C. auto. }
    assert (OL : existsb o_omit L = true).
    { destruct (os_complete _ _ _ y_sem m U) as (p & Hp & E & _). apply existsb_exists. eauto. }
    destruct (g_complete _ _ _ _ _ _ G m) as (p & Hp & E & _); auto.
    + intros a Ha _. unfold widen. rewrite y_regions in Ha. rewrite LV; auto. apply orb_true_r.
    + unfold dom0. rewrite OL. simpl. auto.
    + apply existsb_exists. exists p. split; auto. apply FR; auto. apply (g_in _ _ _ _ _ _ G). auto.
Qed.
End Top.

(** Functions without algebra and properties. *)
Lemma default_inside : forall (m : access -> bool) a l, in_space m (constructDefaultAlgebra a l).
Proof.
  intros m a l. unfold constructDefaultAlgebra, in_space.
  set (t := fold_left (fun x b => Union x (Region b)) l (Region a)).
  assert (K : forall z : alg access, inside (fun a => m a = true) z \/ ~ inside (fun a => m a = true) z).
  { induction z; simpl; try tauto. destruct (m r); auto. }
  simpl. apply K.
Qed.
Lemma default_regions : forall a l b, In b (regions (constructDefaultAlgebra a l)) <-> In b (a :: l).
Proof.
  intros a l b. unfold constructDefaultAlgebra. simpl regions. rewrite in_app_iff.
  assert (K : forall (l : list access) (t0 : alg access), regions (fold_left (fun x b => Union x (Region b)) l t0) = regions t0 ++ l).
  { clear. induction l; simpl; intros t0; [rewrite app_nil_r; auto|]. rewrite IHl. simpl. rewrite <- app_assoc. auto. }
  rewrite K. simpl. tauto.
Qed.
Lemma default_clean : forall a l, clean (applyDemorgan (constructDefaultAlgebra a l)) = true.
Proof.
  intros a l. unfold constructDefaultAlgebra.
  assert (K : forall l t0, unions t0 -> unions (fold_left (fun x b => Union x (Region b)) l t0)).
  { clear. induction l; simpl; intros t0 U; auto. apply IHl. simpl. auto. }
  assert (U := K l (Region a) I). set (t := fold_left (fun x b => Union x (Region b)) l (Region a)) in *.
  destruct (unions_demorgan t U) as [D1 D2].
  change (clean (Union (applyDemorgan t) (applier t)) = true). rewrite D1, D2. clear - U.
  assert (A : clean t = true /\ settled t = true).
  { induction t; simpl in *; try tauto. destruct U as [U1 U2].
    destruct (IHt1 U1) as [-> ->], (IHt2 U2) as [-> ->]. rewrite !orb_true_r. auto. }
  assert (B : clean (neg t) = true /\ everywhere (neg t) = true /\ settled (neg t) = true).
  { clear A. induction t; simpl in *; try tauto. destruct U as [U1 U2].
    destruct (IHt1 U1) as (A1 & A2 & A3), (IHt2 U2) as (B1 & B2 & B3). rewrite A1, A2, B1, B2. auto. }
  simpl. destruct A as [-> ->], B as (-> & _ & ->). auto.
Qed.
