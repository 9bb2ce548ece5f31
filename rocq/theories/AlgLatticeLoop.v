(** Proofs about the loops and cases generated for functions with an iteration
    algebra. *)
From Coq Require Import List Arith Lia Bool Permutation Sorted.
Import ListNotations.
From Verif Require Import Checks ChecksSpec ChecksProofs.
From Verif Require Import Storage IndexExpr Lattice LatticeSpec LatticeProofs LatticeLoop
  AlgLattice AlgLatticeSpec AlgLatticeProofs.
Local Open Scope nat_scope.

(* ------------------------------------------------------------ lists *)
Lemma find_sorted : forall (P : opoint -> bool) M p c, StronglySorted odesc M ->
  find P M = Some p -> In c M -> P c = true -> opsize c <= opsize p.
Proof.
  induction M as [|q t IH]; simpl; intros p c SS Fd Hc Pc; [destruct Hc|].
  inversion SS; subst. rewrite Forall_forall in H2.
  destruct (P q) eqn:E.
  - inversion Fd; subst. destruct Hc as [->|Hc]; auto.
  - destruct Hc as [->|Hc]; [congruence|]. eapply IH; eauto.
Qed.

Lemma find_map : forall A B (g : A -> B) (P : B -> bool) l,
  find P (map g l) = option_map g (find (fun a => P (g a)) l).
Proof.
  induction l; simpl; auto. destruct (P (g a)); auto.
Qed.
Lemma find_filter2 : forall A (k P : A -> bool) l, find P (filter k l) = find (fun a => k a && P a) l.
Proof.
  induction l; simpl; auto. destruct (k a) eqn:K; simpl; auto. destruct (P a); auto.
Qed.
Lemma find_app2 : forall A (P : A -> bool) l m,
  find P (l ++ m) = match find P l with Some a => Some a | None => find P m end.
Proof. induction l; simpl; intros; auto. destruct (P a); auto. Qed.

Section RunCase.
Context {V : Type}.
Lemma run_case_hit : forall (cs : list (bool * @outcome V)) am fs bo, find fst cs = Some bo ->
  run_case am fs cs = snd bo.
Proof.
  induction cs as [|[b o] t IH]; simpl; intros am fs bo H; [discriminate|].
  destruct b.
  - inversion H; subst. destruct t; auto.
  - destruct t as [|bo' t']; [discriminate|]. apply IH. auto.
Qed.
Lemma run_case_miss : forall (cs : list (bool * @outcome V)) fs, find fst cs = None ->
  run_case false fs cs = Nothing.
Proof.
  induction cs as [|[b o] t IH]; simpl; intros fs H; auto.
  destruct b; [discriminate|]. destruct t; auto.
Qed.
End RunCase.

(* ------------------------------------------------------------ algebras *)
Lemma everywhere_sup : forall m x, everywhere x = true -> sup m x = true.
Proof.
  induction x; simpl; auto; try discriminate; rewrite ?andb_true_iff, ?orb_true_iff; tauto.
Qed.
Lemma settled_sup : forall m x, settled x = true -> forall a, In a (regions x) -> m a = true -> sup m x = true.
Proof.
  induction x; simpl; intros E a Ha M; auto.
  - destruct Ha as [->|[]]; auto.
  - apply andb_true_iff in E. destruct E. rewrite !everywhere_sup; auto.
  - rewrite !orb_true_iff in E. apply orb_true_iff. destruct E as [[E|E]|E].
    + left. apply everywhere_sup; auto.
    + right. apply everywhere_sup; auto.
    + apply andb_true_iff in E. destruct E. apply in_app_iff in Ha. destruct Ha; [left|right]; eauto.
Qed.

Section Loops.
Variable i : ivar.

Lemma rg_clean : forall m x, clean x = true -> sup m x = true ->
  forall a l, In a (regions x) -> m a = true -> find_level i a = Some l -> complements_at_regions x ->
  In (Lev a l) (rg i m x).
Proof.
  induction x; simpl; intros C U a l Ha M F N.
  - destruct Ha as [->|[]]. rewrite M. apply acc_reg_In. eauto.
  - destruct x; simpl in *; try tauto. destruct Ha as [->|[]]. rewrite M. apply acc_reg_In. eauto.
  - apply andb_true_iff in C. destruct C. apply andb_true_iff in U. destruct U. apply in_app_iff.
    apply in_app_iff in Ha. destruct Ha; [left; apply IHx1|right; apply IHx2]; tauto.
  - rewrite !andb_true_iff in C. destruct C as [[[C1 C2] T1] T2]. apply in_app_iff.
    apply in_app_iff in Ha. destruct Ha as [Ha|Ha]; [left|right].
    + assert (U1 := settled_sup m x1 T1 a Ha M). rewrite U1. apply IHx1; tauto.
    + assert (U1 := settled_sup m x2 T2 a Ha M). rewrite U1. apply IHx2; tauto.
Qed.

Lemma topd_dense : forall m x, (forall a, In a (regions x) -> dense_at i a = true -> m a = true) ->
  topd i x = true -> sup m x = true /\ hd_ i m x = true.
Proof.
  induction x; simpl; intros D T; auto.
  - apply andb_true_iff in T. destruct T as [T1 T2].
    destruct IHx1 as [U1 H1]; auto; [intros; apply D; auto; apply in_app_iff; auto|].
    destruct IHx2 as [U2 H2]; auto; [intros; apply D; auto; apply in_app_iff; auto|].
    rewrite U1, U2, H1, T2. auto.
  - apply orb_true_iff in T. destruct T as [T|T].
    + destruct IHx1 as [U1 H1]; auto; [intros; apply D; auto; apply in_app_iff; auto|].
      rewrite U1, H1. auto.
    + destruct IHx2 as [U1 H1]; auto; [intros; apply D; auto; apply in_app_iff; auto|].
      rewrite U1, H1. rewrite !orb_true_r. auto.
Qed.

(** Without the arguments that are complemented nothing is left out. *)
Fixpoint plain (x : alg access) : list access :=
  match x with
  | Region a => [a]
  | Complement _ => []
  | Intersect x y | Union x y => plain x ++ plain y
  end.
Lemma plain_sup : forall m m' x, (forall a, In a (plain x) -> m a = m' a) -> sup m x = sup m' x.
Proof.
  induction x; simpl; intros H; auto; rewrite IHx1, IHx2; auto; intros; apply H, in_app_iff; auto.
Qed.
Definition dropped (x : alg access) (m : access -> bool) (a : access) : bool :=
  m a && existsb (access_eqb a) (plain x).
Lemma in_plain : forall x a, existsb (access_eqb a) (plain x) = true <-> In a (plain x).
Proof.
  intros. rewrite existsb_exists. split.
  - intros (b & H & E). apply access_eqb_iff in E. subst; auto.
  - intros H. exists a. split; auto. apply access_eqb_iff. auto.
Qed.
Lemma plain_regions : forall x a, In a (plain x) -> In a (regions x).
Proof.
  induction x; simpl; intros a H; auto; try tauto; rewrite in_app_iff in *; destruct H; auto.
Qed.
Lemma plain_cov : forall m x, complements_at_regions x -> NoDup (regions x) ->
  (forall a, In a (regions x) -> ~ In a (plain x) -> m a = false) -> cov m x = sup m x.
Proof.
  induction x; simpl; intros N ND H; auto.
  - destruct x; simpl in *; try tauto. rewrite H; auto.
  - apply NoDup_app_inv in ND. destruct ND as (N1 & N2 & DJ). f_equal; [apply IHx1|apply IHx2]; try tauto.
    + intros a Ha Np. apply H; [apply in_app_iff; auto|]. rewrite in_app_iff. intros [X|X]; auto.
      apply plain_regions in X. eapply DJ; eauto.
    + intros a Ha Np. apply H; [apply in_app_iff; auto|]. rewrite in_app_iff. intros [X|X]; auto.
      apply plain_regions in X. eapply DJ; eauto.
  - apply NoDup_app_inv in ND. destruct ND as (N1 & N2 & DJ). f_equal; [apply IHx1|apply IHx2]; try tauto.
    + intros a Ha Np. apply H; [apply in_app_iff; auto|]. rewrite in_app_iff. intros [X|X]; auto.
      apply plain_regions in X. eapply DJ; eauto.
    + intros a Ha Np. apply H; [apply in_app_iff; auto|]. rewrite in_app_iff. intros [X|X]; auto.
      apply plain_regions in X. eapply DJ; eauto.
Qed.

Lemma rg_all : forall x a l, In a (regions x) -> find_level i a = Some l -> In (Lev a l) (rg i (fun _ => true) x).
Proof.
  induction x; simpl; intros a l Ha F; auto.
  - destruct Ha as [->|[]]. apply acc_reg_In. eauto.
  - rewrite in_app_iff in *. destruct Ha; auto.
  - rewrite !sup_all. rewrite in_app_iff in *. destruct Ha; auto.
Qed.

(* ------------------------------------------------------------ lattices *)
Variable x : alg access.
Variable L : list opoint.
Hypothesis OS : osem i x L.
Hypothesis NNF : complements_at_regions x.
Hypothesis RR : forall m, sup m x = true -> cov (inr (rg i m x)) x = cov m x.
Hypothesis PC : (exists p, In p L /\ o_omit p = true) ->
  forall m, (forall a, In a (regions x) -> ~ In a (plain x) -> m a = false) -> cov m x = sup m x.
Hypothesis INN : forall a, In a (regions x) -> innermost i a.

Definition sub_m (m B : access -> bool) : Prop := forall a, In a (regions x) -> m a = true -> B a = true.
Definition dense_in (m : access -> bool) : Prop :=
  forall a, In a (regions x) -> dense_at i a = true -> m a = true.

Record gsem (B : access -> bool) (dom : (access -> bool) -> Prop) (M : list opoint) : Prop := {
  g_in : forall p, In p M -> In p L;
  g_sorted : StronglySorted odesc M;
  g_bound : forall p, In p M -> rapp B (o_pt p);
  g_complete : forall m, sub_m m B -> dom m -> sup m x = true ->
     exists p, In p M /\ eqset (oregion p) (rg i m x) /\ has_dim (o_pt p) = hd_ i m x }.

Lemma gsem_all : gsem (fun _ => true) (fun _ => True) L.
Proof.
  constructor; auto.
  - apply OS.
  - intros p _ a l _. auto.
  - intros m _ _ U. apply OS. auto.
Qed.

Lemma sub_refl : forall B, sub_m B B.
Proof. intros B a _ H. auto. Qed.

Lemma rapp_sub : forall m B p, In p L -> sub_m m B -> rapp m (o_pt p) -> rapp B (o_pt p).
Proof.
  intros m B p Hp SB R a l Hin. apply SB; [|eapply R; eauto].
  destruct (region_lev _ _ _ _ (os_wf _ _ _ OS p Hp) Hin) as (a' & l' & E & _ & I). inversion E; subst. auto.
Qed.

Lemma gsem_max : forall B dom M P m p, gsem B dom M -> sub_m m B -> dom m -> sup m x = true ->
  find P M = Some p ->
  (forall q, In q M -> P q = true -> rapp m (o_pt q)) ->
  (forall q, In q M -> eqset (oregion q) (rg i m x) -> P q = true) ->
  eqset (oregion p) (rg i m x) /\ has_dim (o_pt p) = hd_ i m x.
Proof.
  intros B dom M P m p G SB Dm U Fd P1 P2.
  destruct (g_complete _ _ _ G m SB Dm U) as (c & Hc & Rc & Dc).
  destruct (find_some _ _ Fd) as [Hp Pp].
  apply (osem_max i x L m p c OS); auto; try (apply (g_in _ _ _ G); auto).
  eapply find_sorted; eauto. apply (g_sorted _ _ _ G).
Qed.

Lemma gsem_find : forall B dom M P m, gsem B dom M -> sub_m m B -> dom m -> sup m x = true ->
  (forall q, In q M -> eqset (oregion q) (rg i m x) -> P q = true) -> exists p, find P M = Some p.
Proof.
  intros B dom M P m G SB Dm U P2.
  destruct (g_complete _ _ _ G m SB Dm U) as (c & Hc & Rc & Dc).
  destruct (find P M) as [p|] eqn:E; eauto.
  assert (X := find_none _ _ E c Hc). rewrite P2 in X; auto. discriminate.
Qed.

Lemma gsem_hd : forall B dom M, gsem B dom M -> dom B -> sup B x = true ->
  M <> [] /\ In (hd opt0 M) M /\ eqset (oregion (hd opt0 M)) (rg i B x) /\ has_dim (o_pt (hd opt0 M)) = hd_ i B x.
Proof.
  intros B dom M G DB U.
  assert (N : M <> []).
  { intros ->. destruct (g_complete _ _ _ G B (sub_refl B) DB U) as (p & [] & _). }
  split; auto. split; [apply ohd_In; auto|].
  eapply (gsem_max B dom M (fun _ => true) B); eauto using sub_refl.
  - destruct M; [congruence|auto].
  - intros q Hq _. apply (g_bound _ _ _ G); auto.
Qed.

Lemma region_sub : forall B dom M p, gsem B dom M -> In p M -> incl (oregion p) (rg i B x).
Proof.
  intros B dom M p G Hp. apply (os_sound _ _ _ OS B p); [apply (g_in _ _ _ G); auto|].
  apply (g_bound _ _ _ G); auto.
Qed.

Lemma same_iters_rapp : forall m p q, In p L -> In q L -> dense_in m ->
  incl (p_iters (o_pt q)) (p_iters (o_pt p)) -> rapp m (o_pt p) -> rapp m (o_pt q).
Proof.
  intros m p q Hp Hq D I R a l H.
  assert (Wq := os_wf _ _ _ OS q Hq). apply region_In in H. destruct H as [[H _]|H].
  - apply (R a l). apply region_In. left. split; auto. discriminate.
  - destruct (wfp_loc _ _ _ Wq _ H) as (a' & l' & E & F & K & Ha). inversion E; subst.
    apply D; auto. unfold dense_at. rewrite F, K. auto.
Qed.

Lemma gsem_loop : forall B dom M, gsem B dom M -> dense_in B -> dom B -> sup B x = true ->
  gsem B (fun m => dom m /\ dense_in m) (ogetLoopLattice M).
Proof.
  intros B dom M G DB dB U. unfold ogetLoopLattice.
  destruct (gsem_hd B dom M G dB U) as (N & H0 & R0 & D0).
  assert (W0 := os_wf _ _ _ OS _ (g_in _ _ _ G _ H0)).
  set (full := filter is_full (p_iters (o_pt (hd opt0 M)))).
  set (F := filter (fun p => subset full (p_iters (o_pt p))) M).
  set (same := fun p q => same_set (p_iters (o_pt p)) (p_iters (o_pt q))).
  assert (Sub : forall p, In p (okeep_first same [] F) -> In p M).
  { intros p H. apply okeep_first_sub in H. apply filter_In in H. tauto. }
  assert (SF : StronglySorted odesc F) by (apply SS_filter; apply (g_sorted _ _ _ G)).
  constructor.
  - intros p H. apply (g_in _ _ _ G). auto.
  - apply okeep_first_sorted. auto.
  - intros p H. apply (g_bound _ _ _ G). auto.
  - intros m SB [dm Dm] Um. destruct (g_complete _ _ _ G m SB dm Um) as (c & Hc & Rc & Dc).
    assert (HF : In c F).
    { apply filter_In. split; auto. apply subset_incl. intros it H. apply filter_In in H.
      destruct H as [Hi Fi]. rewrite (full_iters _ _ _ _ W0 Hi) in Fi. destruct it; [|discriminate].
      apply has_dim_iff. rewrite Dc. apply topd_dense; auto. apply (hd_topd i B).
      rewrite <- D0. apply has_dim_iff. auto. }
    destruct (okeep_first_rep same) with (l := F) (seen := @nil opoint) (p := c)
      as [(q & [] & _)|(q & Hq & Sq & Lq)]; auto.
    + intros; apply same_set_iff, eqset_refl.
    + exists q. split; auto. apply same_set_iff in Sq.
      apply (osem_max i x L m q c OS); auto; try (apply (g_in _ _ _ G); auto).
      eapply (same_iters_rapp m c q); try (apply (g_in _ _ _ G); auto); auto; [apply Sq|].
      apply (rapp_rg i m x). apply Rc.
Qed.

Lemma rangers_In : forall p it, In p L -> it <> Dim ->
  (In it (rangers (o_pt p)) <-> In it (p_iters (o_pt p))).
Proof.
  intros p it Hp Hd. assert (W := os_wf _ _ _ OS p Hp). unfold rangers.
  destruct (existsb _ _) eqn:E; [|tauto]. rewrite filter_In. split; [tauto|]. intros H. split; auto.
  rewrite (full_iters _ _ _ _ W H). destruct it; [congruence|auto].
Qed.

Definition widen (m : access -> bool) (a : access) : bool := dense_at i a || m a.
Lemma widen_dense : forall m, dense_in (widen m).
Proof. intros m a _ D. unfold widen. rewrite D. auto. Qed.
Lemma widen_id : forall m, dense_in m -> sub_m (widen m) m.
Proof. intros m D a Ha. unfold widen. destruct (dense_at i a) eqn:E; auto. Qed.

(** The condition of loops and cases. *)
Lemma rangers_rapp : forall m p, In p L ->
  (forallb (fun it => match it with Dim => true | Lev a _ => m a end) (rangers (o_pt p)) = true <->
   rapp (widen m) (o_pt p)).
Proof.
  intros m p Hp. assert (W := os_wf _ _ _ OS p Hp). rewrite forallb_forall. split.
  - intros H a l Hin. unfold widen. apply region_In in Hin. destruct Hin as [[Hin _]|Hin].
    + apply orb_true_iff. right. apply (H (Lev a l)). apply rangers_In; auto. discriminate.
    + destruct (wfp_loc _ _ _ W _ Hin) as (a' & l' & E & F & K & _). inversion E; subst.
      unfold dense_at. rewrite F, K. auto.
  - intros H [|a l] Hin; auto. apply rangers_In in Hin; auto; [|discriminate].
    assert (X := H a l). unfold widen in X.
    destruct (wfp_it _ _ _ W _ Hin) as [|(a' & l' & E & F & K & _)]; [discriminate|]. inversion E; subst.
    unfold dense_at in X. rewrite F, K in X. apply X. apply region_In. left. split; auto. discriminate.
Qed.

(* ------------------------------------------------------------ loops *)
Variable keep : bool.
Definition cl := makeAlg keep L.
Definition dom0 (m : access -> bool) : Prop := if existsb o_omit L || keep then True else dense_in m.

Lemma head_leaf : forall M p, In p M -> hd opt0 M = p -> In p L -> oregion p <> [] -> anyModeIteratorIsLeaf M = true.
Proof.
  intros M p HM E Hp R. destruct M as [|q t]; [destruct HM|]. simpl in *. subst q.
  destruct (oregion p) as [|it r] eqn:Er; [congruence|].
  assert (Hit : In it (oregion p)) by (rewrite Er; left; auto).
  apply existsb_exists. exists it.
  destruct (region_lev _ _ _ _ (os_wf _ _ _ OS p Hp) Hit) as (a & l & -> & F & Ha). split.
  - apply region_In in Hit. apply in_app_iff. tauto.
  - destruct (INN a Ha) as (l' & F' & E). rewrite F in F'. inversion F'; subst. unfold is_leaf. rewrite E. apply Nat.eqb_refl.
Qed.

Lemma regions_ne : forall y : alg access, regions y <> [].
Proof.
  induction y; simpl; auto; try discriminate; intros E; apply app_eq_nil in E; tauto.
Qed.

Lemma L_leaf : anyModeIteratorIsLeaf L = true.
Proof.
  destruct (gsem_hd _ _ _ gsem_all I (sup_all x)) as (N & H0 & R0 & _).
  apply (head_leaf L (hd opt0 L)); auto. intros E.
  destruct (regions x) as [|a t] eqn:Er; [apply (regions_ne x); auto|].
  destruct (INN a) as (l & F & _); [left; auto|].
  assert (X : In (Lev a l) (oregion (hd opt0 L))).
  { apply R0. apply rg_all; auto. rewrite Er. left; auto. }
  rewrite E in X. destruct X.
Qed.

Lemma cl_eq : cl = if existsb o_omit L || keep then L else ogetLoopLattice L.
Proof. unfold cl, makeAlg, needExplicitZeroChecks. rewrite L_leaf. simpl. auto. Qed.

Lemma dense_dom0 : forall m, dense_in m -> dom0 m.
Proof. intros m D. unfold dom0. destruct (_ || _); auto. Qed.

Lemma gsem_cl : gsem (fun _ => true) dom0 cl.
Proof.
  rewrite cl_eq. unfold dom0. destruct (_ || _).
  - apply gsem_all.
  - destruct (gsem_loop _ _ _ gsem_all) as [A B C D]; auto; [intros a _ _; auto|apply sup_all|].
    constructor; auto.
Qed.

Variable live : access -> bool.
Notation B := (widen live).

Section Running.
Variable lp : opoint.
Hypothesis RUN : runningLoop live cl = Some lp.

Lemma run_facts : In lp cl /\ sup B x = true /\ eqset (oregion lp) (rg i B x) /\ has_dim (o_pt lp) = hd_ i B x.
Proof.
  assert (GL : gsem (fun _ => true) (fun m => dom0 m /\ dense_in m) (ogetLoopLattice cl)).
  { apply gsem_loop; auto using gsem_cl, sup_all; [intros a _ _; auto|].
    apply dense_dom0. intros a _ _; auto. }
  destruct (find_some _ _ RUN) as [Hl Pl]. fold (ogetLoopLattice cl) in Hl.
  assert (HL := g_in _ _ _ GL _ Hl).
  assert (R := proj1 (rangers_rapp live lp HL) Pl).
  destruct (os_sound _ _ _ OS _ _ HL R) as (U & _ & _).
  split; [|split; auto].
  - unfold ogetLoopLattice in Hl. apply okeep_first_sub in Hl. apply filter_In in Hl. tauto.
  - eapply (gsem_max _ _ _ _ B lp GL); eauto.
    + intros a _ _; auto.
    + split; [apply dense_dom0|]; apply widen_dense.
    + intros q Hq Pq. apply rangers_rapp; auto. apply (g_in _ _ _ GL); auto.
    + intros q Hq Eq. apply rangers_rapp; [apply (g_in _ _ _ GL); auto|].
      apply (rapp_rg i B x). apply Eq.
Qed.

Definition sub := osubLattice cl lp.

Lemma gsem_sub : gsem B dom0 sub.
Proof.
  destruct run_facts as (Hl & U & RL & DL). assert (G := gsem_cl).
  assert (HlL := g_in _ _ _ G _ Hl).
  assert (RB : rapp B (o_pt lp)) by (apply (rapp_rg i B x); apply RL).
  constructor.
  - intros p H. apply filter_In in H. apply (g_in _ _ _ G). tauto.
  - apply SS_filter. apply (g_sorted _ _ _ G).
  - intros p H. apply filter_In in H. destruct H as [H S]. apply subset_incl in S.
    eapply (same_iters_rapp B lp p); eauto using widen_dense. apply (g_in _ _ _ G). auto.
  - intros m SB dm Um. destruct (g_complete _ _ _ G m) as (c & Hc & Rc & Dc); auto.
    { intros a _ _; auto. }
    exists c. split; auto. apply filter_In. split; auto. apply subset_incl. intros it Hit.
    assert (Wc := os_wf _ _ _ OS _ (g_in _ _ _ G _ Hc)).
    destruct (wfp_it _ _ _ Wc _ Hit) as [->|(a & l & -> & F & K & Ha)].
    + apply has_dim_iff. rewrite DL. apply (hd_mono i m); auto. rewrite <- Dc. apply has_dim_iff. auto.
    + apply (region_comp i _ _ _ _ (os_wf _ _ _ OS _ HlL) K). apply RL.
      apply (rg_mono i m); auto. apply Rc. apply (region_comp i _ _ _ _ Wc K). auto.
Qed.

Lemma sub_hd : sub <> [] /\ In (hd opt0 sub) sub /\ eqset (oregion (hd opt0 sub)) (rg i B x) /\
  has_dim (o_pt (hd opt0 sub)) = hd_ i B x.
Proof.
  apply (gsem_hd B dom0); [apply gsem_sub | apply dense_dom0, widen_dense | apply run_facts].
Qed.

Definition explicit := existsb o_omit sub.

Lemma explicit_dom : explicit = true -> forall m, dom0 m.
Proof.
  intros E m. unfold dom0. destruct (existsb o_omit L || keep) eqn:X; auto. exfalso.
  apply orb_false_iff in X. destruct X as [X _]. apply existsb_exists in E. destruct E as (p & Hp & Op).
  assert (Y : existsb o_omit L = true) by (apply existsb_exists; exists p; split; auto; apply (g_in _ _ _ gsem_sub); auto).
  congruence.
Qed.

(** Points that are left out have arguments. *)
Lemma omit_ne : forall p, In p L -> o_omit p = true -> oregion p <> [].
Proof.
  intros p Hp O E. rewrite (empty_producer i x L p OS NNF Hp) in O; [discriminate|].
  rewrite E. auto.
Qed.

Lemma explicit_leaf : explicit = true -> anyModeIteratorIsLeaf sub = true.
Proof.
  intros E. destruct sub_hd as (N & H0 & R0 & _). apply (head_leaf sub (hd opt0 sub)); auto.
  - apply (g_in _ _ _ gsem_sub). auto.
  - intros Z. apply existsb_exists in E. destruct E as (p & Hp & Op).
    apply (omit_ne p); auto; [apply (g_in _ _ _ gsem_sub); auto|].
    assert (I0 := region_sub _ _ _ _ gsem_sub Hp).
    destruct (oregion p) as [|it t] eqn:Ep; auto. exfalso.
    assert (X : In it (oregion (hd opt0 sub))) by (apply R0, I0; left; auto).
    rewrite Z in X. destruct X.
Qed.

(** Where something is left out something else is produced. *)
Lemma explicit_producer : explicit = true -> exists p, In p sub /\ o_omit p = false.
Proof.
  intros E. assert (DM := explicit_dom E). destruct run_facts as (_ & U & _).
  set (m := dropped x B).
  assert (Um : sup m x = true).
  { rewrite <- U. apply plain_sup. intros a Ha. unfold m, dropped. apply in_plain in Ha. rewrite Ha.
    apply andb_true_r. }
  destruct (g_complete _ _ _ gsem_sub m) as (c & Hc & Rc & _); auto.
  { intros a _ Ha. apply andb_true_iff in Ha. tauto. }
  exists c. split; auto. rewrite (os_flag _ _ _ OS c); [|apply (g_in _ _ _ gsem_sub); auto].
  rewrite (cov_ext _ (inr (rg i m x))) by (intros; apply inr_eqset; auto).
  rewrite RR; auto.
  rewrite PC, Um; auto.
  - unfold explicit in E. apply existsb_exists in E. destruct E as (p & Hp & O).
    exists p. split; auto. apply (g_in _ _ _ gsem_sub). auto.
  - intros a _ Np. unfold m, dropped.
    destruct (existsb (access_eqb a) (plain x)) eqn:X; [|apply andb_false_r].
    apply in_plain in X. contradiction.
Qed.

Lemma flag_rg : forall p m, In p L -> sup m x = true -> eqset (oregion p) (rg i m x) ->
  o_omit p = negb (cov m x).
Proof.
  intros p m Hp U E. rewrite (os_flag _ _ _ OS p Hp). f_equal.
  rewrite (cov_ext _ (inr (rg i m x))) by (intros; apply inr_eqset; auto).
  apply RR; auto.
Qed.

Section At.
Context {V : Type} (v0 : V) (nonzero : V -> bool).
Variables (f : @func V) (here : access -> bool) (cur : access -> V) (fullResult : bool) (args : list access).
Hypothesis DENSE : dense_in here.
Hypothesis LIVE : sub_m here live.
Hypothesis ARGS : incl args (regions x).

Notation pres := (present nonzero here cur).
Lemma pres_here : forall b, sub_m (pres b) here.
Proof. intros b a _ H. unfold present in H. apply andb_true_iff in H. tauto. Qed.
Lemma here_B : sub_m here B.
Proof. intros a Ha H. unfold widen. rewrite (LIVE a Ha H). apply orb_true_r. Qed.
Lemma pres_B : forall b, sub_m (pres b) B.
Proof. intros b a Ha H. apply here_B; auto. eapply pres_here; eauto. Qed.

Definition lcall := zeroCall (oexhaustedAccess cl lp) (makeCall args).
Definition kept (p : opoint) (c : call) : Prop :=
  c_args c = map (fun a => if inr (oregion p) a then Some a else None) args /\
  ((forall a, In a (regions x) -> live a = true) ->
   c_defined c = present_args (inr (oregion p)) args).

Lemma exhausted_iff : forall M p a, M <> [] ->
  (oexhaustedAccess M p a = true <-> exists l, In (Lev a l) (oregion (hd opt0 M)) /\ ~ In (Lev a l) (oregion p)).
Proof.
  intros M p a N. unfold oexhaustedAccess, exhaustedAccess, exhausted.
  rewrite lat_iters_map, lat_locs_map by auto. rewrite existsb_exists. split.
  - intros ([|b l] & H & E); [discriminate|]. apply access_eqb_iff in E. subst b.
    apply filter_In in H. destruct H as [H1 H2]. apply filter_In in H1. destruct H1 as [H1 _].
    apply negb_true_iff, mem_false in H2. exists l. split; auto.
    apply region_In. apply in_app_iff in H1. destruct H1; auto. left. split; auto. discriminate.
  - intros (l & H1 & H2). exists (Lev a l). split; [|apply access_eqb_iff; auto].
    apply filter_In. split; [|apply negb_true_iff, mem_false; auto].
    apply filter_In. split; auto. apply region_In in H1. apply in_app_iff. tauto.
Qed.

Lemma cl_ne : cl <> [] /\ forall a l, In a (regions x) -> find_level i a = Some l -> In (Lev a l) (oregion (hd opt0 cl)).
Proof.
  destruct (gsem_hd _ _ _ gsem_cl) as (N & _ & R & _); [apply dense_dom0; intros a _ _; auto | apply sup_all|].
  split; auto. intros a l Ha F. apply R. apply rg_all; auto.
Qed.

Lemma inr_lev : forall p a l, In p L -> In a (regions x) -> find_level i a = Some l ->
  (inr (oregion p) a = true <-> In (Lev a l) (oregion p)).
Proof.
  intros p a l Hp Ha F. rewrite inr_iff. split; eauto. intros (k & H).
  destruct (region_lev _ _ _ _ (os_wf _ _ _ OS p Hp) H) as (a' & l' & E & F' & _). inversion E; subst.
  congruence.
Qed.

Lemma cl_exhausted : forall p a, In p L -> In a (regions x) ->
  oexhaustedAccess cl p a = negb (inr (oregion p) a).
Proof.
  intros p a Hp Ha. destruct cl_ne as [N T]. destruct (INN a Ha) as (l & F & _).
  apply bool_iff. rewrite (exhausted_iff _ _ _ N), negb_true_iff, <- not_true_iff_false, (inr_lev p a l); auto.
  split.
  - intros (k & H1 & H2) H3. apply H2.
    destruct (region_lev _ _ _ _ (os_wf _ _ _ OS _ (g_in _ _ _ gsem_cl _ (ohd_In _ N))) H1) as (a' & l' & E & F' & _).
    inversion E; subst. rewrite F in F'. inversion F'; subst. auto.
  - intros H. exists l. split; auto.
Qed.

Lemma sub_exhausted : forall p a, In p sub -> In a (regions x) ->
  oexhaustedAccess sub p a = inr (oregion lp) a && negb (inr (oregion p) a).
Proof.
  intros p a Hp Ha. destruct sub_hd as (N & H0 & R0 & _). destruct (INN a Ha) as (l & F & _).
  destruct run_facts as (Hl & _ & RL & _).
  assert (HpL := g_in _ _ _ gsem_sub _ Hp). assert (HlL := g_in _ _ _ gsem_cl _ Hl).
  assert (E := eqset_trans _ _ _ R0 (eqset_sym _ _ RL)).
  apply bool_iff. rewrite (exhausted_iff _ _ _ N), andb_true_iff, negb_true_iff, <- not_true_iff_false,
    (inr_lev p a l), (inr_lev lp a l); auto.
  split.
  - intros (k & H1 & H2). apply E in H1.
    destruct (region_lev _ _ _ _ (os_wf _ _ _ OS _ HlL) H1) as (a' & l' & E' & F' & _). inversion E'; subst.
    rewrite F in F'. inversion F'; subst. auto.
  - intros [H1 H2]. exists l. split; auto. apply E. auto.
Qed.

Lemma zeroCall_args : forall z c,
  c_args (zeroCall z c) = map (fun o => if zeroArg z o then None else o) (c_args c).
Proof.
  intros z c. unfold zeroCall. destruct (existsb (zeroArg z) (c_args c)) eqn:E; auto.
  rewrite <- (map_id (c_args c)) at 1. apply map_ext_in. intros o Ho.
  destruct (zeroArg z o) eqn:Z; auto. rewrite (proj2 (existsb_exists _ _)) in E; eauto. discriminate.
Qed.

Lemma lcall_args : c_args lcall = map (fun a => if inr (oregion lp) a then Some a else None) args.
Proof.
  unfold lcall. rewrite zeroCall_args. simpl. rewrite map_map. apply map_ext_in. intros a Ha.
  simpl. rewrite cl_exhausted; auto.
  - destruct (inr (oregion lp) a); auto.
  - apply (g_in _ _ _ gsem_cl). apply run_facts.
Qed.

Lemma present_args_all : forall m l, (forall a, In a l -> m a = true) -> forall k,
  map fst (filter (fun ka : nat * access => m (snd ka)) (combine (seq k (length l)) l)) = seq k (length l).
Proof.
  induction l; simpl; intros H k; auto. rewrite H by auto. simpl. f_equal. apply IHl. auto.
Qed.

Lemma lcall_live : (forall a, In a (regions x) -> live a = true) -> lcall = makeCall args /\
  forall a, In a args -> inr (oregion lp) a = true.
Proof.
  intros LV. destruct run_facts as (Hl & _ & RL & _). assert (HlL := g_in _ _ _ gsem_cl _ Hl).
  assert (A : forall a, In a args -> inr (oregion lp) a = true).
  { intros a Ha. destruct (INN a (ARGS a Ha)) as (l & F & _). apply (inr_lev lp a l); auto. apply RL.
    apply (rg_mono i (fun _ => true)); [|apply rg_all; auto].
    intros b Hb _. unfold widen. rewrite LV; auto. apply orb_true_r. }
  split; auto. unfold lcall, zeroCall. simpl.
  destruct (existsb _ (map Some args)) eqn:E; auto. exfalso.
  apply existsb_exists in E. destruct E as (o & Ho & Z). apply in_map_iff in Ho. destruct Ho as (a & <- & Ha).
  simpl in Z. rewrite cl_exhausted, (A a Ha) in Z; auto. discriminate.
Qed.

Lemma kept_lp : kept lp lcall.
Proof.
  split; [apply lcall_args|]. intros LV. destruct (lcall_live LV) as [-> A]. simpl.
  unfold present_args. rewrite present_args_all; auto.
Qed.

Lemma filter_nth_combine : forall (z : access -> bool) l k,
  filter (fun j => negb (zeroArg z (nth (j - k) (map Some l) None))) (seq k (length l)) =
  map fst (filter (fun ka => negb (z (snd ka))) (combine (seq k (length l)) l)).
Proof.
  induction l as [|a t IH]; simpl; intros k; auto. rewrite Nat.sub_diag. simpl.
  assert (E : filter (fun j => negb (zeroArg z (nth (j - k) (Some a :: map Some t) None))) (seq (S k) (length t)) =
              filter (fun j => negb (zeroArg z (nth (j - S k) (map Some t) None))) (seq (S k) (length t))).
  { apply filter_ext_in. intros j Hj. apply in_seq in Hj.
    replace (j - k) with (S (j - S k)) by lia. reflexivity. }
  simpl in E. destruct (z a); simpl; rewrite E, IH; auto.
Qed.

Lemma kept_sub : forall p, In p sub -> kept p (zeroCall (oexhaustedAccess sub p) lcall).
Proof.
  intros p Hp. assert (HpL := g_in _ _ _ gsem_sub _ Hp).
  destruct run_facts as (Hl & _ & RL & _). assert (HlL := g_in _ _ _ gsem_cl _ Hl).
  assert (I0 := region_sub _ _ _ _ gsem_sub Hp).
  assert (PL : forall a, inr (oregion p) a = true -> inr (oregion lp) a = true).
  { intros a. rewrite !inr_iff. intros (l & H). exists l. apply RL, I0, H. }
  split.
  - rewrite zeroCall_args, lcall_args, map_map. apply map_ext_in. intros a Ha.
    destruct (inr (oregion lp) a) eqn:El; simpl.
    + rewrite sub_exhausted, El; auto. simpl. destruct (inr (oregion p) a); auto.
    + destruct (inr (oregion p) a) eqn:Ep; auto. rewrite PL in El; auto. discriminate.
  - intros LV. destruct (lcall_live LV) as [-> A].
    assert (Z : forall a, In a args -> oexhaustedAccess sub p a = negb (inr (oregion p) a)).
    { intros a Ha. rewrite sub_exhausted, A; auto. }
    unfold zeroCall. simpl. destruct (existsb _ (map Some args)) eqn:E; simpl.
    + rewrite map_length. unfold present_args.
      transitivity (map fst (filter (fun ka : nat * access => negb (oexhaustedAccess sub p (snd ka)))
                                    (combine (seq 0 (length args)) args))).
      * rewrite <- filter_nth_combine. apply filter_ext. intros k. rewrite Nat.sub_0_r. auto.
      * f_equal. apply filter_ext_in. intros [k a] Hk. apply in_combine_r in Hk. simpl. rewrite Z; auto.
        apply negb_involutive.
    + unfold present_args. rewrite present_args_all; auto. intros a Ha.
      destruct (inr (oregion p) a) eqn:Ep; auto. exfalso.
      rewrite (proj2 (existsb_exists _ _)) in E; [discriminate|]. exists (Some a). split.
      * apply in_map_iff. eauto.
      * simpl. rewrite Z, Ep; auto.
Qed.

(** What the loop does at the coordinate. *)
Inductive result (S : access -> bool) (o : @outcome V) : Prop :=
| ResComputed : forall p c, In p L -> rapp S (o_pt p) -> cov S x = true ->
    (explicit = false \/ clean x = true -> eqset (oregion p) (rg i S x)) ->
    kept p c -> o = Computed (lowerTensorOp v0 f cur c) -> result S o
| ResSkipped : (o = Nothing \/ (o = Background /\ fullResult = true)) ->
    (explicit = false \/ clean x = true -> cov S x = false) -> result S o.

(* -------------------------------------------- explicit checks for zero *)
Lemma isNonZero_pres : forall it, In it (oregion (hd opt0 sub)) ->
  isNonZero nonzero here cur sub it = match it with Dim => true | Lev a _ => pres true a end.
Proof.
  intros it H. destruct sub_hd as (N & H0 & _ & _).
  assert (W := os_wf _ _ _ OS _ (g_in _ _ _ gsem_sub _ H0)).
  destruct (region_lev _ _ _ _ W H) as (a & l & -> & F & Ha). unfold isNonZero, present.
  destruct (INN a Ha) as (l' & F' & E). rewrite F in F'. inversion F'; subst.
  assert (is_leaf (Lev a l') = true) as -> by (unfold is_leaf; rewrite E; apply Nat.eqb_refl).
  destruct (mem (Lev a l') (p_locs (o_pt (hd opt0 sub)))) eqn:M; auto.
  apply mem_In in M. destruct (wfp_loc _ _ _ W _ M) as (a' & k & E' & F2 & K & _). inversion E'; subst.
  rewrite (DENSE a' Ha); auto. unfold dense_at. rewrite F2, K. auto.
Qed.

Lemma in_map_iff' : forall it, it <> Dim ->
  (AlgLattice.in_map sub it = true <-> In it (oregion (hd opt0 sub))).
Proof.
  intros it Hd. unfold AlgLattice.in_map. rewrite mem_In. reflexivity.
Qed.
Lemma in_map_dim : AlgLattice.in_map sub Dim = false.
Proof.
  apply mem_false. intros H. destruct sub_hd as (N & H0 & _ & _).
  assert (W := os_wf _ _ _ OS _ (g_in _ _ _ gsem_sub _ H0)).
  destruct (region_lev _ _ _ _ W H) as (a & l & E & _). discriminate.
Qed.

Definition needed p := filter (AlgLattice.in_map sub) (rangers (o_pt p) ++ p_locs (o_pt p)).
Definition omitted p := filter (AlgLattice.in_map sub) (iteratorsToOmit sub p).
Definition cond p := forallb (isNonZero nonzero here cur sub) (needed p) &&
                     forallb (fun it => negb (isNonZero nonzero here cur sub it)) (omitted p).

Lemma sub_region_hd : forall p, In p sub -> incl (oregion p) (oregion (hd opt0 sub)).
Proof.
  intros p Hp it H. destruct sub_hd as (_ & _ & R0 & _). apply R0.
  apply (region_sub _ _ _ _ gsem_sub Hp). auto.
Qed.

Lemma needed_In : forall p it, In p sub -> (In it (needed p) <-> In it (oregion p)).
Proof.
  intros p it Hp. assert (HpL := g_in _ _ _ gsem_sub _ Hp). unfold needed. rewrite filter_In, in_app_iff.
  destruct (iter_eq_dec it Dim) as [->|Hd].
  - rewrite in_map_dim. split; [intros []; discriminate|]. intros H.
    destruct (region_lev _ _ _ _ (os_wf _ _ _ OS _ HpL) H) as (a & l & E & _). discriminate.
  - rewrite (rangers_In p it HpL Hd), in_map_iff' by auto. unfold oregion at 2. rewrite region_In. split.
    + intros [[H|H] _]; auto.
    + intros H. split; [tauto|]. apply (sub_region_hd p Hp). apply region_In. auto.
Qed.

Lemma omitted_In : forall p it, In p sub -> o_omit p = false -> (In it (omitted p) <->
  exists q, In q sub /\ o_omit q = true /\ length (oregion p) < length (oregion q) /\
            In it (oregion q) /\ ~ In it (oregion p)).
Proof.
  intros p it Hp O. unfold omitted, iteratorsToOmit. rewrite O. simpl. rewrite filter_In, in_flat_map. split.
  - intros [(q & Hq & H) _]. exists q.
    destruct ((length (oregion p) <? length (oregion q)) && o_omit q) eqn:E; [|destruct H].
    apply andb_true_iff in E. destruct E as [E1 E2]. apply Nat.ltb_lt in E1.
    apply filter_In in H. destruct H as [H1 H2]. apply negb_true_iff, mem_false in H2. auto.
  - intros (q & Hq & Oq & Lt & H1 & H2). split.
    + exists q. split; auto. apply Nat.ltb_lt in Lt. rewrite Lt, Oq. simpl. apply filter_In. split; auto.
      apply negb_true_iff, mem_false. auto.
    + apply in_map_iff'.
      * destruct (region_lev _ _ _ _ (os_wf _ _ _ OS _ (g_in _ _ _ gsem_sub _ Hq)) H1) as (a & l & -> & _). discriminate.
      * apply (sub_region_hd q Hq). auto.
Qed.

Lemma cond_iff : forall p, In p sub -> o_omit p = false -> (cond p = true <->
  rapp (pres true) (o_pt p) /\
  forall q a l, In q sub -> o_omit q = true -> length (oregion p) < length (oregion q) ->
     In (Lev a l) (oregion q) -> ~ In (Lev a l) (oregion p) -> pres true a = false).
Proof.
  intros p Hp O. unfold cond. rewrite andb_true_iff, !forallb_forall. split; intros [H1 H2]; split.
  - intros a l H. assert (X := H1 (Lev a l)). rewrite isNonZero_pres in X; [|apply (sub_region_hd p Hp); auto].
    apply X. apply needed_In; auto.
  - intros q a l Hq Oq Lt Ha Hn. assert (X := H2 (Lev a l)).
    rewrite isNonZero_pres in X; [|apply (sub_region_hd q Hq); auto].
    apply negb_true_iff, X. apply omitted_In; auto. exists q. auto.
  - intros it H. apply needed_In in H; auto. rewrite isNonZero_pres; [|apply (sub_region_hd p Hp); auto].
    destruct it as [|a l]; auto. apply (H1 a l). auto.
  - intros it H. apply omitted_In in H; auto. destruct H as (q & Hq & Oq & Lt & Ha & Hn).
    rewrite isNonZero_pres; [|apply (sub_region_hd q Hq); auto].
    destruct (region_lev _ _ _ _ (os_wf _ _ _ OS _ (g_in _ _ _ gsem_sub _ Hq)) Ha) as (a & l & -> & _).
    apply negb_true_iff. eapply H2; eauto.
Qed.

Lemma guarded : explicit = true -> forall p, In p sub -> o_omit p = false -> needed p ++ omitted p <> [].
Proof.
  intros E p Hp O Z. apply app_eq_nil in Z. destruct Z as [Z1 Z2].
  assert (R0 : oregion p = []).
  { destruct (oregion p) as [|it t] eqn:Ep; auto. exfalso.
    assert (X : In it (needed p)) by (apply needed_In; auto; rewrite Ep; left; auto). rewrite Z1 in X. destruct X. }
  apply existsb_exists in E. destruct E as (q & Hq & Oq).
  assert (Nq := omit_ne q (g_in _ _ _ gsem_sub _ Hq) Oq).
  destruct (oregion q) as [|it t] eqn:Eq; [congruence|].
  assert (X : In it (omitted p)).
  { apply omitted_In; auto. exists q. rewrite R0, Eq. simpl. split; auto. split; auto. split; [lia|]. auto. }
  rewrite Z2 in X. destruct X.
Qed.

Lemma selected_sound : explicit = true -> forall p, In p sub -> o_omit p = false -> cond p = true ->
  cov (pres true) x = true.
Proof.
  intros E p Hp O C. apply cond_iff in C; auto. destruct C as [R Q].
  assert (HpL := g_in _ _ _ gsem_sub _ Hp).
  destruct (os_sound _ _ _ OS _ _ HpL R) as (U & I0 & _).
  destruct (cov (pres true) x) eqn:CV; auto. exfalso.
  destruct (g_complete _ _ _ gsem_sub (pres true)) as (c & Hc & Rc & _); auto using pres_B, explicit_dom.
  assert (HcL := g_in _ _ _ gsem_sub _ Hc).
  assert (Oc := flag_rg c _ HcL U Rc). rewrite CV in Oc. simpl in Oc.
  assert (Ipc : incl (oregion p) (oregion c)) by (eapply incl_tran; [apply I0|apply Rc]).
  assert (NE : ~ incl (oregion c) (oregion p)).
  { intros I2. assert (EE : eqset (oregion p) (rg i (pres true) x)) by (split; auto; eapply incl_tran; [apply Rc|auto]).
    assert (Op := flag_rg p _ HpL U EE). rewrite CV in Op. simpl in Op. congruence. }
  assert (Lt : length (oregion p) < length (oregion c)).
  { destruct (le_lt_dec (length (oregion c)) (length (oregion p))) as [Le|]; auto. exfalso. apply NE.
    apply NoDup_length_incl; auto. eapply region_NoDup. apply (os_wf _ _ _ OS p HpL). }
  apply NE. intros it Hit.
  destruct (region_lev _ _ _ _ (os_wf _ _ _ OS _ HcL) Hit) as (a & l & -> & _).
  destruct (in_dec iter_eq_dec (Lev a l) (oregion p)) as [|Hn]; auto. exfalso.
  assert (X := Q c a l Hc Oc Lt Hit Hn).
  apply Rc, rg_In in Hit. destruct Hit as (a' & l' & E' & _ & _ & M). inversion E'; subst. congruence.
Qed.

Lemma complete_cond : clean x = true -> cov (pres true) x = true -> forall c, In c sub ->
  eqset (oregion c) (rg i (pres true) x) -> o_omit c = false /\ cond c = true.
Proof.
  intros CL CV c Hc Rc. assert (HcL := g_in _ _ _ gsem_sub _ Hc).
  assert (U := cov_sup _ _ NNF CV).
  assert (Oc := flag_rg c _ HcL U Rc). rewrite CV in Oc. split; auto. apply cond_iff; auto. split.
  - apply (rapp_rg i (pres true) x). apply Rc.
  - intros q a l Hq Oq _ Ha Hn. destruct (pres true a) eqn:P; auto. exfalso. apply Hn. apply Rc.
    destruct (region_lev _ _ _ _ (os_wf _ _ _ OS _ (g_in _ _ _ gsem_sub _ Hq)) Ha) as (a' & l' & E & F & I).
    inversion E; subst. apply rg_clean; auto.
Qed.

Notation pick := (fun p => negb (o_omit p) && cond p).

Lemma explicit_result : explicit = true ->
  result (pres true) (mergeCases v0 nonzero f here cur fullResult sub lcall).
Proof.
  intros E. unfold mergeCases. rewrite (explicit_leaf E). unfold needExplicitZeroChecks.
  fold explicit. rewrite E. simpl orb. simpl andb. cbv iota. unfold explicitCases.
  destruct sub_hd as (N & H0 & R0 & D0). destruct (explicit_producer E) as (pr & Hpr & Opr).
  destruct ((length sub =? 1) && (length (p_iters (o_pt (hd opt0 sub))) =? 1)) eqn:One.
  { exfalso. apply andb_true_iff in One. destruct One as [One _]. apply Nat.eqb_eq in One.
    destruct sub as [|p [|]] eqn:Es; simpl in One; try lia. destruct Hpr as [->|[]].
    unfold explicit in E. rewrite Es in E. simpl in E. rewrite Opr in E. discriminate. }
  unfold casesFromMap. fold (needed). 
  change (fun p => filter (AlgLattice.in_map sub) (rangers (o_pt p) ++ p_locs (o_pt p))) with needed.
  change (fun p => filter (AlgLattice.in_map sub) (iteratorsToOmit sub p)) with omitted.
  cbv zeta.
  match goal with |- result _ (if existsb ?P ?l then _ else _) => assert (UG : existsb P l = false) end.
  { apply not_true_iff_false. intros X. apply existsb_exists in X. destruct X as (p & Hp & X).
    apply filter_In in Hp. destruct Hp as [Hp Op]. apply negb_true_iff in Op.
    assert (G := guarded E p Hp Op). unfold needed, omitted in G. destruct (_ ++ _); [congruence|discriminate]. }
  rewrite UG. clear UG.
  assert (EX : oexact sub = false).
  { unfold oexact. fold explicit. rewrite E. auto. }
  rewrite EX. simpl negb. simpl andb.
  match goal with |- context [map ?g (filter _ sub)] => set (gg := g) end.
  assert (FC : find fst (map gg (filter (fun p => negb (o_omit p)) sub)) = option_map gg (find pick sub)).
  { rewrite find_map, find_filter2. f_equal. }
  destruct (find pick sub) as [p|] eqn:Fp.
  - destruct (find_some _ _ Fp) as [Hp Pp]. apply andb_true_iff in Pp. destruct Pp as [Op Cp].
    apply negb_true_iff in Op. assert (HpL := g_in _ _ _ gsem_sub _ Hp).
    assert (CV := selected_sound E p Hp Op Cp).
    assert (RES : forall o, o = Computed (lowerTensorOp v0 f cur (zeroCall (oexhaustedAccess sub p) lcall)) -> result (pres true) o).
    { intros o Ho. eapply ResComputed; eauto using kept_sub.
      - apply cond_iff in Cp; tauto.
      - intros [X|CL]; [congruence|].
        destruct (gsem_max B dom0 sub pick (pres true) p gsem_sub) as [Y _]; auto using pres_B, explicit_dom.
        + apply (cov_sup _ _ NNF CV).
        + intros q Hq Pq. apply andb_true_iff in Pq. destruct Pq as [Oq Cq]. apply negb_true_iff in Oq.
          apply cond_iff in Cq; tauto.
        + intros q Hq Eq. destruct (complete_cond CL CV q Hq Eq) as [-> ->]. auto. }
    simpl in FC. destruct (fullResult && _).
    + rewrite (run_case_hit _ true true (gg p)); [apply RES; auto|]. rewrite find_app2, FC. auto.
    + rewrite (run_case_hit _ false true (gg p)); [apply RES; auto|auto].
  - assert (CV : clean x = true -> cov (pres true) x = false).
    { intros CL. destruct (cov (pres true) x) eqn:CV; auto. exfalso.
      destruct (gsem_find B dom0 sub pick (pres true) gsem_sub) as (p & Fp'); auto using pres_B, explicit_dom.
      - apply (cov_sup _ _ NNF CV).
      - intros q Hq Eq. destruct (complete_cond CL CV q Hq Eq) as [-> ->]. auto.
      - congruence. }
    simpl in FC. destruct fullResult eqn:FR; simpl andb.
    + match goal with |- context [if ?b then _ else _] => destruct b end.
      * apply ResSkipped; [|intros [X|X]; [congruence|auto]].
        right. split; auto. rewrite (run_case_hit _ true true (true, Background)); auto.
        rewrite find_app2, FC. auto.
      * apply ResSkipped; [|intros [X|X]; [congruence|auto]]. left. apply run_case_miss. auto.
    + apply ResSkipped; [|intros [X|X]; [congruence|auto]]. left. apply run_case_miss. auto.
Qed.

(* -------------------------------------------- comparing coordinates *)
Definition visited := exists it, In it (p_iters (o_pt lp)) /\ atCoordinate here it = true.

Lemma no_omit : explicit = false -> forall p, In p sub -> o_omit p = false.
Proof.
  intros E p Hp. destruct (o_omit p) eqn:O; auto. unfold explicit in E.
  rewrite (proj2 (existsb_exists _ _)) in E; eauto.
Qed.

Lemma structural_cov : explicit = false -> sup here x = cov here x.
Proof.
  intros E. destruct (sup here x) eqn:U.
  - destruct (g_complete _ _ _ gsem_sub here) as (c & Hc & Rc & _); auto using here_B, dense_dom0.
    assert (O := flag_rg c _ (g_in _ _ _ gsem_sub _ Hc) U Rc). rewrite (no_omit E c Hc) in O.
    destruct (cov here x); auto.
  - destruct (cov here x) eqn:C; auto. apply cov_sup in C; auto. congruence.
Qed.

Lemma iters_eq : forall p q, In p L -> In q L -> eqset (oregion p) (oregion q) ->
  has_dim (o_pt p) = has_dim (o_pt q) -> eqset (p_iters (o_pt p)) (p_iters (o_pt q)).
Proof.
  assert (K : forall p q, In p L -> In q L -> eqset (oregion p) (oregion q) ->
    has_dim (o_pt p) = has_dim (o_pt q) -> incl (p_iters (o_pt p)) (p_iters (o_pt q))).
  { intros p q Hp Hq R D it H. assert (Wp := os_wf _ _ _ OS _ Hp). assert (Wq := os_wf _ _ _ OS _ Hq).
    destruct (wfp_it _ _ _ Wp _ H) as [->|(a & l & -> & _ & K & _)].
    - apply has_dim_iff. rewrite <- D. apply has_dim_iff. auto.
    - apply (region_comp i _ _ _ _ Wq K). apply R. apply (region_comp i _ _ _ _ Wp K). auto. }
  intros p q Hp Hq R D. split; apply K; auto. apply eqset_sym. auto.
Qed.

Definition ll := ogetLoopLattice sub.
Lemma gsem_ll : gsem B (fun m => dom0 m /\ dense_in m) ll.
Proof.
  apply gsem_loop; [apply gsem_sub | apply widen_dense | apply dense_dom0, widen_dense | apply run_facts].
Qed.
Lemma ll_hd : ll <> [] /\ In (hd opt0 ll) ll /\ eqset (p_iters (o_pt (hd opt0 ll))) (p_iters (o_pt lp)) /\
  eqset (oregion (hd opt0 ll)) (oregion lp).
Proof.
  destruct run_facts as (Hl & U & RL & DL).
  destruct (gsem_hd _ _ _ gsem_ll) as (N & H0 & R0 & D0); auto.
  { split; [apply dense_dom0|]; apply widen_dense. }
  split; auto. split; auto.
  assert (E : eqset (oregion (hd opt0 ll)) (oregion lp)) by (eapply eqset_trans; [eauto|apply eqset_sym; auto]).
  split; auto. apply iters_eq; auto.
  - apply (g_in _ _ _ gsem_ll). auto.
  - apply (g_in _ _ _ gsem_cl). auto.
  - congruence.
Qed.
Lemma ll_sub : forall p, In p ll -> In p sub.
Proof.
  intros p H. unfold ll, ogetLoopLattice in H. apply okeep_first_sub in H. apply filter_In in H. tauto.
Qed.

(** A point with one iterator, at the coordinate, and located arguments. *)
Lemma single_here : forall p it, In p L -> p_iters (o_pt p) = [it] -> atCoordinate here it = true ->
  rapp here (o_pt p).
Proof.
  intros p it Hp E A a l H. apply region_In in H. destruct H as [[H _]|H].
  - rewrite E in H. destruct H as [->|[]]. auto.
  - destruct (wfp_loc _ _ _ (os_wf _ _ _ OS _ Hp) _ H) as (a' & l' & E' & F & K & Ha). inversion E'; subst.
    apply DENSE; auto. unfold dense_at. rewrite F, K. auto.
Qed.
Lemma full_here : forall p, In p L -> forallb is_full (p_iters (o_pt p)) = true -> rapp here (o_pt p).
Proof.
  intros p Hp E a l H. rewrite forallb_forall in E. apply region_In in H. destruct H as [[H _]|H].
  - assert (X := E _ H). rewrite (full_iters _ _ _ _ (os_wf _ _ _ OS _ Hp) H) in X. discriminate.
  - destruct (wfp_loc _ _ _ (os_wf _ _ _ OS _ Hp) _ H) as (a' & l' & E' & F & K & Ha). inversion E'; subst.
    apply DENSE; auto. unfold dense_at. rewrite F, K. auto.
Qed.

Definition scond p := forallb (atCoordinate here) (rangers (o_pt p)) &&
   (o_omit p || forallb (fun it => negb (atCoordinate here it)) (iteratorsToOmit ll p)).
Lemma scond_iff : explicit = false -> forall p, In p ll -> (scond p = true <-> rapp here (o_pt p)).
Proof.
  intros E p Hp. assert (HpL := g_in _ _ _ gsem_ll _ Hp). unfold scond.
  assert (Z : iteratorsToOmit ll p = []).
  { unfold iteratorsToOmit. rewrite (no_omit E p (ll_sub p Hp)). simpl.
    assert (G : forall M, (forall q, In q M -> In q ll) ->
       flat_map (fun q => if (length (oregion p) <? length (oregion q)) && o_omit q
                     then filter (fun it => negb (mem it (oregion p))) (oregion q) else []) M = []).
    { induction M as [|q t IH]; simpl; intros HM; auto. rewrite IH; auto.
      rewrite (no_omit E q) by (apply ll_sub; auto). rewrite andb_false_r. auto. }
    apply G. auto. }
  rewrite Z. simpl. rewrite orb_true_r, andb_true_r.
  change (forallb (fun it => match it with Dim => true | Lev a _ => here a end) (rangers (o_pt p)) = true <->
          rapp here (o_pt p)).
  rewrite (rangers_rapp here p HpL). split; intros R a l H.
  - assert (X := R a l H).
    destruct (region_lev _ _ _ _ (os_wf _ _ _ OS _ HpL) H) as (a' & l' & E' & _ & I). inversion E'; subst.
    apply (widen_id here DENSE a' I X).
  - unfold widen. rewrite (R a l H). apply orb_true_r.
Qed.

Lemma structural_result : explicit = false -> visited ->
  result here (mergeCases v0 nonzero f here cur fullResult sub lcall).
Proof.
  intros E VIS. unfold mergeCases, needExplicitZeroChecks. fold explicit. rewrite E. rewrite andb_false_r.
  cbv iota. fold ll. destruct ll_hd as (N & H0 & I0 & R0).
  assert (H0L := g_in _ _ _ gsem_ll _ H0).
  destruct run_facts as (Hl & U & RL & DL).
  assert (DD : dom0 here /\ dense_in here) by (split; auto; apply dense_dom0; auto).
  destruct (length (p_iters (o_pt (hd opt0 ll))) =? 1) eqn:One.
  - rewrite (no_omit E _ (ll_sub _ H0)). cbv iota. apply Nat.eqb_eq in One.
    destruct (p_iters (o_pt (hd opt0 ll))) as [|it [|]] eqn:Ei; simpl in One; try lia.
    assert (A : atCoordinate here it = true).
    { destruct VIS as (it' & H1 & H2). apply I0 in H1. destruct H1 as [->|[]]. auto. }
    assert (RH := single_here _ it H0L Ei A).
    destruct (os_sound _ _ _ OS _ _ H0L RH) as (Uh & Ih & _).
    assert (EE : eqset (oregion lp) (rg i here x)).
    { split.
      - eapply incl_tran; [apply R0|apply Ih].
      - eapply incl_tran; [apply (rg_mono i here B); apply here_B|]. apply RL. }
    eapply (ResComputed _ _ lp lcall); auto.
    + apply (g_in _ _ _ gsem_cl). auto.
    + apply (rapp_rg i here x). apply EE.
    + rewrite <- structural_cov; auto.
    + apply kept_lp.
  - match goal with |- context [map ?g ll] => set (gg := g) end.
    assert (FC : find fst (map gg ll) = option_map gg (find scond ll)) by (rewrite find_map; f_equal).
    destruct (find scond ll) as [p|] eqn:Fp.
    + destruct (find_some _ _ Fp) as [Hp Pp]. assert (HpL := g_in _ _ _ gsem_ll _ Hp).
      apply (scond_iff E p Hp) in Pp. destruct (os_sound _ _ _ OS _ _ HpL Pp) as (Uh & _ & _).
      rewrite (run_case_hit _ _ _ (gg p) FC). simpl.
      eapply (ResComputed _ _ p (zeroCall (oexhaustedAccess ll p) lcall)); auto.
      * rewrite <- structural_cov; auto.
      * intros _. destruct (gsem_max B _ ll scond here p gsem_ll) as [Y _]; auto using here_B.
        -- intros q Hq. apply scond_iff; auto.
        -- intros q Hq Eq. apply scond_iff; auto. apply (rapp_rg i here x). apply Eq.
      * assert (EZ : forall a, oexhaustedAccess ll p a = oexhaustedAccess sub p a).
        { intros a. destruct sub_hd as (Ns & Hs & Rs & _).
          assert (EE : eqset (oregion (hd opt0 ll)) (oregion (hd opt0 sub))).
          { eapply eqset_trans; [exact R0|]. eapply eqset_trans; [exact RL|]. apply eqset_sym. auto. }
          apply bool_iff. rewrite !exhausted_iff by auto.
          split; intros (l & H1 & H2); exists l; split; auto; apply EE; auto. }
        assert (ZE : zeroCall (oexhaustedAccess ll p) lcall = zeroCall (oexhaustedAccess sub p) lcall).
        { assert (ZA : forall o, zeroArg (oexhaustedAccess ll p) o = zeroArg (oexhaustedAccess sub p) o)
            by (intros [a|]; simpl; auto).
          unfold zeroCall.
          assert (X : forall l, existsb (zeroArg (oexhaustedAccess ll p)) l = existsb (zeroArg (oexhaustedAccess sub p)) l)
            by (induction l; simpl; auto; rewrite ZA, IHl; auto).
          rewrite X. destruct (existsb _ _); auto. f_equal.
          - apply map_ext. intros o. rewrite ZA. auto.
          - apply filter_ext. intros k. rewrite ZA. auto. }
        rewrite ZE. apply kept_sub. apply ll_sub. auto.
    + assert (UN : sup here x = false).
      { destruct (sup here x) eqn:Uh; auto. exfalso.
        destruct (gsem_find B _ ll scond here gsem_ll) as (p & Fp'); auto using here_B; [|congruence].
        intros q Hq Eq. apply scond_iff; auto. apply (rapp_rg i here x). apply Eq. }
      assert (NR : forall p, In p ll -> ~ rapp here (o_pt p)).
      { intros p Hp R. destruct (os_sound _ _ _ OS _ _ (g_in _ _ _ gsem_ll _ Hp) R) as (X & _). congruence. }
      assert (NX : oexact ll = false).
      { apply not_true_iff_false. intros X. unfold oexact in X. apply andb_true_iff in X. destruct X as [_ X].
        unfold exact in X. apply orb_true_iff in X. destruct X as [X|X].
        - apply existsb_exists in X. destruct X as (q & Hq & Fq). apply in_map_iff in Hq.
          destruct Hq as (p & <- & Hp). apply (NR p Hp). apply full_here; auto. apply (g_in _ _ _ gsem_ll); auto.
        - apply subset_incl in X. rewrite lat_iters_map in X by auto.
          destruct VIS as (it & H1 & H2). apply I0 in H1. apply X in H1. apply in_flat_map in H1.
          destruct H1 as (q & Hq & Hs). apply in_map_iff in Hq. destruct Hq as (p & <- & Hp).
          destruct (p_iters (o_pt p)) as [|it' [|]] eqn:Ep; simpl in Hs; try tauto.
          destruct Hs as [->|[]]. apply (NR p Hp). apply (single_here p it); auto.
          apply (g_in _ _ _ gsem_ll); auto. }
      rewrite NX. apply ResSkipped.
      * left. apply run_case_miss. auto.
      * intros _. rewrite <- structural_cov; auto.
Qed.

Lemma present_false : forall a, pres false a = here a.
Proof. intros a. unfold present. apply andb_true_r. Qed.

Theorem visit_result : visited ->
  result (pres explicit) (visit v0 nonzero f here cur fullResult cl args lp).
Proof.
  intros VIS. unfold visit. fold sub lcall. destruct explicit eqn:E.
  - apply explicit_result. auto.
  - assert (R := structural_result E VIS). destruct R.
    + apply (ResComputed _ _ p c); auto.
      * intros a l Ha. rewrite present_false. eauto.
      * rewrite <- H1. apply cov_ext. intros. apply present_false.
      * intros X. apply H2 in X.
        assert (EE : forall m m' y, (forall a, m a = m' a) -> rg i m y = rg i m' y).
        { intros m m' y HM. assert (SU : forall z, sup m z = sup m' z) by (intros; apply sup_ext; auto).
          induction y; simpl; auto; [rewrite HM; auto|rewrite IHy1, IHy2; auto|].
          rewrite !SU, IHy1, IHy2. auto. }
        rewrite (EE _ here); auto. apply present_false.
    + apply ResSkipped; auto. intros X. apply H0 in X. rewrite (cov_ext _ here); auto. intros. apply present_false.
Qed.

(** Coordinates that the loop skips. *)
Theorem not_visited : ~ visited -> forall b, cov (pres b) x = false.
Proof.
  intros NV b. destruct (cov (pres b) x) eqn:C; auto. exfalso. apply NV.
  assert (U := cov_sup _ _ NNF C).
  destruct (os_complete _ _ _ OS _ U) as (c & Hc & Rc & Dc).
  destruct run_facts as (Hl & _ & RL & DL). assert (Wc := os_wf _ _ _ OS _ Hc).
  assert (Wl := os_wf _ _ _ OS _ (g_in _ _ _ gsem_cl _ Hl)).
  destruct (p_iters (o_pt c)) as [|it t] eqn:Ei; [destruct (wfp_ne _ _ _ Wc Ei)|].
  assert (Hit : In it (p_iters (o_pt c))) by (rewrite Ei; left; auto).
  exists it. destruct (wfp_it _ _ _ Wc _ Hit) as [->|(a & l & -> & F & K & Ha)].
  - split; auto. apply has_dim_iff. rewrite DL. apply (hd_mono i (pres b)); [apply pres_B|].
    rewrite <- Dc. apply has_dim_iff. auto.
  - assert (X : In (Lev a l) (rg i (pres b) x)) by (apply Rc; apply (region_comp i _ _ _ _ Wc K); auto).
    split.
    + apply (region_comp i _ _ _ _ Wl K). apply RL. apply (rg_mono i (pres b)); auto. apply pres_B.
    + simpl. apply rg_In in X. destruct X as (a' & l' & E & _ & I & M). inversion E; subst.
      eapply pres_here; eauto.
Qed.
End At.
End Running.

(** When no loop runs any more nothing is left. *)
Theorem no_loop : runningLoop live cl = None -> forall m, sub_m m live -> cov m x = false.
Proof.
  intros RUN m SB. destruct (cov m x) eqn:C; auto. exfalso.
  assert (U := cov_sup _ _ NNF C).
  assert (GL : gsem (fun _ => true) (fun m => dom0 m /\ dense_in m) (ogetLoopLattice cl)).
  { apply gsem_loop; auto using gsem_cl, sup_all; [intros a _ _; auto|].
    apply dense_dom0. intros a _ _; auto. }
  assert (UB : sup B x = true).
  { apply (sup_mono m); auto. intros a Ha M. unfold widen. rewrite (SB a Ha M). apply orb_true_r. }
  destruct (gsem_find _ _ _ (fun lp => forallb (fun it => match it with Dim => true | Lev a _ => live a end) (rangers (o_pt lp)))
              B GL) as (p & Fp); auto.
  - intros a _ _; auto.
  - split; [apply dense_dom0|]; apply widen_dense.
  - intros q Hq Eq. apply rangers_rapp; [apply (g_in _ _ _ GL); auto|]. apply (rapp_rg i B x). apply Eq.
  - unfold runningLoop in RUN. congruence.
Qed.
End Loops.
