(** The loops inside the last appending loop: what they write into the values
    of the appended position. *)
From Coq Require Import List Arith Lia Bool.
Import ListNotations.
From Verif Require Import Outcome Storage StorageProofs IndexExpr Eval Lattice LatticeSpec LatticeLoop LoopIR Lower Walk
  LowerBase LoopRule Nest Visits DenseKernel DenseKernelProofs TreeLevels SparseTree SparseKernel AppendProofs SparseProofs SparseNest.
Local Open Scope nat_scope.
Local Arguments inb : simpl never.

Section Tail.
Context {V : Type}.
Variable R : ring_ops V.
Variable fn : nat -> V -> V.
Variable T : nat -> storage V.
Variable junkV : nat -> V.
Variable junkI : nat -> nat.
Variable dimf : ivar -> nat.
Variable srt : list point -> list point.
Hypothesis SRT : admissible_sort srt.
Notation exec := (exec R fn T junkV junkI).
Notation ieval := (ieval T).
Notation payload := ((ivar -> nat) * expr V)%type.
Variable n tres : nat.
Variable vs : list (ivar * kind).
Variable reduce zinit asm : bool.
Variable m : nat.
Notation N := (length vs).
Notation cmp := (comp_at_level vs).
Notation W := (W dimf vs).
Notation sv := (sv dimf vs).
Hypothesis ML : m <= N.
Hypothesis M0 : 0 < m.
Hypothesis TAIL : forall l, m <= l -> cmp l = false.
Hypothesis NDV : NoDup (map fst vs).
Hypothesis DW : forall l, l < N -> cmp l = false -> nth_error (st_levels (T tres)) l = Some (LDense (W l)).

(** Position reached from [q] through the first [k] levels after the last
    compressed one. *)
Fixpoint pp (q : nat) (rho : ivar -> nat) (k : nat) : nat :=
  match k with 0 => q | S k => pp q rho k * W (m + k) + rho (var_at vs (m + k)) end.
Definition lpos (q : nat) (rho : ivar -> nat) : nat := pp q rho (N - m).

Lemma pp_ext : forall q rho rho' k, (forall j, j < k -> rho (var_at vs (m + j)) = rho' (var_at vs (m + j))) ->
  pp q rho k = pp q rho' k.
Proof. induction k; simpl; intros H; auto. rewrite IHk, (H k) by auto. auto. Qed.

Lemma sv_tail : forall l, m <= l -> l < N -> sv l = W l * sv (S l).
Proof. intros l A B. rewrite sv_step by auto. rewrite TAIL by auto. auto. Qed.
Lemma sv_end : sv N = 1.
Proof. unfold sv, SparseProofs.sv. rewrite Nat.sub_diag. auto. Qed.

Lemma pp_lt : forall q rho k, m + k <= N -> (forall l, m <= l -> l < m + k -> rho (var_at vs l) < W l) ->
  q * sv m <= pp q rho k * sv (m + k) /\ (pp q rho k + 1) * sv (m + k) <= (q + 1) * sv m.
Proof.
  induction k; intros K H.
  - simpl. rewrite Nat.add_0_r. lia.
  - destruct IHk as [I1 I2]; [lia|intros; apply H; lia|]. rewrite (sv_tail (m + k)) in I1, I2 by lia.
    assert (B := H (m + k) ltac:(lia) ltac:(lia)). cbn [pp]. replace (m + S k) with (S (m + k)) by lia.
    set (p := pp q rho k) in *. set (w := W (m + k)) in *. set (d := sv (S (m + k))) in *. set (c := rho _) in *.
    assert (X1 : p * w * d <= (p * w + c) * d) by (apply Nat.mul_le_mono_r; lia).
    assert (X2 : (p * w + c + 1) * d <= (p * w + w) * d) by (apply Nat.mul_le_mono_r; lia).
    split; lia.
Qed.

Lemma lpos_lt : forall q rho, (forall l, m <= l -> l < N -> rho (var_at vs l) < W l) ->
  q * sv m <= lpos q rho /\ lpos q rho < (q + 1) * sv m.
Proof.
  intros q rho H. unfold lpos. destruct (pp_lt q rho (N - m)) as [A B]; [lia|intros; apply H; lia|].
  replace (m + (N - m)) with N in * by lia. rewrite sv_end in *. lia.
Qed.

Lemma pp_inj : forall q q' rho rho' k, m + k <= N ->
  (forall l, m <= l -> l < m + k -> rho (var_at vs l) < W l) ->
  (forall l, m <= l -> l < m + k -> rho' (var_at vs l) < W l) ->
  pp q rho k = pp q' rho' k ->
  q = q' /\ forall l, m <= l -> l < m + k -> rho (var_at vs l) = rho' (var_at vs l).
Proof.
  induction k; intros K H H' E.
  - simpl in E. split; auto. intros. lia.
  - cbn [pp] in E. assert (B := H (m + k) ltac:(lia) ltac:(lia)). assert (B' := H' (m + k) ltac:(lia) ltac:(lia)).
    set (w := W (m + k)) in *. set (p := pp q rho k) in *. set (p' := pp q' rho' k) in *.
    assert (E1 : p = p').
    { rewrite (Nat.mul_comm p), (Nat.mul_comm p') in E. apply (Nat.div_unique (w * p + rho (var_at vs (m + k))) w p) in B; auto.
      apply (Nat.div_unique (w * p' + rho' (var_at vs (m + k))) w p') in B'; auto. congruence. }
    destruct IHk as [I1 I2]; auto; try lia.
    + intros; apply H; lia.
    + intros; apply H'; lia.
    + split; auto. intros l L1 L2. destruct (Nat.eq_dec l (m + k)) as [->|NE]; [nia|apply I2; lia].
Qed.

Lemma lpos_inj : forall q q' rho rho', (forall l, m <= l -> l < N -> rho (var_at vs l) < W l) ->
  (forall l, m <= l -> l < N -> rho' (var_at vs l) < W l) -> lpos q rho = lpos q' rho' ->
  q = q' /\ forall l, m <= l -> l < N -> rho (var_at vs l) = rho' (var_at vs l).
Proof.
  intros q q' rho rho' H H' E. unfold lpos in E. apply pp_inj in E; try lia; try (intros; (apply H || apply H'); lia).
  destruct E as [E1 E2]. split; auto. intros. apply E2; lia.
Qed.

Lemma sv_factor : forall j, m + j <= N -> exists k, sv m = k * sv (m + j).
Proof.
  induction j; intros J.
  - exists 1. rewrite Nat.add_0_r. lia.
  - destruct IHj as (k & E); [lia|]. rewrite (sv_tail (m + j)) in E by lia. exists (k * W (m + j)).
    replace (m + S j) with (S (m + j)) by lia. rewrite E. apply Nat.mul_assoc.
Qed.

(** Every position below [k * sv m] is one. *)
Lemma pp_surj : forall j p b, m + j <= N -> p < b * (sv m) -> exists q rho, q < b /\
  (forall l, m <= l -> l < m + j -> rho (var_at vs l) < W l) /\ p / sv (m + j) = pp q rho j.
Proof using ML M0 TAIL NDV. clear - ML M0 TAIL NDV.
  induction j; intros p b J P.
  - exists (p / sv m), (fun _ => 0). rewrite Nat.add_0_r. split; [|split; auto; intros; lia].
    apply Nat.div_lt_upper_bound; [intros Z; rewrite Z in P; lia|lia].
  - destruct (IHj p b ltac:(lia) P) as (q & rho & Q & B & E).
    assert (SV := sv_tail (m + j) ltac:(lia) ltac:(lia)).
    assert (PZ : sv (m + j) <> 0).
    { intros Z. destruct (sv_factor j ltac:(lia)) as (k & F). rewrite F, Z in P. lia. }
    replace (m + S j) with (S (m + j)) by lia.
    set (w := W (m + j)) in *. set (d := sv (S (m + j))) in *.
    assert (w <> 0 /\ d <> 0) by (split; intros Z; rewrite Z in SV; lia).
    exists q, (upd rho (var_at vs (m + j)) (p / d mod w)). split; auto.
    assert (NV : forall l, m <= l -> l < m + j -> var_at vs l <> var_at vs (m + j)).
    { intros l L1 L2 X. apply (var_at_inj vs) in X; auto; lia. }
    split.
    + intros l L1 L2. destruct (Nat.eq_dec l (m + j)) as [->|NE].
      * rewrite upd_eq. fold w. apply Nat.mod_upper_bound. tauto.
      * rewrite upd_neq by (apply NV; lia). apply B; lia.
    + cbn [pp]. fold w. rewrite upd_eq. rewrite (pp_ext q _ rho).
      * rewrite <- E, SV. rewrite (Nat.mul_comm w d), <- Nat.div_div by tauto.
        rewrite (Nat.mul_comm (p / d / w) w). apply Nat.div_mod. tauto.
      * intros i I. apply upd_neq. apply NV; lia.
Qed.
Lemma lpos_surj : forall p b, p < b * sv m -> exists q rho, q < b /\
  (forall l, m <= l -> l < N -> rho (var_at vs l) < W l) /\ p = lpos q rho.
Proof using ML M0 TAIL NDV. clear - ML M0 TAIL NDV.
  intros p b P. destruct (pp_surj (N - m) p b ltac:(lia) P) as (q & rho & Q & B & E).
  exists q, rho. split; auto. split; [intros; apply B; lia|]. unfold lpos. rewrite <- E.
  replace (m + (N - m)) with N by lia. rewrite sv_end, Nat.div_1_r. auto.
Qed.

(** *** The writes *)
Definition wr (q : nat) (l : list V) (v : payload) : list V :=
  let p := lpos q (fst v) in
  let x := eval R fn (denot R T (fst v)) (snd v) in
  upd_nth l p (if reduce then radd R (nth p l (r0 R)) x else x).
Definition wrs (q : nat) (vis : list payload) (l : list V) : list V := fold_left (wr q) vis l.
Lemma wrs_length : forall q vis l, length (wrs q vis l) = length l.
Proof. induction vis; simpl; intros; auto. unfold wrs in *. simpl. rewrite IHvis. apply upd_nth_length. Qed.
Lemma wrs_app : forall q v1 v2 l, wrs q (v1 ++ v2) l = wrs q v2 (wrs q v1 l).
Proof. intros. apply fold_left_app. Qed.

(** *** The loops *)
Notation outer o := (rev (map fst (firstn o vs))).
Definition in_res (v : ivar) : bool := match index_of v vs with Some _ => true | None => false end.
Definition tail_vars (v : var) : Prop := is_ctl v = true \/ exists l, m <= l /\ v = VRes l.

Definition tail_hooks : @hooks V :=
  let h := sparse_hooks R n tres vs reduce zinit asm true in
  Hooks (fun b i => if i =? var_at vs m then Skip else hk_pre h b i) (hk_enter h) (hk_exit h) (hk_post h) (hk_leaf h).

Lemma locate_gen : forall o bound st q c, o < N -> cmp o = false ->
  (forall l, l < o -> In (var_at vs l) bound) -> (S o < N -> ~ In (var_at vs (S o)) bound) ->
  ieval st (parent_pos VRes o) = Some q -> env st (VIdx (var_at vs o)) = Some c ->
  exec (decl_locate (var_at vs o :: bound) VRes tres o vs) st (setv st (VRes o) (q * W o + c)).
Proof.
  intros o bound st q c O C UP DN P E. unfold decl_locate. rewrite anc_true.
  2:{ intros x HX. apply in_rev in HX. right. apply In_nth with (d := (0, KDense)) in HX.
      destruct HX as (j & J & EJ). rewrite firstn_length in J.
      assert (E2 : nth j (firstn o vs) (0, KDense) = nth j vs (0, KDense)).
      { rewrite <- (firstn_skipn o vs) at 2. rewrite app_nth1; auto. rewrite firstn_length. auto. }
      rewrite <- EJ, E2. apply (UP j). lia. }
  assert (SK : forall o, o < N -> skipn o vs = (var_at vs o, if cmp o then KComp else KDense) :: skipn (S o) vs).
  { intros o0 O0. apply (skip_at vs m); auto. }
  rewrite SK, C by lia. cbn [locate_down].
  assert (X : inb (var_at vs o) (var_at vs o :: bound) = true) by (apply inb_In; simpl; auto). rewrite X.
  econstructor.
  - constructor. simpl. rewrite P, E. rewrite (DW o) by (auto; lia). auto.
  - destruct (Nat.eq_dec (S o) N) as [EQ|NE].
    + rewrite skipn_all2 by lia. constructor.
    + rewrite SK by lia. cbn [locate_down]. destruct (cmp (S o)); [constructor|].
      assert (Y : inb (var_at vs (S o)) (var_at vs o :: bound) = false).
      { destruct (inb (var_at vs (S o)) (var_at vs o :: bound)) eqn:Y; auto. apply inb_In in Y.
        destruct Y as [Y|Y]; [|exfalso; apply DN; auto; lia]. apply (var_at_inj vs) in Y; auto; lia. }
      rewrite Y. constructor.
Qed.

Lemma no_comp_after : forall l, m <= S l -> existsb cmp (seq (S l) (N - S l)) = false.
Proof.
  intros l L. apply not_true_iff_false. intros X. apply existsb_exists in X. destruct X as (j & J & C).
  apply in_seq in J. rewrite TAIL in C by lia. discriminate.
Qed.

Lemma idx_in : forall i l, index_of i vs = Some l -> in_res i = true.
Proof. intros i l E. unfold in_res. rewrite E. auto. Qed.
Lemma res_var : forall l, l < N -> in_res (var_at vs l) = true.
Proof.
  intros l L. unfold in_res. destruct (index_of (var_at vs l) vs) eqn:E; auto.
  exfalso. eapply index_of_none; eauto.
Qed.
Lemma skip_fst : forall o, o < N -> map fst (skipn o vs) = var_at vs o :: map fst (skipn (S o) vs).
Proof.
  intros o O. rewrite (skip_at vs m ML M0 o O). auto.
Qed.

Notation G := (state V * (nat * list V))%type.
Definition tC (o : nat) (vars bound : list ivar) (q : nat) (rho : ivar -> nat) (st : state V) : Prop :=
  m <= o <= N /\ filter in_res vars = map fst (skipn o vs) /\
  (forall l, l < o -> In (var_at vs l) bound) /\ (forall l, o <= l -> l < N -> ~ In (var_at vs l) bound) /\
  env st (VRes (m - 1)) = Some q /\
  forall k, m + k < o -> env st (VRes (m + k)) = Some (pp q rho (S k)).
Definition tcov (vars bound : list ivar) (e : expr V) : Prop :=
  forall a, In a (accesses e) -> wf_access T dimf (a_tensor a) (a_vars a) /\ covers (rev vars ++ bound) (a_vars a).
Definition tA (g : G) (vars bound : list ivar) (rho : ivar -> nat) (e : expr V) (st : state V) : Prop :=
  touch tail_vars none (eq n) (fst g) st /\ vbuf st n = snd (snd g) /\ (fst (snd g) + 1) * sv m <= length (snd (snd g)) /\
  tcov vars bound e /\ exists o, tC o vars bound (fst (snd g)) rho st.
Definition tB (g : G) (vars bound : list ivar) (rho : ivar -> nat) (e : expr V) (st : state V) : Prop :=
  touch tail_vars none (eq n) (fst g) st /\ vbuf st n = wrs (fst (snd g)) (visits T dimf vars rho e) (snd (snd g)) /\
  exists o, tC o vars bound (fst (snd g)) rho st.
Definition tI (g : G) (vars bound : list ivar) (rho : ivar -> nat) (e : expr V) (i : ivar) (c : nat) (st : state V) : Prop :=
  touch tail_vars none (eq n) (fst g) st /\ vbuf st n = wrs (fst (snd g)) (visits_to T dimf vars rho e i c) (snd (snd g)) /\
  (fst (snd g) + 1) * sv m <= length (snd (snd g)) /\
  tcov (i :: vars) bound e /\ exists o, tC o (i :: vars) bound (fst (snd g)) rho st.

Lemma tC_ctl : forall o vars bound q rho (st st' : state V), ctl st st' -> tC o vars bound q rho st -> tC o vars bound q rho st'.
Proof.
  intros o vars bound q rho st st' (_ & _ & C) (H1 & H2 & H3 & H4 & H5 & H6). repeat split; auto; try tauto.
  - rewrite C; auto.
  - intros k K. rewrite C; auto.
Qed.
Lemma touch_ctl : forall s st st' : state V, ctl st st' -> touch tail_vars none (eq n) s st -> touch tail_vars none (eq n) s st'.
Proof.
  intros s st st' (C1 & C2 & C3) (T1 & T2 & T3). repeat split.
  - intros v Hv. rewrite C3; auto. destruct (is_ctl v) eqn:X; auto. exfalso. apply Hv. left; auto.
  - intros. rewrite C1. auto.
  - intros. rewrite C2. auto.
Qed.

Theorem tail_ok : forall vars rho e q st,
  NoDup (rev vars ++ outer m) -> NoDup (accesses e) ->
  (forall a, In a (accesses e) -> wf_access T dimf (a_tensor a) (a_vars a) /\
     (forall pre post, vars = pre ++ post -> legal (rev pre ++ outer m) (a_vars a)) /\
     covers (rev vars ++ outer m) (a_vars a)) ->
  filter in_res vars = map fst (skipn m vs) ->
  posok T dimf (outer m) rho (accesses e) st ->
  env st (VRes (m - 1)) = Some q -> (q + 1) * sv m <= length (vbuf st n) ->
  exists st', exec (lower srt dimf tail_hooks vars (outer m) e) st st' /\ agree (outer m) st st' /\
    touch tail_vars none (eq n) st st' /\ vbuf st' n = wrs q (visits T dimf vars rho e) (vbuf st n).
Proof.
  intros vars0 rho0 e0 q0 st0 ND LIN ACC SH POS EQ0 LEN0.
  assert (LV : forall i l, index_of i vs = Some l -> l < N /\ var_at vs l = i) by (intros; apply index_of_nth; auto).
  assert (HD : forall o i vars bound q rho st l, tC o (i :: vars) bound q rho st -> index_of i vs = Some l ->
     l = o /\ o < N /\ filter in_res vars = map fst (skipn (S o) vs)).
  { intros o i vars bound q rho st l (H1 & H2 & _) IX. simpl in H2. rewrite (idx_in i l IX) in H2.
    destruct (Nat.eq_dec o N) as [E|NE]; [rewrite E, skipn_all in H2; discriminate|].
    rewrite skip_fst in H2 by lia. inversion H2 as [[X Y]]. destruct (LV i l IX) as [L1 L2].
    split; [|split; [lia|auto]]. apply (var_at_inj vs); auto; try lia; congruence. }
  assert (RD : forall o i vars bound q rho st, tC o (i :: vars) bound q rho st -> index_of i vs = None ->
     filter in_res vars = map fst (skipn o vs)).
  { intros o i vars bound q rho st (H1 & H2 & _) IX. simpl in H2.
    assert (X : in_res i = false) by (unfold in_res; rewrite IX; auto). rewrite X in H2. auto. }
  assert (SKIP : forall i (f : nat -> stmt V) st o vars bound q rho, tC o (i :: vars) bound q rho st ->
     (forall l, m <= l -> l < N -> exec (f l) st st) -> exec (at_level vs i f) st st).
  { intros i f st o vars bound q rho HC F. unfold at_level. destruct (index_of i vs) as [l|] eqn:IX; [|constructor].
    destruct (HD _ _ _ _ _ _ _ _ HC IX) as (-> & L & _). destruct HC as ((H1 & _) & _). apply F; lia. }
  destruct (nest_ok R fn T junkV junkI dimf srt SRT tail_hooks G tA tB tI) with
    (vars := vars0) (bound := outer m) (rho := rho0) (e := e0) (g := (st0, (q0, vbuf st0 n))) (st := st0)
    as (st' & X & AG & PB).
  - intros g vars bound rho e s s' C (H1 & H2 & H3 & H4 & o & H5). split; [eapply touch_ctl; eauto|].
    split; [destruct C as (_ & -> & _); auto|]. split; auto. split; auto. exists o. eapply tC_ctl; eauto.
  - intros g vars bound rho e i c s s' C (H1 & H2 & H3 & H4 & o & H5). split; [eapply touch_ctl; eauto|].
    split; [destruct C as (_ & -> & _); auto|]. split; auto. split; auto. exists o. eapply tC_ctl; eauto.
  - intros g i vars bound rho e s (H1 & H2 & H3 & H4 & o & H5) _ _. exists s. split; [|split; [apply same_ctl_refl|]].
    + cbn [tail_hooks hk_pre]. destruct (Nat.eqb_spec i (var_at vs m)) as [E|NE]; [constructor|].
      cbn [sparse_hooks hk_pre]. unfold at_level. destruct (index_of i vs) as [l|] eqn:IX; [|constructor].
      destruct (LV i l IX) as [L1 L2]. destruct (HD _ _ _ _ _ _ _ _ H5 IX) as (-> & L & _).
      destruct H5 as ((G1 & _) & _). unfold res_pre. destruct asm; [|constructor].
      rewrite TAIL by auto. assert (o <> m) by congruence. destruct o as [|o]; [lia|].
      cbn [app_parent]. rewrite TAIL by lia. econstructor; constructor.
    + split; auto. split; [|split; [auto|split; [auto|eauto]]]. unfold visits_to. simpl. auto.
  - intros g i vars bound rho e s (H1 & H2 & H3 & H4 & o & H5) _. exists s. split; [|split; [apply same_ctl_refl|]].
    + cbn [tail_hooks sparse_hooks hk_post]. eapply SKIP; eauto. intros l A B. unfold res_post.
      rewrite TAIL, andb_false_r by auto. constructor.
    + split; auto. split; eauto.
  - intros g i vars bound rho e c s NI C RS (H1 & H2 & H3). split; auto. split; auto.
    rewrite visits_to_S. unfold visit_step. rewrite RS, app_nil_r. auto.
  - intros g i vars bound rho e c e' s NI C RS (H1 & H2 & H3 & H4 & o & H5) IX.
    assert (CV' : tcov vars (i :: bound) e').
    { intros a Ha. destruct (H4 a) as [A1 A2]; [eapply zero_accesses; eauto|]. split; auto.
      simpl rev in A2. rewrite <- app_assoc in A2. auto. }
    assert (PX : forall k, m + k < o -> pp (fst (snd g)) (upd rho i c) (S k) = pp (fst (snd g)) rho (S k)).
    { intros k K. apply pp_ext. intros j J. apply upd_neq. intros E. apply NI. rewrite <- E. apply H5. lia. }
    assert (EN : exists s', exec (hk_enter tail_hooks bound i) s s' /\
        touch (fun v => exists l, m <= l /\ v = VRes l) none none s s' /\
        exists o', tC o' vars (i :: bound) (fst (snd g)) (upd rho i c) s' /\ o <= o').
    { cbn [tail_hooks sparse_hooks hk_enter]. unfold at_level. destruct (index_of i vs) as [l|] eqn:IO.
      - destruct (HD _ _ _ _ _ _ _ _ H5 IO) as (-> & L & FL). destruct (LV i o IO) as [_ VI].
        destruct H5 as (G1 & G2 & G3 & G4 & G5 & G6). unfold res_enter. rewrite TAIL by lia.
        rewrite no_comp_after by lia. rewrite orb_true_r. rewrite <- VI.
        assert (PAR : ieval s (parent_pos VRes o) = Some (pp (fst (snd g)) rho (o - m))).
        { destruct o as [|o]; [lia|]. cbn [parent_pos LoopIR.ieval]. destruct (Nat.eq_dec (S o) m) as [E|NE].
          - rewrite E, Nat.sub_diag. cbn [pp]. rewrite <- G5. f_equal. f_equal. lia.
          - replace (S o - m) with (S (o - m)) by lia. rewrite <- G6 by lia. f_equal. f_equal. lia. }
        exists (setv s (VRes o) (pp (fst (snd g)) rho (o - m) * W o + c)). split; [|split].
        + apply locate_gen; [auto|apply TAIL; lia|auto|intros SN; apply G4; lia|auto|].
          { rewrite VI. destruct (IX i) as [E _]; [simpl; auto|]. rewrite E, upd_eq. auto. }
        + apply touch_setv. exists o. split; [lia|auto].
        + exists (S o). split; [|lia]. split; [lia|]. split; auto. split; [|split; [|split]].
          * intros l Hl. destruct (Nat.eq_dec l o) as [->|NE]; [left; auto|right; apply G3; lia].
          * intros l Hl LN [E|E]; [apply (var_at_inj vs) in E; auto; lia|]. revert E. apply G4; lia.
          * rewrite setv_neq by (intros E; inversion E; lia). auto.
          * intros k K. destruct (Nat.eq_dec (m + k) o) as [E|NE].
            -- rewrite <- E at 1. rewrite E. rewrite setv_eq. cbn [pp]. rewrite E, VI, upd_eq.
               f_equal. f_equal. f_equal. replace (o - m) with k by lia. apply pp_ext. intros j J.
               symmetry. apply upd_neq. intros E'. apply NI. rewrite <- E'. apply G3. lia.
            -- rewrite setv_neq by (intros E; inversion E; lia). rewrite G6 by lia. rewrite <- (PX k) by lia.
               rewrite VI. auto.
      - exists s. split; [constructor|]. split; [apply touch_refl|]. exists o. split; [|lia].
        assert (FL := RD _ _ _ _ _ _ _ H5 IO). destruct H5 as (G1 & G2 & G3 & G4 & G5 & G6).
        split; auto. split; auto. split; [|split; [|split]]; auto.
        + intros l Hl. right. auto.
        + intros l Hl LN [E|E]; [|revert E; apply G4; auto]. rewrite E in IO. eapply index_of_none; eauto.
        + intros k K. rewrite PX by auto. auto. }
    destruct EN as (s' & XE & (T1 & T2 & T3) & o' & TC' & OO).
    exists s', (fst g, (fst (snd g), wrs (fst (snd g)) (visits_to T dimf vars rho e i c) (snd (snd g)))).
    split; [exact XE|]. split.
    { intros v Hv. apply T1. intros (l & _ & ->). discriminate. }
    split.
    + split; [|split; [|split; [|split]]].
      * cbn [fst snd]. eapply touch_trans; [exact H1|]. repeat split; auto. intros v Hv. apply T1.
        intros (l & L & ->). apply Hv. right. eauto.
      * simpl. rewrite T3 by (intros []). auto.
      * simpl. rewrite wrs_length. auto.
      * auto.
      * exists o'. auto.
    + intros s1 IX1 (TB1 & VB1 & o1 & HC1). cbn [fst snd] in *. exists s1.
      assert (K1 : tC o (i :: vars) bound (fst (snd g)) rho s1).
      { destruct H5 as (G1 & G2 & G3 & G4 & G5 & G6). destruct HC1 as (F1 & F2 & F3 & F4 & F5 & F6).
        assert (OO1 : o <= o1).
        { destruct (Nat.le_gt_cases o o1); auto. destruct (Nat.eq_dec o1 N); [lia|]. exfalso.
          apply (F4 o1); try lia. right. apply G3. auto. }
        split; [|split; [|split; [|split; [|split]]]]; auto. intros k K. rewrite <- PX by auto. apply F6. lia. }
      split; [|split; [apply same_ctl_refl|]].
      * cbn [tail_hooks sparse_hooks hk_exit]. eapply SKIP; eauto. intros l A B. unfold res_exit. rewrite TAIL by auto. constructor.
      * split; auto. split; [|split; [|split]]; auto.
        -- rewrite visits_to_S. unfold visit_step. rewrite RS, wrs_app. auto.
        -- eauto.
  - intros g bound rho e s (H1 & H2 & H3 & H4 & o & H5) PO.
    assert (EV : veval R fn T s (lower_expr e) = Some (eval R fn (denot R T rho) e)).
    { apply (lower_expr_ok R fn T dimf bound); auto. }
    assert (KO : o = N).
    { destruct H5 as (G1 & G2 & _). destruct (Nat.eq_dec o N); auto. rewrite skip_fst in G2 by lia. discriminate. }
    assert (LOC : ieval s (value_loc VRes vs) = Some (lpos (fst (snd g)) rho)).
    { destruct H5 as (G1 & G2 & G3 & G4 & G5 & G6). unfold value_loc, lpos.
      destruct N as [|k] eqn:EN; [lia|]. cbn [parent_pos LoopIR.ieval].
      destruct (Nat.eq_dec (S k) m) as [E|NE].
      - rewrite E, Nat.sub_diag. cbn [pp]. rewrite <- G5. f_equal. f_equal. lia.
      - replace (S k - m) with (S (k - m)) by lia. rewrite <- G6 by lia. f_equal. f_equal. lia. }
    assert (PL : lpos (fst (snd g)) rho < length (vbuf s n)).
    { rewrite H2. eapply Nat.lt_le_trans; [|exact H3]. apply lpos_lt. intros l L1 L2.
      destruct PO as [IX _]. apply IX. apply H5. lia. }
    set (p := lpos (fst (snd g)) rho) in *.
    exists (setV s n (upd_nth (vbuf s n) p
              (if reduce then radd R (nth p (vbuf s n) (r0 R)) (eval R fn (denot R T rho) e)
               else eval R fn (denot R T rho) e))). split; [|split].
    + cbn [tail_hooks sparse_hooks hk_leaf]. unfold store_leaf. econstructor; [exact LOC| |auto].
      destruct reduce; auto. cbn [veval]. rewrite LOC, EV.
      rewrite (nth_error_nth' (vbuf s n) (r0 R)); auto.
    + apply same_ctl_agree. intros v Hv. auto.
    + split; [|split].
      * eapply touch_trans; [exact H1|]. apply touch_setV. auto.
      * cbn [setV vbuf]. rewrite Nat.eqb_refl. cbn [visits wrs fold_left wr fst snd]. fold p. rewrite H2. auto.
      * exists o. destruct H5 as (G1 & G2 & G3 & G4 & G5 & G6). repeat split; auto; lia.
  - auto.
  - auto.
  - intros a Ha. destruct (ACC a Ha) as (A1 & A2 & A3). auto.
  - auto.
  - split; [apply touch_refl|]. split; auto. split; auto. split.
    + intros a Ha. destruct (ACC a Ha) as (A1 & A2 & A3). auto.
    + exists m. split; [lia|]. split; auto. split; [|split; [|split; auto; intros; lia]].
      * intros l L. apply -> in_rev. unfold var_at. apply in_map_iff. exists (nth l (firstn m vs) (0, KDense)). split.
        -- rewrite <- (firstn_skipn m vs) at 2. rewrite app_nth1; auto. rewrite firstn_length. lia.
        -- apply nth_In. rewrite firstn_length. lia.
      * intros l L1 L2. apply (not_outer vs m ML M0 NDV); auto.
  - exists st'. destruct PB as (B1 & B2 & _). auto.
Qed.
End Tail.
