(** The appending loop nest: what its result arrays hold. *)
From Coq Require Import List Arith Lia Bool.
Import ListNotations.
From Verif Require Import Outcome Storage StorageProofs IndexExpr Eval Lattice LatticeSpec LatticeLoop LoopIR Lower Walk
  LowerBase LoopRule Nest Visits TreeLevels SparseTree SparseKernel AppendProofs SparseProofs.
Local Open Scope nat_scope.
Local Arguments inb : simpl never.

Lemma nodup_app_l : forall A (a b : list A), NoDup (a ++ b) -> NoDup a.
Proof.
  induction a; simpl; intros b H; [constructor|]. inversion H; subst. constructor; [|eapply IHa; eauto].
  intros X. apply H2. apply in_app_iff. auto.
Qed.

Section SNest.
Context {V : Type}.
Variable R : ring_ops V.
Variable fn : nat -> V -> V.
Variable T : nat -> storage V.
Variable junkV : nat -> V.
Variable junkI : nat -> nat.
Variable dimf : ivar -> nat.
Variable srt : list point -> list point.
Hypothesis SRT : admissible_sort srt.
Notation exec := (exec R fn T junkV junkI).
Notation ieval := (ieval T).
Notation payload := ((ivar -> nat) * expr V)%type.
Notation ttree := (tree payload).
Variable n tres : nat.
Variable vs : list (ivar * kind).
Variable reduce zinit cpt : bool.
Variable m : nat.
Notation N := (length vs).
Notation cmp := (comp_at_level vs).
Notation W := (W dimf vs).
Notation sv := (sv dimf vs).
Notation nx := (nx vs).
Notation ghost := (@ghost V).
Notation Cnt := (Cnt dimf vs m).
Notation slots := (slots m).
Notation entry := (entry m).
Notation room := (room dimf vs).
Notation ext := (ext m).
Notation part := (part m).
Notation kvs := (kvs dimf vs m).
Notation build := (build T dimf).
Notation kids_to := (kids_to T dimf).
Hypothesis ML : m <= N.
Hypothesis M0 : 0 < m.
Hypothesis LAST : cmp (m - 1) = true.
Hypothesis TAIL : forall l, m <= l -> cmp l = false.
Hypothesis NDV : NoDup (map fst vs).
Hypothesis DW : forall l, l < N -> cmp l = false -> nth_error (st_levels (T tres)) l = Some (LDense (W l)).

(** *** State of the arrays *)
Definition okcrd (CR : list nat) (l : nat) (st : state V) : Prop :=
  env st (v_ccap l) = Some (length (ibuf st (RCrd l))) /\ 1 <= length (ibuf st (RCrd l)) /\
  length CR <= length (ibuf st (RCrd l)) /\ firstn (length CR) (ibuf st (RCrd l)) = CR /\
  env st (VRes l) = Some (length CR).
Definition okpos (LN : list nat) (B l : nat) (st : state V) : Prop :=
  (if app_parent vs l
   then B < length (ibuf st (RPos l)) /\ length LN <= B /\ firstn (S (length LN)) (ibuf st (RPos l)) = scan 0 LN
   else lengths_in LN B (ibuf st (RPos l))) /\
  (comp_above vs l = true -> env st (v_pcap l) = Some (length (ibuf st (RPos l)))).
Definition St (g : ghost) (st : state V) : Prop := forall l, l < m -> cmp l = true ->
  okcrd (CR g l) l st /\ okpos (LN g l) (GB g l) l st.
Definition Op (o : nat) (g : ghost) (st : state V) : Prop := forall l, l < o ->
  (cmp l = true -> env st (VBeg l) = Some (sum (LN g l))) /\ room g l.
Definition Inb (o : nat) (g : ghost) (st : state V) : Prop := forall l, l < o -> env st (VRes l) = Some (length (CR g l)).
Definition eroom (o : nat) (g : ghost) : Prop := o < m -> o = 0 \/ app_parent vs o = false -> room g o.

Definition frame (l : nat) (st st' : state V) : Prop :=
  ibuf st' (RCrd l) = ibuf st (RCrd l) /\ ibuf st' (RPos l) = ibuf st (RPos l) /\
  env st' (v_ccap l) = env st (v_ccap l) /\ env st' (v_pcap l) = env st (v_pcap l) /\
  env st' (VRes l) = env st (VRes l).
Lemma okcrd_frame : forall C l st st', ibuf st' (RCrd l) = ibuf st (RCrd l) ->
  env st' (v_ccap l) = env st (v_ccap l) -> env st' (VRes l) = env st (VRes l) -> okcrd C l st -> okcrd C l st'.
Proof. unfold okcrd. intros C l st st' -> -> ->. auto. Qed.
Lemma okpos_frame : forall L B l st st', ibuf st' (RPos l) = ibuf st (RPos l) ->
  env st' (v_pcap l) = env st (v_pcap l) -> okpos L B l st -> okpos L B l st'.
Proof. unfold okpos. intros L B l st st' -> ->. auto. Qed.
Lemma St_frame : forall g st st', (forall l, l < m -> cmp l = true -> frame l st st') -> St g st -> St g st'.
Proof.
  intros g st st' F HS l L C. destruct (F l L C) as (F1 & F2 & F3 & F4 & F5). destruct (HS l L C) as [S1 S2].
  split; [eapply okcrd_frame|eapply okpos_frame]; eauto.
Qed.
Lemma St_ghost : forall g g' st, (forall l, l < m -> cmp l = true -> CR g' l = CR g l /\ LN g' l = LN g l /\ GB g' l = GB g l) ->
  St g st -> St g' st.
Proof. intros g g' st F HS l L C. destruct (F l L C) as (-> & -> & ->). apply HS; auto. Qed.

(** *** Unvisited coordinates of dense levels *)
Lemma below_repeat : forall i rs (x : payload) k,
  below (repeat (empty dimf ((i, KDense) :: rs) x) k) = repeat (empty dimf rs x) (k * dimf i).
Proof.
  intros i rs x k. induction k; auto. simpl repeat at 1. unfold below in *. simpl flat_map.
  simpl Nat.mul. rewrite repeat_app. rewrite <- IHk. f_equal. rewrite map_map. simpl.
  clear. generalize 0. induction (dimf i); simpl; auto. intros a. f_equal. auto.
Qed.
Lemma below_nodes : forall k, below (repeat (@Node payload []) k) = [].
Proof. induction k; auto. Qed.

Notation rs_at o := (skipn o (firstn m vs)).
Lemma rs_step : forall o, o < m -> rs_at o = (var_at vs o, if cmp o then KComp else KDense) :: rs_at (S o).
Proof.
  intros o O. assert (X : nth_error (firstn m vs) o = nth_error vs o) by (apply nth_error_firstn_lt; auto).
  assert (Y : nth_error vs o = Some (nth o vs (0, KDense))) by (apply nth_error_nth'; lia).
  rewrite Y in X. apply skipn_nth_error in X. rewrite X. f_equal. unfold var_at, comp_at_level. rewrite Y.
  destruct (nth o vs (0, KDense)) as [i []]; auto.
Qed.
Lemma rs_end : rs_at m = [].
Proof. apply skipn_all2. rewrite firstn_length. lia. Qed.
Lemma rs_ends : forall o, o < m -> ends_comp (rs_at o).
Proof.
  intros o. remember (m - S o) as d. revert o Heqd. induction d; intros o E O.
  - assert (o = m - 1) by lia. subst. rewrite rs_step by auto. rewrite LAST. replace (S (m - 1)) with m by lia.
    rewrite rs_end. exists (var_at vs (m - 1)), []. auto.
  - rewrite rs_step by auto. destruct (IHd (S o)) as (i & r & E1); [lia|lia|]. rewrite E1.
    exists i, ((var_at vs o, if cmp o then KComp else KDense) :: r). auto.
Qed.
Lemma rs_kvs : forall o, ks_of dimf (rs_at o) = skipn o kvs.
Proof. intros. unfold kvs, SparseProofs.kvs, ks_of. apply eq_sym, skipn_map. Qed.

Lemma empty_tsat : forall d o k (x : payload) l, d = l - o -> o <= l -> l < m -> cmp l = true ->
  tsat d (repeat (empty dimf (rs_at o) x) k) = if l =? nx o then repeat (Node []) (k * sv o) else [].
Proof.
  induction d; intros o k x l D O L C.
  - assert (l = o) by lia. subst l. simpl. rewrite nx_step, sv_step by lia. rewrite C, Nat.eqb_refl.
    rewrite rs_step by lia. rewrite C. simpl. rewrite Nat.mul_1_r. auto.
  - simpl tsat. rewrite rs_step by lia. rewrite nx_step, sv_step by lia. destruct (cmp o) eqn:CO.
    + simpl empty. rewrite below_nodes, tsat_nil. destruct (l =? o) eqn:X; auto. apply Nat.eqb_eq in X. lia.
    + rewrite below_repeat. rewrite (IHd (S o) _ x l); auto; try lia.
      change (dimf (var_at vs o)) with (W o). rewrite Nat.mul_assoc. auto.
Qed.

(** *** Adding an unvisited slice below a dense level *)
Definition grown (o : nat) (ts : list ttree) (g : ghost) : ghost :=
  Gh (fun l => if l <? o then LN g l else LN g l ++ lens (tsat (l - o) ts))
     (fun l => if l <? o then CR g l else CR g l ++ crds (tsat (l - o) ts)) (GB g)
     (GL g ++ flat_map leaf_of (tsat (m - o) ts)).
Lemma grown_ext : forall o ts g, ext o ts g (grown o ts g).
Proof.
  intros o ts g. split; [|split; [|split]]; simpl; auto.
  - intros l L O. assert (X : (l <? o) = true) by (apply Nat.ltb_lt; auto). rewrite X. auto.
  - intros l L O. assert (X : (l <? o) = false) by (apply Nat.ltb_ge; auto). rewrite X. auto.
Qed.

Lemma lengths_zeros : forall L B k pos, lengths_in L B pos -> length L + k <= B -> lengths_in (L ++ repeat 0 k) B pos.
Proof.
  intros L B k pos (P0 & P1 & P2 & P3) H. split; auto. split; auto. split; [rewrite app_length, repeat_length; auto|].
  intros s SB. rewrite P3 by auto. destruct (Nat.lt_ge_cases s (length L)).
  - rewrite app_nth1; auto.
  - rewrite nth_overflow by auto. rewrite app_nth2 by auto.
    destruct (Nat.lt_ge_cases (s - length L) k); [rewrite nth_repeat; auto|].
    rewrite nth_overflow; auto. rewrite repeat_length. auto.
Qed.

(** The chain of dense levels below an open dense level. *)
Lemma sub_room : forall o (g1 : ghost) c, o < m -> cmp o = false -> room g1 o -> slots g1 (S o) = length (CR g1 o) ->
  length (CR g1 o) = length (LN g1 o) * W o + c -> c < W o -> room g1 (S o).
Proof.
  intros o g1 c O C RM SL CRL CW. assert (SO : S o < m) by (eapply dense_lt; eauto).
  unfold SparseProofs.room in *. unfold SparseProofs.slots in SL. apply Nat.ltb_lt in SO. rewrite SO in SL.
  rewrite SL, CRL. rewrite sv_step, C in RM by lia. rewrite nx_step, C in RM by lia.
  etransitivity; [|exact RM]. rewrite Nat.mul_assoc. apply Nat.mul_le_mono_r. simpl. lia.
Qed.

Lemma skip_ok : forall o (g1 : ghost) st (x : payload), S o < m -> cmp o = false -> room g1 (S o) -> Cnt (S o) g1 -> St g1 st ->
  St (grown (S o) [empty dimf (rs_at (S o)) x] g1) st.
Proof.
  intros o g1 st x SO C RM CN HS l L CL. destruct (HS l L CL) as [S1 S2]. unfold grown. cbn [LN CR GB].
  destruct (l <? S o) eqn:LO; [auto|]. apply Nat.ltb_ge in LO.
  change [empty dimf (rs_at (S o)) x] with (repeat (empty dimf (rs_at (S o)) x) 1).
  rewrite (empty_tsat (l - S o) (S o) 1 x l); auto.
  destruct (l =? nx (S o)) eqn:X.
  - apply Nat.eqb_eq in X. rewrite Nat.mul_1_l.
    assert (K0 : crds (repeat (@Node payload []) (sv (S o))) = []) by (clear; induction (sv (S o)); auto).
    assert (K1 : lens (repeat (@Node payload []) (sv (S o))) = repeat 0 (sv (S o))).
    { clear. generalize (sv (S o)). intros k. induction k; simpl; auto. rewrite IHk. auto. }
    rewrite K0, K1, app_nil_r. split; auto. destruct S2 as [S2 S3]. split; auto.
    assert (AP : app_parent vs l = false).
    { destruct (Nat.eq_dec l (S o)); [subst l; rewrite e; simpl; auto|]. rewrite X. eapply app_nx; eauto. lia. }
    rewrite AP in *. apply lengths_zeros; auto.
    assert (CS := chain_slots dimf vs m ML M0 LAST (S o) g1 (S o) SO ltac:(intros; lia) CN).
    rewrite X, CS. unfold SparseProofs.room in RM. rewrite Nat.mul_succ_l in RM. lia.
  - change (lens (@nil ttree)) with (@nil nat). change (crds (@nil ttree)) with (@nil nat). rewrite !app_nil_r. auto.
Qed.

(** *** Before the loop of level [o] *)
Ltac vneq := let X := fresh in intros X; unfold v_p, v_cs, v_cap, v_new, v_ccap, v_pcap in *; try destruct X as [X|X]; inversion X; lia.

Lemma parent_val : forall o g st, Inb o g st -> entry g o -> o < m -> ieval st (parent_pos VRes o) = Some (length (LN g o)).
Proof.
  intros o g st I E O. destruct o as [|l]; simpl in *; [rewrite E; auto|].
  rewrite (I l) by lia. unfold SparseProofs.slots in E. apply Nat.ltb_lt in O. rewrite O in E. congruence.
Qed.

Definition pre_vars (v : var) : Prop := (exists l, v = VBeg l) \/ (exists l, v = v_pcap l) \/ v = v_new \/ v = v_p.
Lemma pre_ok : forall o g st, o < m -> Cnt o g -> St g st -> Op o g st -> Inb o g st -> entry g o -> eroom o g ->
  exists st' b, exec (res_pre R n tres vs reduce zinit true cpt o) st st' /\
    touch pre_vars (fun _ => True) none st st' /\ (forall l, GB g l <= b l) /\
    St (with_gb b g) st' /\ Op (S o) (with_gb b g) st' /\ Inb o (with_gb b g) st'.
Proof.
  intros o g st O CN HS OP IN EN ER. unfold res_pre.
  (* the beginning of the segment *)
  assert (B0 : exists s1, exec (if cmp o then Asg (VBeg o) (IVar (VRes o)) else Skip) st s1 /\
    touch (eq (VBeg o)) none none st s1 /\ (cmp o = true -> env s1 (VBeg o) = Some (sum (LN g o)))).
  { destruct (cmp o) eqn:C.
    - destruct (HS o O C) as [(_ & _ & _ & _ & E) _]. exists (setv st (VBeg o) (length (CR g o))). split; [|split].
      + constructor. simpl. auto.
      + apply touch_setv. auto.
      + intros _. rewrite setv_eq. f_equal. apply (c_sum _ _ _ _ _ CN); auto.
    - exists st. split; [constructor|]. split; [apply touch_refl|discriminate]. }
  destruct B0 as (s1 & X1 & (Tv & Ti & Tb) & BG).
  assert (HS1 : St g s1).
  { eapply St_frame; [|exact HS]. intros l L C. unfold frame. rewrite !Ti by (intros []).
    rewrite !Tv by (intros X; inversion X). auto. }
  assert (IN1 : Inb o g s1) by (intros l L; rewrite Tv by (intros X; inversion X); auto).
  assert (OP1 : Op o g s1) by (intros l L; rewrite Tv by (intros X; inversion X; lia); auto).
  assert (T1 : touch pre_vars (fun _ => True) none st s1).
  { split; [|split]; intros; [apply Tv; intros <-; apply H; left; eauto|contradict H; auto|auto]. }
  clear Ti Tb.
  assert (DONE : room g o -> exists st' b, exec Skip s1 st' /\
    touch pre_vars (fun _ => True) none st st' /\ (forall l, GB g l <= b l) /\
    St (with_gb b g) st' /\ Op (S o) (with_gb b g) st' /\ Inb o (with_gb b g) st').
  { intros RM. exists s1, (GB g). split; [constructor|]. split; auto. split; auto. split; [exact HS1|]. split; [|exact IN1].
    intros l L. destruct (Nat.eq_dec l o) as [->|]; [split; auto|]. apply OP1. lia. }
  destruct (app_parent vs o) eqn:AP.
  2:{ destruct DONE as (st' & b & X & R1); [apply ER; auto|]. exists st', b. split; auto. econstructor; eauto. }
  assert (SN : snd (stride_from tres vs o (N - o)) = Some (nx o)) by (apply (stride_nx tres vs m); auto; lia).
  assert (SV : forall s, ieval s (fst (stride_from tres vs o (N - o))) = Some (sv o))
    by (intros s; apply (stride_val T dimf tres vs m); auto; lia).
  cbv zeta. rewrite SN. destruct (o =? 0) eqn:O0.
  { apply Nat.eqb_eq in O0. destruct DONE as (st' & b & X & R1); [apply ER; auto|].
    exists st', b. split; auto. econstructor; eauto. }
  apply Nat.eqb_neq in O0. clear DONE.
  assert (PV : forall s, (forall l, env s (VRes l) = env s1 (VRes l)) -> ieval s (parent_pos VRes o) = Some (length (LN g o))).
  { intros s E. apply (parent_val o g); auto. intros l L. rewrite E. auto. }
  destruct (nx_ok vs m ML M0 LAST o O) as (NX1 & NX2 & NX3 & NX4).
  assert (AB : comp_above vs (nx o) = true).
  { rewrite (above_nx vs m) by auto. destruct o; [lia|]. rewrite above_S. simpl in AP. rewrite AP. apply orb_true_r. }
  destruct (HS1 (nx o) NX2 NX3) as [_ [PO PC]]. specialize (PC AB).
  set (need := IMul (IAdd (parent_pos VRes o) (ICst 1)) (fst (stride_from tres vs o (N - o)))).
  assert (NE : forall s, (forall l, env s (VRes l) = env s1 (VRes l)) -> ieval s need = Some (S (length (LN g o)) * sv o)).
  { intros s E. unfold need. simpl. rewrite PV by auto. rewrite SV. f_equal. lia. }
  set (B' := Nat.max (GB g (nx o)) (S (length (LN g o)) * sv o)).
  set (b := fun l => if l =? nx o then B' else GB g l).
  assert (GB' : forall l, GB g l <= b l).
  { intros l. unfold b. destruct (l =? nx o) eqn:X; auto. apply Nat.eqb_eq in X. subst. unfold B'. lia. }
  assert (RM : room (with_gb b g) o).
  { unfold SparseProofs.room. simpl LN. simpl GB. unfold b. rewrite Nat.eqb_refl. unfold B'. lia. }
  assert (FIN : forall s2, touch (fun v => v = v_pcap (nx o) \/ v = v_new \/ v = v_p) (eq (RPos (nx o))) none s1 s2 ->
    okpos (LN g (nx o)) B' (nx o) s2 ->
    touch pre_vars (fun _ => True) none st s2 /\ (forall l, GB g l <= b l) /\
    St (with_gb b g) s2 /\ Op (S o) (with_gb b g) s2 /\ Inb o (with_gb b g) s2).
  { intros s2 (Uv & Ui & Ub) OK. split; [|split; [|split; [|split]]]; auto.
    - eapply touch_trans; [exact T1|]. split; [|split]; intros; auto.
      apply Uv. intros [->|[->| ->]]; apply H; unfold pre_vars; eauto.
    - intros l L C. destruct (HS1 l L C) as [Q1 Q2]. split.
      + eapply okcrd_frame; [| | |exact Q1]; simpl; [apply Ui|apply Uv|apply Uv];
          unfold v_p, v_new, v_ccap, v_pcap; try (intros [X|[X|X]]; inversion X; lia). intros X; inversion X.
      + simpl. unfold b. destruct (l =? nx o) eqn:X; [apply Nat.eqb_eq in X; subst; auto|].
        apply Nat.eqb_neq in X. eapply okpos_frame; [| |exact Q2].
        * apply Ui. intros Y; inversion Y. lia.
        * apply Uv. unfold v_p, v_new, v_pcap. intros [Y|[Y|Y]]; inversion Y; lia.
    - intros l L. rewrite Uv by (intros [Y|[Y|Y]]; inversion Y). destruct (Nat.eq_dec l o) as [->|]; [split; auto|].
      destruct (OP1 l ltac:(lia)) as [P1 P2]. split; auto. unfold SparseProofs.room in *. simpl.
      etransitivity; [exact P2|]. apply GB'.
    - intros l L. rewrite Uv by (intros [Y|[Y|Y]]; inversion Y). apply IN1; auto. }
  unfold append_init_edges. simpl. change (cmp o) with (cmp o). destruct (Nat.eq_dec (nx o) o) as [EQ|NQ].
  - (* compressed level below a compressed level *)
    rewrite EQ. rewrite EQ in *. rewrite AP in *. destruct PO as (P1 & P2 & P3).
    assert (S1 : sv o = 1) by (rewrite sv_step by lia; rewrite NX3; auto).
    rewrite S1, Nat.mul_1_r in *.
    destruct (double_i_ok R fn T junkV junkI (RPos o) (v_pcap o) need s1 (length (ibuf s1 (RPos o))) (S (length (LN g o))))
      as (s2 & x & X2 & T2 & I2 & E2 & L2); auto.
    { lia. }
    exists s2, b. split; [econstructor; eauto|]. apply FIN.
    + eapply touch_weak; [| | |exact T2]; auto.
    + split; [|intros _; auto]. rewrite AP. unfold B'. rewrite S1. rewrite I2 in *.
      rewrite Nat.mul_1_r, EQ. split; [rewrite app_length in *; lia|]. split; [lia|].
      rewrite firstn_app_le by lia. auto.
  - (* chain of dense levels *)
    assert (AN : app_parent vs (nx o) = false) by (apply (app_nx vs m); auto; lia). rewrite AN in *.
    assert (CS : length (LN g (nx o)) = length (LN g o) * sv o)
      by (apply (chain_slots dimf vs m ML M0 LAST o g o O); auto; intros; lia).
    destruct PO as (P0 & P1 & P2 & P3).
    destruct (atleast_i_ok R fn T junkV junkI (RPos (nx o)) (v_pcap (nx o)) need s1 _ (S (length (LN g o)) * sv o) PC eq_refl)
      as (s2 & x & X2 & T2 & I2 & E2 & L2); auto; [vneq|].
    assert (VR : forall l, env s2 (VRes l) = env s1 (VRes l)) by (intros l; apply T2; vneq).
    destruct (stride_pure tres vs (N - o) o) as [SP SO].
    destruct (zero_range_ok R fn T junkV junkI (RPos (nx o))
      (IAdd (IMul (parent_pos VRes o) (fst (stride_from tres vs o (N - o)))) (ICst 1)) (IAdd need (ICst 1)) s2
      (S (length (LN g (nx o)))) (S (S (length (LN g o)) * sv o))) as (s3 & X3 & T3 & L3 & Z3).
    { simpl. rewrite PV, SV by auto. f_equal. lia. }
    { unfold need. simpl. rewrite SP. destruct o; auto. }
    { unfold need. simpl. intros [[[F|F]|F]|F]; auto; [|eapply SO; eauto]. destruct o; simpl in F; auto. inversion F. }
    { specialize (NE s2 VR). unfold need in NE |- *. cbn [LoopIR.ieval] in NE |- *. rewrite NE. f_equal. lia. }
    { rewrite CS. simpl. lia. }
    { lia. }
    exists s3, b. split.
    { econstructor; eauto. econstructor; [exact X2|]. econstructor; [exact X3|constructor]. }
    apply FIN.
    + eapply touch_trans.
      * eapply touch_weak; [| | |exact T2]; auto. simpl. intros v [->| ->]; auto.
      * eapply touch_weak; [| | |exact T3]; auto.
    + split.
      * rewrite AN. split; [|split; [|split]].
        -- rewrite Z3. simpl. rewrite I2. rewrite app_nth1 by lia. auto.
        -- rewrite L3. rewrite I2 in *. rewrite app_length in *. unfold B'. lia.
        -- unfold B'. lia.
        -- intros s SB. rewrite Z3. destruct (S (length (LN g (nx o))) <=? S s) eqn:A1.
           ++ apply Nat.leb_le in A1. rewrite (nth_overflow (LN g (nx o))) by lia.
              destruct (S s <? S (S (length (LN g o)) * sv o)) eqn:A2; auto. apply Nat.ltb_ge in A2.
              cbn [andb]. unfold B' in SB. rewrite I2, app_nth1, P3 by lia. apply nth_overflow. lia.
           ++ apply Nat.leb_gt in A1. cbn [andb]. rewrite I2, app_nth1 by lia. apply P3. lia.
      * intros _. rewrite L3, <- E2. apply T3. vneq.
Qed.

(** *** In the loop of level [o] *)
Lemma idx_at : forall o, o < N -> index_of (var_at vs o) vs = Some o.
Proof.
  intros o O. destruct (index_of (var_at vs o) vs) as [l|] eqn:E.
  - destruct (index_of_nth _ _ _ E) as [L1 L2]. f_equal. eapply var_at_inj; eauto.
  - exfalso. eapply index_of_none; eauto.
Qed.
Lemma anc_true : forall bound up, (forall x, In x up -> In (fst x) bound) -> ancestors_ok bound up = true.
Proof.
  induction up as [|[v []] up IH]; simpl; intros H; auto.
  rewrite IH by auto. rewrite andb_true_r. apply inb_In. apply (H (v, KDense)). auto.
Qed.
Lemma skip_at : forall o, o < N -> skipn o vs = (var_at vs o, if cmp o then KComp else KDense) :: skipn (S o) vs.
Proof.
  intros o O. assert (Y : nth_error vs o = Some (nth o vs (0, KDense))) by (apply nth_error_nth'; lia).
  apply skipn_nth_error in Y as Z. rewrite Z. clear Z. f_equal. unfold var_at, comp_at_level. rewrite Y.
  destruct (nth o vs (0, KDense)) as [i []]; auto.
Qed.
Notation outer o := (rev (map fst (firstn o vs))).
Lemma outer_S : forall o, o < N -> outer (S o) = var_at vs o :: outer o.
Proof.
  intros o O. rewrite (firstn_snoc _ vs o (0, KDense)) by auto.
  rewrite map_app, rev_app_distr. auto.
Qed.
Lemma not_outer : forall o l, o <= l -> l < N -> ~ In (var_at vs l) (outer o).
Proof.
  intros o l OL LN HI. apply in_rev in HI. apply in_map_iff in HI. destruct HI as (x & E & HI).
  apply In_nth with (d := (0, KDense)) in HI. destruct HI as (j & J & EJ). rewrite firstn_length in J.
  assert (E2 : nth j (firstn o vs) (0, KDense) = nth j vs (0, KDense)).
  { rewrite <- (firstn_skipn o vs) at 2. rewrite app_nth1; auto. rewrite firstn_length. auto. }
  assert (j = l); [|lia]. eapply var_at_inj; eauto; [lia|]. unfold var_at at 1. rewrite <- E2, EJ. auto.
Qed.

Lemma locate_ok : forall o st q c, o < m -> cmp o = false -> ieval st (parent_pos VRes o) = Some q ->
  env st (VIdx (var_at vs o)) = Some c ->
  exec (decl_locate (var_at vs o :: outer o) VRes tres o vs) st (setv st (VRes o) (q * W o + c)).
Proof.
  intros o st q c O C P E. unfold decl_locate. rewrite anc_true.
  2:{ intros x HX. apply in_rev in HX. right. apply in_rev. rewrite rev_involutive. apply in_map. auto. }
  rewrite skip_at, C by lia. cbn [locate_down].
  assert (X : inb (var_at vs o) (var_at vs o :: outer o) = true) by (apply inb_In; simpl; auto). rewrite X.
  econstructor.
  - constructor. simpl. rewrite P, E. rewrite (DW o) by (auto; lia). auto.
  - destruct (Nat.eq_dec (S o) N) as [EQ|NE].
    + rewrite skipn_all2 by lia. constructor.
    + rewrite skip_at by lia. cbn [locate_down]. destruct (cmp (S o)); [constructor|].
      assert (Y : inb (var_at vs (S o)) (var_at vs o :: outer o) = false).
      { destruct (inb (var_at vs (S o)) (var_at vs o :: outer o)) eqn:Y; auto. apply inb_In in Y.
        rewrite <- outer_S in Y by lia. exfalso. revert Y. apply not_outer; lia. }
      rewrite Y. constructor.
Qed.

Lemma append_ok : forall o g st c, o < m -> cmp o = true -> St g st -> env st (VIdx (var_at vs o)) = Some c ->
  exists st', exec (Seq (append_coord o (IVar (VRes o)) (IVar (VIdx (var_at vs o))))
                        (Asg (VRes o) (IAdd (IVar (VRes o)) (ICst 1)))) st st' /\
    touch (fun v => v = v_ccap o \/ v = VRes o) (eq (RCrd o)) none st st' /\ St (add_cr o c g) st'.
Proof.
  intros o g st c O C HS E. destruct (HS o O C) as [(C1 & C2 & C3 & C4 & C5) C6].
  destruct (append_coord_ok R fn T junkV junkI o (VRes o) (VIdx (var_at vs o)) st (CR g o) c C1 C2 C3 C4 C5 E)
    as (s1 & X1 & (Tv & Ti & Tb) & D1 & D2 & D3 & D4); [vneq|vneq|].
  exists (setv s1 (VRes o) (S (length (CR g o)))). split; [|split].
  - econstructor; [exact X1|]. constructor. simpl. rewrite Tv, C5 by vneq. f_equal. lia.
  - eapply touch_trans; [|apply touch_setv; auto].
    eapply touch_weak; [| | |split; [exact Tv|split; [exact Ti|exact Tb]]]; auto.
  - intros l L CL. destruct (HS l L CL) as [H1 H2]. simpl. destruct (l =? o) eqn:X.
    + apply Nat.eqb_eq in X. subst l. split.
      * unfold okcrd. rewrite app_length. simpl length. rewrite Nat.add_1_r.
        rewrite setv_eq. rewrite setv_neq by vneq. simpl ibuf. auto.
      * eapply okpos_frame; [| |exact H2]; simpl ibuf; [apply Ti; intros Y; inversion Y|].
        rewrite setv_neq by vneq. apply Tv. vneq.
    + apply Nat.eqb_neq in X. split.
      * eapply okcrd_frame; [| | |exact H1]; simpl ibuf; [apply Ti; intros Y; inversion Y; lia| |];
          rewrite setv_neq by vneq; apply Tv; vneq.
      * eapply okpos_frame; [| |exact H2]; simpl ibuf; [apply Ti; intros Y; inversion Y|].
        rewrite setv_neq by vneq. apply Tv. vneq.
Qed.

(** *** After the loop of level [o] *)
Lemma post_ok : forall o g g1 ks st, o < m -> part o ks g g1 -> Cnt o g -> St g1 st -> Op (S o) g1 st ->
  Inb o g1 st -> entry g1 o ->
  exists st', exec (res_post vs true o) st st' /\ touch none (eq (RPos o)) none st st' /\
    St (add_ln o (length ks) g1) st'.
Proof.
  intros o g g1 ks st O P CN HS OP IN EN. unfold res_post. simpl. destruct (cmp o) eqn:C.
  - destruct (HS o O C) as [(_ & _ & _ & _ & VR) [PO PC]]. destruct (OP o) as [VB RM]; [lia|]. specialize (VB C).
    destruct P as (_ & (PL & PCR) & _).
    assert (LC : length (CR g1 o) = sum (LN g1 o) + length ks).
    { rewrite PCR, PL, app_length, map_length, (c_sum _ _ _ _ _ CN) by auto. auto. }
    unfold SparseProofs.room in RM. rewrite sv_step, nx_step, C in RM by lia. rewrite Nat.mul_1_r in RM.
    assert (LEN : S (length (LN g1 o)) < length (ibuf st (RPos o))).
    { destruct (app_parent vs o); [destruct PO; lia|]. destruct PO as (_ & ? & _). lia. }
    set (x := if app_parent vs o then length (CR g1 o) else length ks).
    exists (setI st (RPos o) (upd_nth (ibuf st (RPos o)) (S (length (LN g1 o))) x)). split; [|split].
    + unfold append_edges. constructor; auto.
      * simpl. rewrite (parent_val o g1) by auto. f_equal. lia.
      * unfold x. destruct (app_parent vs o); simpl; rewrite VR; auto. rewrite VB. assert (LX : (sum (LN g1 o) <=? length (CR g1 o)) = true) by (apply Nat.leb_le; lia). rewrite LX. f_equal. lia.
    + apply touch_setI. auto.
    + intros l L CL. destruct (HS l L CL) as [H1 H2]. split.
      * eapply okcrd_frame; [| | |exact H1]; auto.
      * simpl. destruct (l =? o) eqn:X.
        -- apply Nat.eqb_eq in X. subst l. unfold okpos. rewrite !setI_eq, upd_nth_len. split; [|simpl; auto].
           unfold x. clear x. destruct (app_parent vs o).
           ++ rewrite app_length. simpl length. rewrite Nat.add_1_r. destruct PO as (Q1 & Q2 & Q3).
              split; auto. split; auto. rewrite firstn_upd by auto. rewrite Q3, scan_snoc, LC. auto.
           ++ destruct PO as (Q0 & Q1 & Q2 & Q3). unfold lengths_in. rewrite upd_nth_len, app_length. simpl length.
              rewrite nth_upd_neq by lia. repeat split; auto; [lia|]. intros s SB.
              destruct (Nat.eq_dec s (length (LN g1 o))) as [->|NE].
              ** rewrite nth_upd_eq by auto. rewrite app_nth2, Nat.sub_diag by lia. auto.
              ** rewrite nth_upd_neq by lia. rewrite Q3 by auto. destruct (Nat.lt_ge_cases s (length (LN g1 o))).
                 --- rewrite app_nth1; auto.
                 --- rewrite !nth_overflow; auto. rewrite app_length. simpl. lia.
        -- apply Nat.eqb_neq in X. eapply okpos_frame; [| |exact H2]; auto.
           apply (touch_setI (fun _ => True) (eq (RPos o)) none); auto. intros Y; inversion Y. lia.
  - exists st. split; [constructor|]. split; [apply touch_refl|]. eapply St_ghost; [|exact HS].
    intros l L CL. simpl. destruct (l =? o) eqn:X; auto. apply Nat.eqb_eq in X. congruence.
Qed.

Lemma entry_last : forall k (g : ghost), 0 < k -> SparseProofs.entry k g k -> length (CR g (k - 1)) = length (GL g).
Proof.
  intros k g K E. destruct k as [|k]; [lia|]. unfold SparseProofs.entry, SparseProofs.slots in E.
  rewrite Nat.ltb_irrefl in E. simpl. rewrite Nat.sub_0_r. auto.
Qed.

(** *** The nest *)
Variables VA VE : list payload -> state V -> Prop.
Variable leaf : expr V -> stmt V.
Variable EOK : expr V -> Prop.
Hypothesis EOKR : forall i z e e', EOK e -> restrict i z e = Some e' -> EOK e'.
Hypothesis VAF : forall gl st st', vbuf st' n = vbuf st n -> env st' v_cap = env st v_cap -> VA gl st -> VA gl st'.
Hypothesis VEF : forall gl st st', vbuf st' n = vbuf st n -> env st' v_cap = env st v_cap -> VE gl st -> VE gl st'.
Hypothesis ENTERV : forall gl st, VA gl st -> env st (VRes (m - 1)) = Some (length gl) ->
  exists st', exec (if leaf_level vs (m - 1) then vals_enter R n vs reduce true cpt else Skip) st st' /\
    touch (eq v_cap) none (eq n) st st' /\ VE gl st'.
Definition leaf_vars (v : var) : Prop :=
  is_ctl v = true \/ (exists l, m <= l /\ (v = VRes l \/ v = VBeg l)) \/ exists k, k < 4 /\ v = VLoc k.
Hypothesis LEAF : forall gl rho e st, EOK e -> VE gl st -> env st (VRes (m - 1)) = Some (length gl) ->
  posok T dimf (outer m) rho (accesses e) st ->
  exists st', exec (leaf e) st st' /\ agree (outer m) st st' /\ touch leaf_vars none (eq n) st st' /\
    VA (gl ++ [(rho, e)]) st'.

Definition prefix_hooks : @hooks V :=
  let h := sparse_hooks R n tres vs reduce zinit true cpt in
  Hooks (hk_pre h) (hk_enter h) (hk_exit h) (hk_post h) leaf.

Notation kd o := (if cmp o then KComp else KDense).
Definition nA (g : ghost) (vars bound : list ivar) (rho : ivar -> nat) (e : expr V) (st : state V) : Prop :=
  exists o, o <= m /\ bound = outer o /\ vars = map fst (rs_at o) /\ EOK e /\ Cnt o g /\ St g st /\ Op o g st /\
    Inb o g st /\ entry g o /\ eroom o g /\ (if o =? m then VE else VA) (GL g) st.
Definition nI (g : ghost) (vars bound : list ivar) (rho : ivar -> nat) (e : expr V) (i : ivar) (c : nat) (st : state V) : Prop :=
  exists o g1, o < m /\ bound = outer o /\ i = var_at vs o /\ vars = map fst (rs_at (S o)) /\ EOK e /\
    Cnt o g /\ entry g o /\ part o (kids_to (kd o) (rs_at (S o)) rho e i c) g g1 /\
    Cnt (S o) g1 /\ slots g1 (S o) = length (CR g1 o) /\ St g1 st /\ Op (S o) g1 st /\ Inb o g1 st /\ VA (GL g1) st.
Definition nB (g : ghost) (vars bound : list ivar) (rho : ivar -> nat) (e : expr V) (st : state V) : Prop :=
  exists o g', o <= m /\ bound = outer o /\ ext o [build (rs_at o) rho e] g g' /\ St g' st /\ Op o g' st /\
    Inb o g' st /\ VA (GL g') st /\ (o < m -> cmp o = true -> env st (VBeg o) = Some (sum (LN g o))).

Lemma outer_inj : forall a b, a <= N -> b <= N -> outer a = outer b -> a = b.
Proof.
  intros a b A B E. apply (f_equal (@length _)) in E. rewrite !rev_length, !map_length, !firstn_length in E. lia.
Qed.

Lemma frame_ctl : forall g st st', ctl st st' -> St g st -> St g st'.
Proof.
  intros g st st' (F1 & F2 & F3) HS. eapply St_frame; [|exact HS]. intros l L C. unfold frame. rewrite F1, !F3; auto.
Qed.
Lemma ctl_Op : forall o g st st', ctl st st' -> Op o g st -> Op o g st'.
Proof. intros o g st st' (F1 & F2 & F3) H l L. rewrite F3 by auto. auto. Qed.
Lemma ctl_Inb : forall o g st st', ctl st st' -> Inb o g st -> Inb o g st'.
Proof. intros o g st st' (F1 & F2 & F3) H l L. rewrite F3 by auto. auto. Qed.
Lemma ctl_V : forall gl st st', ctl st st' -> (VA gl st -> VA gl st') /\ (VE gl st -> VE gl st').
Proof. intros gl st st' (F1 & F2 & F3). split; [apply VAF|apply VEF]; try (rewrite F2; auto); apply F3; auto. Qed.

Lemma nA_ctl : forall g vars bound rho e st st', ctl st st' -> nA g vars bound rho e st -> nA g vars bound rho e st'.
Proof.
  intros g vars bound rho e st st' C (o & H1 & H2 & H3 & H4 & H5 & H6 & H7 & H8 & H9 & H10 & H11).
  exists o. repeat (split; [solve [eauto using frame_ctl, ctl_Op, ctl_Inb]|]).
  destruct (o =? m); eapply ctl_V; eauto.
Qed.
Lemma nI_ctl : forall g vars bound rho e i c st st', ctl st st' ->
  nI g vars bound rho e i c st -> nI g vars bound rho e i c st'.
Proof.
  intros g vars bound rho e i c st st' C (o & g1 & H1 & H2 & H3 & H4 & H5 & H6 & H7 & H8 & H9 & H10 & H11 & H12 & H13 & H14).
  exists o, g1. repeat (split; [solve [eauto using frame_ctl, ctl_Op, ctl_Inb]|]). eapply ctl_V; eauto.
Qed.

Lemma touch_same_ctl : forall (vf : var -> Prop) nf bf (st st' : state V), (forall v, vf v -> is_ctl v = false) ->
  touch vf nf bf st st' -> same_ctl st st'.
Proof. intros vf nf bf st st' H (Tv & _) v C. apply Tv. intros X. rewrite H in C; auto. discriminate. Qed.

Lemma n_pre : forall g i vars bound rho e st, nA g (i :: vars) bound rho e st -> idxok dimf bound rho st -> ~ In i bound ->
  exists st', exec (hk_pre prefix_hooks bound i) st st' /\ same_ctl st st' /\ nI g vars bound rho e i 0 st'.
Proof.
  intros g i vars bound rho e st (o & H1 & H2 & H3 & H4 & H5 & H6 & H7 & H8 & H9 & H10 & H11) IX NI.
  assert (O : o < m).
  { destruct (Nat.eq_dec o m) as [->|]; [|lia]. rewrite rs_end in H3. discriminate. }
  rewrite rs_step in H3 by auto. simpl in H3. inversion H3; subst i vars.
  assert (X : (o =? m) = false) by (apply Nat.eqb_neq; lia). rewrite X in H11.
  destruct (pre_ok o g st) as (st' & b & X1 & X2 & X3 & X4 & X5 & X6); auto.
  exists st'. split; [|split].
  - simpl. unfold at_level. rewrite idx_at by lia. exact X1.
  - eapply touch_same_ctl; [|exact X2]. intros v [[l ->]|[[l ->]|[->| ->]]]; auto.
  - exists o, (with_gb b g). repeat (split; [solve [auto using part_nil]|]). split; [apply part_nil; auto|].
    split; [|split; [|split; [|split; [|split]]]]; auto.
    + destruct H5 as [C1 C2 C3]. constructor; intros; simpl; auto; [|apply C2; auto; lia].
      destruct (Nat.eq_dec (S l) o) as [<-|]; [exact H9|]. apply C1; auto.
    + apply (c_next _ _ _ _ _ H5); auto.
    + eapply VAF; [| |exact H11]; [apply X2; intros []|apply X2].
      intros [[l Y]|[[l Y]|[Y|Y]]]; unfold v_cap, v_pcap, v_new, v_p in Y; inversion Y; lia.
Qed.

Lemma entry_part : forall o ks (g g1 : ghost), o < m -> part o ks g g1 -> entry g o -> entry g1 o.
Proof.
  intros o ks g g1 O (P1 & P2 & _) E. destruct o; simpl in *; [rewrite (proj1 P2); auto|].
  unfold SparseProofs.slots in *. apply Nat.ltb_lt in O as O'. rewrite O' in *.
  rewrite (proj1 P2). destruct (P1 o) as [_ ->]; auto; lia.
Qed.

Lemma n_post : forall g i vars bound rho e st, nI g vars bound rho e i (dimf i) st -> idxok dimf bound rho st ->
  exists st', exec (hk_post prefix_hooks bound i) st st' /\ same_ctl st st' /\ nB g (i :: vars) bound rho e st'.
Proof.
  intros g i vars bound rho e st (o & g1 & H1 & H2 & H3 & H4 & H5 & H6 & H7 & H8 & H9 & H10 & H11 & H12 & H13 & H14) IX.
  destruct (post_ok o g g1 _ st H1 H8 H6 H11 H12 H13) as (st' & X1 & X2 & X3); [eapply entry_part; eauto|].
  exists st'. split; [|split].
  - simpl. unfold at_level. rewrite H3, idx_at by lia. exact X1.
  - eapply touch_same_ctl; [|exact X2]. intros v [].
  - exists o, (add_ln o (length (kids_to (kd o) (rs_at (S o)) rho e i (dimf i))) g1).
    split; [lia|]. split; auto. destruct X2 as (Tv & Ti & Tb). split; [|split; [|split; [|split; [|split]]]]; auto.
    + rewrite rs_step by auto. rewrite <- H3, build_kids. eapply part_close; eauto.
    + intros l L. rewrite Tv by (intros []). destruct (H12 l) as [Q1 Q2]; [lia|]. simpl.
      assert (Y : (l =? o) = false) by (apply Nat.eqb_neq; lia). rewrite Y. split; auto.
      unfold SparseProofs.room in *. simpl. rewrite Y. auto.
    + intros l L. rewrite Tv by (intros []). apply H13; auto.
    + eapply VAF; [| |exact H14]; [apply Tb|apply Tv]; intros [].
    + intros _ C. rewrite Tv by (intros []). destruct (H12 o) as [Q1 Q2]; [lia|]. rewrite Q1 by auto.
      destruct H8 as (_ & (-> & _) & _). auto.
Qed.

Lemma cnt_add_cr : forall o c (g : ghost), Cnt (S o) g -> Cnt (S o) (add_cr o c g).
Proof.
  intros o c g [C1 C2 C3]. constructor; simpl; intros; auto.
  - destruct (l =? o) eqn:X; [apply Nat.eqb_eq in X; congruence|]. apply C1; auto.
  - destruct (l =? o) eqn:X; [apply Nat.eqb_eq in X; lia|]. apply C2; auto.
Qed.

(** A child has been appended at level [o]. *)
Lemma step_counts : forall o ks (g g1 g2 : ghost) c t, o < m -> part o ks g g1 -> Cnt (S o) g1 -> slots g1 (S o) = length (CR g1 o) ->
  Forall (good (skipn (S o) kvs)) [t] -> ext (S o) [t] g1 g2 ->
  part o (ks ++ [(c, t)]) g (add_cr o c g2) /\ Cnt (S o) (add_cr o c g2) /\
  slots (add_cr o c g2) (S o) = length (CR (add_cr o c g2) o).
Proof.
  intros o ks g g1 g2 c t O P CN SL GD E. split; [|split].
  - eapply part_step; eauto.
  - apply cnt_add_cr. eapply cnt_ext; eauto.
  - simpl. rewrite Nat.eqb_refl, app_length. simpl. destruct E as (E1 & E2 & E3 & _).
    destruct (E1 o) as [_ ->]; auto. rewrite <- SL. unfold SparseProofs.slots. simpl.
    destruct (S o <? m) eqn:X.
    + apply Nat.ltb_lt in X. destruct (E2 (S o)) as [-> _]; auto. rewrite Nat.sub_diag, app_length. auto.
    + apply Nat.ltb_ge in X. rewrite E3. replace (m - S o) with 0 by lia. rewrite app_length.
      rewrite skipn_all2 in GD by (rewrite kvs_len; lia). inversion GD as [|t0 l0 GT]. destruct GT as [x ->]. auto.
Qed.

Lemma dense_count : forall o (g g1 : ghost) rho e i c, o < m -> cmp o = false -> Cnt o g -> entry g o ->
  part o (kids_to (kd o) (rs_at (S o)) rho e i c) g g1 ->
  length (CR g1 o) = length (LN g1 o) * W o + c.
Proof.
  intros o g g1 rho e i c O C CN EN (_ & (P2 & P3) & _). rewrite P2, P3, app_length, map_length.
  rewrite (c_sum _ _ _ _ _ CN), (c_dense _ _ _ _ _ CN) by auto. rewrite C, kids_dense_len. auto.
Qed.

Lemma n_skip : forall g i vars bound rho e c st, ~ In i bound -> c < dimf i ->
  restrict i (stored T rho i c) e = None -> nI g vars bound rho e i c st -> nI g vars bound rho e i (S c) st.
Proof.
  intros g i vars bound rho e c st NI CD RS (o & g1 & H1 & H2 & H3 & H4 & H5 & H6 & H7 & H8 & H9 & H10 & H11 & H12 & H13 & H14).
  destruct (cmp o) eqn:C.
  - exists o, g1. rewrite C. rewrite kids_to_S. unfold kid. rewrite RS, app_nil_r.
    repeat (split; [solve [auto]|]). auto.
  - assert (SO : S o < m) by (eapply dense_lt; eauto).
    assert (RM : room g1 (S o)).
    { apply (sub_room o g1 c); auto; [apply H12; lia| |subst i; auto].
      eapply (dense_count o g g1 rho e i c); auto. rewrite C. auto. }
    set (t := empty dimf (rs_at (S o)) (rho, e)).
    assert (GD : Forall (good (skipn (S o) kvs)) [t]) by (constructor; auto; rewrite <- rs_kvs; apply empty_good).
    assert (E := grown_ext (S o) [t] g1).
    destruct (step_counts o _ g g1 _ c t H1 H8 H9 H10 GD E) as (P & CN & SL).
    exists o, (add_cr o c (grown (S o) [t] g1)). rewrite C, kids_to_S. unfold kid. rewrite RS.
    repeat (split; [solve [auto]|]). split; [|split; [|split]].
    + eapply St_ghost; [|apply (skip_ok o g1 st (rho, e)); auto]. intros l L CL. cbn [CR LN GB add_cr].
      destruct (l =? o) eqn:X; auto. apply Nat.eqb_eq in X. congruence.
    + intros l L. destruct (H12 l L) as [Q1 Q2]. unfold SparseProofs.room in *. cbn [LN GB add_cr grown].
      assert (X : (l <? S o) = true) by (apply Nat.ltb_lt; auto). rewrite X. auto.
    + intros l L. cbn [CR add_cr grown]. assert (X : (l <? S o) = true) by (apply Nat.ltb_lt; lia). rewrite X.
      assert (Y : (l =? o) = false) by (apply Nat.eqb_neq; lia). rewrite Y. auto.
    + cbn [GL add_cr grown]. assert (LE := leaves_empty dimf (rs_at (S o)) (rho, e) (rs_ends (S o) SO)).
      rewrite leaves_tsat in LE. rewrite rs_kvs, skipn_length, kvs_len in LE by auto. fold t in LE. rewrite LE, app_nil_r. auto.
Qed.

Lemma n_enter : forall o g g1 rho rho' e i c st, o < m -> i = var_at vs o -> Cnt o g -> entry g o ->
  part o (kids_to (kd o) (rs_at (S o)) rho e i c) g g1 -> Cnt (S o) g1 -> slots g1 (S o) = length (CR g1 o) ->
  St g1 st -> Op (S o) g1 st -> Inb o g1 st -> VA (GL g1) st -> c < dimf i -> rho' i = c ->
  idxok dimf (i :: outer o) rho' st ->
  exists st', exec (res_enter R n tres vs reduce true cpt (outer o) i o) st st' /\ same_ctl st st' /\
    St g1 st' /\ Op (S o) g1 st' /\ Inb (S o) g1 st' /\ eroom (S o) g1 /\
    (if S o =? m then VE else VA) (GL g1) st'.
Proof.
  intros o g g1 rho rho' e i c st O EI CN EN P CN1 SL HS OP IN HV CD RC IX. unfold res_enter.
  destruct (cmp o) eqn:C.
  - assert (VR : env st (VRes o) = Some (length (CR g1 o))) by (destruct (HS o O C) as [(_ & _ & _ & _ & E) _]; auto).
    assert (ER : eroom (S o) g1) by (intros _ [F|F]; [discriminate|]; simpl in F; congruence).
    destruct (S o =? m) eqn:OM.
    + apply Nat.eqb_eq in OM. assert (Om : o = m - 1) by lia.
      unfold SparseProofs.slots in SL. assert (X : (S o <? m) = false) by (apply Nat.ltb_ge; lia). rewrite X in SL.
      destruct (ENTERV (GL g1) st HV) as (st' & X1 & (Tv & Ti & Tb) & X2).
      { rewrite <- Om, SL. auto. }
      exists st'. rewrite <- Om in X1. split; auto. split.
      { eapply touch_same_ctl; [|split; [exact Tv|split; [exact Ti|exact Tb]]]. intros v <-. auto. }
      split; [|split; [|split; [|split]]]; auto.
      * eapply St_frame; [|exact HS]. intros l L CL. unfold frame. rewrite !Ti by (intros []). rewrite !Tv by vneq. auto.
      * intros l L. rewrite Tv by vneq. apply OP; auto.
      * intros l L. rewrite Tv by vneq. destruct (Nat.eq_dec l o) as [->|]; auto. apply IN. lia.
    + exists st. assert (LF : leaf_level vs o = false).
      { apply Nat.eqb_neq in OM. unfold leaf_level. apply Nat.eqb_neq. lia. }
      rewrite LF. split; [constructor|]. split; [intros v _; auto|]. repeat (split; [solve [auto]|]). split; [|auto].
      intros l L. destruct (Nat.eq_dec l o) as [->|]; auto. apply IN. lia.
  - assert (SO : S o < m) by (eapply dense_lt; eauto). cbn [orb].
    assert (DC : length (CR g1 o) = length (LN g1 o) * W o + c).
    { apply (dense_count o g g1 rho e i c); auto. rewrite C. auto. }
    assert (IXI : env st (VIdx i) = Some c) by (destruct (IX i) as [E _]; [left; auto|]; rewrite E, RC; auto).
    assert (PV : ieval st (parent_pos VRes o) = Some (length (LN g1 o))).
    { apply (parent_val o g1); auto. eapply entry_part; eauto. }
    assert (X := locate_ok o st _ c O C PV). rewrite <- EI in X. specialize (X IXI). rewrite <- DC in X.
    eexists. split; [exact X|]. split.
    { intros v CV. apply setv_neq. intros ->. discriminate. }
    split; [|split; [|split; [|split]]].
    + eapply St_frame; [|exact HS]. intros l L CL. unfold frame. rewrite !setv_neq; try vneq; auto.
      intros Y; inversion Y; congruence.
    + intros l L. rewrite setv_neq by vneq. apply OP; auto.
    + intros l L. destruct (Nat.eq_dec l o) as [->|]; [apply setv_eq|]. rewrite setv_neq by vneq. apply IN. lia.
    + intros _ _. apply (sub_room o g1 c); auto; [apply OP; lia|]. rewrite EI in CD. exact CD.
    + assert (Y : (S o =? m) = false) by (apply Nat.eqb_neq; lia). rewrite Y.
      eapply VAF; [| |exact HV]; auto.
Qed.

Lemma comp_first_at : forall o, comp_first (rs_at o) = cmp o && (o <? m).
Proof.
  intros o. destruct (o <? m) eqn:X.
  - apply Nat.ltb_lt in X. rewrite rs_step by auto. simpl. destruct (cmp o); auto.
  - apply Nat.ltb_ge in X. rewrite skipn_all2 by (rewrite firstn_length; lia). rewrite andb_false_r. auto.
Qed.

Lemma n_exit : forall o g g1 g2 rho rho' e e' i c st, o < m -> i = var_at vs o -> Cnt o g -> entry g o ->
  part o (kids_to (kd o) (rs_at (S o)) rho e i c) g g1 -> Cnt (S o) g1 -> slots g1 (S o) = length (CR g1 o) ->
  restrict i (stored T rho i c) e = Some e' -> rho' = upd rho i c ->
  ext (S o) [build (rs_at (S o)) rho' e'] g1 g2 -> St g2 st -> Op (S o) g2 st -> Inb (S o) g2 st -> VA (GL g2) st ->
  (S o < m -> cmp (S o) = true -> env st (VBeg (S o)) = Some (sum (LN g1 (S o)))) ->
  env st (VIdx i) = Some c ->
  exists st' g3, exec (res_exit vs true i o) st st' /\ same_ctl st st' /\
    part o (kids_to (kd o) (rs_at (S o)) rho e i (S c)) g g3 /\
    Cnt (S o) g3 /\ slots g3 (S o) = length (CR g3 o) /\ St g3 st' /\ Op (S o) g3 st' /\ Inb o g3 st' /\ VA (GL g3) st'.
Proof.
  intros o g g1 g2 rho rho' e e' i c st O EI CN EN P CN1 SL RS RH E HS OP IN HV VB IXI.
  set (t := build (rs_at (S o)) rho' e') in *.
  assert (GD : Forall (good (skipn (S o) kvs)) [t]) by (constructor; auto; rewrite <- rs_kvs; apply build_good).
  destruct (step_counts o _ g g1 g2 c t O P CN1 SL GD E) as (P' & CN' & SL').
  assert (KS : kids_to (kd o) (rs_at (S o)) rho e i (S c) =
    kids_to (kd o) (rs_at (S o)) rho e i c ++ (if dropped (kd o) (rs_at (S o)) t then [] else [(c, t)])).
  { rewrite kids_to_S. unfold kid. rewrite RS. cbv zeta. rewrite <- RH. auto. }
  (* facts about the ghost with the child appended *)
  assert (OP' : forall st', (forall l, env st' (VBeg l) = env st (VBeg l)) -> Op (S o) (add_cr o c g2) st').
  { intros st' F l L. destruct (OP l L) as [Q1 Q2]. split; auto. intros CL. rewrite F. auto. }
  assert (IN' : forall st', (forall l, l <> o -> env st' (VRes l) = env st (VRes l)) -> Inb o (add_cr o c g2) st').
  { intros st' F l L. rewrite F by lia. rewrite IN by lia. simpl.
    assert (Y : (l =? o) = false) by (apply Nat.eqb_neq; lia). rewrite Y. auto. }
  unfold res_exit. cbn [orb]. destruct (cmp o) eqn:C.
  - assert (APP : forall cond, beval T st cond = Some true ->
      dropped KComp (rs_at (S o)) t = false ->
      exists st' g3, exec (Seq (append_coord o (IVar (VRes o)) (IVar (VIdx i)))
                        (Asg (VRes o) (IAdd (IVar (VRes o)) (ICst 1)))) st st' /\ same_ctl st st' /\
        part o (kids_to KComp (rs_at (S o)) rho e i (S c)) g g3 /\
        Cnt (S o) g3 /\ slots g3 (S o) = length (CR g3 o) /\ St g3 st' /\ Op (S o) g3 st' /\ Inb o g3 st' /\ VA (GL g3) st').
    { intros _ _ DR. destruct (append_ok o g2 st c O C HS) as (st' & X1 & X2 & X3); [rewrite <- EI; auto|].
      exists st', (add_cr o c g2). rewrite KS, DR, EI. split; [exact X1|]. split.
      { eapply touch_same_ctl; [|exact X2]. intros v [->| ->]; auto. }
      rewrite <- EI. destruct X2 as (Tv & Ti & Tb). repeat (split; [solve [auto]|]). split; [|split].
      - apply OP'. intros l. apply Tv. vneq.
      - apply IN'. intros l L. apply Tv. vneq.
      - eapply VAF; [| |exact HV]; [apply Tb; intros []|apply Tv; vneq]. }
    destruct (cmp (S o)) eqn:CS.
    + assert (SO : S o < m) by (destruct (Nat.le_gt_cases m (S o)) as [LE|]; auto; rewrite TAIL in CS; auto; discriminate).
      specialize (VB SO eq_refl).
      destruct (HS (S o) SO CS) as [(_ & _ & _ & _ & VR) _].
      destruct E as (E1 & E2 & E3 & E4). destruct (E2 (S o) SO) as [EL EC]; auto.
      rewrite Nat.sub_diag in EL, EC. cbn [tsat] in EL, EC.
      assert (LC : length (CR g2 (S o)) = sum (LN g1 (S o)) + length (kids t)).
      { rewrite EC, app_length, crds_length. rewrite (c_sum _ _ _ _ _ CN1) by auto. simpl. lia. }
      assert (CF : comp_first (rs_at (S o)) = true).
      { rewrite comp_first_at, CS. apply Nat.ltb_lt. auto. }
      destruct (kids t) as [|k0 kt] eqn:KT.
      * (* nothing below: the coordinate is not appended *)
        assert (DR : dropped KComp (rs_at (S o)) t = true) by (unfold dropped; rewrite CF, KT; auto).
        assert (T0 : forall j, 0 < j -> tsat j [t] = []).
        { intros j J. destruct j; [lia|]. simpl. unfold below. simpl. rewrite KT. simpl. apply tsat_nil. }
        exists st, (with_gb (GB g2) g1). split.
        { econstructor; [simpl; rewrite VB, VR; reflexivity|].
          assert (Y : (sum (LN g1 (S o)) <? length (CR g2 (S o))) = false) by (apply Nat.ltb_ge; simpl in LC; lia).
          rewrite Y. constructor. }
        split; [intros v _; auto|]. rewrite KS, DR, app_nil_r. split; [apply part_gb; auto|].
        split; [destruct CN1; constructor; auto|]. split; [exact SL|]. split; [|split; [|split]].
        -- intros l L CL. destruct (HS l L CL) as [Q1 Q2]. cbn [CR LN GB with_gb].
           destruct (Nat.lt_ge_cases l (S o)) as [LO|LO].
           ++ destruct (E1 l L LO) as [<- <-]. auto.
           ++ destruct (E2 l L LO) as [F1 F2]. destruct (Nat.eq_dec l (S o)) as [->|NE].
              ** rewrite Nat.sub_diag in F1, F2. cbn [tsat lens map] in F1. rewrite KT in F1.
                 unfold crds in F2. cbn [tsat flat_map] in F2. rewrite KT in F2. cbn [map app] in F2.
                 rewrite app_nil_r in F2. rewrite F2 in Q1. split; auto.
                 destruct Q2 as [Q2 Q3]. split; auto. simpl app_parent in *. rewrite C in *.
                 rewrite F1, app_length in Q2. cbn [length] in Q2. destruct Q2 as (R1 & R2 & R3).
                 split; auto. split; [lia|]. rewrite Nat.add_1_r in R3.
                 rewrite scan_snoc in R3. apply (f_equal (firstn (S (length (LN g1 (S o)))))) in R3.
                 rewrite firstn_firstn in R3. rewrite Nat.min_l in R3 by lia. rewrite R3.
                 rewrite firstn_app, scan_length, Nat.sub_diag, firstn_O, app_nil_r. apply firstn_all2.
                 rewrite scan_length. lia.
              ** rewrite T0 in F1, F2 by lia. cbn [lens map] in F1. unfold crds in F2. cbn [flat_map] in F2.
                 rewrite app_nil_r in F1, F2. rewrite F1, F2 in *. auto.
        -- intros l L. destruct (OP l L) as [Q1 Q2]. destruct (E1 l ltac:(lia) L) as [F1 F2].
           unfold SparseProofs.room in *. cbn [CR LN GB with_gb]. rewrite F1 in *. auto.
        -- intros l L. cbn [CR with_gb]. destruct (E1 l ltac:(lia) ltac:(lia)) as [F1 F2]. rewrite <- F2. apply IN. lia.
        -- cbn [GL with_gb]. rewrite T0 in E3 by lia. simpl in E3. rewrite app_nil_r in E3. rewrite <- E3. auto.
      * assert (DR : dropped KComp (rs_at (S o)) t = false) by (unfold dropped; rewrite CF, KT; auto).
        destruct (APP (BLt (ICst 0) (ICst 1)) eq_refl DR) as (st' & g3 & X1 & Q). exists st', g3. split; auto.
        econstructor; [simpl; rewrite VB, VR; reflexivity|].
        assert (Y : (sum (LN g1 (S o)) <? length (CR g2 (S o))) = true) by (apply Nat.ltb_lt; simpl in LC; lia).
        rewrite Y. exact X1.
    + assert (DR : dropped KComp (rs_at (S o)) t = false) by (unfold dropped; rewrite comp_first_at, CS; auto).
      destruct (APP (BLt (ICst 0) (ICst 1)) eq_refl DR) as (st' & g3 & X1 & Q). exists st', g3. split; auto.
  - exists st, (add_cr o c g2). split; [constructor|]. split; [intros v _; auto|].
    rewrite KS. cbn [dropped]. repeat (split; [solve [auto]|]). split; [|auto].
    eapply St_ghost; [|exact HS]. intros l L CL. cbn [CR LN GB add_cr].
    destruct (l =? o) eqn:X; auto. apply Nat.eqb_eq in X. congruence.
Qed.

Lemma n_step : forall g i vars bound rho e c e' st, ~ In i bound -> c < dimf i ->
  restrict i (stored T rho i c) e = Some e' -> nI g vars bound rho e i c st ->
  idxok dimf (i :: bound) (upd rho i c) st ->
  exists st' g', exec (hk_enter prefix_hooks bound i) st st' /\ same_ctl st st' /\
    nA g' vars (i :: bound) (upd rho i c) e' st' /\
    forall st1, idxok dimf (i :: bound) (upd rho i c) st1 -> nB g' vars (i :: bound) (upd rho i c) e' st1 ->
      exists st2, exec (hk_exit prefix_hooks bound i) st1 st2 /\ same_ctl st1 st2 /\ nI g vars bound rho e i (S c) st2.
Proof.
  intros g i vars bound rho e c e' st NI CD RS (o & g1 & H1 & H2 & H3 & H4 & H5 & H6 & H7 & H8 & H9 & H10 & H11 & H12 & H13 & H14) IX.
  rewrite H2 in IX.
  destruct (n_enter o g g1 rho (upd rho i c) e i c st) as (st' & X1 & X2 & X3 & X4 & X5 & X6 & X7); auto.
  { apply upd_eq. }
  exists st', g1. split; [|split; [|split]]; auto.
  - simpl. unfold at_level. rewrite H3 at 1. rewrite idx_at by lia. rewrite H2. exact X1.
  - exists (S o). rewrite outer_S by lia. rewrite <- H3, <- H2. split; [lia|]. repeat (split; [solve [eauto]|]). auto.
  - intros st1 IX1 (o' & g2 & B1 & B2 & B3 & B4 & B5 & B6 & B7 & B8).
    assert (o' = S o).
    { apply outer_inj; try lia. rewrite <- B2, H2, H3. symmetry. apply outer_S. lia. }
    subst o'.
    destruct (n_exit o g g1 g2 rho (upd rho i c) e e' i c st1)
      as (st2 & g3 & Y1 & Y2 & Y3 & Y4 & Y5 & Y6 & Y7 & Y8 & Y9); auto.
    { destruct (IX1 i) as [E _]; [left; auto|]. rewrite E, upd_eq. auto. }
    exists st2. split; [|split]; auto.
    + simpl. unfold at_level. rewrite H3 at 1. rewrite idx_at by lia. exact Y1.
    + exists o, g3. repeat (split; [solve [auto]|]). auto.
Qed.

Lemma n_leaf : forall g bound rho e st, nA g [] bound rho e st -> posok T dimf bound rho (accesses e) st ->
  exists st', exec (hk_leaf prefix_hooks e) st st' /\ agree bound st st' /\ nB g [] bound rho e st'.
Proof.
  intros g bound rho e st (o & H1 & H2 & H3 & H4 & H5 & H6 & H7 & H8 & H9 & H10 & H11) PO.
  assert (O : o = m).
  { destruct (Nat.eq_dec o m); auto. rewrite rs_step in H3 by lia. discriminate. }
  rewrite O in *. rewrite Nat.eqb_refl in H11. rewrite H2 in *.
  assert (ES : length (CR g (m - 1)) = length (GL g)).
  { apply entry_last; auto. }
  destruct (LEAF (GL g) rho e st H4 H11) as (st' & X1 & X2 & (Tv & Ti & Tb) & X4); auto.
  { rewrite <- ES. apply H8. lia. }
  exists st'. split; [exact X1|]. split; auto.
  assert (LV : forall v, leaf_vars v -> is_ctl v = true \/ (exists l, m <= l /\ (v = VRes l \/ v = VBeg l)) \/ exists k, k < 4 /\ v = VLoc k) by auto.
  exists m, (Gh (LN g) (CR g) (GB g) (GL g ++ [(rho, e)])). split; auto. split; auto. rewrite rs_end. simpl build.
  assert (NR : forall l, l < m -> ~ leaf_vars (VRes l) /\ ~ leaf_vars (VBeg l) /\ ~ leaf_vars (v_ccap l) /\ ~ leaf_vars (v_pcap l)).
  { intros l L. repeat split; intros Q; apply LV in Q; destruct Q as [Q|[(l' & L' & [Q|Q])|(k & L' & Q)]];
      unfold v_ccap, v_pcap in *; try discriminate Q; inversion Q; lia. }
  split; [|split; [|split; [|split; [|split]]]].
  - split; [|split; [|split]]; simpl; auto; [intros; lia|]. rewrite Nat.sub_diag. auto.
  - eapply St_frame; [|eapply St_ghost; [|exact H6]; auto]. intros l L CL. destruct (NR l L) as (N1 & N2 & N3 & N4).
    unfold frame. rewrite !Ti by (intros []). rewrite !Tv by auto. auto.
  - intros l L. destruct (NR l L) as (N1 & N2 & N3 & N4). rewrite Tv by auto. apply H7; auto.
  - intros l L. destruct (NR l L) as (N1 & N2 & N3 & N4). rewrite Tv by auto. apply H8; auto.
  - auto.
  - intros F. lia.
Qed.

Theorem prefix_ok : forall rho e g st,
  NoDup (accesses e) ->
  (forall a, In a (accesses e) -> wf_access T dimf (a_tensor a) (a_vars a) /\
     forall pre post, map fst (firstn m vs) = pre ++ post -> legal (rev pre) (a_vars a)) ->
  posok T dimf [] rho (accesses e) st -> nA g (map fst (firstn m vs)) [] rho e st ->
  exists st', exec (lower srt dimf prefix_hooks (map fst (firstn m vs)) [] e) st st' /\
    nB g (map fst (firstn m vs)) [] rho e st'.
Proof.
  intros rho e g st ND ACC PO HA.
  destruct (nest_ok R fn T junkV junkI dimf srt SRT prefix_hooks ghost nA nB nI nA_ctl nI_ctl n_pre n_post n_skip n_step
    n_leaf (map fst (firstn m vs)) [] rho e g st) as (st' & X1 & _ & X2); auto.
  - rewrite app_nil_r. apply NoDup_rev. rewrite <- (firstn_skipn m vs) in NDV. rewrite map_app in NDV.
    eapply nodup_app_l; eauto.
  - intros a Ha. destruct (ACC a Ha) as [A1 A2]. split; auto. intros pre post E. rewrite app_nil_r. eauto.
  - eauto.
Qed.
End SNest.
