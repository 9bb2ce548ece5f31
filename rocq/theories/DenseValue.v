(** The value a dense-result kernel leaves at every coordinate. *)
From Coq Require Import List Arith Lia Bool Ring_theory Ring.
Import ListNotations.
From Verif Require Import Outcome Storage StorageProofs IndexExpr Eval EvalProofs Lattice LatticeSpec LatticeProofs LatticeLoop
  LoopIR Lower Walk LowerBase LoopRule Nest Visits DenseKernel DenseKernelProofs.

Local Arguments inb : simpl never.

(** [x] comes before [y] in the loop order. *)
Definition before (vars : list ivar) (x y : ivar) : Prop :=
  exists p q r, vars = p ++ x :: q ++ y :: r.

(** The loop order binds every variable of the access and follows its storage
    order wherever a compressed level is involved. *)
Definition compatible (vars : list ivar) (vs : list (ivar * kind)) : Prop :=
  (forall l, l < length vs -> In (var_at vs l) vars) /\
  (forall l1 l2, l1 < l2 -> l2 < length vs -> kind_at vs l1 = KComp \/ kind_at vs l2 = KComp ->
     before vars (var_at vs l1) (var_at vs l2)).

Lemma compatible_legal : forall vars vs, NoDup vars -> compatible vars vs ->
  forall pre post, vars = pre ++ post -> legal (rev pre) vs.
Proof.
  intros vars vs ND [_ C] pre post E l1 l2 L1 L2 K H2. apply in_rev in H2. apply -> in_rev.
  destruct (C l1 l2 L1 L2 K) as (p & q & r & E2).
  rewrite E in E2. change (p ++ var_at vs l1 :: q ++ var_at vs l2 :: r)
    with (p ++ [var_at vs l1] ++ (q ++ var_at vs l2 :: r)) in E2. rewrite app_assoc in E2.
  apply app_eq_app in E2. destruct E2 as (l & [[E3 _]|[_ E3]]).
  - rewrite E3, !in_app_iff. simpl. auto.
  - exfalso. apply in_split in H2. destruct H2 as (a & b & H2). rewrite E, H2, E3, <- app_assoc in ND. simpl in ND.
    apply NoDup_remove_2 in ND. apply ND. rewrite !in_app_iff. simpl. tauto.
Qed.

Section Value.
Context {V : Type}.
Variable R : ring_ops V.
Hypothesis HR : ring_theory (r0 R) (r1 R) (radd R) (rmul R) (rsub R) (ropp R) eq.
Add Ring Vring2 : HR.
Variable fn : nat -> V -> V.
Hypothesis fn0 : forall f, fn f (r0 R) = r0 R.
Variable T : nat -> storage V.
Variable junkV : nat -> V.
Variable junkI : nat -> nat.
Variable dimf : ivar -> nat.
Variable srt : list point -> list point.
Hypothesis SRT : admissible_sort srt.
Notation exec := (exec R fn T junkV junkI).

Variable n tres : nat.
Variable vs : list (ivar * kind).
Hypothesis WR : wf_access T dimf tres vs.
Hypothesis DR : forall l, l < length vs -> kind_at vs l = KDense.
Notation size := (length (st_vals (T tres))).
Notation rpos := (rpos T tres vs).

(** *** Size and initialisation *)
Fixpoint width (ls : list level) : nat :=
  match ls with [] => 1 | LDense d :: ls => d * width ls | LComp _ _ :: _ => 0 end.

Lemma wf_width : forall ls m dims nv, (forall l, In l ls -> kind_of l = KDense) -> wf_levels m ls dims nv ->
  nv = m * width ls.
Proof.
  induction ls as [|[d|pos crd] ls IH]; intros m dims nv D W; destruct dims; simpl in W; try tauto.
  - simpl. lia.
  - destruct W as [-> W]. simpl. rewrite (IH _ _ _ (fun l H => D l (or_intror H)) W). lia.
  - specialize (D (LComp pos crd) (or_introl eq_refl)). discriminate.
Qed.

Lemma dense_size_ok : forall st l, l <= length (st_levels (T tres)) ->
  (forall l, In l (st_levels (T tres)) -> kind_of l = KDense) ->
  ieval T st (dense_size tres l) = Some (width (firstn l (st_levels (T tres)))).
Proof.
  induction l; intros L D; auto. cbn [dense_size ieval]. rewrite IHl by (auto; lia).
  destruct (nth_error (st_levels (T tres)) l) as [lv|] eqn:NE; [|apply nth_error_None in NE; lia].
  assert (Hlv := D lv (nth_error_In _ _ NE)). destruct lv as [d|]; [|discriminate].
  f_equal. assert (E : firstn (S l) (st_levels (T tres)) = firstn l (st_levels (T tres)) ++ [LDense d]).
  { rewrite (firstn_snoc _ _ l (LDense 0)) by lia. rewrite (nth_error_nth _ _ _ NE). auto. }
  rewrite E. clear -D. assert (D' : forall x, In x (firstn l (st_levels (T tres))) -> kind_of x = KDense).
  { intros x Hx. apply D. rewrite <- (firstn_skipn l). apply in_app_iff. auto. }
  revert D'. generalize (firstn l (st_levels (T tres))). induction l0 as [|[d0|] t IH]; simpl; intros D'.
  - lia.
  - rewrite <- IH by auto. lia.
  - specialize (D' _ (or_introl eq_refl)). discriminate.
Qed.

Lemma res_kinds : forall l, In l (st_levels (T tres)) -> kind_of l = KDense.
Proof.
  intros lv H. destruct WR as (K & _ & _). apply (in_map kind_of) in H. rewrite K in H.
  apply in_map_iff in H. destruct H as ([v k] & E & Hin). simpl in E. subst k.
  apply (In_nth _ _ (0, KDense)) in Hin. destruct Hin as (l & L & E).
  assert (X := DR l L). apply (f_equal snd) in E. unfold kind_at in X. simpl in E. rewrite <- E. exact X.
Qed.

Lemma size_ok : forall st, ieval T st (dense_size tres (length vs)) = Some size.
Proof.
  intros st. assert (LE := wf_levels_len T dimf _ _ WR). rewrite dense_size_ok; [|lia|apply res_kinds].
  rewrite <- LE, firstn_all. f_equal. destruct WR as (_ & W & _).
  symmetry. rewrite (wf_width _ _ _ _ res_kinds W). lia.
Qed.

Definition frame0 (g st : state V) : Prop :=
  ibuf st = ibuf g /\ (forall m, m <> n -> vbuf st m = vbuf g m).

Lemma init_ok : forall st, length (vbuf st n) = size ->
  exists st', exec (init_values R n (dense_size tres (length vs))) st st' /\
    frame0 st st' /\ vbuf st' n = repeat (r0 R) size.
Proof.
  intros st L. unfold init_values, For.
  assert (LOOP : forall k st, k <= size -> env st (VLoc 0) = Some (size - k) -> length (vbuf st n) = size ->
     firstn (size - k) (vbuf st n) = repeat (r0 R) (size - k) ->
     exists st', exec (While (BLt (IVar (VLoc 0)) (dense_size tres (length vs)))
          (Seq (StV n (IVar (VLoc 0)) (XLit (r0 R))) (Asg (VLoc 0) (IAdd (IVar (VLoc 0)) (ICst 1))))) st st' /\
       frame0 st st' /\ vbuf st' n = repeat (r0 R) size).
  { induction k; intros s K E LV F.
    - exists s. split; [|split].
      + apply X_while_end. cbn [beval ieval]. rewrite size_ok, E. f_equal. apply Nat.ltb_ge. lia.
      + split; auto.
      + rewrite Nat.sub_0_r in F. rewrite <- LV in F at 1. rewrite firstn_all in F. auto.
    - set (p := size - S k) in *.
      set (s1 := setv (setV s n (upd_nth (vbuf s n) p (r0 R))) (VLoc 0) (p + 1)).
      destruct (IHk s1) as (st' & X & (F1 & F2) & VB).
      + lia.
      + unfold s1. rewrite setv_eq. f_equal. unfold p. lia.
      + simpl. rewrite Nat.eqb_refl. rewrite upd_nth_length. auto.
      + simpl. rewrite Nat.eqb_refl. replace (size - k) with (S p) by (unfold p; lia).
        assert (PL : p < length (vbuf s n)) by (unfold p; lia).
        rewrite (firstn_snoc _ _ p (r0 R)) by (rewrite upd_nth_length; auto).
        rewrite nth_upd_nth by auto. rewrite Nat.eqb_refl.
        assert (U : forall A (l : list A) m v, firstn m (upd_nth l m v) = firstn m l).
        { clear. induction l; destruct m; simpl; intros; auto. f_equal. auto. }
        rewrite U, F. change (repeat (r0 R) (S p)) with (r0 R :: repeat (r0 R) p).
        symmetry. apply repeat_cons.
      + exists st'. split; [|split]; auto.
        * eapply X_while; [| |exact X].
          -- cbn [beval ieval]. rewrite size_ok, E. f_equal. apply Nat.ltb_lt. unfold p. lia.
          -- econstructor.
             ++ apply X_stv with (p := p) (u := r0 R); auto. rewrite LV. unfold p. lia.
             ++ constructor. simpl. rewrite E. auto.
        * split; [rewrite F1; auto|]. intros m Hm. rewrite F2 by auto. simpl.
          destruct (m =? n) eqn:X'; auto. apply Nat.eqb_eq in X'. contradiction. }
  destruct (LOOP size (setv st (VLoc 0) 0)) as (st' & X & F & VB); auto.
  - rewrite setv_eq. f_equal. lia.
  - rewrite Nat.sub_diag. auto.
  - exists st'. split; [|split]; auto. econstructor; [|exact X]. constructor. auto.
Qed.

(** *** Positions and coordinates *)
Definition lhs := map fst vs.
Definition in_range (rho : ivar -> nat) : Prop := forall v, In v lhs -> rho v < dimf v.

Lemma apos_dense : forall rho t us, wf_access T dimf t us ->
  (forall l, l < length us -> kind_at us l = KDense) ->
  (forall l, l < length us -> rho (var_at us l) < dimf (var_at us l)) ->
  apos T rho t us (length us) <> None.
Proof.
  intros rho t us W D IR.
  assert (X : forall l, l <= length us -> apos T rho t us l <> None).
  { induction l; intros L; [unfold apos; simpl; congruence|].
    destruct (wf_level_get T dimf t us l W ltac:(lia)) as (lv & NE & KE & OK).
    rewrite (apos_S T dimf rho _ _ l lv W) by (auto; lia).
    destruct (apos T rho t us l) as [q|] eqn:AP; [|exfalso; apply IHl; auto; lia].
    specialize (OK rho q AP).
    rewrite D in KE by lia. destruct lv as [d|]; [|discriminate]. simpl in *. subst d.
    assert (DD := IR l L). apply Nat.ltb_lt in DD. rewrite DD. discriminate. }
  apply X; auto.
Qed.

Lemma rpos_spec : forall rho, in_range rho ->
  walk (st_levels (T tres)) 0 (map rho lhs) = Some (rpos rho).
Proof.
  intros rho IR. unfold DenseKernelProofs.rpos.
  assert (X : apos T rho tres vs (length vs) <> None).
  { apply apos_dense; auto. intros l L. apply IR. unfold lhs, var_at. apply in_map, nth_In. auto. }
  destruct (apos T rho tres vs (length vs)) eqn:E; [|congruence].
  unfold apos in E. rewrite firstn_all in E. auto.
Qed.

Lemma rpos_inj : forall rho xs p, in_range rho -> length xs = length vs ->
  walk (st_levels (T tres)) 0 xs = Some p -> (rpos rho = p <-> map rho lhs = xs).
Proof.
  intros rho xs p IR L H. assert (W := rpos_spec rho IR). split; intros E.
  - rewrite E in W. destruct WR as (_ & WF & _).
    eapply (walk_inj (map rho lhs) xs); eauto. unfold lhs. rewrite !map_length. auto.
  - rewrite E in W. congruence.
Qed.

Lemma walk_total : forall xs, length xs = length vs ->
  (forall l, l < length vs -> nth l xs 0 < dimf (var_at vs l)) ->
  exists p, walk (st_levels (T tres)) 0 xs = Some p /\ p < size.
Proof.
  intros xs L B.
  set (rho := fun v => match index_of v vs with Some l => nth l xs 0 | None => 0 end).
  assert (E : map rho lhs = xs).
  { apply (nth_ext _ _ 0 0); unfold lhs; rewrite ?map_length; auto. intros l Hl.
    rewrite (nth_indep _ 0 (rho (fst (0, KDense)))) by (rewrite !map_length; auto).
    rewrite map_nth, map_nth. change (rho (var_at vs l) = nth l xs 0). unfold rho.
    destruct (index_of (var_at vs l) vs) as [m|] eqn:IX.
    - destruct (index_of_nth _ _ _ IX) as [LT VA]. f_equal. apply (var_at_inj vs); auto. apply WR.
    - exfalso. apply (index_of_none _ _ l IX Hl). auto. }
  assert (IR : in_range rho).
  { intros v Hv. unfold lhs in Hv. apply (In_nth _ _ 0) in Hv. destruct Hv as (l & Hl & E2).
    rewrite map_length in Hl. assert (rho v = nth l xs 0).
    { rewrite <- E. unfold lhs. rewrite (nth_indep _ 0 (rho 0)) by (rewrite !map_length; auto).
      rewrite map_nth. f_equal. symmetry. exact E2. }
    rewrite H. replace v with (var_at vs l); auto.
    unfold var_at. rewrite <- E2. change 0 with (fst (0, KDense)) at 2. rewrite map_nth. auto. }
  exists (rpos rho). assert (W := rpos_spec rho IR). rewrite E in W. split; auto.
  destruct WR as (K & WF & _). eapply wf_vals_at; [exact WF| | |exact W]; [lia|].
  rewrite L. rewrite <- (map_length kind_of), K, map_length. auto.
Qed.

(** *** Sums restricted to the range *)
Lemma sum_over_range : forall vars bound rho f g,
  (forall rho', extends bound rho rho' -> (forall v, In v vars -> rho' v < dimf v) -> f rho' = g rho') ->
  NoDup vars -> (forall v, In v vars -> ~ In v bound) ->
  sum_over R dimf vars rho f = sum_over R dimf vars rho g.
Proof.
  induction vars; simpl; intros bound rho f g H ND N.
  - apply H; [intros j; auto|intros v []].
  - apply sum_n_ext; auto. intros c C. inversion ND; subst. apply (IHvars (a :: bound)); auto.
    + intros rho' EX B. apply H.
      * intros j Hj. rewrite (EX j) by (simpl; auto). apply upd_neq. intros ->. apply (N a); auto.
      * intros v [<-|Hv]; auto. rewrite (EX a) by (simpl; auto). rewrite upd_eq. auto.
    + intros v Hv [<-|Hb]; auto. apply (N v); auto.
Qed.

(** *** The reducing kernel *)
Lemma run_add : forall vis l p, p < length l ->
  nth p (run R fn T tres vs true vis l) (r0 R) =
  radd R (nth p l (r0 R))
    (sum_list R (map (fun v => if rpos (fst v) =? p then eval R fn (denot R T (fst v)) (snd v) else r0 R) vis)).
Proof.
  induction vis as [|v vis IH]; intros l p P.
  - simpl. ring.
  - change (run R fn T tres vs true (v :: vis) l) with (run R fn T tres vs true vis (write R fn T tres vs true l v)).
    rewrite IH by (unfold write; rewrite upd_nth_length; auto). cbn [map sum_list].
    assert (E : nth p (write R fn T tres vs true l v) (r0 R) =
      radd R (nth p l (r0 R)) (if rpos (fst v) =? p then eval R fn (denot R T (fst v)) (snd v) else r0 R)).
    { unfold write. destruct (rpos (fst v) =? p) eqn:E.
      - apply Nat.eqb_eq in E. rewrite E. rewrite nth_upd_nth by auto. rewrite Nat.eqb_refl. auto.
      - destruct (Nat.lt_ge_cases (rpos (fst v)) (length l)) as [LT|GE].
        + rewrite nth_upd_nth by auto. rewrite Nat.eqb_sym, E. ring.
        + assert (U : forall A (l : list A) m v, length l <= m -> upd_nth l m v = l).
          { clear. induction l; destruct m; simpl; intros; auto; try lia. f_equal. apply IHl. lia. }
          rewrite U by auto. ring. }
    rewrite E. ring.
Qed.

Lemma run_set : forall vis l p, p < length l ->
  (exists v, In v vis /\ rpos (fst v) = p /\
     nth p (run R fn T tres vs false vis l) (r0 R) = eval R fn (denot R T (fst v)) (snd v)) \/
  ((forall v, In v vis -> rpos (fst v) <> p) /\
     nth p (run R fn T tres vs false vis l) (r0 R) = nth p l (r0 R)).
Proof.
  induction vis as [|v vis IH]; intros l p P.
  - right. split; [intros v []|auto].
  - change (run R fn T tres vs false (v :: vis) l) with (run R fn T tres vs false vis (write R fn T tres vs false l v)).
    destruct (IH (write R fn T tres vs false l v) p) as [(v' & Hv & E1 & E2)|[H E]].
    + unfold write. rewrite upd_nth_length. auto.
    + left. exists v'. simpl. auto.
    + destruct (Nat.eq_dec (rpos (fst v)) p) as [EQ|NE].
      * left. exists v. simpl. split; auto. split; auto. rewrite E. unfold write. rewrite EQ.
        rewrite nth_upd_nth by auto. rewrite Nat.eqb_refl. auto.
      * right. split.
        -- intros v' [<-|Hv]; auto.
        -- rewrite E. unfold write. destruct (Nat.lt_ge_cases (rpos (fst v)) (length l)) as [LT|GE].
           ++ rewrite nth_upd_nth by auto. destruct (p =? rpos (fst v)) eqn:X; auto.
              apply Nat.eqb_eq in X. congruence.
           ++ assert (U : forall A (l : list A) m v, length l <= m -> upd_nth l m v = l).
              { clear. induction l; destruct m; simpl; intros; auto; try lia. f_equal. apply IHl. lia. }
              rewrite U by auto. auto.
Qed.

(** The result tensor after the kernel. *)
Definition result (st : state V) : storage V := mkStorage (st_levels (T tres)) (vbuf st n).

Lemma result_at : forall st xs p, length xs = length vs -> walk (st_levels (T tres)) 0 xs = Some p ->
  value_at (r0 R) (result st) xs = nth p (vbuf st n) (r0 R).
Proof.
  intros st xs p L W. unfold value_at, result. simpl. rewrite locate_walk, W; auto.
  rewrite L. symmetry. eapply wf_levels_len; eauto.
Qed.

Variable vars : list ivar.
Variable e : expr V.
Hypothesis ND : NoDup vars.
Hypothesis LIN : NoDup (accesses e).
Hypothesis ACC : forall a, In a (accesses e) ->
  wf_access T dimf (a_tensor a) (a_vars a) /\ compatible vars (a_vars a).
Hypothesis RES : forall x, In x lhs -> In x vars.

Lemma res_covers : covers vars vs.
Proof. intros l L. apply RES. unfold lhs, var_at. apply in_map, nth_In. auto. Qed.

Lemma acc' : forall a, In a (accesses e) -> wf_access T dimf (a_tensor a) (a_vars a) /\
     (forall pre post, vars = pre ++ post -> legal (rev pre) (a_vars a)) /\ covers vars (a_vars a).
Proof.
  intros a Ha. destruct (ACC a Ha) as [W C]. split; auto. split; [apply compatible_legal; auto|exact (proj1 C)].
Qed.

Lemma acc_sum : forall a, In a (accesses e) -> wf_access T dimf (a_tensor a) (a_vars a) /\
     forall pre post, vars = pre ++ post -> legal (rev pre ++ []) (a_vars a).
Proof.
  intros a Ha. destruct (acc' a Ha) as (W & L & _). split; auto. intros. rewrite app_nil_r. eauto.
Qed.

Definition zeros : ivar -> nat := fun _ => 0.

(** Sum of the expression over all values of the loop variables that give the
    result coordinate [xs]. *)
Definition total (xs : list nat) : V :=
  sum_over R dimf vars zeros
    (fun rho => if list_eq_dec Nat.eq_dec (map rho lhs) xs then eval R fn (denot R T rho) e else r0 R).

Definition valid (xs : list nat) : Prop :=
  length xs = length vs /\ forall l, l < length vs -> nth l xs 0 < dimf (var_at vs l).

Lemma reduce_compute : forall st, vbuf st n = repeat (r0 R) size ->
  exists st', exec (lower srt dimf (dense_hooks n tres vs true) vars [] e) st st' /\
    frame0 st st' /\ length (vbuf st' n) = size /\
    forall xs, valid xs -> value_at (r0 R) (result st') xs = total xs.
Proof.
  intros st Z.
  destruct (dense_nest R fn T junkV junkI dimf srt SRT n tres vs true WR DR e vars zeros st (vbuf st n))
    as (st' & X & (F1 & F2 & _) & VB); auto using acc', res_covers.
  { rewrite Z. apply repeat_length. }
  exists st'. split; auto. split; [split; auto|]. split.
  - rewrite VB, run_length, Z, repeat_length. auto.
  - intros xs [L B]. destruct (walk_total xs L B) as (p & W & P).
    rewrite (result_at st' xs p L W), VB, run_add by (rewrite Z, repeat_length; auto).
    rewrite Z, nth_repeat.
    rewrite (visits_sum R fn T dimf HR fn0 vars [] zeros e (fun rho => rpos rho =? p)).
    + unfold total. transitivity (sum_over R dimf vars zeros
        (fun rho' => if rpos rho' =? p then eval R fn (denot R T rho') e else r0 R)); [ring|].
      apply (sum_over_range vars []); auto. intros rho _ IR.
      destruct (rpos_inj rho xs p (fun v Hv => IR v (RES v Hv)) L W) as [I1 I2].
      destruct (list_eq_dec Nat.eq_dec (map rho lhs) xs) as [E|N].
      * rewrite (I2 E), Nat.eqb_refl. auto.
      * destruct (rpos rho =? p) eqn:E; auto. apply Nat.eqb_eq in E. exfalso. auto.
    + apply acc_sum.
    + rewrite app_nil_r. apply NoDup_rev. auto.
Qed.

Theorem reduce_ok : forall st,
  exists st', exec (dense_kernel R srt dimf n tres vs true vars e) st st' /\
    frame0 st st' /\ length (vbuf st' n) = size /\
    forall xs, valid xs -> value_at (r0 R) (result st') xs = total xs.
Proof.
  intros st. set (st1 := setV st n (resize junkV (vbuf st n) size)).
  assert (L1 : length (vbuf st1 n) = size).
  { unfold st1. simpl. rewrite Nat.eqb_refl. unfold resize. rewrite app_length, firstn_length, map_length, seq_length. lia. }
  destruct (init_ok st1 L1) as (st2 & X2 & (F1 & F2) & V2).
  destruct (reduce_compute st2 V2) as (st3 & X3 & (G1 & G2) & L3 & VA).
  exists st3. split; [|split; [|split]]; auto.
  - unfold dense_kernel. eapply block_cons; [constructor; apply size_ok|].
    eapply block_cons; [exact X2|]. apply block1. exact X3.
  - split; [rewrite G1, F1; auto|]. intros m Hm. rewrite G2, F2 by auto. simpl.
    destruct (m =? n) eqn:E; auto. apply Nat.eqb_eq in E. contradiction.
Qed.

Theorem reduce_compute_ok : forall st, length (vbuf st n) = size ->
  exists st', exec (dense_compute R srt dimf n tres vs true vars e) st st' /\
    frame0 st st' /\ length (vbuf st' n) = size /\
    forall xs, valid xs -> value_at (r0 R) (result st') xs = total xs.
Proof.
  intros st L. destruct (init_ok st L) as (st2 & X2 & (F1 & F2) & V2).
  destruct (reduce_compute st2 V2) as (st3 & X3 & (G1 & G2) & L3 & VA).
  exists st3. split; [|split; [|split]]; auto.
  - eapply block_cons; [exact X2|]. apply block1. exact X3.
  - split; [rewrite G1, F1; auto|]. intros m Hm. rewrite G2, F2 by auto. auto.
Qed.

(** *** The kernel without reduction *)
Lemma assigns_pick : forall vs0 rho0 rho, (forall v, In v vs0 -> rho v < dimf v) -> NoDup vs0 ->
  exists rho', In rho' (assigns dimf vs0 rho0) /\ (forall v, In v vs0 -> rho' v = rho v).
Proof.
  induction vs0 as [|i vs0 IH]; intros rho0 rho H N.
  - exists rho0. simpl. split; auto. intros v [].
  - inversion N; subst. destruct (IH (upd rho0 i (rho i)) rho) as (rho' & I' & E'); auto.
    { intros; apply H; simpl; auto. }
    exists rho'. split.
    + simpl. apply in_flat_map. exists (rho i). split; auto. apply in_seq. split; [lia|]. apply H. simpl; auto.
    + intros v [<-|Hv]; auto.
      assert (EX := assigns_ext dimf vs0 [i] _ _ I'). rewrite EX; simpl; auto.
      * apply upd_eq.
      * intros v Hv [<-|[]]. auto.
Qed.

Lemma denot_ext : forall rho rho' a, In a (accesses e) -> (forall v, In v vars -> rho v = rho' v) ->
  denot R T rho a = denot R T rho' a.
Proof.
  intros rho rho' a Ha H. unfold denot. f_equal. destruct (acc' a Ha) as (_ & _ & C).
  apply map_ext_in. intros v Hv. apply H.
  apply (In_nth _ _ 0) in Hv. destruct Hv as (l & Hl & E). rewrite map_length in Hl.
  rewrite <- E. change 0 with (fst (0, KDense)). rewrite map_nth. apply (C l Hl).
Qed.

Lemma visits_assigns : visits T dimf vars zeros e = flat_map (support T e) (assigns dimf vars zeros).
Proof.
  apply (visits_spec T dimf vars []); auto.
  - intros a Ha. destruct (acc' a Ha) as (W & LG & C). split; auto. split.
    + intros. rewrite app_nil_r. eauto.
    + intros l Hl. rewrite app_nil_r. apply -> in_rev. auto.
  - rewrite app_nil_r. apply NoDup_rev. auto.
  - intros j [].
Qed.

Lemma support_eval : forall rho, oeval R fn (denot R T rho) (zero (missing T rho) e) = eval R fn (denot R T rho) e.
Proof.
  intros rho. apply zero_eval; auto. intros a Ha Z. unfold denot, value_at. unfold missing in Z.
  destruct (locate _ _ _); [discriminate|auto].
Qed.

(** With no compressed operand under a loop, every coordinate is visited. *)
Lemma assigns_range : forall vs0 rho0 rho, In rho (assigns dimf vs0 rho0) -> NoDup vs0 ->
  forall v, In v vs0 -> rho v < dimf v.
Proof.
  induction vs0 as [|i vs0 IH]; simpl; intros rho0 rho H N v Hv; [tauto|]. inversion N; subst.
  apply in_flat_map in H. destruct H as (c & Hc & H). apply in_seq in Hc. destruct Hv as [<-|Hv].
  - rewrite (assigns_ext dimf vs0 [i] _ _ H); simpl; auto.
    + rewrite upd_eq. lia.
    + intros v Hv [<-|[]]. auto.
  - eauto.
Qed.

Lemma visits_full : sparse_inserts srt vs vars e = false -> (forall v, In v vars -> In v lhs) ->
  forall rho, In rho (assigns dimf vars zeros) -> In (rho, e) (visits T dimf vars zeros e).
Proof.
  intros SI FV rho Hrho.
  assert (NC : forall i a l, In i vars -> In a (accesses e) -> find_level i a = Some l -> level_kind a l = KDense).
  { intros i a l Hi Ha F. destruct (level_kind a l) eqn:K; auto. exfalso.
    assert (LS : loopsem i e (makeLattice srt i e)) by (apply loopsem_of_sem, sem_build; auto).
    assert (TOP : In (Lev a l) (lat_iters (makeLattice srt i e))).
    { assert (HD : In (hd pt0 (makeLattice srt i e)) (makeLattice srt i e)).
      { assert (N := loop_nonempty i e _ LS). destruct (makeLattice srt i e); [congruence|]. simpl; auto. }
      apply (region_comp _ _ _ _ _ (ls_wf _ _ _ LS _ HD) K).
      apply (top_region i e _ LS). apply reg_all; auto. }
    unfold sparse_inserts in SI. assert (X := existsb_exists). 
    rewrite <- not_true_iff_false in SI. apply SI. apply existsb_exists. exists i. split; auto.
    apply andb_true_intro. split.
    - destruct (index_of i vs) eqn:IX; auto. exfalso. specialize (FV i Hi). unfold lhs in FV.
      apply (In_nth _ _ 0) in FV. destruct FV as (k & Hk & E). rewrite map_length in Hk.
      apply (index_of_none _ _ k IX Hk). unfold var_at. rewrite <- E.
      change 0 with (fst (0, KDense)) at 2. rewrite map_nth. auto.
    - apply existsb_exists. exists (Lev a l). auto. }
  rewrite visits_assigns. apply in_flat_map. exists rho. split; auto.
  unfold support. rewrite zero_nothing'; [simpl; auto|].
  intros a Ha. destruct (acc' a Ha) as (W & _ & C). rewrite (missing_apos T dimf) by auto.
  assert (X : apos T rho (a_tensor a) (a_vars a) (length (a_vars a)) <> None).
  { apply apos_dense; auto.
    - intros l L. assert (F : find_level (var_at (a_vars a) l) a = Some l).
      { unfold find_level. destruct (index_of (var_at (a_vars a) l) (a_vars a)) as [m|] eqn:IX.
        - destruct (index_of_nth _ _ _ IX) as [LT VA]. f_equal. apply (var_at_inj (a_vars a)); auto. apply W.
        - exfalso. apply (index_of_none _ _ l IX L). auto. }
      apply (NC _ _ _ (C l L) Ha F).
    - intros l L. eapply assigns_range; eauto. }
  destruct (apos _ _ _ _ _); congruence.
Qed.

Hypothesis NORED : forall v, In v vars -> In v lhs.

Lemma map_lhs : forall rho rho' : ivar -> nat, map rho lhs = map rho' lhs -> forall v, In v vars -> rho v = rho' v.
Proof.
  intros rho rho' E v Hv. apply NORED in Hv. revert E Hv. generalize lhs. clear.
  induction l; simpl; intros E H; [tauto|]. inversion E. destruct H as [<-|H]; auto.
Qed.

Lemma assign_compute : forall st, length (vbuf st n) = size ->
  (sparse_inserts srt vs vars e = true -> vbuf st n = repeat (r0 R) size) ->
  exists st', exec (lower srt dimf (dense_hooks n tres vs false) vars [] e) st st' /\
    frame0 st st' /\ length (vbuf st' n) = size /\
    forall rho, in_range rho -> value_at (r0 R) (result st') (map rho lhs) = eval R fn (denot R T rho) e.
Proof.
  intros st LV Z.
  destruct (dense_nest R fn T junkV junkI dimf srt SRT n tres vs false WR DR e vars zeros st (vbuf st n))
    as (st' & X & (F1 & F2 & _) & VB); auto using acc', res_covers.
  exists st'. split; auto. split; [split; auto|]. split.
  - rewrite VB, run_length. auto.
  - intros rho IR. assert (W := rpos_spec rho IR).
    assert (P : rpos rho < size).
    { destruct (walk_total (map rho lhs)) as (p & W' & P).
      - unfold lhs. rewrite !map_length. auto.
      - intros l Hl. unfold lhs. rewrite (nth_indep _ 0 (rho (fst (0, KDense)))) by (rewrite !map_length; auto).
        rewrite !map_nth. change (rho (var_at vs l) < dimf (var_at vs l)). apply IR. unfold lhs, var_at. apply in_map, nth_In. auto.
      - congruence. }
    assert (LL : length (map rho lhs) = length vs) by (unfold lhs; rewrite !map_length; auto).
    rewrite (result_at st' _ _ LL W), VB.
    assert (EQ : forall rho', (forall v, In v vars -> rho' v = rho v) ->
       eval R fn (denot R T rho') e = eval R fn (denot R T rho) e).
    { intros rho' H. apply eval_ext. intros a Ha. apply denot_ext; auto. }
    destruct (assigns_pick vars zeros rho) as (rho1 & I1 & E1); auto.
    destruct (run_set (visits T dimf vars zeros e) (vbuf st n) (rpos rho)) as [(v & Hv & RP & ->)|[NV ->]]; [lia| |].
    + rewrite visits_assigns in Hv. apply in_flat_map in Hv. destruct Hv as (rho' & I' & Hv).
      unfold support in Hv. destruct (zero (missing T rho') e) as [e'|] eqn:ZE; [|destruct Hv].
      destruct Hv as [<-|[]]. simpl in *. assert (S := support_eval rho'). rewrite ZE in S. simpl in S.
      rewrite S. apply EQ. apply map_lhs. apply (rpos_inj rho' (map rho lhs) (rpos rho)); auto.
      intros v Hv. eapply assigns_range; eauto.
    + assert (RP1 : rpos rho1 = rpos rho).
      { apply (rpos_inj rho1 (map rho lhs) (rpos rho)); auto.
        - intros v Hv. eapply assigns_range; eauto.
        - apply map_ext_in. intros v Hv. apply E1, RES. auto. }
      destruct (sparse_inserts srt vs vars e) eqn:SI.
      * rewrite Z, nth_repeat by auto. rewrite <- (EQ rho1 E1). rewrite <- (support_eval rho1).
        destruct (zero (missing T rho1) e) as [e'|] eqn:ZE; auto. exfalso.
        apply (NV (rho1, e')); auto. rewrite visits_assigns. apply in_flat_map. exists rho1. split; auto.
        unfold support. rewrite ZE. simpl. auto.
      * exfalso. apply (NV (rho1, e)); auto. apply visits_full; auto.
Qed.

Theorem assign_ok : forall st,
  exists st', exec (dense_kernel R srt dimf n tres vs false vars e) st st' /\
    frame0 st st' /\ length (vbuf st' n) = size /\
    forall rho, in_range rho -> value_at (r0 R) (result st') (map rho lhs) = eval R fn (denot R T rho) e.
Proof.
  intros st. set (st1 := setV st n (resize junkV (vbuf st n) size)).
  assert (L1 : length (vbuf st1 n) = size).
  { unfold st1. simpl. rewrite Nat.eqb_refl. unfold resize. rewrite app_length, firstn_length, map_length, seq_length. lia. }
  assert (X2 : exists st2, exec (if sparse_inserts srt vs vars e then init_values R n (dense_size tres (length vs)) else Skip) st1 st2 /\
     frame0 st1 st2 /\ length (vbuf st2 n) = size /\ (sparse_inserts srt vs vars e = true -> vbuf st2 n = repeat (r0 R) size)).
  { destruct (sparse_inserts srt vs vars e).
    - destruct (init_ok st1 L1) as (st2 & X2 & F & V2). exists st2. split; auto. split; auto. split; auto.
      rewrite V2. apply repeat_length.
    - exists st1. split; [constructor|]. split; [split; auto|]. split; auto. discriminate. }
  destruct X2 as (st2 & X2 & (F1 & F2) & L2 & V2).
  destruct (assign_compute st2 L2 V2) as (st3 & X3 & (G1 & G2) & L3 & VA).
  exists st3. split; [|split; [|split]]; auto.
  - unfold dense_kernel. eapply block_cons; [constructor; apply size_ok|].
    eapply block_cons; [exact X2|]. apply block1. exact X3.
  - split; [rewrite G1, F1; auto|]. intros m Hm. rewrite G2, F2 by auto. simpl.
    destruct (m =? n) eqn:E; auto. apply Nat.eqb_eq in E. contradiction.
Qed.

Theorem assign_compute_ok : forall st, length (vbuf st n) = size ->
  exists st', exec (dense_compute R srt dimf n tres vs false vars e) st st' /\
    frame0 st st' /\ length (vbuf st' n) = size /\
    forall rho, in_range rho -> value_at (r0 R) (result st') (map rho lhs) = eval R fn (denot R T rho) e.
Proof.
  intros st1 L1.
  assert (X2 : exists st2, exec (if sparse_inserts srt vs vars e then init_values R n (dense_size tres (length vs)) else Skip) st1 st2 /\
     frame0 st1 st2 /\ length (vbuf st2 n) = size /\ (sparse_inserts srt vs vars e = true -> vbuf st2 n = repeat (r0 R) size)).
  { destruct (sparse_inserts srt vs vars e).
    - destruct (init_ok st1 L1) as (st2 & X2 & F & V2). exists st2. split; auto. split; auto. split; auto.
      rewrite V2. apply repeat_length.
    - exists st1. split; [constructor|]. split; [split; auto|]. split; auto. discriminate. }
  destruct X2 as (st2 & X2 & (F1 & F2) & L2 & V2).
  destruct (assign_compute st2 L2 V2) as (st3 & X3 & (G1 & G2) & L3 & VA).
  exists st3. split; [|split; [|split]]; auto.
  - eapply block_cons; [exact X2|]. apply block1. exact X3.
  - split; [rewrite G1, F1; auto|]. intros m Hm. rewrite G2, F2 by auto. auto.
Qed.
End Value.
