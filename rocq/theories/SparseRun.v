(** Initialising and finalising the arrays of an appended result, and the
    storage they describe. *)
From Coq Require Import List Arith Lia Bool.
Import ListNotations.
From Verif Require Import Outcome Storage StorageProofs IndexExpr Eval Lattice LatticeSpec LatticeLoop LoopIR Lower Walk
  LowerBase LoopRule Nest Visits TreeLevels SparseTree SparseKernel AppendProofs SparseProofs SparseNest.
Local Open Scope nat_scope.
Local Arguments inb : simpl never.

(** A nest is its outer loops around its inner loops. *)
Section LowerApp.
Context {V : Type}.
Variable srt : list point -> list point.
Variable dimf : ivar -> nat.

Lemma oexpr_ext : forall (f g : expr V -> stmt V) o, (forall e, f e = g e) -> oexpr f o = oexpr g o.
Proof. intros f g [e|] H; simpl; auto. Qed.
Lemma merge_cases_ext : forall i L o (f g : expr V -> stmt V), (forall e, f e = g e) ->
  merge_cases i L o f = merge_cases i L o g.
Proof.
  intros i L o f g H. unfold merge_cases. cbv zeta. rewrite (oexpr_ext f g) by auto.
  destruct (lat_iters (getLoopLattice L)) as [|x [|y l]]; auto; f_equal; apply map_ext; intros p; f_equal; apply oexpr_ext; auto.
Qed.
Lemma loop_code_ext : forall i bound e ent (f g : expr V -> stmt V) ex, (forall e, f e = g e) ->
  loop_code srt dimf i bound e ent f ex = loop_code srt dimf i bound e ent g ex.
Proof.
  intros i bound e ent f g ex H. unfold loop_code. cbv zeta. rewrite (H e).
  assert (X : merge_lattice dimf i bound (makeLattice srt i e) e (fun e' => Block [ent; f e'; ex]) =
              merge_lattice dimf i bound (makeLattice srt i e) e (fun e' => Block [ent; g e'; ex])).
  { unfold merge_lattice. cbv zeta. do 2 f_equal. apply map_ext. intros p. unfold merge_point. cbv zeta. do 5 f_equal.
    do 1 f_equal. apply merge_cases_ext. intros e'. rewrite H. auto. }
  rewrite X. auto.
Qed.

Lemma lower_app : forall (H : @hooks V) v1 v2 bound e,
  lower srt dimf H (v1 ++ v2) bound e =
  lower srt dimf (Hooks (hk_pre H) (hk_enter H) (hk_exit H) (hk_post H) (lower srt dimf H v2 (rev v1 ++ bound))) v1 bound e.
Proof.
  intros H v1 v2. induction v1 as [|i v1 IH]; intros bound e; auto.
  cbn [app lower]. unfold lower_forall. cbn [hk_pre hk_enter hk_exit hk_post].
  rewrite (loop_code_ext i bound e _ (lower srt dimf H (v1 ++ v2) (i :: bound))
    (lower srt dimf (Hooks (hk_pre H) (hk_enter H) (hk_exit H) (hk_post H) (lower srt dimf H v2 (rev (i :: v1) ++ bound)))
       v1 (i :: bound))); auto.
  intros e'. rewrite IH. simpl rev. rewrite <- app_assoc. auto.
Qed.
End LowerApp.

Ltac vneq := let X := fresh in intros X; unfold v_p, v_cs, v_cap, v_new, v_ccap, v_pcap in *; try destruct X as [X|X]; inversion X; lia.

Section Run.
Context {V : Type}.
Variable R : ring_ops V.
Variable fn : nat -> V -> V.
Variable T : nat -> storage V.
Variable junkV : nat -> V.
Variable junkI : nat -> nat.
Variable dimf : ivar -> nat.
Notation exec := (exec R fn T junkV junkI).
Notation ieval := (ieval T).
Notation payload := ((ivar -> nat) * expr V)%type.
Notation ttree := (tree payload).
Variable n tres : nat.
Variable vs : list (ivar * kind).
Variable alloc allocv : nat.
Variable m : nat.
Notation N := (length vs).
Notation cmp := (comp_at_level vs).
Notation W := (W dimf vs).
Notation sv := (sv dimf vs).
Notation nx := (nx vs).
Notation ghost := (@ghost V).
Notation Cnt := (Cnt dimf vs m).
Notation slots := (slots m).
Notation ext := (ext m).
Notation kvs := (kvs dimf vs m).
Notation build := (build T dimf).
Notation okcrd := (okcrd (V := V)).
Notation okpos := (okpos (V := V) vs).
Notation St := (St (V := V) vs m).
Hypothesis ML : m <= N.
Hypothesis M0 : 0 < m.
Hypothesis LAST : cmp (m - 1) = true.
Hypothesis TAIL : forall l, m <= l -> cmp l = false.
Hypothesis DW : forall l, l < N -> cmp l = false -> nth_error (st_levels (T tres)) l = Some (LDense (W l)).
Hypothesis AL : 1 <= alloc.

Definition gb0 (l : nat) : nat := if comp_above vs l then 0 else sv 0.
Definition g0 : ghost := Gh (fun _ => []) (fun _ => []) gb0 [].

Lemma size_chain : forall l st, l <= nx 0 -> exists k, ieval st (size_of tres vs l) = Some k /\ k * sv l = sv 0.
Proof.
  induction l; intros st L.
  - exists 1. split; auto. lia.
  - destruct (IHl st) as (k & E & K); [lia|]. destruct (nx_ok vs m ML M0 LAST 0 M0) as (_ & N2 & _ & N4).
    assert (C : cmp l = false) by (apply N4; lia). simpl. rewrite C. simpl. rewrite E.
    rewrite DW by (auto; lia). exists (k * W l). split; auto. rewrite sv_step, C in K by lia. lia.
Qed.
Lemma size_pure : forall l, pure (size_of tres vs l) = true /\ forall v, occurs v (size_of tres vs l) -> exists j, j < l /\ v = VRes j.
Proof.
  induction l as [|l [IH1 IH2]]; simpl; [split; [auto|intros v []]|]. destruct (cmp l); simpl.
  - split; auto. intros v <-. exists l. auto.
  - rewrite IH1. split; auto. intros v [O|[]]. destruct (IH2 v O) as (j & J & ->). exists j. auto.
Qed.

Definition init_vars (v : var) : Prop := v = v_p \/ exists l, v = v_ccap l \/ v = v_pcap l \/ v = VRes l.
Lemma init_level_ok : forall l st, l < m -> cmp l = true ->
  exists st', exec (Seq (append_init_level alloc (comp_above vs l) (dense_parent vs l) l (size_of tres vs l))
                        (Asg (VRes l) (ICst 0))) st st' /\
    touch (fun v => v = v_p \/ v = v_ccap l \/ v = v_pcap l \/ v = VRes l) (fun a => a = RPos l \/ a = RCrd l) none st st' /\
    okcrd [] l st' /\ okpos [] (gb0 l) l st'.
Proof.
  intros l st L C. unfold append_init_level, gb0. 
  set (vf := fun v => v = v_p \/ v = v_ccap l \/ v = v_pcap l \/ v = VRes l).
  set (nf := fun a => a = RPos l \/ a = RCrd l).
  (* the pos array *)
  assert (P1 : exists s1 K, exec (if comp_above vs l then Seq (Asg (v_pcap l) (ICst alloc)) (RszI (RPos l) (IVar (v_pcap l)))
         else RszI (RPos l) (IAdd (size_of tres vs l) (ICst 1))) st s1 /\ touch vf nf none st s1 /\
         length (ibuf s1 (RPos l)) = S K /\ gb0 l <= K /\
         (comp_above vs l = true -> env s1 (v_pcap l) = Some (S K)) /\
         (comp_above vs l = false -> K = sv 0 /\ ieval s1 (size_of tres vs l) = Some K)).
  { unfold gb0. destruct (comp_above vs l) eqn:CA.
    - set (s0 := setv st (v_pcap l) alloc). exists (setI s0 (RPos l) (resize junkI (ibuf s0 (RPos l)) alloc)), (alloc - 1).
      split; [|split; [|split; [|split; [|split]]]].
      + econstructor; [constructor; simpl; reflexivity|].
        apply (X_rszi R fn T junkV junkI (RPos l) (IVar (v_pcap l)) s0 alloc). apply setv_eq.
      + eapply touch_trans; [apply touch_setv|apply touch_setI]; unfold vf, nf; auto.
      + rewrite setI_eq, resize_len. lia.
      + lia.
      + intros _. change (env s0 (v_pcap l) = Some (S (alloc - 1))). unfold s0. rewrite setv_eq. f_equal. lia.
      + discriminate.
    - assert (EL : nx 0 = l) by (eapply above_false; eauto).
      destruct (size_chain l st) as (k & E & K); [lia|].
      assert (K1 : k = sv 0).
      { rewrite sv_step, C in K by lia. lia. }
      exists (setI st (RPos l) (resize junkI (ibuf st (RPos l)) (S k))), k. split; [|split; [|split; [|split; [|split]]]].
      + apply (X_rszi R fn T junkV junkI (RPos l) _ st (S k)). simpl. rewrite E. f_equal. lia.
      + apply touch_setI. unfold nf. auto.
      + rewrite setI_eq, resize_len. auto.
      + lia.
      + discriminate.
      + intros _. split; auto. rewrite <- E. apply ieval_pure; [apply size_pure|auto]. }
  destruct P1 as (s1 & K & X1 & T1 & L1 & G1 & H1 & H2).
  set (s2 := setI s1 (RPos l) (upd_nth (ibuf s1 (RPos l)) 0 0)).
  assert (X2 : exec (StI (RPos l) (ICst 0) (ICst 0)) s1 s2).
  { apply (X_sti R fn T junkV junkI (RPos l) (ICst 0) (ICst 0) s1 0 0); auto. rewrite L1. lia. }
  assert (T2 : touch vf nf none st s2) by (eapply touch_trans; [exact T1|apply touch_setI; unfold nf; auto]).
  assert (L2 : length (ibuf s2 (RPos l)) = S K) by (unfold s2; rewrite setI_eq, upd_nth_len; auto).
  assert (Z2 : nth 0 (ibuf s2 (RPos l)) 0 = 0) by (unfold s2; rewrite setI_eq, nth_upd_eq; auto; lia).
  assert (P3 : exists s3, exec (if dense_parent vs l && negb (comp_above vs l)
         then For v_p (ICst 1) (IAdd (size_of tres vs l) (ICst 1)) (StI (RPos l) (IVar v_p) (ICst 0)) else Skip) s2 s3 /\
         touch vf nf none s2 s3 /\ length (ibuf s3 (RPos l)) = S K /\ nth 0 (ibuf s3 (RPos l)) 0 = 0 /\
         env s3 (v_pcap l) = env s2 (v_pcap l) /\
         (dense_parent vs l = true -> forall s, s < gb0 l -> nth (S s) (ibuf s3 (RPos l)) 0 = 0)).
  { destruct (dense_parent vs l) eqn:DP, (comp_above vs l) eqn:CA; simpl.
    - exists s2. split; [constructor|]. split; [apply touch_refl|]. repeat (split; auto).
      intros _ s SB. unfold gb0 in SB. rewrite CA in SB. lia.
    - destruct (H2 eq_refl) as [K1 E1]. destruct (size_pure l) as [SP SO].
      destruct (zero_range_ok R fn T junkV junkI (RPos l) (ICst 1) (IAdd (size_of tres vs l) (ICst 1)) s2 1 (S K))
        as (s3 & X3 & T3 & L3 & Z3); auto.
      { simpl. rewrite SP. auto. }
      { simpl. intros [O|[]]. destruct (SO _ O) as (j & _ & Y). inversion Y. }
      { assert (E2 : ieval s2 (size_of tres vs l) = Some K) by (rewrite <- E1; apply ieval_pure; auto). simpl. rewrite E2. f_equal. lia. }
      { lia. } { lia. }
      exists s3. split; auto. split.
      { eapply touch_weak; [| | |exact T3]; unfold vf, nf; auto. }
      split; [congruence|]. split; [rewrite Z3; simpl; auto|]. split; [apply T3; vneq|].
      intros _ s SB. rewrite Z3. unfold gb0 in SB. rewrite CA in SB.
      assert (Y1 : (1 <=? S s) = true) by (apply Nat.leb_le; lia). assert (Y2 : (S s <? S K) = true) by (apply Nat.ltb_lt; lia).
      rewrite Y1, Y2. auto.
    - exists s2. split; [constructor|]. split; [apply touch_refl|]. repeat (split; auto). discriminate.
    - exists s2. split; [constructor|]. split; [apply touch_refl|]. repeat (split; auto). discriminate. }
  destruct P3 as (s3 & X3 & T3 & L3 & Z3 & E3 & D3).
  set (s4 := setv s3 (v_ccap l) alloc). set (s5 := setI s4 (RCrd l) (resize junkI (ibuf s4 (RCrd l)) alloc)).
  exists (setv s5 (VRes l) 0).
  assert (X4 : exec (Asg (v_ccap l) (ICst alloc)) s3 s4) by (constructor; auto).
  assert (X5 : exec (RszI (RCrd l) (IVar (v_ccap l))) s4 s5).
  { apply (X_rszi R fn T junkV junkI (RCrd l) (IVar (v_ccap l)) s4 alloc). apply setv_eq. }
  assert (BP : ibuf (setv s5 (VRes l) 0) (RPos l) = ibuf s3 (RPos l)) by reflexivity.
  assert (BC : ibuf (setv s5 (VRes l) 0) (RCrd l) = resize junkI (ibuf s4 (RCrd l)) alloc) by (apply setI_eq).
  split; [|split; [|split]].
  - econstructor; [|constructor; reflexivity].
    eapply block_cons; [exact X1|]. eapply block_cons; [exact X2|]. eapply block_cons; [exact X3|].
    eapply block_cons; [exact X4|]. apply block1. exact X5.
  - eapply touch_trans; [exact T2|]. eapply touch_trans; [exact T3|]. apply touch_trans with (s2 := s4); [apply touch_setv; unfold vf; auto|].
    apply touch_trans with (s2 := s5); [apply touch_setI; unfold nf; auto|apply touch_setv; unfold vf; auto].
  - unfold SparseNest.okcrd. rewrite BC, resize_len, setv_eq, setv_neq by vneq.
    change (env s5 (v_ccap l)) with (env s4 (v_ccap l)). unfold s4. rewrite setv_eq. simpl. repeat split; auto; lia.
  - split.
    + rewrite BP. fold (gb0 l). destruct (app_parent vs l) eqn:AP.
      * split; [lia|]. split; [simpl; lia|]. destruct (ibuf s3 (RPos l)); [simpl in L3; lia|]. simpl in *. congruence.
      * split; auto. split; [lia|]. split; [simpl; lia|]. intros s SB. rewrite D3; auto; [destruct s; auto|].
        unfold dense_parent. rewrite AP. auto.
    + intros CA. rewrite BP, L3. rewrite setv_neq by vneq. change (env s5 (v_pcap l)) with (env s4 (v_pcap l)).
      unfold s4. rewrite setv_neq by vneq. rewrite E3. change (env s2 (v_pcap l)) with (env s1 (v_pcap l)). auto.
Qed.

Lemma init_levels_ok : forall st, exists st', exec (init_levels tres vs alloc) st st' /\
  touch init_vars (fun _ => True) none st st' /\ St g0 st'.
Proof.
  intros st. unfold init_levels.
  assert (X : forall k j s, j + k = N -> (forall l, l < j -> l < m -> cmp l = true -> okcrd [] l s /\ okpos [] (gb0 l) l s) ->
    exists st', exec (Block (map (fun l => if cmp l
                       then Seq (append_init_level alloc (comp_above vs l) (dense_parent vs l) l (size_of tres vs l))
                                (Asg (VRes l) (ICst 0))
                       else Skip) (seq j k))) s st' /\ touch init_vars (fun _ => True) none s st' /\ St g0 st').
  { induction k; intros j s JK H.
    - exists s. split; [constructor|]. split; [apply touch_refl|]. intros l L C. apply H; auto. lia.
    - assert (Y : exists s1, exec (if cmp j
                       then Seq (append_init_level alloc (comp_above vs j) (dense_parent vs j) j (size_of tres vs j))
                                (Asg (VRes j) (ICst 0))
                       else Skip) s s1 /\ touch init_vars (fun _ => True) none s s1 /\
                (forall l, l < S j -> l < m -> cmp l = true -> okcrd [] l s1 /\ okpos [] (gb0 l) l s1)).
      { destruct (cmp j) eqn:C.
        - destruct (Nat.lt_ge_cases j m) as [J|J]; [|rewrite TAIL in C; [discriminate|auto]].
          destruct (init_level_ok j s J C) as (s1 & X1 & T1 & O1 & O2). exists s1. split; auto. split.
          + eapply touch_weak; [| | |exact T1]; auto. intros v [?|[?|[?|?]]]; unfold init_vars; eauto.
          + intros l L LM CL. destruct (Nat.eq_dec l j) as [->|]; auto. destruct (H l) as [Q1 Q2]; auto; [lia|].
            destruct T1 as (Tv & Ti & _). split.
            * eapply okcrd_frame; [| | |exact Q1]; [apply Ti; intros [Y|Y]; inversion Y; lia|apply Tv|apply Tv];
                unfold v_p, v_ccap, v_pcap; intros [Y|[Y|[Y|Y]]]; inversion Y; lia.
            * eapply okpos_frame; [| |exact Q2]; [apply Ti; intros [Y|Y]; inversion Y; lia|apply Tv];
                unfold v_p, v_ccap, v_pcap; intros [Y|[Y|[Y|Y]]]; inversion Y; lia.
        - exists s. split; [constructor|]. split; [apply touch_refl|]. intros l L LM CL.
          destruct (Nat.eq_dec l j) as [->|]; [congruence|]. apply H; auto. lia. }
      destruct Y as (s1 & X1 & T1 & H1). destruct (IHk (S j) s1) as (st' & X2 & T2 & H2); [lia|auto|].
      exists st'. split; [eapply block_cons; eauto|]. split; auto. eapply touch_trans; eauto. }
  apply X; auto. intros l L. lia.
Qed.

(** *** Finalisation *)
Definition final (g : ghost) (st : state V) : Prop := forall l, l < m -> cmp l = true ->
  firstn (S (length (LN g l))) (ibuf st (RPos l)) = scan 0 (LN g l) /\
  firstn (length (CR g l)) (ibuf st (RCrd l)) = CR g l.
Definition fin_vars (v : var) : Prop := v = v_p \/ v = v_cs.

Lemma size_slots : forall (g : ghost) (st : state V) l, Cnt 0 g -> length (LN g 0) = 1 ->
  (forall j, j < m -> cmp j = true -> env st (VRes j) = Some (length (CR g j))) -> l < m ->
  ieval st (size_of tres vs l) = Some (length (LN g l)).
Proof.
  intros g st l CN L0 VR. induction l; intros L; [simpl; rewrite L0; auto|].
  assert (SL : length (LN g (S l)) = length (CR g l)).
  { assert (X := c_next _ _ _ _ _ CN l ltac:(lia) ltac:(lia)). unfold SparseProofs.slots in X.
    apply Nat.ltb_lt in L. rewrite L in X. auto. }
  simpl. destruct (cmp l) eqn:C; simpl.
  - rewrite VR by (auto; lia). congruence.
  - rewrite IHl by lia. rewrite DW by (auto; lia). f_equal.
    rewrite SL, (c_sum _ _ _ _ _ CN), (c_dense _ _ _ _ _ CN) by (auto; lia). auto.
Qed.

Lemma finalize_levels_ok : forall (g : ghost) (st : state V), Cnt 0 g -> length (LN g 0) = 1 -> St g st ->
  exists st', exec (Block (map (fun l => if cmp l then append_finalize (dense_parent vs l) l (size_of tres vs l) else Skip)
                    (seq 0 N))) st st' /\ touch fin_vars (fun a => exists l, a = RPos l) none st st' /\ final g st'.
Proof.
  intros g st CN L0 HS.
  assert (VR : forall s, touch fin_vars (fun a => exists l, a = RPos l) none st s ->
    forall j, j < m -> cmp j = true -> env s (VRes j) = Some (length (CR g j))).
  { intros s (Tv & _) j J C. destruct (HS j J C) as [(_ & _ & _ & _ & E) _]. rewrite Tv; auto.
    intros [Y|Y]; inversion Y. }
  assert (X : forall k j s, j + k = N -> touch fin_vars (fun a => exists l, a = RPos l) none st s ->
    (forall l, j <= l -> ibuf s (RPos l) = ibuf st (RPos l)) ->
    (forall l, l < j -> l < m -> cmp l = true -> firstn (S (length (LN g l))) (ibuf s (RPos l)) = scan 0 (LN g l)) ->
    exists st', exec (Block (map (fun l => if cmp l then append_finalize (dense_parent vs l) l (size_of tres vs l) else Skip)
                    (seq j k))) s st' /\ touch fin_vars (fun a => exists l, a = RPos l) none st st' /\ final g st').
  { induction k; intros j s JK TT NEW OLD.
    - exists s. split; [constructor|]. split; auto. intros l L C. split; [apply OLD; auto; lia|].
      destruct TT as (_ & Ti & _). rewrite Ti by (intros (l' & Y); inversion Y).
      destruct (HS l L C) as [(_ & _ & _ & E & _) _]. auto.
    - assert (Y : exists s1, exec (if cmp j then append_finalize (dense_parent vs j) j (size_of tres vs j) else Skip) s s1 /\
        touch fin_vars (eq (RPos j)) none s s1 /\
        (j < m -> cmp j = true -> firstn (S (length (LN g j))) (ibuf s1 (RPos j)) = scan 0 (LN g j))).
      { destruct (cmp j) eqn:C; [|exists s; split; [constructor|]; split; [apply touch_refl|discriminate]].
        destruct (Nat.lt_ge_cases j m) as [J|J]; [|rewrite TAIL in C; [discriminate|auto]].
        destruct (HS j J C) as [_ [PO _]]. unfold dense_parent. destruct (app_parent vs j) eqn:AP.
        - exists s. split; [constructor|]. split; [apply touch_refl|]. intros _ _. rewrite NEW by auto. apply PO.
        - destruct (size_pure j) as [SP SO].
          destruct (finalize_ok R fn T junkV junkI j (size_of tres vs j) s (LN g j) (GB g j)) as (s1 & X1 & T1 & _ & F1); auto.
          + intros O. destruct (SO _ O) as (j' & _ & Y). inversion Y.
          + intros O. destruct (SO _ O) as (j' & _ & Y). inversion Y.
          + apply size_slots; auto.
          + rewrite NEW by auto. auto.
          + exists s1. split; auto. }
      destruct Y as (s1 & X1 & T1 & F1).
      destruct (IHk (S j) s1) as (st' & X2 & T2 & H2); auto; [lia| | | |].
      + eapply touch_trans; [exact TT|]. eapply touch_weak; [| | |exact T1]; auto. intros a <-. eauto.
      + intros l L. destruct T1 as (_ & Ti & _). rewrite Ti by (intros Y; inversion Y; lia). apply NEW. lia.
      + intros l L LM C. destruct (Nat.eq_dec l j) as [->|]; auto. destruct T1 as (_ & Ti & _).
        rewrite Ti by (intros Y; inversion Y; lia). apply OLD; auto. lia.
      + exists st'. split; [eapply block_cons; eauto|]. auto. }
  apply X; auto; [apply touch_refl|]. intros l L. lia.
Qed.

(** *** The storage described by the arrays *)
Lemma unpack_prefix : forall (t : ttree) (g : ghost) (st : state V) ks2 d l, d = m - l -> l <= m -> good kvs t -> final g st ->
  (forall l, l < m -> LN g l = lens (tsat l [t]) /\ CR g l = crds (tsat l [t])) ->
  unpack_levels l (length (tsat l [t])) (skipn l kvs ++ ks2) (ibuf st) =
  let r := unpack_levels m (length (tsat m [t])) ks2 (ibuf st) in
  (levels (skipn l kvs) (tsat l [t]) ++ fst r, snd r).
Proof.
  intros t g st ks2. induction d; intros l D L GD F LC.
  - assert (l = m) by lia. subst l. rewrite skipn_all2 by (rewrite kvs_len; auto). simpl.
    destruct (unpack_levels m (length (tsat m [t])) ks2 (ibuf st)). auto.
  - assert (LM : l < m) by lia. assert (G : Forall (good (skipn l kvs)) (tsat l [t])).
    { apply good_tsat; [rewrite kvs_len; lia|]. constructor; auto. }
    rewrite kvs_skip in * by auto. destruct (LC l LM) as [L1 L2].
    assert (NB : length (tsat (S l) [t]) = sum (lens (tsat l [t]))) by (rewrite tsat_S; apply below_length).
    assert (IH := IHd (S l) ltac:(lia) ltac:(lia) GD F LC). cbv zeta in IH |- *. rewrite NB in IH.
    destruct (cmp l) eqn:C.
    + cbn [app unpack_levels levels]. destruct (F l LM C) as [F1 F2]. rewrite L1 in F1. rewrite L2 in F2.
      rewrite lens_len in F1. rewrite crds_length in F2.
      assert (SZ : nth (length (tsat l [t])) (ibuf st (RPos l)) 0 = sum (lens (tsat l [t]))).
      { rewrite <- (firstn_skipn (S (length (tsat l [t]))) (ibuf st (RPos l))), F1.
        rewrite app_nth1 by (rewrite scan_length, lens_len; lia). rewrite scan_nth by (rewrite lens_len; lia).
        rewrite firstn_all2; auto. rewrite lens_len. lia. }
      rewrite SZ, IH, F1, F2. cbn [fst snd]. rewrite <- tsat_S. auto.
    + cbn [app unpack_levels levels]. rewrite (dense_sum _ _ _ G) in IH. rewrite IH. cbn [fst snd]. rewrite <- tsat_S. auto.
Qed.
End Run.
