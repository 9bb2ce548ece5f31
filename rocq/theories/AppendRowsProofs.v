(** Proofs about AppendRows.v. *)
From Coq Require Import List Arith Lia Bool Sorted.
Import ListNotations.
From Verif Require Import Outcome Storage StorageProofs IndexExpr Eval Lattice LoopIR Lower Walk LowerBase LoopRule
  TreeLevels SparseKernel AppendProofs AppendRows AppendSpec.
Local Open Scope nat_scope.

Ltac vneq := let X := fresh in intros X; unfold v_p, v_cs, v_cap, v_new, v_ccap, v_pcap in *;
  repeat match type of X with _ \/ _ => destruct X as [X|X] end; inversion X; lia.

Lemma seg_scan : forall (segs : list (list nat)) r, r < length segs ->
  let pos := scan 0 (map (@length nat) segs) in
  nth r pos 0 <= nth (S r) pos 0 /\
  firstn (nth (S r) pos 0 - nth r pos 0) (skipn (nth r pos 0) (concat segs)) = nth r segs [].
Proof.
  intros segs r H pos. unfold pos. rewrite !scan_nth by (rewrite map_length; lia). rewrite !Nat.add_0_l.
  rewrite sum_firstn_S. split; [lia|].
  replace (sum (firstn r (map (@length nat) segs)) + nth r (map (@length nat) segs) 0 -
    sum (firstn r (map (@length nat) segs))) with (nth r (map (@length nat) segs) 0) by lia.
  clear pos. revert r H. induction segs as [|s segs IH]; intros r H; [simpl in H; lia|].
  destruct r; simpl.
  - rewrite firstn_app, firstn_all, Nat.sub_diag. simpl. apply app_nil_r.
  - rewrite skipn_app. rewrite skipn_all2 by lia. simpl.
    replace (length s + sum (firstn r (map (@length nat) segs)) - length s)
      with (sum (firstn r (map (@length nat) segs))) by lia. apply IH. simpl in H. lia.
Qed.
Lemma sum_concat : forall (segs : list (list nat)), sum (map (@length nat) segs) = length (concat segs).
Proof. induction segs; simpl; auto. rewrite app_length. lia. Qed.
Lemma level_scan : forall segs n seg, length segs = n -> (forall r, r < n -> nth r segs [] = seg r) ->
  compressed_level n seg (scan 0 (map (@length nat) segs)) (concat segs).
Proof.
  intros segs n seg L S. split; [rewrite scan_length, map_length; auto|]. split; [destruct segs; auto|]. split.
  - rewrite scan_nth by (rewrite map_length; lia). rewrite firstn_all2 by (rewrite map_length; lia).
    rewrite sum_concat. auto.
  - intros r H. rewrite <- S by auto. apply seg_scan. lia.
Qed.

Section Rows.
Context {V : Type}.
Variable R : ring_ops V.
Variable fn : nat -> V -> V.
Variable T : nat -> storage V.
Variable junkV : nat -> V.
Variable junkI : nat -> nat.
Notation exec := (exec R fn T junkV junkI).
Notation ieval := (ieval T).

Definition Crd (l : nat) (CR : list nat) (st : state V) : Prop :=
  env st (v_ccap l) = Some (length (ibuf st (RCrd l))) /\ 1 <= length (ibuf st (RCrd l)) /\
  length CR <= length (ibuf st (RCrd l)) /\ firstn (length CR) (ibuf st (RCrd l)) = CR /\
  env st (VRes l) = Some (length CR).
Lemma Crd_frame : forall l C st st', Crd l C st -> ibuf st' (RCrd l) = ibuf st (RCrd l) ->
  env st' (v_ccap l) = env st (v_ccap l) -> env st' (VRes l) = env st (VRes l) -> Crd l C st'.
Proof. unfold Crd. intros l C st st' H -> -> ->. auto. Qed.

Definition app_vars (l : nat) (v : var) : Prop := v = VIdx l \/ v = v_ccap l \/ v = VRes l.
Lemma append_one_ok : forall l c CR st, Crd l CR st ->
  exists st', exec (append_one l c) st st' /\ touch (app_vars l) (eq (RCrd l)) none st st' /\ Crd l (CR ++ [c]) st'.
Proof.
  intros l c CR st (C1 & C2 & C3 & C4 & C5). set (s0 := setv st (VIdx l) c).
  destruct (append_coord_ok R fn T junkV junkI l (VRes l) (VIdx l) s0 CR c) as (s1 & X1 & TT & D1 & D2 & D3 & D4);
    try exact C2; try exact C3; try exact C4; try (unfold s0; rewrite setv_neq by vneq; auto); [apply setv_eq|vneq|vneq|].
  exists (setv s1 (VRes l) (S (length CR))). split; [|split].
  - eapply block_cons; [apply exec_asg_ok; reflexivity|]. eapply block_cons; [exact X1|]. apply block1.
    apply exec_asg_ok. simpl. destruct TT as (Tv & _). rewrite Tv by vneq. unfold s0. rewrite setv_neq by vneq.
    rewrite C5. f_equal. lia.
  - assert (A1 : app_vars l (VIdx l)) by (left; auto). assert (A3 : app_vars l (VRes l)) by (right; right; auto).
    eapply touch_trans; [apply touch_setv; exact A1|]. eapply touch_trans; [|apply touch_setv; exact A3].
    eapply touch_weak; [| | |exact TT]; auto. intros v <-. right; left; auto.
  - unfold Crd. rewrite app_length. simpl length. rewrite Nat.add_1_r. rewrite setv_eq, setv_neq by vneq. simpl ibuf.
    auto.
Qed.
Lemma append_all_ok : forall l cols CR st, Crd l CR st ->
  exists st', exec (Block (map (append_one l) cols)) st st' /\ touch (app_vars l) (eq (RCrd l)) none st st' /\
    Crd l (CR ++ cols) st'.
Proof.
  induction cols as [|c cols IH]; intros CR st H.
  - exists st. split; [constructor|]. split; [apply touch_refl|]. rewrite app_nil_r. auto.
  - destruct (append_one_ok l c CR st H) as (s1 & X1 & T1 & H1).
    destruct (IH (CR ++ [c]) s1 H1) as (s2 & X2 & T2 & H2).
    exists s2. split; [simpl; eapply block_cons; eauto|]. split; [eapply touch_trans; eauto|].
    rewrite <- app_assoc in H2. auto.
Qed.

Definition row_vars (l : nat) (v : var) : Prop := app_vars l v \/ v = VBeg l.
Lemma append_row_ok : forall ap l p cols CR st q, Crd l CR st -> 
  (forall st', touch (row_vars l) (eq (RCrd l)) none st st' -> ieval st' p = Some q) ->
  S q < length (ibuf st (RPos l)) ->
  exists st', exec (append_row ap l p cols) st st' /\
    touch (row_vars l) (fun a => a = RCrd l \/ a = RPos l) none st st' /\
    Crd l (CR ++ cols) st' /\ env st' (VBeg l) = Some (length CR) /\
    ibuf st' (RPos l) = upd_nth (ibuf st (RPos l)) (S q)
      (if ap then length CR + length cols else length cols).
Proof.
  intros ap l p cols CR st q HC HP HQ. set (s0 := setv st (VBeg l) (length CR)).
  assert (H0 : Crd l CR s0). { eapply Crd_frame; [exact HC|reflexivity| |]; apply setv_neq; vneq. }
  destruct (append_all_ok l cols CR s0 H0) as (s1 & X1 & T1 & H1).
  assert (TT : touch (row_vars l) (eq (RCrd l)) none st s1).
  { assert (A1 : row_vars l (VBeg l)) by (right; auto). eapply touch_trans; [apply touch_setv; exact A1|]. eapply touch_weak; [| | |exact T1]; unfold row_vars; auto. }
  assert (EB : env s1 (VBeg l) = Some (length CR)).
  { destruct T1 as (Tv & _). rewrite Tv by (unfold app_vars; vneq). apply setv_eq. }
  assert (EP : ibuf s1 (RPos l) = ibuf st (RPos l)).
  { destruct TT as (_ & Ti & _). apply Ti. intros X; inversion X. }
  exists (setI s1 (RPos l) (upd_nth (ibuf s1 (RPos l)) (S q) (if ap then length CR + length cols else length cols))).
  split; [|split; [|split; [|split]]].
  - eapply block_cons; [apply exec_asg_ok; destruct HC as (_ & _ & _ & _ & E); simpl; rewrite E; reflexivity|].
    eapply block_cons; [exact X1|]. apply block1. constructor.
    + simpl. rewrite (HP s1 TT). f_equal. lia.
    + destruct H1 as (_ & _ & _ & _ & E). rewrite app_length in E. destruct ap; simpl; rewrite E; auto.
      rewrite EB. assert (Y : (length CR <=? length CR + length cols) = true) by (apply Nat.leb_le; lia). rewrite Y. f_equal. lia.
    + rewrite EP. auto.
  - eapply touch_trans; [eapply touch_weak; [| | |exact TT]; auto|]. apply touch_setI. auto.
  - eapply Crd_frame; [exact H1| |reflexivity|reflexivity]. simpl. destruct (iname_eq_dec (RCrd l) (RPos l)); [discriminate|auto].
  - exact EB.
  - rewrite setI_eq, EP. auto.
Qed.

(** ** Allocation *)
Definition init_vars (l : nat) (v : var) : Prop := v = v_p \/ v = v_ccap l \/ v = v_pcap l \/ v = VRes l.
Definition init_bufs (l : nat) (a : iname) : Prop := a = RPos l \/ a = RCrd l.
Lemma init_level_ok : forall alloc (below dp : bool) l w st, 1 <= alloc ->
  exists st', exec (Seq (append_init_level alloc below dp l (ICst w)) (Asg (VRes l) (ICst 0))) st st' /\
    touch (init_vars l) (init_bufs l) none st st' /\ Crd l [] st' /\
    length (ibuf st' (RPos l)) = (if below then alloc else S w) /\
    nth 0 (ibuf st' (RPos l)) 0 = 0 /\
    (below = true -> env st' (v_pcap l) = Some alloc) /\
    (dp && negb below = true -> forall q, q <= w -> nth q (ibuf st' (RPos l)) 0 = 0).
Proof.
  intros alloc below dp l w st AL. unfold append_init_level.
  set (k := if below then alloc else S w). assert (K : 1 <= k) by (unfold k; destruct below; lia).
  assert (I1 : init_vars l v_p) by (left; auto). assert (I2 : init_vars l (v_ccap l)) by (right; left; auto).
  assert (I3 : init_vars l (v_pcap l)) by (right; right; left; auto). assert (I4 : init_vars l (VRes l)) by (right; right; right; auto).
  assert (J1 : init_bufs l (RPos l)) by (left; auto). assert (J2 : init_bufs l (RCrd l)) by (right; auto).
  assert (P1 : exists s1, exec (if below then Seq (Asg (v_pcap l) (ICst alloc)) (RszI (RPos l) (IVar (v_pcap l)))
         else RszI (RPos l) (IAdd (ICst w) (ICst 1))) st s1 /\ touch (init_vars l) (init_bufs l) none st s1 /\
         length (ibuf s1 (RPos l)) = k /\ (below = true -> env s1 (v_pcap l) = Some alloc)).
  { unfold k. destruct below.
    - set (s0 := setv st (v_pcap l) alloc). exists (setI s0 (RPos l) (resize junkI (ibuf s0 (RPos l)) alloc)).
      split; [|split; [|split]].
      + econstructor; [constructor; simpl; reflexivity|].
        apply (X_rszi R fn T junkV junkI (RPos l) (IVar (v_pcap l)) s0 alloc). apply setv_eq.
      + eapply touch_trans; [apply touch_setv; exact I3|apply touch_setI; auto].
      + rewrite setI_eq, resize_len. auto.
      + intros _. apply setv_eq.
    - exists (setI st (RPos l) (resize junkI (ibuf st (RPos l)) (S w))). split; [|split; [|split]].
      + apply (X_rszi R fn T junkV junkI (RPos l) _ st (S w)). simpl. f_equal. lia.
      + apply touch_setI. auto.
      + rewrite setI_eq, resize_len. auto.
      + discriminate. }
  destruct P1 as (s1 & X1 & T1 & L1 & E1).
  set (s2 := setI s1 (RPos l) (upd_nth (ibuf s1 (RPos l)) 0 0)).
  assert (X2 : exec (StI (RPos l) (ICst 0) (ICst 0)) s1 s2).
  { apply (X_sti R fn T junkV junkI (RPos l) (ICst 0) (ICst 0) s1 0 0); auto. rewrite L1. lia. }
  assert (T2 : touch (init_vars l) (init_bufs l) none st s2) by (eapply touch_trans; [exact T1|apply touch_setI; auto]).
  assert (L2 : length (ibuf s2 (RPos l)) = k) by (unfold s2; rewrite setI_eq, upd_nth_len; auto).
  assert (Z2 : nth 0 (ibuf s2 (RPos l)) 0 = 0) by (unfold s2; rewrite setI_eq, nth_upd_eq; auto; lia).
  assert (P3 : exists s3, exec (if dp && negb below
         then For v_p (ICst 1) (IAdd (ICst w) (ICst 1)) (StI (RPos l) (IVar v_p) (ICst 0)) else Skip) s2 s3 /\
         touch (init_vars l) (init_bufs l) none s2 s3 /\ length (ibuf s3 (RPos l)) = k /\ nth 0 (ibuf s3 (RPos l)) 0 = 0 /\
         env s3 (v_pcap l) = env s2 (v_pcap l) /\
         (dp && negb below = true -> forall q, q <= w -> nth q (ibuf s3 (RPos l)) 0 = 0)).
  { destruct (dp && negb below) eqn:DP.
    - assert (B : below = false) by (destruct below; auto; destruct dp; discriminate).
      destruct (zero_range_ok R fn T junkV junkI (RPos l) (ICst 1) (IAdd (ICst w) (ICst 1)) s2 1 (S w))
        as (s3 & X3 & T3 & L3 & Z3); auto; try lia.
      { simpl. intros [[]|[]]. }
      { simpl. f_equal. lia. }
      { rewrite L2. unfold k. rewrite B. lia. }
      exists s3. split; auto. split.
      { eapply touch_weak; [| | |exact T3]; auto; intros ? <-; auto. }
      split; [congruence|]. split; [rewrite Z3; simpl; auto|]. split; [apply T3; vneq|].
      intros _ q Q. rewrite Z3. destruct q as [|q]; [simpl; auto|].
      assert (Y1 : (1 <=? S q) = true) by (apply Nat.leb_le; lia). assert (Y2 : (S q <? S w) = true) by (apply Nat.ltb_lt; lia).
      rewrite Y1, Y2. auto.
    - exists s2. split; [constructor|]. split; [apply touch_refl|]. repeat (split; auto). discriminate. }
  destruct P3 as (s3 & X3 & T3 & L3 & Z3 & E3 & D3).
  set (s4 := setv s3 (v_ccap l) alloc). set (s5 := setI s4 (RCrd l) (resize junkI (ibuf s4 (RCrd l)) alloc)).
  exists (setv s5 (VRes l) 0).
  assert (X4 : exec (Asg (v_ccap l) (ICst alloc)) s3 s4) by (constructor; auto).
  assert (X5 : exec (RszI (RCrd l) (IVar (v_ccap l))) s4 s5).
  { apply (X_rszi R fn T junkV junkI (RCrd l) (IVar (v_ccap l)) s4 alloc). apply setv_eq. }
  assert (BP : ibuf (setv s5 (VRes l) 0) (RPos l) = ibuf s3 (RPos l)) by reflexivity.
  assert (BC : ibuf (setv s5 (VRes l) 0) (RCrd l) = resize junkI (ibuf s4 (RCrd l)) alloc) by (apply setI_eq).
  split; [|split; [|split; [|split; [|split; [|split]]]]].
  - econstructor; [|constructor; reflexivity].
    eapply block_cons; [exact X1|]. eapply block_cons; [exact X2|]. eapply block_cons; [exact X3|].
    eapply block_cons; [exact X4|]. apply block1. exact X5.
  - eapply touch_trans; [exact T2|]. eapply touch_trans; [exact T3|]. apply touch_trans with (s2 := s4); [apply touch_setv; auto|].
    apply touch_trans with (s2 := s5); [apply touch_setI; auto|apply touch_setv; auto].
  - unfold Crd. rewrite BC, resize_len, setv_eq, setv_neq by vneq.
    change (env s5 (v_ccap l)) with (env s4 (v_ccap l)). unfold s4. rewrite setv_eq. simpl. repeat split; auto; lia.
  - rewrite BP. auto.
  - rewrite BP. auto.
  - intros B. rewrite setv_neq by vneq. change (env s5 (v_pcap l)) with (env s4 (v_pcap l)).
    unfold s4. rewrite setv_neq by vneq. rewrite E3. apply E1. auto.
  - rewrite BP. auto.
Qed.

(** ** Below a dense level *)
Lemma row_of_snoc : forall rows r cols s, ~ In r (map fst rows) ->
  row_of (rows ++ [(r, cols)]) s = if r =? s then cols else row_of rows s.
Proof.
  induction rows as [|[r' c'] rows IH]; intros r cols s H; simpl; auto.
  simpl in H. destruct (r' =? s) eqn:E1.
  - destruct (r =? s) eqn:E2; auto. apply Nat.eqb_eq in E1, E2. subst. exfalso. auto.
  - apply IH. auto.
Qed.
Lemma row_of_none : forall rows s, ~ In s (map fst rows) -> row_of rows s = [].
Proof.
  induction rows as [|[r c] rows IH]; intros s H; simpl; auto. simpl in H.
  destruct (r =? s) eqn:E; [apply Nat.eqb_eq in E; subst; exfalso; auto|]. apply IH. auto.
Qed.
Lemma rows_concat : forall k a rows, StronglySorted lt (map fst rows) ->
  (forall r, In r (map fst rows) -> a <= r < a + k) ->
  concat (map (row_of rows) (seq a k)) = concat (map snd rows).
Proof.
  induction k; intros a rows SR B.
  - destruct rows as [|[r c] rows]; auto. specialize (B r (or_introl eq_refl)). lia.
  - destruct rows as [|[r c] rows].
    + cbn [seq map concat]. change (row_of [] a) with (@nil nat). apply IHk; auto. intros r [].
    + simpl map in SR. inversion SR as [|? ? SR' F]; subst. rewrite Forall_forall in F.
      destruct (Nat.eq_dec r a) as [->|NE].
      * simpl. rewrite Nat.eqb_refl. f_equal. rewrite <- (IHk (S a) rows); auto.
        -- f_equal. apply map_ext_in. intros s HS. apply in_seq in HS.
           destruct (a =? s) eqn:E; auto. apply Nat.eqb_eq in E. lia.
        -- intros s HS. specialize (F s HS). specialize (B s (or_intror HS)). lia.
      * change (concat (map (row_of ((r, c) :: rows)) (seq a (S k)))) with
          (row_of ((r, c) :: rows) a ++ concat (map (row_of ((r, c) :: rows)) (seq (S a) k))).
        rewrite (row_of_none ((r, c) :: rows) a).
        -- rewrite app_nil_l. apply IHk; auto. assert (BR := B r (or_introl eq_refl)).
           intros s [<-|HS]; [simpl; lia|]. specialize (F s HS). specialize (B s (or_intror HS)). lia.
        -- intros [E|HS]; [simpl in E; auto|]. specialize (F a HS).
           assert (Y : In r (map fst ((r, c) :: rows))) by (left; auto). specialize (B r Y). lia.
Qed.

Definition Dn (w : nat) (done : list (nat * list nat)) (st : state V) : Prop :=
  Crd 1 (concat (map snd done)) st /\ length (ibuf st (RPos 1)) = S w /\ nth 0 (ibuf st (RPos 1)) 0 = 0 /\
  forall s, s < w -> nth (S s) (ibuf st (RPos 1)) 0 = length (row_of done s).
Lemma dense_rows_ok : forall w todo done st, NoDup (map fst (done ++ todo)) -> (forall r, In r (map fst todo) -> r < w) ->
  Dn w done st ->
  exists st', exec (Block (map (fun row => append_row false 1 (ICst (fst row)) (snd row)) todo)) st st' /\
    Dn w (done ++ todo) st'.
Proof.
  induction todo as [|[r cols] todo IH]; intros done st ND B D.
  - exists st. split; [constructor|]. rewrite app_nil_r. auto.
  - destruct D as (D1 & D2 & D3 & D4).
    assert (RW : r < w) by (apply B; left; auto).
    destruct (append_row_ok false 1 (ICst r) cols _ st r D1) as (s1 & X1 & T1 & H1 & _ & P1); [auto|rewrite D2; lia|].
    assert (NI : ~ In r (map fst done)).
    { rewrite map_app in ND. simpl in ND. apply NoDup_remove_2 in ND. intros X. apply ND. apply in_app_iff. auto. }
    destruct (IH (done ++ [(r, cols)]) s1) as (s2 & X2 & D).
    + rewrite <- app_assoc. auto.
    + intros r' H. apply B. right. auto.
    + split; [|split; [|split]].
      * rewrite map_app, concat_app. simpl. rewrite app_nil_r. auto.
      * rewrite P1, upd_nth_len. auto.
      * rewrite P1, nth_upd_neq by lia. auto.
      * intros s SW. rewrite P1, row_of_snoc by auto. destruct (r =? s) eqn:E.
        -- apply Nat.eqb_eq in E. subst. rewrite nth_upd_eq by lia. auto.
        -- apply Nat.eqb_neq in E. rewrite nth_upd_neq by lia. auto.
    + exists s2. split; [simpl; eapply block_cons; eauto|]. rewrite <- app_assoc in D. auto.
Qed.

Lemma sorted_nodup : forall l, StronglySorted lt l -> NoDup l.
Proof.
  induction 1; constructor; auto. intros X. rewrite Forall_forall in H0. specialize (H0 a X). lia.
Qed.

Theorem below_dense_ok : forall alloc w rows (st : state V), 1 <= alloc -> StronglySorted lt (map fst rows) ->
  (forall r, In r (map fst rows) -> r < w) ->
  exists st', exec (rows_below_dense alloc w rows) st st' /\
    forall d, exists pos crd, fst (unpack_levels 0 1 [(KDense, w); (KComp, d)] (ibuf st')) = [LDense w; LComp pos crd] /\
      compressed_level w (row_of rows) pos crd.
Proof.
  intros alloc w rows st AL SR B.
  destruct (init_level_ok alloc false true 1 w st AL) as (s1 & X1 & _ & C1 & L1 & Z1 & _ & Q1).
  destruct (dense_rows_ok w rows [] s1) as (s2 & X2 & (D1 & D2 & D3 & D4)).
  { apply sorted_nodup. auto. }
  { auto. }
  { split; [exact C1|]. split; [exact L1|]. split; [exact Z1|]. intros s SW. rewrite Q1; auto. }
  simpl app in *. set (segs := map (row_of rows) (seq 0 w)).
  assert (LS : length segs = w) by (unfold segs; rewrite map_length, seq_length; auto).
  destruct (finalize_ok R fn T junkV junkI 1 (ICst w) s2 (map (@length nat) segs) w) as (s3 & X3 & T3 & L3 & F3); auto.
  { simpl. rewrite map_length, LS. auto. }
  { split; auto. split; [lia|]. split; [rewrite map_length; lia|]. intros s SW. rewrite D4 by auto.
    change 0 with (@length nat []). rewrite map_nth. f_equal. unfold segs.
    rewrite nth_indep with (d' := row_of rows 0) by (rewrite map_length, seq_length; auto).
    rewrite map_nth, seq_nth; auto. }
  exists s3. split.
  { eapply block_cons; [exact X1|]. eapply block_cons; [exact X2|]. apply block1. exact X3. }
  intros d. rewrite map_length, LS in F3. simpl unpack_levels. rewrite Nat.add_0_r. cbn [fst]. do 2 eexists. split; [reflexivity|].
  assert (SZ : nth w (ibuf s3 (RPos 1)) 0 = length (concat segs)).
  { rewrite <- (firstn_skipn (S w) (ibuf s3 (RPos 1))). rewrite app_nth1 by (rewrite firstn_length; lia).
    rewrite F3. rewrite scan_nth by (rewrite map_length; lia). rewrite firstn_all2 by (rewrite map_length; lia).
    rewrite sum_concat. auto. }
  rewrite SZ.
  assert (CC : concat segs = concat (map snd rows)). { unfold segs. apply rows_concat; auto. intros r H. split; [lia|]. apply B; auto. }
  destruct T3 as (_ & Ti & _). rewrite (Ti (RCrd 1)) by (intros Y; inversion Y).
  rewrite CC. destruct D1 as (_ & _ & _ & D1 & _). rewrite D1. rewrite <- CC.
  change (match ibuf s3 (RPos 1) with [] => [] | a :: l => a :: firstn w l end) with (firstn (S w) (ibuf s3 (RPos 1))).
  rewrite F3. apply level_scan; auto. intros r H. unfold segs.
  rewrite nth_indep with (d' := row_of rows 0) by (rewrite map_length, seq_length; auto).
  rewrite map_nth, seq_nth; auto.
Qed.

(** ** Below a compressed level *)
Lemma kept_snoc : forall rows r cols, kept (rows ++ [(r, cols)]) =
  kept rows ++ match cols with [] => [] | _ => [(r, cols)] end.
Proof.
  induction rows as [|[r' c'] rows IH]; intros r cols; simpl; [destruct cols; auto|].
  rewrite IH. destruct c'; auto.
Qed.
Definition Cn (done : list (nat * list nat)) (st : state V) : Prop :=
  let ks := kept done in
  Crd 0 (map fst ks) st /\ Crd 1 (concat (map snd ks)) st /\
  length (ibuf st (RPos 0)) = 2 /\ nth 0 (ibuf st (RPos 0)) 0 = 0 /\ env st (VBeg 0) = Some 0 /\
  env st (v_pcap 1) = Some (length (ibuf st (RPos 1))) /\
  S (length ks) <= length (ibuf st (RPos 1)) /\
  firstn (S (length ks)) (ibuf st (RPos 1)) = scan 0 (map (@length nat) (map snd ks)).
Lemma comp_row_ok : forall done r cols st, Cn done st ->
  exists st', exec (row_below_compressed (r, cols)) st st' /\ Cn (done ++ [(r, cols)]) st'.
Proof.
  intros done r cols st (C0 & C1 & P0 & Z0 & B0 & PC & PL & PS).
  assert (V0 : env st (VRes 0) = Some (length (kept done))).
  { destruct C0 as (_ & _ & _ & _ & E). rewrite map_length in E. auto. }
  destruct (double_i_ok R fn T junkV junkI (RPos 1) (v_pcap 1) (IAdd (IVar (VRes 0)) (ICst 1)) st
    (length (ibuf st (RPos 1))) (S (length (kept done)))) as (s1 & x & X1 & (Tv1 & Ti1 & Tb1) & E1 & PC1 & PL1); auto.
  { simpl. rewrite V0. f_equal. lia. }
  { lia. }
  assert (C1' : Crd 1 (concat (map snd (kept done))) s1).
  { eapply Crd_frame; [exact C1|apply Ti1; intros Y; inversion Y|apply Tv1; vneq|apply Tv1; vneq]. }
  assert (C0' : Crd 0 (map fst (kept done)) s1).
  { eapply Crd_frame; [exact C0|apply Ti1; intros Y; inversion Y|apply Tv1; vneq|apply Tv1; vneq]. }
  destruct (append_row_ok true 1 (IVar (VRes 0)) cols _ s1 (length (kept done)) C1') as (s2 & X2 & (Tv2 & Ti2 & _) & C12 & B2 & P2).
  { intros s' (Tv & _). simpl. rewrite Tv by (unfold row_vars, app_vars; vneq). rewrite Tv1 by vneq. auto. }
  { exact PL1. }
  assert (NV : forall v, (v = v_ccap 0 \/ v = VRes 0 \/ v = VBeg 0 \/ v = v_pcap 1) -> env s2 v = env s1 v).
  { intros v HV. apply Tv2. unfold row_vars, app_vars. intros X. decompose [or] HV; subst; revert X; vneq. }
  assert (C02 : Crd 0 (map fst (kept done)) s2).
  { eapply Crd_frame; [exact C0'|apply Ti2; intros [Y|Y]; inversion Y|apply NV; auto|apply NV; auto]. }
  assert (P02 : ibuf s2 (RPos 0) = ibuf st (RPos 0)).
  { rewrite Ti2 by (intros [Y|Y]; inversion Y). apply Ti1. intros Y; inversion Y. }
  assert (B02 : env s2 (VBeg 0) = Some 0). { rewrite NV by auto. rewrite Tv1 by vneq. auto. }
  assert (L2 : length (ibuf s2 (RPos 1)) = length (ibuf s1 (RPos 1))) by (rewrite P2, upd_nth_len; auto).
  assert (PC2 : env s2 (v_pcap 1) = Some (length (ibuf s2 (RPos 1)))).
  { rewrite NV by auto. rewrite L2. auto. }
  assert (F1 : firstn (S (length (kept done))) (ibuf s1 (RPos 1)) = scan 0 (map (@length nat) (map snd (kept done)))).
  { rewrite E1, firstn_app_le by lia. auto. }
  assert (F2 : firstn (S (length (kept done))) (ibuf s2 (RPos 1)) = firstn (S (length (kept done))) (ibuf s1 (RPos 1))).
  { rewrite P2. apply nth_ext with (d := 0) (d' := 0); [rewrite !firstn_length, upd_nth_len; auto|].
    intros q Q. rewrite firstn_length, upd_nth_len in Q.
    assert (NF : forall (l : list nat) k j, j < k -> nth j (firstn k l) 0 = nth j l 0).
    { clear. induction l; intros k j H; destruct k, j; simpl; auto; try lia. apply IHl. lia. }
    rewrite !NF by lia. apply nth_upd_neq. lia. }
  destruct C12 as (D1 & D2 & D3 & D4 & D5). assert (C12 := conj D1 (conj D2 (conj D3 (conj D4 D5)))).
  assert (VR : env s2 (VRes 1) = Some (length (concat (map snd (kept done))) + length cols)).
  { rewrite D5, app_length. auto. }
  unfold Cn. rewrite kept_snoc. destruct cols as [|c cols].
  - exists s2. split.
    + eapply block_cons; [exact X1|]. eapply block_cons; [exact X2|]. apply block1. apply X_if with (t := false); [|constructor].
      simpl. rewrite B2, VR. simpl length. rewrite Nat.add_0_r, Nat.ltb_irrefl. auto.
    + rewrite app_nil_r. cbv zeta. rewrite P02. rewrite app_nil_r in C12.
      repeat (split; [solve [auto]|]). split; [lia|]. rewrite F2. auto.
  - destruct (append_one_ok 0 r _ s2 C02) as (s3 & X3 & (Tv3 & Ti3 & _) & C03).
    exists s3. split.
    + eapply block_cons; [exact X1|]. eapply block_cons; [exact X2|]. apply block1. apply X_if with (t := true); [|exact X3].
      simpl. rewrite B2, VR. f_equal. apply Nat.ltb_lt. simpl. lia.
    + assert (NA : forall v, (v = v_ccap 1 \/ v = VRes 1 \/ v = VBeg 0 \/ v = v_pcap 1) -> env s3 v = env s2 v).
      { intros v HV. apply Tv3. unfold app_vars. intros X. decompose [or] HV; subst; revert X; vneq. }
      assert (IP : forall l, ibuf s3 (RPos l) = ibuf s2 (RPos l)) by (intros l; apply Ti3; intros Y; inversion Y).
      cbv zeta. rewrite !map_app, concat_app, !IP, P02. cbn [map fst snd concat]. rewrite app_nil_r, app_length. simpl length.
      rewrite (NA (VBeg 0)), (NA (v_pcap 1)) by auto.
      split; [exact C03|]. split.
      { eapply Crd_frame; [exact C12|apply Ti3; intros Y; inversion Y|apply NA; auto|apply NA; auto]. }
      repeat (split; [solve [auto]|]). split; [lia|].
      replace (length (kept done) + 1) with (S (length (kept done))) by lia.
      rewrite P2, firstn_upd by auto. rewrite F1, scan_snoc. simpl plus. f_equal. f_equal.
      rewrite <- sum_concat. auto.
Qed.
Lemma comp_rows_ok : forall todo done st, Cn done st ->
  exists st', exec (Block (map row_below_compressed todo)) st st' /\ Cn (done ++ todo) st'.
Proof.
  induction todo as [|[r cols] todo IH]; intros done st C.
  - exists st. split; [constructor|]. rewrite app_nil_r. auto.
  - destruct (comp_row_ok done r cols st C) as (s1 & X1 & C1). destruct (IH _ s1 C1) as (s2 & X2 & C2).
    exists s2. split; [simpl; eapply block_cons; eauto|]. rewrite <- app_assoc in C2. auto.
Qed.

Theorem below_compressed_ok : forall alloc rows (st : state V), 1 <= alloc ->
  exists st', exec (rows_below_compressed alloc rows) st st' /\
    forall d0 d1, exists pos0 crd0 pos1 crd1,
      fst (unpack_levels 0 1 [(KComp, d0); (KComp, d1)] (ibuf st')) = [LComp pos0 crd0; LComp pos1 crd1] /\
      compressed_level 1 (fun _ => map fst (kept rows)) pos0 crd0 /\
      compressed_level (length (kept rows)) (fun r => nth r (map snd (kept rows)) []) pos1 crd1.
Proof.
  intros alloc rows st AL.
  destruct (init_level_ok alloc false false 0 1 st AL) as (s1 & X1 & _ & C1 & L1 & Z1 & _ & _).
  destruct (init_level_ok alloc true false 1 0 s1 AL) as (s2 & X2 & (Tv2 & Ti2 & _) & C2 & L2 & Z2 & PC2 & _).
  set (s3 := setv s2 (VBeg 0) 0).
  assert (C12 : Crd 0 [] s2).
  { eapply Crd_frame; [exact C1|apply Ti2; unfold init_bufs; intros [Y|Y]; inversion Y| |]; apply Tv2; unfold init_vars; vneq. }
  assert (X3 : exec (Asg (VBeg 0) (IVar (VRes 0))) s2 s3).
  { apply exec_asg_ok. destruct C12 as (_ & _ & _ & _ & E). exact E. }
  destruct (comp_rows_ok rows [] s3) as (s4 & X4 & (D0 & D1 & P0 & Z0 & B0 & PC & PL & PS)).
  { split; [|split].
    - eapply Crd_frame; [exact C12|reflexivity| |]; apply setv_neq; vneq.
    - eapply Crd_frame; [exact C2|reflexivity| |]; apply setv_neq; vneq.
    - change (ibuf s3) with (ibuf s2). rewrite (Ti2 (RPos 0)) by (unfold init_bufs; intros [Y|Y]; inversion Y).
      split; auto. split; auto. split; [apply setv_eq|]. split; [unfold s3; rewrite setv_neq by vneq; rewrite PC2, L2; auto|].
      simpl kept. simpl length. split; [rewrite L2; lia|]. destruct (ibuf s2 (RPos 1)); [simpl in L2; lia|]. simpl in *. congruence. }
  simpl app in *. set (ks := kept rows) in *.
  assert (V0 : env s4 (VRes 0) = Some (length ks)).
  { destruct D0 as (_ & _ & _ & _ & E). rewrite map_length in E. auto. }
  set (s5 := setI s4 (RPos 0) (upd_nth (ibuf s4 (RPos 0)) 1 (length ks))).
  assert (X5 : exec (append_edges true 0 (ICst 0) (IVar (VBeg 0)) (IVar (VRes 0))) s4 s5).
  { unfold append_edges. constructor; auto. rewrite P0. lia. }
  exists s5. split.
  { eapply block_cons; [exact X1|]. eapply block_cons; [exact X2|]. eapply block_cons; [exact X3|].
    eapply block_cons; [exact X4|]. eapply block_cons; [exact X5|]. eapply block_cons; [constructor|]. apply block1. constructor. }
  assert (I0 : ibuf s5 (RPos 0) = scan 0 [length (map fst ks)]).
  { unfold s5. rewrite setI_eq, map_length. destruct (ibuf s4 (RPos 0)) as [|a [|b [|]]]; simpl in P0; try lia.
    simpl in Z0. subst. auto. }
  assert (IO : forall a, a <> RPos 0 -> ibuf s5 a = ibuf s4 a).
  { intros a H. simpl. destruct (iname_eq_dec a (RPos 0)); congruence. }
  intros d0 d1. cbn [unpack_levels]. rewrite I0. cbn [scan nth]. rewrite map_length, !IO by discriminate.
  assert (SZ : nth (length ks) (ibuf s4 (RPos 1)) 0 = length (concat (map snd ks))).
  { rewrite <- (firstn_skipn (S (length ks)) (ibuf s4 (RPos 1))). rewrite app_nth1 by (rewrite firstn_length; lia).
    rewrite PS. rewrite scan_nth by (rewrite !map_length; lia). rewrite firstn_all2 by (rewrite !map_length; lia).
    rewrite sum_concat. auto. }
  cbn [Nat.add]. rewrite SZ. cbn [fst]. do 4 eexists. split; [reflexivity|].
  destruct D0 as (_ & _ & _ & D0 & _). rewrite map_length in D0. rewrite D0.
  destruct D1 as (_ & _ & _ & D1 & _). rewrite D1. rewrite PS. split.
  - replace (map fst ks) with (concat [map fst ks]) by (simpl; rewrite app_nil_r; auto).
    replace (firstn 2 [0; length ks]) with (scan 0 (map (@length nat) [map fst ks])) by (simpl; rewrite map_length; auto).
    apply level_scan; auto. intros [|r] H; [simpl; rewrite app_nil_r; auto|lia].
  - apply level_scan; [rewrite map_length; auto|]. auto.
Qed.
End Rows.

(** ** Well-formedness *)
Lemma seg_find : forall pos k i, nth 0 pos 0 = 0 -> i < nth k pos 0 ->
  exists r, r < k /\ nth r pos 0 <= i /\ i < nth (S r) pos 0.
Proof.
  induction k; intros i Z H; [lia|].
  destruct (Nat.lt_ge_cases i (nth k pos 0)).
  - destruct (IHk i Z) as (r & A & B); auto. exists r. auto.
  - exists k. auto.
Qed.
Lemma sorted_nth : forall l i j, StronglySorted lt l -> i < j -> j < length l -> nth i l 0 < nth j l 0.
Proof.
  induction l; intros i j HS H L; [simpl in L; lia|]. inversion HS; subst. rewrite Forall_forall in H3.
  destruct j; [lia|]. simpl in L. destruct i; simpl.
  - apply H3. apply nth_In. lia.
  - apply IHl; auto; lia.
Qed.
Lemma level_wf : forall n seg pos crd d ls ds nv, compressed_level n seg pos crd ->
  (forall r, r < n -> StronglySorted lt (seg r) /\ Forall (fun c => c < d) (seg r)) ->
  wf_levels (length crd) ls ds nv -> wf_levels n (LComp pos crd :: ls) (d :: ds) nv.
Proof.
  intros n seg pos crd d ls ds nv (L & Z & E & C) H W.
  assert (MO : forall a b, a <= b -> b <= n -> nth a pos 0 <= nth b pos 0).
  { intros a b AB. induction AB; intros B; auto. destruct (C m) as [M _]; [lia|]. specialize (IHAB). lia. }
  assert (SG : forall p i, p < n -> nth p pos 0 <= i -> i < nth (S p) pos 0 ->
    i - nth p pos 0 < length (seg p) /\ nth i crd 0 = nth (i - nth p pos 0) (seg p) 0).
  { intros p i P I1 I2. destruct (C p P) as [M <-]. assert (X := MO (S p) n). assert (nth (S p) pos 0 <= length crd) by lia.
    rewrite firstn_length, skipn_length. split; [lia|].
    assert (NF : forall (l : list nat) k j, j < k -> nth j (firstn k l) 0 = nth j l 0).
    { clear. induction l; intros k j H; destruct k, j; simpl; auto; try lia. apply IHl. lia. }
    assert (NS : forall (l : list nat) k j, nth j (skipn k l) 0 = nth (k + j) l 0).
    { clear. induction l; intros k j; destruct k; simpl; auto. destruct j; auto. }
    rewrite NF by lia. rewrite NS. f_equal. lia. }
  cbn [wf_levels]. split; auto. split; auto. split; auto. split; [intros p P; apply C; auto|]. split; [|split]; auto.
  - intros p i j P I1 IJ J. destruct (SG p i P) as [A1 A2]; try lia. destruct (SG p j P) as [B1 B2]; try lia.
    rewrite A2, B2. apply sorted_nth; [apply H; auto|lia|lia].
  - intros i I. rewrite <- E in I. destruct (seg_find pos n i Z I) as (r & Rn & I1 & I2).
    destruct (SG r i Rn I1 I2) as [A1 A2]. rewrite A2. destruct (H r Rn) as [_ F]. rewrite Forall_forall in F.
    apply F. apply nth_In. auto.
Qed.
