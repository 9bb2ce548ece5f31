(** Proofs about InsertRows.v. *)
From Coq Require Import List Arith Lia Bool Permutation.
Import ListNotations.
From Verif Require Import Outcome Storage StorageProofs IndexExpr Eval Lattice LoopIR Lower Walk LowerBase LoopRule
  TreeLevels SparseKernel AppendProofs AppendSpec InsertRows.
Local Open Scope nat_scope.

Lemma nth_firstn : forall (l : list nat) k j, j < k -> nth j (firstn k l) 0 = nth j l 0.
Proof. induction l; intros k j H; destruct k, j; simpl; auto; try lia. apply IHl. lia. Qed.

Section Insert.
Context {V : Type}.
Variable R : ring_ops V.
Variable fn : nat -> V -> V.
Variable T : nat -> storage V.
Variable junkV : nat -> V.
Variable junkI : nat -> nat.
Notation exec := (exec R fn T junkV junkI).
Notation ieval := (ieval T).
Variable nv : nat.
Variable ds : list nat.
Notation K := (length ds).
Notation N := (prodr ds).

Lemma size_gen : forall l s, pure s = true -> (forall v, ~ occurs v s) ->
  let x := fold_left (fun s d => IMul s (ICst d)) l s in
  pure x = true /\ (forall v, ~ occurs v x) /\
  forall (st : state V) k, ieval st s = Some k -> ieval st x = Some (k * prodr l).
Proof.
  induction l as [|d l IH]; intros s P O; simpl.
  - split; auto. split; auto. intros st k E. rewrite E. f_equal. lia.
  - destruct (IH (IMul s (ICst d))) as (A & B & C); simpl; auto.
    + rewrite P. auto.
    + intros v [H|[]]. eapply O; eauto.
    + split; auto. split; auto. intros st k E. rewrite (C st (k * d)); [f_equal; lia|]. simpl. rewrite E. auto.
Qed.
Lemma size_pure : pure (prev_size ds) = true.
Proof. apply (size_gen ds (ICst 1)); simpl; auto. Qed.
Lemma size_occ : forall v, ~ occurs v (prev_size ds).
Proof. apply (size_gen ds (ICst 1)); simpl; auto. Qed.
Lemma size_val : forall (st : state V), ieval st (prev_size ds) = Some N.
Proof.
  intros st. destruct (size_gen ds (ICst 1)) as (_ & _ & C); simpl; auto.
  unfold prev_size. rewrite (C st 1); auto. f_equal. lia.
Qed.

(** ** Counting *)
Lemma count_ok : forall ps (st : state V), (forall p, In p ps -> p < N) ->
  exists st', exec (count_all ds ps) st st' /\ length (ibuf st' nnz) = N /\
    forall q, q < N -> nth q (ibuf st' nnz) 0 = count_occ Nat.eq_dec ps q.
Proof.
  intros ps st B. set (s1 := setI st nnz (resize junkI (ibuf st nnz) N)).
  assert (X1 : exec (RszI nnz (prev_size ds)) st s1) by (apply X_rszi; apply size_val).
  assert (L1 : length (ibuf s1 nnz) = N) by (unfold s1; rewrite setI_eq, resize_len; auto).
  destruct (zero_range_ok R fn T junkV junkI nnz (ICst 0) (prev_size ds) s1 0 N) as (s2 & X2 & _ & L2 & Z2);
    [reflexivity|apply size_pure|apply size_occ|apply size_val|lia|lia|].
  assert (P : forall ps s, (forall p, In p ps -> p < N) -> length (ibuf s nnz) = N ->
    exists s', exec (Block (map count_one ps)) s s' /\ length (ibuf s' nnz) = N /\
      forall q, q < N -> nth q (ibuf s' nnz) 0 = nth q (ibuf s nnz) 0 + count_occ Nat.eq_dec ps q).
  { clear. induction ps as [|p ps IH]; intros s B L.
    - exists s. split; [constructor|]. split; [auto|]. intros. simpl. lia.
    - assert (PN : p < N) by (apply B; left; auto).
      set (s1 := setI s nnz (upd_nth (ibuf s nnz) p (nth p (ibuf s nnz) 0 + 1))).
      destruct (IH s1) as (s2 & X2 & L2 & Q2).
      + intros q H. apply B. right. auto.
      + unfold s1. rewrite setI_eq, upd_nth_len. auto.
      + exists s2. split.
        * simpl. eapply block_cons; [|exact X2]. constructor; auto; [|lia].
          change (match nth_error (ibuf s nnz) p with Some a => Some (a + 1) | None => None end =
            Some (nth p (ibuf s nnz) 0 + 1)).
          rewrite nth_error_nth' with (d := 0) by lia. auto.
        * split; auto. intros q Q. rewrite Q2 by auto. unfold s1. rewrite setI_eq.
          cbn [count_occ]. destruct (Nat.eq_dec p q) as [->|NE].
          -- rewrite nth_upd_eq by lia. lia.
          -- rewrite nth_upd_neq by auto. lia. }
  destruct (P ps s2) as (s3 & X3 & L3 & Q3); auto; [congruence|].
  exists s3. split; [|split; auto].
  - eapply block_cons; [exact X1|]. eapply block_cons; [exact X2|]. apply block1. exact X3.
  - intros q Q. rewrite Q3 by auto. rewrite Z2. assert (Y : (q <? N) = true) by (apply Nat.ltb_lt; auto). rewrite Y. auto.
Qed.

(** ** Edges *)
Variable LN : list nat.
Hypothesis LNN : length LN = N.
Definition Ed (q : nat) (st : state V) : Prop :=
  ibuf st nnz = LN /\ length (ibuf st (RPos K)) = S N /\ q <= N /\
  firstn (S q) (ibuf st (RPos K)) = scan 0 (firstn q LN).
Definition loop_vars (k : nat) (v : var) : Prop := exists j, k <= j /\ (v = VIdx j \/ v = VRes j).
Definition outside (k : nat) (p : iexp) : Prop :=
  forall st st' : state V, (forall v, ~ loop_vars k v -> env st' v = env st v) -> ieval st' p = ieval st p.
Lemma edge_one : forall p q st, ieval st p = Some q -> q < N -> Ed q st ->
  exists st', exec (seq_insert_edge ds p) st st' /\ Ed (S q) st' /\ (forall v, env st' v = env st v).
Proof.
  intros p q st E Q (E1 & E2 & E3 & E4).
  exists (setI st (RPos K) (upd_nth (ibuf st (RPos K)) (S q) (nth q (ibuf st (RPos K)) 0 + nth q LN 0))).
  split; [|split; auto].
  - unfold seq_insert_edge. constructor.
    + simpl. rewrite E. f_equal. lia.
    + cbn [LoopIR.ieval]. rewrite E. rewrite nth_error_nth' with (d := 0) by lia. rewrite E1.
      rewrite nth_error_nth' with (d := 0) by lia. auto.
    + lia.
  - split; [|split; [|split]].
    + simpl. destruct (iname_eq_dec nnz (RPos K)); [discriminate|auto].
    + rewrite setI_eq, upd_nth_len. auto.
    + lia.
    + rewrite setI_eq, firstn_upd by lia. rewrite E4.
      rewrite <- (nth_firstn (ibuf st (RPos K)) (S q) q) by lia. rewrite E4, scan_nth by (rewrite firstn_length; lia).
      rewrite firstn_firstn, Nat.min_id, Nat.add_0_l.
      assert (X : firstn (S q) LN = firstn q LN ++ [nth q LN 0]).
      { clear - Q LNN. assert (H : q < length LN) by lia. clear Q LNN. revert q H. induction LN; intros q H; [simpl in H; lia|].
        destruct q; auto. change (a :: firstn (S q) l = a :: (firstn q l ++ [nth q l 0])). rewrite IHl; auto. simpl in H. lia. }
      rewrite X, scan_snoc. auto.
Qed.

Lemma edges_ok : forall widths k p st q, ieval st p = Some q -> outside k p -> S q * prodr widths <= N ->
  Ed (q * prodr widths) st ->
  exists st', exec (edge_loops ds k widths p) st st' /\ Ed (S q * prodr widths) st' /\
    (forall v, ~ loop_vars k v -> env st' v = env st v).
Proof.
  induction widths as [|d widths IH]; intros k p st q E O B H.
  - simpl prodr in *. rewrite Nat.mul_1_r in *. destruct (edge_one p q st E) as (s & X & H' & F); [lia|auto|].
    exists s. split; auto.
  - cbn [prodr edge_loops] in *.
    destruct (for_range R fn T junkV junkI (VIdx k) (ICst 0) (ICst d)
      (Block [Asg (VRes k) (IAdd (IMul p (ICst d)) (IVar (VIdx k))); edge_loops ds (S k) widths (IVar (VRes k))])
      (fun c s => env s (VIdx k) = Some c /\ Ed ((q * d + c) * prodr widths) s /\
         forall v, ~ loop_vars k v -> env s v = env st v) 0 d st) as (s & X & _ & HE & F); auto.
    + lia.
    + intros c s (A & _) _. auto.
    + intros c s (A & D & F) C.
      assert (Ep : ieval s p = Some q) by (rewrite <- E; apply O; auto).
      set (s1 := setv s (VRes k) (q * d + c)).
      assert (BB : S (q * d + c) * prodr widths <= N).
      { etransitivity; [|exact B]. rewrite Nat.mul_assoc. apply Nat.mul_le_mono_r. simpl. lia. }
      destruct (IH (S k) (IVar (VRes k)) s1 (q * d + c)) as (s2 & X2 & D2 & F2); auto.
      * apply setv_eq.
      * intros a b H2. simpl. apply H2. intros (j & J & [Y|Y]); inversion Y; lia.
      * exists s2. split; [|split].
        -- eapply block_cons; [|apply block1; exact X2]. apply exec_asg_ok. simpl. rewrite Ep, A. auto.
        -- simpl. rewrite F2; [unfold s1; rewrite setv_neq by discriminate; auto|].
           intros (j & J & [Y|Y]); inversion Y; lia.
        -- split; [apply setv_eq|]. split.
           ++ replace (q * d + S c) with (S (q * d + c)) by lia. exact D2.
           ++ intros v NV. rewrite setv_neq; [|intros ->; apply NV; exists k; auto].
              rewrite F2; [|intros (j & J & Y); apply NV; exists j; split; [lia|auto]].
              unfold s1. rewrite setv_neq; [auto|intros ->; apply NV; exists k; auto].
    + split; [apply setv_eq|]. split.
      * rewrite Nat.add_0_r. rewrite Nat.mul_assoc in H. exact H.
      * intros v NV. rewrite setv_neq; [auto|intros ->; apply NV; exists k; auto].
    + exists s. split; auto. split; auto. rewrite Nat.mul_assoc. replace (S q * d) with (q * d + d) by (simpl; lia). auto.
Qed.

(** ** Insertion *)
Definition base (r : nat) : nat := sum (firstn r LN).
Definition cnt (ins : list (nat * (nat * V))) (r : nat) : nat := length (below_parent ins r).
Lemma base_S : forall r, base (S r) = base r + nth r LN 0.
Proof. intros. apply sum_firstn_S. Qed.
Lemma base_mono : forall a b, a <= b -> base a <= base b.
Proof. intros a b H. induction H; auto. rewrite base_S. lia. Qed.
Lemma below_snoc : forall A (ins : list (nat * A)) p x r,
  below_parent (ins ++ [(p, x)]) r = below_parent ins r ++ (if p =? r then [x] else []).
Proof.
  intros. unfold below_parent. rewrite filter_app, map_app. simpl. destruct (p =? r); auto.
Qed.

Definition Ins (done : list (nat * (nat * V))) (st : state V) : Prop :=
  length (ibuf st (RPos K)) = S N /\ length (ibuf st (RCrd K)) = base N /\ length (vbuf st nv) = base N /\
  (forall r, r < N -> nth r (ibuf st (RPos K)) 0 = base r + cnt done r) /\
  (forall r k, r < N -> k < cnt done r ->
     nth (base r + k) (ibuf st (RCrd K)) 0 = nth k (map fst (below_parent done r)) 0 /\
     nth (base r + k) (vbuf st nv) (r0 R) = nth k (map snd (below_parent done r)) (r0 R)).
Lemma insert_one_ok : forall done p c v st, p < N -> (forall r, r < N -> cnt done r <= nth r LN 0) -> cnt done p < nth p LN 0 -> Ins done st ->
  exists st', exec (insert_one nv ds (p, (c, v))) st st' /\ Ins (done ++ [(p, (c, v))]) st'.
Proof.
  intros done p c v st P LE LT (I1 & I2 & I3 & I4 & I5).
  set (x := base p + cnt done p).
  assert (XB : x < base (S p)) by (rewrite base_S; unfold x; lia).
  assert (XN : x < base N) by (eapply Nat.lt_le_trans; [exact XB|apply base_mono; lia]).
  set (s1 := setv st (VRes K) x).
  set (s2 := setI s1 (RPos K) (upd_nth (ibuf st (RPos K)) p (x + 1))).
  set (s3 := setI s2 (RCrd K) (upd_nth (ibuf st (RCrd K)) x c)).
  set (s4 := setV s3 nv (upd_nth (vbuf st nv) x v)).
  assert (NE : nth_error (ibuf st (RPos K)) p = Some x).
  { rewrite nth_error_nth' with (d := 0) by lia. rewrite I4; auto. }
  assert (BC : ibuf s2 (RCrd K) = ibuf st (RCrd K)).
  { simpl. destruct (iname_eq_dec (RCrd K) (RPos K)); [discriminate|auto]. }
  assert (B4P : ibuf s4 (RPos K) = upd_nth (ibuf st (RPos K)) p (x + 1)).
  { transitivity (ibuf s2 (RPos K)); [|apply setI_eq]. change (ibuf s4) with (ibuf s3). unfold s3, setI at 1. cbn [ibuf].
    destruct (iname_eq_dec (RPos K) (RCrd K)); [discriminate|reflexivity]. }
  assert (B4C : ibuf s4 (RCrd K) = upd_nth (ibuf st (RCrd K)) x c).
  { change (ibuf s4) with (ibuf s3). apply setI_eq. }
  assert (B4V : vbuf s4 nv = upd_nth (vbuf st nv) x v) by apply setV_eq.
  assert (DJ : forall r k, r < N -> k < cnt done r -> base r + k <> x).
  { intros r k RN KC EQ. unfold x in EQ. destruct (Nat.lt_trichotomy r p) as [L|[->|L]].
    - assert (base (S r) <= base p) by (apply base_mono; lia). rewrite base_S in H. specialize (LE r RN). lia.
    - lia.
    - assert (base (S p) <= base r) by (apply base_mono; lia). rewrite base_S in H. lia. }
  exists s4. split.
  - eapply block_cons; [apply exec_asg_ok; simpl; exact NE|].
    eapply block_cons; [apply (X_sti R fn T junkV junkI (RPos K) _ _ s1 p (x + 1)); [auto| |simpl; lia]|].
    { cbn [LoopIR.ieval fst]. change (ibuf s1) with (ibuf st). rewrite NE. auto. }
    eapply block_cons; [apply (X_sti R fn T junkV junkI (RCrd K) _ _ s2 x c)|].
    { change (env s1 (VRes K) = Some x). apply setv_eq. } { auto. } { rewrite BC. lia. }
    rewrite BC. fold s3. apply block1. apply (X_stv R fn T junkV junkI nv _ _ s3 x v).
    { change (env s1 (VRes K) = Some x). apply setv_eq. } { auto. } { change (vbuf s3 nv) with (vbuf st nv). lia. }
  - assert (CS : forall r, cnt (done ++ [(p, (c, v))]) r = cnt done r + (if p =? r then 1 else 0)).
    { intros r. unfold cnt. rewrite below_snoc, app_length. destruct (p =? r); auto. }
    unfold Ins. rewrite B4P, B4C, B4V, !upd_nth_len. repeat (split; [solve [auto]|]). split.
    + intros r RN. rewrite CS. destruct (p =? r) eqn:E.
      * apply Nat.eqb_eq in E. subst r. rewrite nth_upd_eq by lia. unfold x. lia.
      * apply Nat.eqb_neq in E. rewrite nth_upd_neq by auto. rewrite I4 by auto. lia.
    + intros r k RN KC. rewrite CS in KC. rewrite below_snoc, !map_app.
      destruct (Nat.lt_ge_cases k (cnt done r)) as [L|G].
      * assert (J := DJ r k RN L). rewrite !nth_upd_neq by auto.
        rewrite !app_nth1 by (rewrite map_length; exact L). apply I5; auto.
      * destruct (p =? r) eqn:E; [|lia]. apply Nat.eqb_eq in E. subst r. assert (k = cnt done p) by lia. subst k. fold x.
        rewrite !nth_upd_eq by lia.
        rewrite !app_nth2 by (rewrite map_length; unfold cnt; lia). rewrite !map_length. unfold cnt. rewrite Nat.sub_diag. auto.
Qed.
Lemma cnt_app : forall a b r, cnt (a ++ b) r = cnt a r + cnt b r.
Proof. intros. unfold cnt, below_parent. rewrite filter_app, map_app, app_length. auto. Qed.
Lemma insert_all_ok : forall todo done st, (forall x, In x todo -> fst x < N) ->
  (forall r, r < N -> cnt (done ++ todo) r = nth r LN 0) -> Ins done st ->
  exists st', exec (Block (map (insert_one nv ds) todo)) st st' /\ Ins (done ++ todo) st'.
Proof.
  induction todo as [|[p [c v]] todo IH]; intros done st B C I.
  - exists st. split; [constructor|]. rewrite app_nil_r. auto.
  - assert (P : p < N) by (apply (B (p, (c, v))); left; auto).
    destruct (insert_one_ok done p c v st) as (s1 & X1 & I1); auto.
    + intros r RN. rewrite <- C by auto. rewrite cnt_app. lia.
    + rewrite <- C by auto. rewrite cnt_app. unfold cnt at 3. unfold below_parent. simpl. rewrite Nat.eqb_refl. simpl. lia.
    + destruct (IH (done ++ [(p, (c, v))]) s1) as (s2 & X2 & I2); auto.
      * intros x H. apply B. right. auto.
      * intros r RN. rewrite <- app_assoc. apply C. auto.
      * exists s2. split; [simpl; eapply block_cons; eauto|]. rewrite <- app_assoc in I2. auto.
Qed.

(** ** Finalisation *)
Lemma finalize_yield_ok : forall st, length (ibuf st (RPos K)) = S N ->
  exists st', exec (finalize_yield ds) st st' /\
    length (ibuf st' (RPos K)) = S N /\ nth 0 (ibuf st' (RPos K)) 0 = 0 /\
    (forall r, r < N -> nth (S r) (ibuf st' (RPos K)) 0 = nth r (ibuf st (RPos K)) 0) /\
    ibuf st' (RCrd K) = ibuf st (RCrd K) /\ (forall b, vbuf st' b = vbuf st b).
Proof.
  intros st L.
  destruct (for_range R fn T junkV junkI v_p (ICst 0) (prev_size ds)
    (StI (RPos K) (ISub (prev_size ds) (IVar v_p)) (IBuf (RPos K) (ISub (ISub (prev_size ds) (IVar v_p)) (ICst 1))))
    (fun p s => env s v_p = Some p /\ length (ibuf s (RPos K)) = S N /\
       ibuf s (RCrd K) = ibuf st (RCrd K) /\ (forall b, vbuf s b = vbuf st b) /\
       forall q, q <= N -> nth q (ibuf s (RPos K)) 0 = if N - p <? q then nth (q - 1) (ibuf st (RPos K)) 0 else nth q (ibuf st (RPos K)) 0)
    0 N st) as (s & X & _ & L1 & BC & BV & Q); auto.
  - lia.
  - intros p s (E & _) _. split; auto. apply size_val.
  - intros p s (E & Ls & BC & BV & Q) P.
    exists (setI s (RPos K) (upd_nth (ibuf s (RPos K)) (N - p) (nth (N - p - 1) (ibuf st (RPos K)) 0))).
    assert (LE : (p <=? N) = true) by (apply Nat.leb_le; lia).
    assert (LE1 : (1 <=? N - p) = true) by (apply Nat.leb_le; lia).
    split; [|split].
    + constructor.
      * cbn [LoopIR.ieval]. rewrite size_val, E, LE. auto.
      * cbn [LoopIR.ieval]. rewrite size_val, E, LE, LE1. rewrite nth_error_nth' with (d := 0) by lia.
        rewrite Q by lia. assert (Y : (N - p <? N - p - 1) = false) by (apply Nat.ltb_ge; lia). rewrite Y. auto.
      * lia.
    + simpl. auto.
    + split; [apply setv_eq|]. split; [|split; [|split]].
      * change (length (ibuf (setI s (RPos K) (upd_nth (ibuf s (RPos K)) (N - p) (nth (N - p - 1) (ibuf st (RPos K)) 0))) (RPos K)) = S N).
        rewrite setI_eq, upd_nth_len. auto.
      * simpl. destruct (iname_eq_dec (RCrd K) (RPos K)); [discriminate|auto].
      * auto.
      * intros q QN. change (nth q (ibuf (setI s (RPos K) (upd_nth (ibuf s (RPos K)) (N - p) (nth (N - p - 1) (ibuf st (RPos K)) 0))) (RPos K)) 0 =
          if N - S p <? q then nth (q - 1) (ibuf st (RPos K)) 0 else nth q (ibuf st (RPos K)) 0).
        rewrite setI_eq. destruct (Nat.eq_dec q (N - p)) as [->|NE].
        -- rewrite nth_upd_eq by lia. assert (Y : (N - S p <? N - p) = true) by (apply Nat.ltb_lt; lia). rewrite Y. auto.
        -- rewrite nth_upd_neq by auto. rewrite Q by auto.
           destruct (N - p <? q) eqn:A1, (N - S p <? q) eqn:A2; auto.
           ++ apply Nat.ltb_lt in A1. apply Nat.ltb_ge in A2. lia.
           ++ apply Nat.ltb_ge in A1. apply Nat.ltb_lt in A2. lia.
  - split; [apply setv_eq|]. repeat (split; [solve [auto]|]). intros q QN.
    assert (Y : (N - 0 <? q) = false) by (apply Nat.ltb_ge; lia). rewrite Y. auto.
  - exists (setI s (RPos K) (upd_nth (ibuf s (RPos K)) 0 0)). split; [|split; [|split; [|split; [|split]]]].
    + eapply block_cons; [exact X|]. apply block1. constructor; auto. lia.
    + rewrite setI_eq, upd_nth_len. auto.
    + rewrite setI_eq, nth_upd_eq; auto. lia.
    + intros r RN. rewrite setI_eq, nth_upd_neq by lia. rewrite Q by lia.
      assert (Y : (N - N <? S r) = true) by (apply Nat.ltb_lt; lia). rewrite Y. f_equal. lia.
    + simpl. destruct (iname_eq_dec (RCrd K) (RPos K)); [discriminate|auto].
    + auto.
Qed.
End Insert.

Section Top.
Context {V : Type}.
Variable R : ring_ops V.
Variable fn : nat -> V -> V.
Variable T : nat -> storage V.
Variable junkV : nat -> V.
Variable junkI : nat -> nat.
Notation exec := (exec R fn T junkV junkI).

Lemma cnt_count : forall (ins : list (nat * (nat * V))) r, cnt ins r = count_occ Nat.eq_dec (map fst ins) r.
Proof.
  intros ins r. unfold cnt, below_parent. rewrite map_length. induction ins as [|[p x] ins IH]; simpl; auto.
  destruct (Nat.eq_dec p r) as [->|NE]; [rewrite Nat.eqb_refl; simpl; auto|].
  apply Nat.eqb_neq in NE. rewrite NE. auto.
Qed.

Theorem insert_ok : forall nv ds counted ins (st : state V),
  (forall x, In x ins -> fst x < prodr ds) -> Permutation counted (map fst ins) ->
  exists st', exec (insert_kernel nv ds counted ins) st st' /\
    let pos := ibuf st' (RPos (length ds)) in
    compressed_level (prodr ds) (fun r => map fst (below_parent ins r)) pos (ibuf st' (RCrd (length ds))) /\
    length (vbuf st' nv) = length (ibuf st' (RCrd (length ds))) /\
    forall r, r < prodr ds ->
      firstn (nth (S r) pos 0 - nth r pos 0) (skipn (nth r pos 0) (vbuf st' nv)) = map snd (below_parent ins r).
Proof.
  intros nv ds counted ins st B PM. set (N := prodr ds). set (K := length ds).
  destruct (count_ok R fn T junkV junkI ds counted st) as (s1 & X1 & L1 & Q1).
  { intros p H. eapply Permutation_in in H; [|exact PM]. apply in_map_iff in H. destruct H as (x & <- & H). auto. }
  set (LN := ibuf s1 nnz) in *.
  assert (LNC : forall r, r < N -> nth r LN 0 = cnt ins r).
  { intros r RN. rewrite Q1 by auto. rewrite cnt_count. apply (proj1 (Permutation_count_occ Nat.eq_dec _ _)). auto. }
  set (s2 := setI s1 (RPos K) (resize junkI (ibuf s1 (RPos K)) (S N))).
  set (s3 := setI s2 (RPos K) (upd_nth (ibuf s2 (RPos K)) 0 0)).
  assert (L2 : length (ibuf s2 (RPos K)) = S N) by (unfold s2; rewrite setI_eq, resize_len; auto).
  assert (X3 : exec (seq_init_edges ds) s1 s3).
  { eapply block_cons; [apply (X_rszi R fn T junkV junkI (RPos K) _ s1 (S N))|].
    - simpl. rewrite size_val. f_equal. unfold N. lia.
    - apply block1. apply (X_sti R fn T junkV junkI (RPos K) _ _ s2 0 0); auto. lia. }
  assert (E3 : Ed ds LN (0 * N) s3).
  { split; [|split; [|split]].
    - unfold s3, s2. simpl. destruct (iname_eq_dec nnz (RPos K)); [discriminate|auto].
    - unfold s3. fold K. rewrite setI_eq, upd_nth_len. auto.
    - simpl. lia.
    - unfold s3. fold K. rewrite setI_eq. simpl Nat.mul. rewrite firstn_upd by lia. auto. }
  destruct (edges_ok R fn T junkV junkI ds LN L1 ds 0 (ICst 0) s3 0) as (s4 & X4 & E4 & _); auto.
  { intros a b _. auto. }
  { lia. }
  rewrite Nat.mul_1_l in E4. destruct E4 as (P1 & P2 & _ & P4). fold K in P2, P4.
  assert (BN : forall r, r <= N -> nth r (ibuf s4 (RPos K)) 0 = base LN r).
  { intros r RN. rewrite <- (nth_firstn _ (S N)) by lia. fold N in P4. rewrite P4, scan_nth by (rewrite firstn_length; lia).
    rewrite firstn_firstn, Nat.min_l by lia. auto. }
  assert (EN : forall s : state V, ibuf s (RPos K) = ibuf s4 (RPos K) -> ieval T s (IBuf (RPos K) (prev_size ds)) = Some (base LN N)).
  { intros s HS. cbn [LoopIR.ieval]. rewrite size_val, HS. rewrite nth_error_nth' with (d := 0) by (rewrite P2; unfold N; lia).
    f_equal. apply BN. auto. }
  set (s5 := setI s4 (RCrd K) (resize junkI (ibuf s4 (RCrd K)) (base LN N))).
  assert (X5 : exec (init_coords ds) s4 s5) by (apply X_rszi; apply EN; auto).
  assert (B5 : ibuf s5 (RPos K) = ibuf s4 (RPos K)).
  { simpl. destruct (iname_eq_dec (RPos K) (RCrd K)); [discriminate|auto]. }
  set (s6 := setV s5 nv (resize junkV (vbuf s5 nv) (base LN N))).
  assert (X6 : exec (init_vals nv ds) s5 s6) by (apply X_rszv; apply EN; auto).
  assert (I6 : Ins R nv ds LN [] s6).
  { split; [|split; [|split; [|split]]].
    - change (ibuf s6) with (ibuf s5). fold K. rewrite B5. auto.
    - change (ibuf s6) with (ibuf s5). fold K. unfold s5. rewrite setI_eq, resize_len. auto.
    - unfold s6. rewrite setV_eq, resize_len. auto.
    - intros r RN. change (ibuf s6) with (ibuf s5). fold K. rewrite B5, BN by (unfold N; lia). unfold cnt. simpl. lia.
    - intros r k _ H. unfold cnt in H. simpl in H. lia. }
  destruct (insert_all_ok R fn T junkV junkI nv ds LN L1 ins [] s6) as (s7 & X7 & I7); auto.
  { intros r RN. simpl. symmetry. apply LNC. auto. }
  simpl app in I7. destruct I7 as (I1 & I2 & I3 & I4 & I5). fold K in I1, I2, I4, I5.
  destruct (finalize_yield_ok R fn T junkV junkI ds LN L1 s7 I1) as (s8 & X8 & F1 & F2 & F3 & F4 & F5). fold K in F1, F2, F3, F4.
  exists s8. split.
  { eapply block_cons; [exact X1|]. eapply block_cons; [exact X3|]. eapply block_cons; [exact X4|].
    eapply block_cons; [exact X5|]. eapply block_cons; [exact X6|]. eapply block_cons; [exact X7|]. apply block1. exact X8. }
  cbv zeta. fold K.
  assert (BP : forall r, r <= N -> nth r (ibuf s8 (RPos K)) 0 = base LN r).
  { intros [|r] RN; auto. rewrite F3 by (unfold N in *; lia). rewrite I4 by (unfold N in *; lia). rewrite base_S, LNC by lia. auto. }
  assert (NS : forall A (d : A) (l : list A) k j, nth j (skipn k l) d = nth (k + j) l d).
  { clear. intros A d. induction l; intros k j; destruct k; simpl; auto. destruct j; auto. }
  assert (NF : forall A (d : A) (l : list A) k j, j < k -> nth j (firstn k l) d = nth j l d).
  { clear. intros A d. induction l; intros k j H; destruct k, j; simpl; auto; try lia. apply IHl. lia. }
  assert (SEG : forall r, r < N -> nth (S r) (ibuf s8 (RPos K)) 0 - nth r (ibuf s8 (RPos K)) 0 = cnt ins r /\
    nth r (ibuf s8 (RPos K)) 0 = base LN r /\ base LN r + cnt ins r <= base LN N).
  { intros r RN. rewrite !BP by lia. rewrite base_S, LNC by auto. split; [lia|]. split; auto.
    rewrite <- LNC, <- base_S by auto. apply (base_mono ds LN L1). lia. }
  split; [|split].
  - split; [exact F1|]. split; [exact F2|]. split; [fold N; rewrite BP by auto; rewrite F4, I2; auto|].
    fold N. intros r RN. destruct (SEG r RN) as (S1 & S2 & S3). split.
    + rewrite !BP by lia. apply (base_mono ds LN L1). lia.
    + rewrite S1, S2, F4. apply nth_ext with (d := 0) (d' := 0).
      * rewrite firstn_length, skipn_length, I2, map_length. fold N. unfold cnt in *. lia.
      * intros k HK. rewrite firstn_length in HK. rewrite NF, NS by lia. apply I5; [auto|lia].
  - rewrite F5, F4, I2, I3. auto.
  - fold N. intros r RN. destruct (SEG r RN) as (S1 & S2 & S3).
    rewrite S1, S2, F5. apply nth_ext with (d := r0 R) (d' := r0 R).
    + rewrite firstn_length, skipn_length, I3, map_length. fold N. unfold cnt in *. lia.
    + intros k HK. rewrite firstn_length in HK. rewrite NF, NS by lia. apply I5; [auto|lia].
Qed.
End Top.
