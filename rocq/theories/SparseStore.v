(** The storage that the kernels with an appended result leave. *)
From Coq Require Import List Arith Lia Bool.
Import ListNotations.
From Verif Require Import Outcome Storage StorageProofs IndexExpr Eval Lattice LatticeSpec LatticeLoop LoopIR Lower Walk
  LowerBase LoopRule Nest Visits DenseKernel DenseKernelProofs TreeLevels SparseTree SparseKernel AppendProofs SparseProofs
  SparseNest SparseRun SparseTail SparseSlots SparseFused SparseCompute.
Local Open Scope nat_scope.
Local Arguments inb : simpl never.

Section Store.
Context {V : Type}.
Variable R : ring_ops V.
Variable fn : nat -> V -> V.
Variable T : nat -> storage V.
Variable junkV : nat -> V.
Variable junkI : nat -> nat.
Variable dimf : ivar -> nat.
Variable srt : list point -> list point.
Hypothesis SRT : admissible_sort srt.
Notation exec := (exec R fn T junkV junkI).
Notation ieval := (ieval T).
Notation payload := ((ivar -> nat) * expr V)%type.
Notation ghost := (@ghost V).
Variable n tres : nat.
Variable vs : list (ivar * kind).
Variable alloc allocv : nat.
Variable reduce zinit : bool.
Variable m : nat.
Notation N := (length vs).
Notation cmp := (comp_at_level vs).
Notation W := (W dimf vs).
Notation sv := (sv dimf vs).
Notation D := (sv m).
Notation kvs := (kvs dimf vs m).
Notation outer o := (rev (map fst (firstn o vs))).
Hypothesis ML : m <= N.
Hypothesis M0 : 0 < m.
Hypothesis LAST : cmp (m - 1) = true.
Hypothesis TAIL : forall l, m <= l -> cmp l = false.
Hypothesis NDV : NoDup (map fst vs).
Hypothesis DW : forall l, l < N -> cmp l = false -> nth_error (st_levels (T tres)) l = Some (LDense (W l)).
Hypothesis AL : 1 <= alloc.
Hypothesis ALV : 1 <= allocv.
Notation prefix := (map fst (firstn m vs)).
Variable rho0 : ivar -> nat.
Variable e : expr V.
Hypothesis LIN : NoDup (accesses e).
Hypothesis PACC : forall a, In a (accesses e) -> wf_access T dimf (a_tensor a) (a_vars a) /\
     forall pre post, prefix = pre ++ post -> legal (rev pre) (a_vars a).
Notation tr := (tr T dimf vs m rho0 e).
Notation vis := (vis T dimf vs m rho0 e).
Notation gT := (gT T dimf vs m rho0 e).

Lemma tr_levels : forall l, l <= m -> Forall (good (skipn l kvs)) (tsat l [tr]).
Proof.
  intros l L. apply good_tsat; [rewrite (kvs_len dimf vs m ML M0); auto|]. constructor; [|constructor]. apply (tr_good T dimf vs m).
Qed.
Lemma len_vis : length (tsat m [tr]) = length vis.
Proof.
  rewrite <- (tr_leaves T dimf vs m ML M0 LAST rho0 e). assert (G := tr_levels m (le_n m)).
  rewrite skipn_all2 in G by (rewrite (kvs_len dimf vs m ML M0); auto). induction G as [|t ts H G IH]; auto.
  destruct H as [x ->]. simpl. rewrite IH. auto.
Qed.
Lemma len_next : forall l, l < m -> length (tsat (S l) [tr]) = sum (lens (tsat l [tr])).
Proof. intros l L. rewrite tsat_S. apply below_length. Qed.

Lemma size_in_pre : forall (st : state V) l, final vs m gT st -> l <= m -> ieval st (size_in tres vs l) = Some (length (tsat l [tr])).
Proof.
  intros st l F. induction l as [|l IH]; intros L; [auto|]. cbn [size_in]. rewrite len_next by lia.
  destruct (cmp l) eqn:C.
  - cbn [LoopIR.ieval]. rewrite IH by lia. destruct (F l L C) as [F1 _]. cbn [SparseFused.gT LN] in F1. rewrite lens_len in F1.
    assert (SZ : nth (length (tsat l [tr])) (ibuf st (RPos l)) 0 = sum (lens (tsat l [tr])) /\ length (tsat l [tr]) < length (ibuf st (RPos l))).
    { split.
      - rewrite <- (firstn_skipn (S (length (tsat l [tr]))) (ibuf st (RPos l))), F1.
        rewrite app_nth1 by (rewrite scan_length, lens_len; lia). rewrite scan_nth by (rewrite lens_len; lia).
        rewrite firstn_all2; auto. rewrite lens_len. lia.
      - apply (f_equal (@length _)) in F1. rewrite firstn_length, scan_length, lens_len in F1. lia. }
    destruct SZ as [S1 S2]. rewrite (nth_error_nth' _ 0 S2), S1. auto.
  - cbn [LoopIR.ieval]. rewrite IH, DW by (auto; lia). f_equal. assert (G := tr_levels l ltac:(lia)).
    rewrite (kvs_skip dimf vs m ML M0) in G by lia. rewrite C in G. rewrite (dense_sum _ _ _ G). auto.
Qed.
Lemma size_in_val : forall (st : state V) l, final vs m gT st -> m <= l -> l <= N ->
  exists k, ieval st (size_in tres vs l) = Some k /\ k * sv l = length vis * D.
Proof.
  intros st l F H. induction H as [|l H IH]; intros L.
  - exists (length vis). rewrite size_in_pre, len_vis by auto. auto.
  - destruct IH as (k & K1 & K2); [lia|]. cbn [size_in]. rewrite TAIL by auto. cbn [LoopIR.ieval]. rewrite K1, DW by (auto; lia).
    exists (k * W l). split; auto. rewrite <- K2, (sv_step dimf vs l) by lia. rewrite TAIL by lia. symmetry. apply Nat.mul_assoc.
Qed.
Lemma size_in_all : forall (st : state V), final vs m gT st -> ieval st (size_in tres vs N) = Some (length vis * D).
Proof.
  intros st F. destruct (size_in_val st N F ML (le_n N)) as (k & K1 & K2). rewrite sv_end, Nat.mul_1_r in K2. congruence.
Qed.
Lemma final_frame : forall g (st st' : state V), (forall a, ibuf st' a = ibuf st a) -> final vs m g st -> final vs m g st'.
Proof. intros g st st' E F l L C. rewrite !E. auto. Qed.

Section Values.
Variable vars2 : list ivar.
Hypothesis ND2 : NoDup (rev vars2 ++ outer m).
Hypothesis SH : filter (in_res vs) vars2 = map fst (skipn m vs).
Hypothesis HD2 : m < N -> exists rest, vars2 = var_at vs m :: rest.
Hypothesis RED : reduce = false -> forall v, In v vars2 -> in_res vs v = true.
Hypothesis OK : EOK T dimf vs reduce zinit m vars2 e.
Notation stored_vals := (stored_vals R fn T dimf vs reduce m vars2).
Notation slots_of := (slots_of R fn T dimf vs reduce m vars2).

Lemma init_last : forall ls (st : state V), NoDup ls -> In (m - 1) ls -> exists st',
  exec (Block (map (fun l => if last_appender vs l then Asg (VRes l) (ICst 0) else Skip) ls)) st st' /\
  env st' (VRes (m - 1)) = Some 0 /\ (forall a, ibuf st' a = ibuf st a) /\ forall b, vbuf st' b = vbuf st b.
Proof.
  assert (OTH : forall ls (st : state V), ~ In (m - 1) ls ->
    exec (Block (map (fun l => if last_appender vs l then Asg (VRes l) (ICst 0) else Skip) ls)) st st).
  { induction ls as [|l ls IH]; intros st NI; [constructor|]. cbn [map]. eapply block_cons; [|apply IH; simpl in NI; tauto].
    assert (X : last_appender vs l = false).
    { destruct (last_appender vs l) eqn:E; auto. exfalso. apply NI. left. unfold last_appender in E.
      apply andb_true_iff in E. destruct E as [E1 E2]. apply negb_true_iff in E2.
      destruct (Nat.lt_total l (m - 1)) as [L|[L|L]]; auto.
      - assert (X := not_last vs m ML M0 LAST vars2 HD2 l L). unfold last_appender in X. rewrite E1, E2 in X. discriminate.
      - rewrite TAIL in E1 by lia. discriminate. }
    rewrite X. constructor. }
  induction ls as [|l ls IH]; intros st ND I; [destruct I|]. inversion ND; subst. cbn [map].
  destruct (Nat.eq_dec l (m - 1)) as [->|NE].
  - exists (setv st (VRes (m - 1)) 0). split; [|split; [apply setv_eq|auto]].
    eapply block_cons; [rewrite (is_last vs m ML M0 LAST TAIL vars2 HD2); constructor; reflexivity|]. apply OTH. auto.
  - destruct I as [I|I]; [congruence|]. 
    set (s1 := if last_appender vs l then setv st (VRes l) 0 else st).
    destruct (IH s1) as (s2 & X1 & X2 & X3 & X4); auto. exists s2. split; [|split; auto].
    + eapply block_cons; [|exact X1]. unfold s1. destruct (last_appender vs l); constructor. reflexivity.
    + unfold s1 in *. destruct (last_appender vs l); auto.
Qed.

Lemma zero_size : forall (st : state V), final vs m gT st -> length vis * D <= length (vbuf st n) ->
  exists st', exec (init_block R n (ICst 0) (size_in tres vs N)) st st' /\ (forall v, v <> v_p -> env st' v = env st v) /\
    (forall a, ibuf st' a = ibuf st a) /\ length (vbuf st' n) = length (vbuf st n) /\
    forall p, p < length vis * D -> nth p (vbuf st' n) (r0 R) = r0 R.
Proof.
  intros st F LE. unfold init_block.
  destruct (for_range R fn T junkV junkI v_p (IMul (ICst 0) (size_in tres vs N)) (IMul (IAdd (ICst 0) (ICst 1)) (size_in tres vs N))
    (StV n (IVar v_p) (XLit (r0 R)))
    (fun k s => env s v_p = Some k /\ (forall v, v <> v_p -> env s v = env st v) /\ (forall a, ibuf s a = ibuf st a) /\
       length (vbuf s n) = length (vbuf st n) /\ forall p, p < k -> nth p (vbuf s n) (r0 R) = r0 R) 0 (length vis * D) st)
    as (st' & X & I0 & I1 & I2 & I3 & I4).
  - cbn [LoopIR.ieval]. rewrite size_in_all; auto.
  - lia.
  - intros k s (E & _ & E2 & _) _. split; auto. cbn [LoopIR.ieval]. rewrite size_in_all by (eapply final_frame; eauto).
    f_equal. lia.
  - intros k s (E & E1 & E2 & E3 & E4) K. exists (setV s n (upd_nth (vbuf s n) k (r0 R))). split; [|split; [exact E|]].
    + constructor; auto. lia.
    + split; [apply setv_eq|]. split; [|split; [exact E2|]].
      * intros v NV. rewrite setv_neq by auto. apply E1. auto.
      * cbn [setv setV vbuf]. rewrite Nat.eqb_refl, upd_nth_length. split; auto. intros p P. rewrite nth_upd_nth by lia. destruct (Nat.eqb_spec p k); auto. apply E4. lia.
  - split; [apply setv_eq|]. split; [intros; apply setv_neq; auto|]. split; auto. split; auto. intros; lia.
  - exists st'. repeat (split; auto).
Qed.

(** *** Computing only *)
Lemma compute_run : forall st, final vs m gT st -> length vis * D <= length (vbuf st n) -> exists st',
  exec (sparse_code R srt dimf n tres vs alloc allocv reduce zinit false true (prefix ++ vars2) e) st st' /\
  final vs m gT st' /\ stored_vals vis (vbuf st' n).
Proof.
  intros st F LE. unfold sparse_code, init_result, finalize_result.
  destruct (init_last (seq 0 N) st) as (s1 & X1 & E1 & I1 & B1); [apply seq_NoDup|apply in_seq; lia|].
  assert (F1 : final vs m gT s1) by (eapply final_frame; eauto).
  assert (Z : exists s2, exec (if negb (cmp (N - 1)) && (zinit || reduce) then init_block R n (ICst 0) (size_in tres vs N) else Skip) s1 s2 /\
    env s2 (VRes (m - 1)) = Some 0 /\ (forall a, ibuf s2 a = ibuf s1 a) /\ length (vbuf s2 n) = length (vbuf s1 n) /\
    (m < N -> zinit || reduce = true -> forall p, p < length vis * D -> nth p (vbuf s2 n) (r0 R) = r0 R)).
  { destruct (negb (cmp (N - 1)) && (zinit || reduce)) eqn:C.
    - destruct (zero_size s1 F1) as (s2 & Y1 & Y2 & Y3 & Y4 & Y5); [rewrite B1; auto|].
      exists s2. split; auto. split; [rewrite Y2; [auto|discriminate]|auto].
    - exists s1. split; [constructor|]. split; auto. split; auto. split; auto. intros MN ZR. exfalso. rewrite TAIL, ZR in C by lia. discriminate. }
  destruct Z as (s2 & X2 & E2 & I2 & L2 & Z2).
  destruct (compute_nest R fn T junkV junkI dimf srt SRT n tres vs reduce zinit m ML M0 LAST TAIL NDV DW vars2 ND2 SH HD2 RED
    (length vis * D) (ibuf s2) rho0 e s2) as (s3 & X3 & S3 & L3 & I3); auto.
  - apply (posok_nil T dimf vs alloc allocv m ML M0 AL ALV).
  - split; auto. split; [split; [simpl; lia|intros k v p NE; destruct k; discriminate]|].
    split; [rewrite L2, B1; auto|]. split; auto.
  - exists s3. split; [|split; auto].
    + eapply block_cons; [econstructor; [exact X1|exact X2]|]. eapply block_cons; [exact X3|]. apply block1. constructor.
    + eapply final_frame; [|exact F1]. intros a. rewrite I3. auto.
Qed.

(** *** The storage *)
Definition result : storage V :=
  mkStorage (levels kvs [tr] ++ map (fun l => LDense (W l)) (seq m (N - m))) (slots_of vis).

Lemma unpack_tail : forall (st : state V) d l k, d = N - l -> m <= l -> l <= N ->
  unpack_levels l k (ks_of dimf (skipn l vs)) (ibuf st) = (map (fun l => LDense (W l)) (seq l (N - l)), k * sv l).
Proof.
  intros st d. induction d; intros l k E L1 L2.
  - assert (l = N) by lia. subst l. rewrite skipn_all, Nat.sub_diag, sv_end. simpl. f_equal. lia.
  - rewrite (skip_at vs m ML M0) by lia. rewrite TAIL by lia. cbn [ks_of map snd fst unpack_levels].
    assert (IH := IHd (S l) (k * dimf (var_at vs l)) ltac:(lia) ltac:(lia) ltac:(lia)). unfold ks_of in IH. rewrite IH. cbn [fst snd].
    replace (N - l) with (S (N - S l)) by lia. cbn [seq map]. rewrite (sv_step dimf vs l), TAIL by lia. f_equal.
    unfold SparseProofs.W. lia.
Qed.
Lemma unpack_ok : forall (st : state V), final vs m gT st -> stored_vals vis (vbuf st n) ->
  unpack_result (ks_of dimf vs) n st = result.
Proof.
  intros st F S. unfold unpack_result, result.
  assert (E : ks_of dimf vs = kvs ++ ks_of dimf (skipn m vs)).
  { rewrite <- (firstn_skipn m vs) at 1. unfold ks_of. rewrite map_app. auto. }
  rewrite E.
  assert (U := unpack_prefix dimf vs alloc m ML M0 AL tr gT st (ks_of dimf (skipn m vs)) m 0 ltac:(lia) ltac:(lia) (tr_good T dimf vs m rho0 e) F).
  cbn [skipn] in U. change (length (tsat 0 [tr])) with 1 in U. rewrite U by auto. cbv zeta. clear U.
  rewrite len_vis. rewrite (unpack_tail st (N - m) m) by auto. cbn [fst snd].
  f_equal. apply stored_slots; auto.
Qed.
End Values.
End Store.
