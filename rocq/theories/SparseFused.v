(** The kernels with an appended result, from start to end, and the storage
    they leave. *)
From Coq Require Import List Arith Lia Bool.
Import ListNotations.
From Verif Require Import Outcome Storage StorageProofs IndexExpr Eval Lattice LatticeSpec LatticeLoop LoopIR Lower Walk
  LowerBase LoopRule Nest Visits DenseKernel DenseKernelProofs TreeLevels SparseTree SparseKernel AppendProofs SparseProofs
  SparseNest SparseRun SparseTail SparseSlots.
Local Open Scope nat_scope.
Local Arguments inb : simpl never.

Section Fused.
Context {V : Type}.
Variable R : ring_ops V.
Variable fn : nat -> V -> V.
Variable T : nat -> storage V.
Variable junkV : nat -> V.
Variable junkI : nat -> nat.
Variable dimf : ivar -> nat.
Variable srt : list point -> list point.
Hypothesis SRT : admissible_sort srt.
Notation exec := (exec R fn T junkV junkI).
Notation ieval := (ieval T).
Notation payload := ((ivar -> nat) * expr V)%type.
Notation ghost := (@ghost V).
Variable n tres : nat.
Variable vs : list (ivar * kind).
Variable alloc allocv : nat.
Variable reduce zinit : bool.
Variable m : nat.
Notation N := (length vs).
Notation cmp := (comp_at_level vs).
Notation W := (W dimf vs).
Notation sv := (sv dimf vs).
Notation nx := (nx vs).
Notation D := (sv m).
Notation kvs := (kvs dimf vs m).
Notation outer o := (rev (map fst (firstn o vs))).
Notation St := (St vs m).
Notation Cnt := (Cnt dimf vs m).
Hypothesis ML : m <= N.
Hypothesis M0 : 0 < m.
Hypothesis LAST : cmp (m - 1) = true.
Hypothesis TAIL : forall l, m <= l -> cmp l = false.
Hypothesis NDV : NoDup (map fst vs).
Hypothesis DW : forall l, l < N -> cmp l = false -> nth_error (st_levels (T tres)) l = Some (LDense (W l)).
Hypothesis AL : 1 <= alloc.
Hypothesis ALV : 1 <= allocv.

Notation prefix := (map fst (firstn m vs)).
Variable rho0 : ivar -> nat.
Variable e : expr V.
Hypothesis LIN : NoDup (accesses e).
Hypothesis PACC : forall a, In a (accesses e) -> wf_access T dimf (a_tensor a) (a_vars a) /\
     forall pre post, prefix = pre ++ post -> legal (rev pre) (a_vars a).
Definition tr := build T dimf (firstn m vs) rho0 e.
Definition vis : list payload := visits T dimf prefix rho0 e.
Definition gT : ghost := Gh (fun l => lens (tsat l [tr])) (fun l => crds (tsat l [tr])) (fun _ => 0) vis.

Lemma tr_good : good kvs tr.
Proof. apply (build_good T dimf (firstn m vs)). Qed.
Lemma tr_leaves : flat_map leaf_of (tsat m [tr]) = vis.
Proof.
  assert (X := leaves_build T dimf (firstn m vs) rho0 e). rewrite leaves_tsat in X. unfold ks_of in X.
  rewrite map_length, firstn_length, Nat.min_l in X by auto. apply X. right.
  assert (Y := rs_ends vs m ML M0 LAST 0 M0). auto.
Qed.

Lemma posok_nil : forall st, posok T dimf [] rho0 (accesses e) st.
Proof.
  intros st. split.
  - intros j [].
  - intros a Ha l Hl. exfalso. revert Hl. unfold depth. destruct (a_vars a) as [|[v k] t]; simpl; lia.
Qed.

(** *** The loops *)
Section Nest.
Variable cpt : bool.
Variables VA VE : list payload -> state V -> Prop.
Variable leaf : expr V -> stmt V.
Variable EOK : expr V -> Prop.
Hypothesis EOKR : forall i z e e', EOK e -> restrict i z e = Some e' -> EOK e'.
Hypothesis VAF : forall gl st st', vbuf st' n = vbuf st n -> env st' v_cap = env st v_cap -> VA gl st -> VA gl st'.
Hypothesis VEF : forall gl st st', vbuf st' n = vbuf st n -> env st' v_cap = env st v_cap -> VE gl st -> VE gl st'.
Hypothesis ENTERV : forall gl st, VA gl st -> env st (VRes (m - 1)) = Some (length gl) ->
  exists st', exec (if leaf_level vs (m - 1) then vals_enter R n vs reduce true cpt else Skip) st st' /\
    touch (eq v_cap) none (eq n) st st' /\ VE gl st'.
Hypothesis LEAF : forall gl rho e st, EOK e -> VE gl st -> env st (VRes (m - 1)) = Some (length gl) ->
  posok T dimf (outer m) rho (accesses e) st ->
  exists st', exec (leaf e) st st' /\ agree (outer m) st st' /\ touch (leaf_vars m) none (eq n) st st' /\
    VA (gl ++ [(rho, e)]) st'.

Lemma nest_run : forall st, EOK e -> St (g0 dimf vs) st -> VA [] st ->
  exists st' g', exec (lower srt dimf (prefix_hooks R n tres vs reduce zinit cpt leaf) prefix [] e) st st' /\
    St g' st' /\ VA vis st' /\ Cnt 0 g' /\ length (LN g' 0) = 1 /\ GL g' = vis /\
    forall l, l < m -> LN g' l = lens (tsat l [tr]) /\ CR g' l = crds (tsat l [tr]).
Proof.
  intros st OK ST VA0.
  destruct (prefix_ok R fn T junkV junkI dimf srt SRT n tres vs reduce zinit cpt m ML M0 LAST TAIL NDV DW VA VE leaf EOK
    EOKR VAF VEF ENTERV LEAF rho0 e (g0 dimf vs) st LIN PACC (posok_nil st)) as (st' & X & (o & g' & B1 & B2 & B3 & B4 & B5 & B6 & B7 & _)).
  - exists 0. split; [lia|]. split; auto. split; auto. split; auto. split; [|split; [auto|split; [|split; [|split; [|split]]]]].
    + constructor; simpl; auto. intros l L _. unfold slots. destruct (S l <? m); auto.
    + intros l L. lia.
    + intros l L. lia.
    + reflexivity.
    + intros _ _. unfold room. simpl. unfold gb0. rewrite (above_first vs m ML M0 LAST). lia.
    + assert (Z : (0 =? m) = false) by (apply Nat.eqb_neq; lia). rewrite Z. exact VA0.
  - assert (O : o = 0).
    { apply (f_equal (@length _)) in B2. rewrite rev_length, map_length, firstn_length in B2. simpl in B2. lia. }
    rewrite O in *. simpl skipn in B3. fold tr in B3. exists st', g'. split; auto. split; auto.
    assert (B3' := B3). destruct B3' as (C1 & C2 & C3 & C4). 
    assert (GV : GL g' = vis).
    { rewrite C3. simpl GL. rewrite Nat.sub_0_r, app_nil_l. apply tr_leaves. }
    split; [|split; [|split; [|split]]]; auto.
    + rewrite GV in B7. auto.
    + eapply cnt_ext; [exact ML|exact M0|lia| |constructor; [exact tr_good|constructor]|exact B3].
      constructor; simpl; auto. intros l L _. unfold slots. destruct (S l <? m); auto.
    + destruct (C2 0 M0 (le_n 0)) as [E1 _]. rewrite E1. simpl. auto.
    + intros l L. destruct (C2 l L (Nat.le_0_l l)) as [E1 E2]. rewrite E1, E2, Nat.sub_0_r. auto.
Qed.
End Nest.

Lemma final_gT : forall g' (st : state V), (forall l, l < m -> LN g' l = lens (tsat l [tr]) /\ CR g' l = crds (tsat l [tr])) ->
  final vs m g' st -> final vs m gT st.
Proof. intros g' st E F l L C. specialize (F l L C). destruct (E l L) as [E1 E2]. rewrite E1, E2 in F. exact F. Qed.

Section Values.
Variable vars2 : list ivar.
Hypothesis ND2 : NoDup (rev vars2 ++ outer m).
Hypothesis SH : filter (in_res vs) vars2 = map fst (skipn m vs).
Hypothesis HD2 : m < N -> exists rest, vars2 = var_at vs m :: rest.
Hypothesis RED : reduce = false -> forall v, In v vars2 -> in_res vs v = true.
Hypothesis OK : EOK T dimf vs reduce zinit m vars2 e.
Notation stored_vals := (stored_vals R fn T dimf vs reduce m vars2).
Notation slots_of := (slots_of R fn T dimf vs reduce m vars2).
Notation VA := (VA R fn T dimf n vs reduce m vars2).

(** *** Assembling and computing at once *)
Lemma fused_run : forall st, exists st',
  exec (sparse_code R srt dimf n tres vs alloc allocv reduce zinit true true (prefix ++ vars2) e) st st' /\
  final vs m gT st' /\ stored_vals vis (vbuf st' n).
Proof.
  intros st. unfold sparse_code, init_result, finalize_result.
  destruct (init_levels_ok R fn T junkV junkI dimf tres vs alloc m ML M0 LAST TAIL DW AL st) as (s1 & X1 & T1 & S1).
  set (s2 := setV (setv s1 v_cap allocv) n (resize junkV (vbuf s1 n) allocv)).
  assert (L2 : length (vbuf s2 n) = allocv).
  { unfold s2. simpl. rewrite Nat.eqb_refl. apply resize_len. }
  assert (S2 : St (g0 dimf vs) s2).
  { eapply St_frame; [|exact S1]. intros l L C. unfold frame, s2. cbn [setV ibuf env setv].
    repeat split; auto; apply setv_neq; intros X; inversion X. }
  assert (V2 : VA [] s2).
  { split; [|split].
    - unfold s2 at 1. cbn [setV env]. rewrite setv_eq, L2. auto.
    - lia.
    - split; [simpl; lia|]. intros k v p NE. destruct k; discriminate. }
  destruct (nest_run true VA (VE R fn T dimf n vs reduce m vars2) (fleaf R dimf srt n tres vs reduce zinit m vars2)
    (EOK T dimf vs reduce zinit m vars2)) with (st := s2) as (s3 & g' & X3 & S3 & V3 & C3 & L3 & GV & E3); auto.
  - apply EOKR.
  - apply VAF.
  - apply VEF.
  - apply (ENTERV R fn T junkV junkI dimf n vs reduce m ML M0 TAIL vars2 ND2 SH HD2 RED).
  - intros gl rho e' s OK' VE' E' PO'.
    apply (LEAF R fn T junkV junkI dimf srt SRT n tres vs reduce zinit m ML M0 TAIL NDV DW vars2 ND2 SH HD2 RED gl rho e' s LAST OK' VE' E' PO').
  - destruct (finalize_levels_ok R fn T junkV junkI dimf tres vs alloc m ML M0 TAIL DW AL g' s3 C3 L3 S3) as (s4 & X4 & T4 & F4).
    exists s4. split; [|split].
    + eapply block_cons.
      * econstructor; [exact X1|]. econstructor; [constructor; reflexivity|].
        apply (X_rszv R fn T junkV junkI n (IVar v_cap) (setv s1 v_cap allocv) allocv). cbn [LoopIR.ieval]. apply setv_eq.
      * eapply block_cons; [rewrite lower_app, app_nil_r; exact X3|].
        apply block1. econstructor; [exact X4|constructor].
    + eapply final_gT; eauto.
    + destruct T4 as (_ & _ & Tb). rewrite Tb by (intros []). apply V3.
Qed.
End Values.

(** *** Assembling only *)
Lemma size_val : forall (g : ghost) (st : state V) l, Cnt 0 g -> length (LN g 0) = 1 ->
  (forall j, j < m -> cmp j = true -> env st (VRes j) = Some (length (CR g j))) -> m <= l -> l <= N ->
  exists k, ieval st (size_of tres vs l) = Some k /\ k * sv l = length (GL g) * D.
Proof.
  intros g st l CN L1 VR LM LN. induction l as [|l IH]; [lia|]. cbn [size_of].
  destruct (Nat.eq_dec (S l) m) as [E|NE].
  - assert (C : cmp l = true) by (replace l with (m - 1) by lia; auto). rewrite C. cbn [LoopIR.ieval].
    exists (length (CR g l)). split; [apply VR; auto; lia|]. rewrite E. f_equal.
    assert (X := c_next _ _ _ _ _ CN l ltac:(lia) ltac:(lia)). unfold slots in X.
    assert (Y : (S l <? m) = false) by (apply Nat.ltb_ge; lia). rewrite Y in X. auto.
  - destruct IH as (k & K1 & K2); [lia|lia|]. rewrite TAIL by lia. cbn [LoopIR.ieval]. rewrite K1, DW by (auto; apply TAIL; lia).
    exists (k * W l). split; auto. rewrite <- K2, (sv_step dimf vs l) by lia. rewrite TAIL by lia. symmetry. apply Nat.mul_assoc.
Qed.

Lemma assemble_run : forall st, exists st',
  exec (sparse_code R srt dimf n tres vs alloc allocv reduce zinit true false prefix e) st st' /\
  final vs m gT st' /\ length (vbuf st' n) = length vis * D.
Proof.
  intros st. unfold sparse_code, init_result, finalize_result.
  destruct (init_levels_ok R fn T junkV junkI dimf tres vs alloc m ML M0 LAST TAIL DW AL st) as (s1 & X1 & T1 & S1).
  destruct (nest_run false (fun _ _ => True) (fun _ _ => True) (fun _ => Skip) (fun _ => True)) with (st := s1)
    as (s3 & g' & X3 & S3 & _ & C3 & L3 & GV & E3); auto.
  - intros gl s _ _. exists s. split; [|split; [apply touch_refl|auto]].
    unfold vals_enter. destruct (leaf_level vs (m - 1)); constructor.
  - intros gl rho e' s _ _ _ _. exists s. split; [constructor|]. split; [apply agree_refl|]. split; [apply touch_refl|auto].
  - destruct (finalize_levels_ok R fn T junkV junkI dimf tres vs alloc m ML M0 TAIL DW AL g' s3 C3 L3 S3) as (s4 & X4 & T4 & F4).
    destruct (size_val g' s4 N C3 L3) as (k & K1 & K2); auto.
    { intros j J C. destruct (S3 j J C) as [(_ & _ & _ & _ & E) _]. rewrite (proj1 T4); auto.
      intros [Y|Y]; inversion Y. }
    rewrite sv_end, Nat.mul_1_r in K2.
    exists (setV s4 n (resize junkV (vbuf s4 n) k)). split; [|split].
    + eapply block_cons; [econstructor; [exact X1|constructor]|].
      eapply block_cons; [exact X3|]. apply block1. econstructor; [exact X4|]. constructor. auto.
    + eapply final_gT; eauto.
    + cbn [setV vbuf]. rewrite Nat.eqb_refl, resize_len, K2, GV. auto.
Qed.
End Fused.
