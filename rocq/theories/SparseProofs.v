(** The nest of loops that appends to the levels of a result. *)
From Coq Require Import List Arith Lia Bool.
Import ListNotations.
From Verif Require Import Outcome Storage StorageProofs IndexExpr Eval Lattice LatticeSpec LatticeLoop LoopIR Lower Walk
  LowerBase LoopRule Nest Visits TreeLevels SparseTree SparseKernel AppendProofs.
Local Open Scope nat_scope.
Local Arguments inb : simpl never.

(** Trees [j] levels down. *)
Fixpoint tsat {L} (j : nat) (ts : list (tree L)) : list (tree L) :=
  match j with 0 => ts | S j => tsat j (below ts) end.
Lemma tsat_app : forall L j (a b : list (tree L)), tsat j (a ++ b) = tsat j a ++ tsat j b.
Proof. induction j; simpl; intros; auto. rewrite below_app. apply IHj. Qed.
Lemma tsat_nil : forall L j, tsat j (@nil (tree L)) = [].
Proof. induction j; simpl; auto. Qed.
Lemma tsat_S : forall L j (ts : list (tree L)), tsat (S j) ts = below (tsat j ts).
Proof. induction j; intros; auto. change (tsat (S j) (below ts) = below (tsat (S j) ts)). rewrite IHj. auto. Qed.
Lemma good_tsat : forall L j ks (ts : list (tree L)), j <= length ks -> Forall (good ks) ts ->
  Forall (good (skipn j ks)) (tsat j ts).
Proof.
  induction j; intros ks ts J G; auto. destruct ks as [|k ks]; [simpl in J; lia|].
  simpl. apply IHj; [simpl in J; lia|]. eapply good_below; eauto.
Qed.
Lemma leaves_tsat : forall L ks (ts : list (tree L)), leaves ks ts = flat_map leaf_of (tsat (length ks) ts).
Proof. induction ks; simpl; intros; auto. Qed.

Section Layout.
Context {V : Type}.
Variable T : nat -> storage V.
Variable dimf : ivar -> nat.
Variable tres : nat.
Variable vs : list (ivar * kind).
Variable m : nat.
Notation N := (length vs).
Notation cmp := (comp_at_level vs).
Definition W (l : nat) : nat := dimf (var_at vs l).

Fixpoint svk (l k : nat) : nat := match k with 0 => 1 | S k => if cmp l then 1 else W l * svk (S l) k end.
Fixpoint nxk (l k : nat) : nat := match k with 0 => l | S k => if cmp l then l else nxk (S l) k end.
Definition sv (l : nat) : nat := svk l (N - l).
Definition nx (l : nat) : nat := nxk l (N - l).

Lemma sv_step : forall l, l < N -> sv l = if cmp l then 1 else W l * sv (S l).
Proof. intros l H. unfold sv. replace (N - l) with (S (N - S l)) by lia. auto. Qed.
Lemma nx_step : forall l, l < N -> nx l = if cmp l then l else nx (S l).
Proof. intros l H. unfold nx. replace (N - l) with (S (N - S l)) by lia. auto. Qed.
Hypothesis ML : m <= N.
Hypothesis M0 : 0 < m.
Hypothesis LAST : cmp (m - 1) = true.
Hypothesis DW : forall l, l < N -> cmp l = false -> nth_error (st_levels (T tres)) l = Some (LDense (W l)).
Lemma dense_lt : forall l, l < m -> cmp l = false -> S l < m.
Proof. intros l H C. destruct (Nat.eq_dec l (m - 1)) as [->|]; [congruence|lia]. Qed.

Lemma nx_ok : forall l, l < m -> l <= nx l /\ nx l < m /\ cmp (nx l) = true /\
  forall j, l <= j -> j < nx l -> cmp j = false.
Proof.
  intros l. remember (m - l) as d. revert l Heqd. induction d; intros l E L; [lia|].
  rewrite nx_step by lia. destruct (cmp l) eqn:C.
  - repeat split; auto. intros; lia.
  - assert (S l < m) by (apply dense_lt; auto). destruct (IHd (S l)) as (A & B & D & F); [lia|auto|].
    repeat split; auto; [lia|]. intros j J1 J2. destruct (Nat.eq_dec j l) as [->|]; auto. apply F; auto. lia.
Qed.

Lemma stride_val : forall k l st, l + k <= N -> ieval T st (fst (stride_from tres vs l k)) = Some (svk l k).
Proof.
  induction k; intros l st H; simpl; auto. destruct (cmp l) eqn:C; simpl; auto.
  rewrite (DW l) by (auto; lia). rewrite IHk by lia. auto.
Qed.
Lemma stride_pure : forall k l, pure (fst (stride_from tres vs l k)) = true /\
  forall v, ~ occurs v (fst (stride_from tres vs l k)).
Proof.
  induction k; intros l; simpl; auto. destruct (cmp l); simpl; auto.
  destruct (IHk (S l)) as [A B]. split; auto. intros v [F|F]; auto. apply (B v F).
Qed.
Lemma stride_nx : forall k l, l + k = N -> l < m -> snd (stride_from tres vs l k) = Some (nxk l k).
Proof.
  induction k; intros l E L; [lia|]. simpl. destruct (cmp l) eqn:C; auto. simpl. apply IHk; [lia|].
  apply dense_lt; auto.
Qed.

Lemma app_nx : forall l, l < m -> l < nx l -> app_parent vs (nx l) = false.
Proof.
  intros l L H. destruct (nx_ok l L) as (A & B & C & D). destruct (nx l) as [|j]; [lia|]. simpl. apply D; lia.
Qed.
Lemma above_S : forall l, comp_above vs (S l) = comp_above vs l || cmp l.
Proof. intros. unfold comp_above. rewrite seq_S, existsb_app. simpl. rewrite orb_false_r. auto. Qed.
Lemma above_nx : forall l, l < m -> comp_above vs (nx l) = comp_above vs l.
Proof.
  intros l L. destruct (nx_ok l L) as (A & B & C & D).
  assert (X : forall j, l + j <= nx l -> comp_above vs (l + j) = comp_above vs l).
  { induction j; intros J; [rewrite Nat.add_0_r; auto|]. replace (l + S j) with (S (l + j)) by lia.
    rewrite above_S, IHj by lia. rewrite D by lia. apply orb_false_r. }
  replace (nx l) with (l + (nx l - l)) by lia. apply X. lia.
Qed.
Lemma above_false : forall l, l < m -> cmp l = true -> comp_above vs l = false -> nx 0 = l.
Proof.
  intros l L C A. assert (X : forall j, j <= l -> nx j = l).
  { intros j. remember (l - j) as d. revert j Heqd. induction d; intros j E J.
    - assert (j = l) by lia. subst. rewrite nx_step by lia. rewrite C. auto.
    - rewrite nx_step by lia. assert (CJ : cmp j = false).
      { destruct (cmp j) eqn:X; auto. exfalso. unfold comp_above in A. rewrite <- not_true_iff_false in A. apply A.
        apply existsb_exists. exists j. split; auto. apply in_seq. lia. }
      rewrite CJ. apply IHd; lia. }
  apply X. lia.
Qed.
Lemma above_first : comp_above vs (nx 0) = false.
Proof. rewrite above_nx by lia. auto. Qed.
End Layout.

(** ** Ghost state: what has been appended so far *)
Section Ghost.
Context {V : Type}.
Notation payload := ((ivar -> nat) * expr V)%type.
Notation ttree := (tree payload).
Variable dimf : ivar -> nat.
Variable vs : list (ivar * kind).
Variable m : nat.
Notation N := (length vs).
Notation cmp := (comp_at_level vs).
Notation W := (W dimf vs).
Notation sv := (sv dimf vs).
Notation nx := (nx vs).
Hypothesis ML : m <= N.
Hypothesis M0 : 0 < m.
Hypothesis LAST : cmp (m - 1) = true.

(** Per level: the number of children of every closed slot, the appended
    coordinates, the number of slots with initialised edges; and the leaves. *)
Record ghost := Gh { LN : nat -> list nat; CR : nat -> list nat; GB : nat -> nat; GL : list payload }.

Definition slots (g : ghost) (l : nat) : nat := if l <? m then length (LN g l) else length (GL g).

(** Levels below [o] are open: their current slot is not closed. *)
Record Cnt (o : nat) (g : ghost) : Prop := {
  c_next : forall l, l < m -> S l <> o -> slots g (S l) = length (CR g l);
  c_sum : forall l, o <= l -> l < m -> length (CR g l) = sum (LN g l);
  c_dense : forall l, l < m -> cmp l = false -> sum (LN g l) = length (LN g l) * W l }.

Definition entry (g : ghost) (o : nat) : Prop :=
  match o with 0 => LN g 0 = [] | S l => slots g o = length (CR g l) end.
Definition room (g : ghost) (l : nat) : Prop := S (length (LN g l)) * sv l <= GB g (nx l).

Definition ext (o : nat) (ts : list ttree) (g g' : ghost) : Prop :=
  (forall l, l < m -> l < o -> LN g' l = LN g l /\ CR g' l = CR g l) /\
  (forall l, l < m -> o <= l -> LN g' l = LN g l ++ lens (tsat (l - o) ts) /\
                                CR g' l = CR g l ++ crds (tsat (l - o) ts)) /\
  GL g' = GL g ++ flat_map leaf_of (tsat (m - o) ts) /\
  (forall l, GB g l <= GB g' l).
Definition part (o : nat) (ks : list (nat * ttree)) (g g' : ghost) : Prop :=
  (forall l, l < m -> l < o -> LN g' l = LN g l /\ CR g' l = CR g l) /\
  (LN g' o = LN g o /\ CR g' o = CR g o ++ map fst ks) /\
  (forall l, l < m -> o < l -> LN g' l = LN g l ++ lens (tsat (l - S o) (map snd ks)) /\
                                CR g' l = CR g l ++ crds (tsat (l - S o) (map snd ks))) /\
  GL g' = GL g ++ flat_map leaf_of (tsat (m - S o) (map snd ks)) /\
  (forall l, GB g l <= GB g' l).

Definition add_cr (o c : nat) (g : ghost) : ghost :=
  Gh (LN g) (fun l => if l =? o then CR g l ++ [c] else CR g l) (GB g) (GL g).
Definition add_ln (o k : nat) (g : ghost) : ghost :=
  Gh (fun l => if l =? o then LN g l ++ [k] else LN g l) (CR g) (GB g) (GL g).
Definition with_gb (b : nat -> nat) (g : ghost) : ghost := Gh (LN g) (CR g) b (GL g).

Lemma part_nil : forall o g b, (forall l, GB g l <= b l) -> part o [] g (with_gb b g).
Proof.
  intros o g b H. repeat split; auto; simpl; try (rewrite tsat_nil; simpl; rewrite ?app_nil_r; auto); rewrite app_nil_r; auto.
Qed.
Lemma part_gb : forall o ks g g1 b, part o ks g g1 -> (forall l, GB g1 l <= b l) -> part o ks g (with_gb b g1).
Proof.
  intros o ks g g1 b (P1 & P2 & P3 & P4 & P5) H. split; [|split; [|split; [|split]]]; auto.
  intros l. simpl. etransitivity; eauto.
Qed.

Lemma part_step : forall o ks g g1 g2 c t, o < m -> part o ks g g1 -> ext (S o) [t] g1 g2 ->
  part o (ks ++ [(c, t)]) g (add_cr o c g2).
Proof.
  intros o ks g g1 g2 c t O (P1 & P2 & P3 & P4 & P5) (E1 & E2 & E3 & E4).
  assert (IR : forall l, (l =? o) = true -> l = o) by (intros; apply Nat.eqb_eq; auto).
  split; [|split; [|split; [|split]]]; simpl.
  - intros l L1 L2. destruct (l =? o) eqn:X; [apply IR in X; lia|].
    destruct (E1 l L1) as [-> ->]; [lia|]. apply P1; auto.
  - rewrite Nat.eqb_refl, map_app. destruct (E1 o) as [-> ->]; auto; try lia. destruct P2 as [-> ->].
    split; auto. rewrite <- app_assoc. auto.
  - intros l L1 L2. destruct (l =? o) eqn:X; [apply IR in X; lia|].
    destruct (E2 l L1) as [-> ->]; [lia|]. destruct (P3 l L1 L2) as [-> ->].
    rewrite map_app, tsat_app, lens_app, crds_app, !app_assoc. auto.
  - rewrite E3, P4, map_app, tsat_app, flat_map_app, app_assoc. auto.
  - intros l. etransitivity; eauto.
Qed.

Lemma part_close : forall o ks g g1, o < m -> part o ks g g1 -> ext o [Node ks] g (add_ln o (length ks) g1).
Proof.
  intros o ks g g1 O (P1 & P2 & P3 & P4 & P5).
  assert (IR : forall l, (l =? o) = true -> l = o) by (intros; apply Nat.eqb_eq; auto).
  assert (TS : forall l, o < l -> tsat (l - o) [Node ks] = tsat (l - S o) (map snd ks)).
  { intros l L. replace (l - o) with (S (l - S o)) by lia. simpl. unfold below. simpl. rewrite app_nil_r. auto. }
  split; [|split; [|split]]; simpl.
  - intros l L1 L2. destruct (l =? o) eqn:X; [apply IR in X; lia|]. apply P1; auto.
  - intros l L1 L2. destruct (l =? o) eqn:X.
    + apply IR in X. subst l. destruct P2 as [-> ->]. rewrite Nat.sub_diag. simpl. unfold crds. simpl.
      rewrite app_nil_r. auto.
    + apply Nat.eqb_neq in X. destruct (P3 l L1) as [-> ->]; [lia|]. rewrite TS by lia. auto.
  - rewrite P4, TS by lia. auto.
  - auto.
Qed.

(** ** Counting *)
Lemma lens_len : forall (ts : list ttree), length (lens ts) = length ts.
Proof. intros. apply map_length. Qed.

Lemma dense_sum : forall w ks (ts : list ttree), Forall (good ((KDense, w) :: ks)) ts -> sum (lens ts) = length ts * w.
Proof. intros. erewrite dense_lens by eauto. apply sum_repeat. Qed.

Definition kvs : list (kind * nat) := ks_of dimf (firstn m vs).
Lemma kvs_len : length kvs = m.
Proof. unfold kvs, ks_of. rewrite map_length, firstn_length. lia. Qed.
Lemma kvs_skip : forall l, l < m -> skipn l kvs = ((if cmp l then KComp else KDense), W l) :: skipn (S l) kvs.
Proof.
  intros l L. unfold kvs, ks_of, W, SparseProofs.W, comp_at_level, var_at.
  assert (X : forall (us : list (ivar * kind)) l, l < length us ->
    skipn l (map (fun x : ivar * kind => (snd x, dimf (fst x))) us) =
    (match nth_error us l with Some (_, KComp) => KComp | _ => KDense end, dimf (fst (nth l us (0, KDense)))) ::
    skipn (S l) (map (fun x : ivar * kind => (snd x, dimf (fst x))) us)).
  { clear. induction us as [|[i k] us IH]; intros l L; [simpl in L; lia|]. destruct l.
    - simpl. destruct k; auto.
    - simpl. simpl in IH. rewrite IH by (simpl in L; lia). auto. }
  rewrite X by (rewrite firstn_length; lia).
  rewrite nth_error_firstn_lt by auto. f_equal. f_equal.
  - destruct (nth_error vs l) as [[? []]|]; auto.
  - f_equal. f_equal. rewrite <- (firstn_skipn m vs) at 2. rewrite app_nth1; auto. rewrite firstn_length. lia.
Qed.

Lemma cnt_ext : forall o ts g g', o <= m -> Cnt o g -> Forall (good (skipn o kvs)) ts -> ext o ts g g' -> Cnt o g'.
Proof.
  intros o ts g g' OM [C1 C2 C3] G (E1 & E2 & E3 & E4).
  assert (GG : forall l, o <= l -> l <= m -> Forall (good (skipn l kvs)) (tsat (l - o) ts)).
  { intros l L1 L2. replace l with (o + (l - o)) at 1 by lia.
    assert (X : forall (A : Type) (a b : nat) (l : list A), skipn (a + b) l = skipn b (skipn a l)).
    { clear. induction a; intros b l; simpl; auto. destruct l; auto. rewrite skipn_nil. auto. }
    rewrite X. apply good_tsat; auto. rewrite skipn_length, kvs_len. lia. }
  constructor.
  - intros l L X. specialize (C1 l L X). unfold slots in *. destruct (S l <? m) eqn:SM.
    + apply Nat.ltb_lt in SM. destruct (Nat.lt_ge_cases l o).
      * destruct (E1 l L) as [_ ->]; auto. destruct (Nat.lt_ge_cases (S l) o); [|lia].
        destruct (E1 (S l)) as [-> _]; auto.
      * destruct (E2 l L) as [_ ->]; auto. destruct (E2 (S l)) as [-> _]; auto.
        rewrite !app_length, C1, lens_len. replace (S l - o) with (S (l - o)) by lia.
        rewrite tsat_S, below_length, crds_length. auto.
    + apply Nat.ltb_ge in SM. assert (l = m - 1) by lia. subst l. rewrite E3, app_length, C1.
      destruct (Nat.lt_ge_cases (m - 1) o).
      * assert (o = m) by lia. lia.
      * destruct (E2 (m - 1) L) as [_ ->]; auto. rewrite app_length. f_equal.
        replace (m - o) with (S (m - 1 - o)) by lia.
        assert (GL1 : Forall (good (skipn m kvs)) (tsat (S (m - 1 - o)) ts)).
        { replace (S (m - 1 - o)) with (m - o) by lia. apply GG; lia. }
        rewrite skipn_all2 in GL1 by (rewrite kvs_len; lia).
        rewrite crds_length, <- below_length, <- tsat_S.
        clear - GL1. induction (tsat (S (m - 1 - o)) ts) as [|t l IH]; auto. inversion GL1; subst.
        destruct H1 as [x ->]. simpl. rewrite IH; auto.
  - intros l L1 L2. destruct (E2 l L2 L1) as [-> ->]. rewrite app_length, sum_app, crds_length. rewrite C2; auto.
  - intros l L C. destruct (Nat.lt_ge_cases l o).
    + destruct (E1 l L) as [-> _]; auto.
    + destruct (E2 l L) as [-> _]; auto. rewrite sum_app, app_length, C3, lens_len by auto.
      specialize (GG l ltac:(auto) ltac:(lia)). rewrite kvs_skip, C in GG by auto.
      rewrite (dense_sum _ _ _ GG). lia.
Qed.

(** Slots of the next compressed level of a closed chain of dense levels. *)
Lemma chain_slots : forall o g l, l < m -> (forall j, l <= j -> j < nx l -> o <= j /\ S j <> o) -> Cnt o g ->
  length (LN g (nx l)) = length (LN g l) * sv l.
Proof.
  intros o g l L H C. destruct (nx_ok vs m ML M0 LAST l L) as (A & B & D & F).
  remember (nx l - l) as d. revert l L H A B D F Heqd. induction d; intros l L H A B D F E.
  - assert (E0 : nx l = l) by lia. rewrite E0. rewrite sv_step by lia. rewrite E0 in D. rewrite D. lia.
  - assert (CL : cmp l = false) by (apply F; lia).
    assert (SL : S l < m) by (eapply (dense_lt vs m); eauto).
    assert (NE : nx l = nx (S l)) by (rewrite (nx_step vs l) by lia; rewrite CL; auto).
    rewrite NE. rewrite IHd.
    + rewrite (sv_step dimf vs l) by lia. rewrite CL.
      destruct (H l) as [H1 H2]; [lia|lia|].
      assert (X := c_next o g C l L H2). unfold slots in X. apply Nat.ltb_lt in SL. rewrite SL in X.
      rewrite X, (c_sum o g C), (c_dense o g C) by auto. lia.
    + auto.
    + intros j J1 J2. apply H; lia.
    + lia.
    + lia.
    + rewrite <- NE. auto.
    + intros j J1 J2. apply F; lia.
    + lia.
Qed.
End Ghost.
