(** Following one coordinate through the appending loops: what is left of the
    expression there, and what that contributes to a sum. *)
From Coq Require Import List Arith Lia Bool Ring_theory Ring.
Import ListNotations.
From Verif Require Import Outcome Storage StorageProofs IndexExpr Eval EvalProofs Lattice LatticeSpec LatticeLoop LoopIR Lower Walk
  LowerBase LoopRule Nest Visits DenseKernel DenseKernelProofs DenseValue TreeLevels SparseTree.
Local Open Scope nat_scope.
Local Arguments inb : simpl never.

Definition eqx (l xs : list nat) : bool := if list_eq_dec Nat.eq_dec l xs then true else false.
Lemma eqx_true : forall l xs, eqx l xs = true <-> l = xs.
Proof. intros. unfold eqx. destruct (list_eq_dec Nat.eq_dec l xs); split; congruence. Qed.
Lemma eqx_cons : forall a l x xs, eqx (a :: l) (x :: xs) = (a =? x) && eqx l xs.
Proof.
  intros. apply eq_true_iff_eq. rewrite andb_true_iff, !eqx_true, Nat.eqb_eq. split; [intros X; inversion X; auto|intros [-> ->]; auto].
Qed.
Lemma eqx_app : forall l1 l2 x1 x2, length l1 = length x1 -> eqx (l1 ++ l2) (x1 ++ x2) = eqx l1 x1 && eqx l2 x2.
Proof.
  induction l1 as [|a l1 IH]; destruct x1 as [|x x1]; simpl length; intros x2 L; try discriminate; auto.
  simpl app. rewrite !eqx_cons, IH by lia. apply andb_assoc.
Qed.

Section Path.
Context {V : Type}.
Variable R : ring_ops V.
Hypothesis HR : ring_theory (r0 R) (r1 R) (radd R) (rmul R) (rsub R) (ropp R) eq.
Add Ring Vring3 : HR.
Variable fn : nat -> V -> V.
Hypothesis fn0 : forall f, fn f (r0 R) = r0 R.
Variable T : nat -> storage V.
Variable dimf : ivar -> nat.
Notation payload := ((ivar -> nat) * expr V)%type.
Notation denot := (denot R T).
Notation sum_over := (sum_over R dimf).
Notation sum_n := (sum_n R).

Lemma sum_n_single : forall n f x, x < n -> (forall c, c < n -> c <> x -> f c = r0 R) -> sum_n n f = f x.
Proof.
  induction n; intros f x X H; [lia|]. cbn [Visits.sum_n]. destruct (Nat.eq_dec x n) as [->|NE].
  - rewrite (sum_n_ext R n f (fun _ => r0 R)) by (intros; apply H; lia). rewrite (sum_n_zero R HR). ring.
  - rewrite (IHn f x) by (auto; lia). rewrite (H n) by lia. ring.
Qed.

Lemma path_sum : forall rs vars2 bound rho e xs (tl : (ivar -> nat) -> bool),
  (forall a, In a (accesses e) -> wf_access T dimf (a_tensor a) (a_vars a) /\
     forall pre post, map fst rs = pre ++ post -> legal (rev pre ++ bound) (a_vars a)) ->
  NoDup (rev (map fst rs ++ vars2) ++ bound) ->
  length xs = length rs -> (forall l, l < length rs -> nth l xs 0 < dimf (var_at rs l)) ->
  sum_over (map fst rs ++ vars2) rho (fun rho' => if eqx (map rho' (map fst rs)) xs && tl rho' then eval R fn (denot rho') e else r0 R) =
  match path T rs rho e xs with
  | Some (rho1, e1) => sum_over vars2 rho1 (fun rho' => if tl rho' then eval R fn (denot rho') e1 else r0 R)
  | None => r0 R
  end.
Proof.
  induction rs as [|[i k] rs IH]; intros vars2 bound rho e xs tl ACC ND LX B.
  - destruct xs; [|discriminate]. simpl. auto.
  - destruct xs as [|x xs]; [discriminate|]. cbn [map fst app Visits.sum_over path].
    simpl map in ND. simpl app in ND. simpl rev in ND. rewrite <- app_assoc in ND. simpl app in ND.
    assert (DJ : forall v, In v (map fst rs ++ vars2) -> ~ In v (i :: bound)).
    { intros v Hv Hb. apply in_split in Hb. destruct Hb as (b1 & b2 & E). rewrite E in ND.
      rewrite app_assoc in ND. apply NoDup_remove_2 in ND. apply ND. rewrite in_app_iff, in_app_iff, <- in_rev. auto. }
    assert (X : x < dimf i) by (apply (B 0); simpl; lia).
    rewrite (sum_n_single (dimf i) _ x X).
    + transitivity (sum_over (map fst rs ++ vars2) (upd rho i x)
        (fun rho' => if eqx (map rho' (map fst rs)) xs && tl rho' then oeval R fn (denot rho') (restrict i (stored T rho i x) e) else r0 R)).
      * apply (sum_over_ext R dimf (map fst rs ++ vars2) (i :: bound)); auto. intros rho' EX.
        rewrite eqx_cons. assert (RI : rho' i = x) by (rewrite (EX i (or_introl eq_refl)); apply upd_eq).
        rewrite RI, Nat.eqb_refl. cbn [andb]. destruct (eqx _ _ && tl rho'); auto.
        symmetry. apply (restrict_eval R fn T dimf HR fn0 i bound); auto. intros a Ha. destruct (ACC a Ha) as [Wa LG]. split; auto.
        apply (LG [i] (map fst rs)). auto.
      * destruct (restrict i (stored T rho i x) e) as [e'|] eqn:RS.
        -- apply (IH vars2 (i :: bound)); auto.
           ++ intros a Ha. destruct (zero_accesses _ _ _ RS a Ha) as [Hae _]. destruct (ACC a Hae) as [Wa LG].
              split; auto. intros pre post E. specialize (LG (i :: pre) post). simpl rev in LG.
              rewrite <- app_assoc in LG. apply LG. simpl. congruence.
           ++ intros l L. apply (B (S l)). simpl. lia.
        -- etransitivity; [|apply (sum_over_zero R dimf HR (map fst rs ++ vars2) (upd rho i x))].
           apply (sum_over_ext R dimf _ (i :: bound)); auto. intros rho' _. destruct (_ && _); auto.
    + intros c C NE. etransitivity; [|apply (sum_over_zero R dimf HR (map fst rs ++ vars2) (upd rho i c))].
      apply (sum_over_ext R dimf _ (i :: bound)); auto. intros rho' EX. rewrite eqx_cons.
      assert (RI : rho' i = c) by (rewrite (EX i (or_introl eq_refl)); apply upd_eq).
      apply Nat.eqb_neq in NE. rewrite RI, NE. auto.
Qed.

(** *** Which coordinates are reached *)
Fixpoint bind_all (rs : list (ivar * kind)) (rho : ivar -> nat) (xs : list nat) : ivar -> nat :=
  match rs, xs with (i, _) :: rs, x :: xs => bind_all rs (upd rho i x) xs | _, _ => rho end.
Definition lmiss (loops : list ivar) (rho : ivar -> nat) (a : access) (l : nat) : bool :=
  inb (var_at (a_vars a) l) loops && match kind_at (a_vars a) l with KComp => true | KDense => false end &&
  match apos T rho (a_tensor a) (a_vars a) (S l) with None => true | Some _ => false end.
Definition pmiss (loops : list ivar) (rho : ivar -> nat) (a : access) : bool :=
  existsb (lmiss loops rho a) (seq 0 (length (a_vars a))).

Lemma bind_ext : forall rs rho xs j, ~ In j (map fst rs) -> bind_all rs rho xs j = rho j.
Proof.
  induction rs as [|[i k] rs IH]; intros rho xs j NI; auto. destruct xs as [|x xs]; auto.
  simpl in *. rewrite IH by tauto. apply upd_neq. intros ->. tauto.
Qed.
Lemma bind_at : forall rs rho xs l, NoDup (map fst rs) -> length xs = length rs -> l < length rs ->
  bind_all rs rho xs (var_at rs l) = nth l xs 0.
Proof.
  induction rs as [|[i k] rs IH]; intros rho xs l ND LX L; [simpl in L; lia|].
  destruct xs as [|x xs]; [discriminate|]. inversion ND; subst. simpl in LX. destruct l.
  - simpl. rewrite bind_ext by auto. apply upd_eq.
  - change (var_at ((i, k) :: rs) (S l)) with (var_at rs l). simpl. apply IH; auto; simpl in L; lia.
Qed.

Lemma path_zero : forall rs bound rho e xs,
  (forall a, In a (accesses e) -> wf_access T dimf (a_tensor a) (a_vars a) /\
     forall pre post, map fst rs = pre ++ post -> legal (rev pre ++ bound) (a_vars a)) ->
  NoDup (rev (map fst rs) ++ bound) -> length xs = length rs ->
  path T rs rho e xs =
  match zero (pmiss (map fst rs) (bind_all rs rho xs)) e with Some e1 => Some (bind_all rs rho xs, e1) | None => None end.
Proof.
  induction rs as [|[i k] rs IH]; intros bound rho e xs ACC ND LX.
  - destruct xs; [|discriminate]. simpl. rewrite zero_nothing'; auto. intros a Ha. unfold pmiss.
    apply not_true_iff_false. intros X. apply existsb_exists in X. destruct X as (l & _ & X). unfold lmiss in X.
    apply andb_true_iff in X. destruct X as [X _]. apply andb_true_iff in X. destruct X as [X _]. apply inb_In in X. destruct X.
  - destruct xs as [|x xs]; [discriminate|]. cbn [path bind_all map fst].
    simpl map in ND. simpl rev in ND. rewrite <- app_assoc in ND. simpl app in ND.
    assert (NI : ~ In i bound).
    { apply NoDup_remove_2 in ND. intros Hi. apply ND. apply in_app_iff. auto. }
    assert (DJ : forall v, In v (map fst rs) -> ~ In v (i :: bound)).
    { intros v Hv Hb. apply in_split in Hb. destruct Hb as (b1 & b2 & E). rewrite E in ND.
      rewrite app_assoc in ND. apply NoDup_remove_2 in ND. apply ND. rewrite in_app_iff, in_app_iff, <- in_rev. auto. }
    set (rho1 := bind_all rs (upd rho i x) xs).
    assert (EQ : zero (pmiss (i :: map fst rs) rho1) e = ozero (pmiss (map fst rs) rho1) (restrict i (stored T rho i x) e)).
    { unfold restrict. rewrite zero_compose. apply zero_ext. intros a Ha. destruct (ACC a Ha) as [Wa LG].
      assert (AB : absent i (stored T rho i x) a = existsb (fun l => (var_at (a_vars a) l =? i) &&
        match kind_at (a_vars a) l with KComp => true | KDense => false end &&
        match apos T rho1 (a_tensor a) (a_vars a) (S l) with None => true | Some _ => false end) (seq 0 (length (a_vars a)))).
      { assert (SAME : forall l, l < length (a_vars a) -> var_at (a_vars a) l = i -> kind_at (a_vars a) l = KComp ->
            apos T rho1 (a_tensor a) (a_vars a) (S l) = apos T (upd rho i x) (a_tensor a) (a_vars a) (S l)).
        { intros l L VA K. apply apos_ext. intros m M1 M2. unfold rho1. apply bind_ext. intros Hm.
          apply (DJ _ Hm). destruct (Nat.eq_dec m l) as [->|NM]; [rewrite VA; simpl; auto|].
          specialize (LG [i] (map fst rs) eq_refl). simpl in LG. apply (LG m l); [lia|auto|right; exact K|rewrite VA; simpl; auto]. }
        unfold absent, compressed, stored. destruct (find_level i a) as [l|] eqn:F.
        - assert (IX : index_of i (a_vars a) = Some l) by exact F. destruct (index_of_nth _ _ _ IX) as [LT VA].
          destruct (level_kind a l) eqn:K.
          + simpl. symmetry. apply not_true_iff_false. intros Y. apply existsb_exists in Y. destruct Y as (l' & L' & Y).
            apply in_seq in L'. apply andb_true_iff in Y. destruct Y as [Y _]. apply andb_true_iff in Y. destruct Y as [Y1 Y2].
            apply Nat.eqb_eq in Y1. assert (l' = l) by (apply (var_at_inj (a_vars a)); try apply Wa; try lia; congruence). subst l'.
            change (level_kind a l) with (kind_at (a_vars a) l) in K. rewrite K in Y2. discriminate.
          + change (level_kind a l) with (kind_at (a_vars a) l) in K. apply eq_true_iff_eq. rewrite existsb_exists. split.
            * intros Y. exists l. split; [apply in_seq; lia|]. rewrite VA, Nat.eqb_refl, K. simpl. rewrite SAME by auto.
              destruct (apos T (upd rho i x) (a_tensor a) (a_vars a) (S l)); [discriminate|auto].
            * intros (l' & L' & Y). apply in_seq in L'. apply andb_true_iff in Y. destruct Y as [Y Y3]. apply andb_true_iff in Y.
              destruct Y as [Y1 Y2]. apply Nat.eqb_eq in Y1.
              assert (l' = l) by (apply (var_at_inj (a_vars a)); try apply Wa; try lia; congruence). subst l'.
              rewrite SAME in Y3 by auto. destruct (apos T (upd rho i x) (a_tensor a) (a_vars a) (S l)); [discriminate|auto].
        - simpl. symmetry. apply not_true_iff_false. intros Y. apply existsb_exists in Y. destruct Y as (l' & L' & Y).
          apply in_seq in L'. apply andb_true_iff in Y. destruct Y as [Y _]. apply andb_true_iff in Y. destruct Y as [Y1 Y2].
          apply Nat.eqb_eq in Y1. apply (index_of_none _ _ l' F); auto; lia. }
      rewrite AB. unfold pmiss. clear - DJ. induction (seq 0 (length (a_vars a))) as [|l ls IHl]; auto. simpl. rewrite IHl.
      assert (IC : inb (var_at (a_vars a) l) (i :: map fst rs) = (var_at (a_vars a) l =? i) || inb (var_at (a_vars a) l) (map fst rs)).
      { apply eq_true_iff_eq. rewrite orb_true_iff, !inb_In, Nat.eqb_eq. simpl. split; intros [Y|Y]; auto. }
      unfold lmiss at 1 3. rewrite IC.
      destruct (var_at (a_vars a) l =? i), (inb (var_at (a_vars a) l) (map fst rs)); simpl; auto;
        destruct (kind_at (a_vars a) l); simpl; auto; destruct (apos T rho1 (a_tensor a) (a_vars a) (S l)); simpl; auto;
        rewrite ?orb_true_r; auto. }
    rewrite EQ. destruct (restrict i (stored T rho i x) e) as [e'|] eqn:RS; simpl; auto.
    apply (IH (i :: bound)); auto.
    intros a Ha. destruct (zero_accesses _ _ _ RS a Ha) as [Hae _]. destruct (ACC a Hae) as [Wa LG].
    split; auto. intros pre post E. specialize (LG (i :: pre) post). simpl rev in LG.
    rewrite <- app_assoc in LG. apply LG. simpl. congruence.
Qed.

(** *** No coordinate is visited twice *)
Lemma pairs_app : forall A (P : A -> A -> Prop) l1 l2, ForallOrdPairs P l1 -> ForallOrdPairs P l2 ->
  (forall a b, In a l1 -> In b l2 -> P a b) -> ForallOrdPairs P (l1 ++ l2).
Proof.
  induction l1 as [|x l1 IH]; intros l2 H1 H2 H; auto. inversion H1; subst. simpl. constructor.
  - apply Forall_app. split; auto. apply Forall_forall. intros b Hb. apply H; simpl; auto.
  - apply IH; auto. intros a b Ha. apply H. simpl; auto.
Qed.
Lemma visits_free : forall vars rho e v, In v (visits T dimf vars rho e) -> forall j, ~ In j vars -> fst v j = rho j.
Proof.
  induction vars as [|i vars IH]; intros rho e v H j J; simpl in H.
  - destruct H as [<-|[]]. auto.
  - apply in_flat_map in H. destruct H as (c & _ & H). destruct (restrict i (stored T rho i c) e) as [e'|]; [|destruct H].
    rewrite (IH _ _ _ H j) by (intros X; apply J; simpl; auto). apply upd_neq. intros ->. apply J. simpl. auto.
Qed.
Lemma visits_distinct : forall vars rho e, NoDup vars ->
  ForallOrdPairs (fun a b => exists v, In v vars /\ fst a v <> fst b v) (visits T dimf vars rho e).
Proof.
  induction vars as [|i vars IH]; intros rho e ND.
  - simpl. constructor; [constructor|constructor].
  - inversion ND; subst.
    assert (X : forall n, ForallOrdPairs (fun a b => exists v, In v (i :: vars) /\ fst a v <> fst b v) (visits_to T dimf vars rho e i n) /\
      forall a, In a (visits_to T dimf vars rho e i n) -> fst a i < n).
    { induction n as [|n [I1 I2]]; [split; [constructor|intros a []]|]. rewrite visits_to_S.
      assert (Y : forall a, In a (visit_step T dimf vars rho e i n) -> fst a i = n).
      { intros a Ha. unfold visit_step in Ha. destruct (restrict i (stored T rho i n) e) as [e'|]; [|destruct Ha].
        rewrite (visits_free _ _ _ _ Ha) by auto. apply upd_eq. }
      split.
      - apply pairs_app; auto.
        + unfold visit_step. destruct (restrict i (stored T rho i n) e) as [e'|]; [|constructor].
          assert (Z := IH (upd rho i n) e' H2). induction Z; constructor; auto.
          eapply Forall_impl; [|exact H]. intros b (v & Hv & N). exists v. simpl. auto.
        + intros a b Ha Hb. exists i. split; [simpl; auto|]. rewrite (Y b Hb). specialize (I2 a Ha). lia.
      - intros a Ha. apply in_app_iff in Ha. destruct Ha as [Ha|Ha]; [specialize (I2 a Ha); lia|rewrite (Y a Ha); lia]. }
    apply (X (dimf i)).
Qed.
End Path.
