(** What a lowered loop nest visits, and what the visited expressions mean. *)
From Coq Require Import List Arith Lia Bool Ring_theory Ring.
Import ListNotations.
From Verif Require Import Storage StorageProofs IndexExpr Eval EvalProofs Lattice LatticeSpec LatticeLoop
  LoopIR Lower Walk LowerBase LoopRule Nest.

Local Arguments inb : simpl never.

Section Visits.
Context {V : Type}.
Variable R : ring_ops V.
Variable fn : nat -> V -> V.
Variable T : nat -> storage V.
Variable dimf : ivar -> nat.

(** ** Specification *)
(** Value of an operand under an assignment of its index variables: the value
    stored in the tensor, zero if none is. *)
Definition denot (rho : ivar -> nat) (a : access) : V :=
  value_at (r0 R) (T (a_tensor a)) (map rho (map fst (a_vars a))).

(** Sum over [c < n]. *)
Fixpoint sum_n (n : nat) (f : nat -> V) : V :=
  match n with 0 => r0 R | S n => radd R (sum_n n f) (f n) end.

(** Sum over all values of the variables. *)
Fixpoint sum_over (vars : list ivar) (rho : ivar -> nat) (f : (ivar -> nat) -> V) : V :=
  match vars with
  | [] => f rho
  | i :: vs => sum_n (dimf i) (fun c => sum_over vs (upd rho i c) f)
  end.

(** ** The visits of a nest, in order *)
Fixpoint visits (vars : list ivar) (rho : ivar -> nat) (e : expr V) : list ((ivar -> nat) * expr V) :=
  match vars with
  | [] => [(rho, e)]
  | i :: vs =>
      flat_map (fun c => match restrict i (stored T rho i c) e with
                         | Some e' => visits vs (upd rho i c) e'
                         | None => []
                         end) (seq 0 (dimf i))
  end.

Definition visit_step (vs : list ivar) (rho : ivar -> nat) (e : expr V) (i c : nat) :=
  match restrict i (stored T rho i c) e with
  | Some e' => visits vs (upd rho i c) e'
  | None => []
  end.
Definition visits_to (vs : list ivar) (rho : ivar -> nat) (e : expr V) (i n : nat) :=
  flat_map (visit_step vs rho e i) (seq 0 n).

Lemma visits_to_S : forall vs rho e i n,
  visits_to vs rho e i (S n) = visits_to vs rho e i n ++ visit_step vs rho e i n.
Proof.
  intros. unfold visits_to. rewrite seq_S, flat_map_app. simpl. rewrite app_nil_r. auto.
Qed.

(** ** Meaning of the visited expressions *)
Lemma apos_length : forall rho t vs, apos T rho t vs (length vs) = walk (st_levels (T t)) 0 (map rho (map fst vs)).
Proof. intros. unfold apos. rewrite firstn_all. auto. Qed.

Lemma denot_pos : forall rho a, wf_access T dimf (a_tensor a) (a_vars a) ->
  denot rho a = match apos T rho (a_tensor a) (a_vars a) (length (a_vars a)) with
                | Some p => nth p (st_vals (T (a_tensor a))) (r0 R) | None => r0 R end.
Proof.
  intros rho a W. unfold denot, value_at. rewrite apos_length, locate_walk; auto.
  rewrite !map_length. symmetry. eapply wf_levels_len; eauto.
Qed.

Lemma apos_none_ge : forall rho t vs l m, apos T rho t vs l = None -> l <= m -> apos T rho t vs m = None.
Proof.
  intros rho t vs l m N L. unfold apos in *.
  destruct (walk (st_levels (T t)) 0 (map rho (map fst (firstn m vs)))) eqn:E; auto. exfalso.
  rewrite <- (firstn_skipn l (firstn m vs)), firstn_firstn, Nat.min_l in E by auto.
  rewrite !map_app in E. eapply walk_prefix; [|exact N]. rewrite E. discriminate.
Qed.

(** [rho'] extends [rho] on [bound]. *)
Definition extends (bound : list ivar) (rho rho' : ivar -> nat) : Prop := forall j, In j bound -> rho' j = rho j.

Lemma absent_zero : forall i bound rho c rho' a,
  wf_access T dimf (a_tensor a) (a_vars a) ->
  legal (i :: bound) (a_vars a) -> extends (i :: bound) (upd rho i c) rho' ->
  absent i (stored T rho i c) a = true -> denot rho' a = r0 R.
Proof.
  intros i bound rho c rho' a W LG EX AB. unfold absent, compressed, stored in AB.
  rewrite (denot_pos rho' a W).
  destruct (find_level i a) as [l|] eqn:F; [|discriminate].
  destruct (level_kind a l) eqn:K; [discriminate|].
  destruct (apos T (upd rho i c) (a_tensor a) (a_vars a) (S l)) eqn:AP; [discriminate|].
  assert (X : index_of i (a_vars a) = Some l) by exact F.
  destruct (index_of_nth _ _ _ X) as [LT VA].
  assert (AP' : apos T rho' (a_tensor a) (a_vars a) (S l) = None).
  { rewrite <- AP. apply apos_ext. intros m M1 M2. apply EX.
    destruct (Nat.eq_dec m l) as [->|N]; [rewrite VA; simpl; auto|].
    apply (LG m l); [lia|auto|right; exact K|rewrite VA; simpl; auto]. }
  rewrite (apos_none_ge _ _ _ _ (length (a_vars a)) AP'); auto.
Qed.

Section Ring.
Hypothesis HR : ring_theory (r0 R) (r1 R) (radd R) (rmul R) (rsub R) (ropp R) eq.
Hypothesis fn0 : forall f, fn f (r0 R) = r0 R.
Add Ring Vring : HR.

(** At a coordinate of one loop: the expression left over has the value of the
    whole, and if none is left the whole is zero, whatever the inner
    variables are. *)
Lemma restrict_eval : forall i bound rho c rho' e,
  (forall a, In a (accesses e) -> wf_access T dimf (a_tensor a) (a_vars a) /\ legal (i :: bound) (a_vars a)) ->
  extends (i :: bound) (upd rho i c) rho' ->
  oeval R fn (denot rho') (restrict i (stored T rho i c) e) = eval R fn (denot rho') e.
Proof.
  intros i bound rho c rho' e ACC EX. apply zero_eval; auto. intros a Ha Z. destruct (ACC a Ha) as [W LG].
  eapply absent_zero; eauto.
Qed.

Lemma sum_n_ext : forall n f g, (forall c, c < n -> f c = g c) -> sum_n n f = sum_n n g.
Proof. induction n; simpl; intros f g H; auto. rewrite (IHn f g), (H n); auto. Qed.
Lemma sum_n_zero : forall n, sum_n n (fun _ => r0 R) = r0 R.
Proof. induction n; simpl; auto. rewrite IHn. ring. Qed.
Lemma sum_over_ext : forall vars bound rho f g,
  (forall rho', extends bound rho rho' -> f rho' = g rho') -> (forall v, In v vars -> ~ In v bound) ->
  sum_over vars rho f = sum_over vars rho g.
Proof.
  induction vars; simpl; intros bound rho f g H N.
  - apply H. intros j Hj; auto.
  - apply sum_n_ext. intros c C. apply (IHvars bound); auto.
    intros rho' EX. apply H. intros j Hj. rewrite (EX j Hj), upd_neq; auto.
    intros ->. apply (N a); auto.
Qed.
Lemma sum_over_zero : forall vars rho, sum_over vars rho (fun _ => r0 R) = r0 R.
Proof.
  induction vars; simpl; intros; auto. rewrite (sum_n_ext _ _ (fun _ => r0 R)); auto. apply sum_n_zero.
Qed.

Fixpoint sum_list (l : list V) : V := match l with [] => r0 R | x :: t => radd R x (sum_list t) end.
Lemma sum_list_app : forall l1 l2, sum_list (l1 ++ l2) = radd R (sum_list l1) (sum_list l2).
Proof. induction l1; simpl; intros; [ring|]. rewrite IHl1. ring. Qed.
Lemma sum_list_flat : forall A (f : nat -> list A) (g : A -> V) n,
  sum_list (map g (flat_map f (seq 0 n))) = sum_n n (fun c => sum_list (map g (f c))).
Proof.
  induction n; [reflexivity|]. rewrite seq_S, flat_map_app, map_app, sum_list_app, IHn. simpl.
  rewrite app_nil_r. auto.
Qed.

(** Summing over the visits is summing over everything. *)
Theorem visits_sum : forall vars bound rho e (sel : (ivar -> nat) -> bool),
  (forall a, In a (accesses e) -> wf_access T dimf (a_tensor a) (a_vars a) /\
     forall pre post, vars = pre ++ post -> legal (rev pre ++ bound) (a_vars a)) ->
  NoDup (rev vars ++ bound) ->
  sum_list (map (fun v => if sel (fst v) then eval R fn (denot (fst v)) (snd v) else r0 R) (visits vars rho e)) =
  sum_over vars rho (fun rho' => if sel rho' then eval R fn (denot rho') e else r0 R).
Proof.
  induction vars as [|i vars IH]; intros bound rho e sel ACC ND.
  - simpl. ring.
  - simpl visits. rewrite sum_list_flat. cbn [sum_over]. apply sum_n_ext. intros c C.
    simpl rev in ND. rewrite <- app_assoc in ND. simpl app in ND.
    assert (DJ : forall v, In v vars -> ~ In v (i :: bound)).
    { intros v Hv Hb. apply in_split in Hb. destruct Hb as (b1 & b2 & E). rewrite E in ND.
      rewrite app_assoc in ND. apply NoDup_remove_2 in ND. apply ND. rewrite !in_app_iff, <- in_rev. auto. }
    assert (RE : forall rho', extends (i :: bound) (upd rho i c) rho' ->
       oeval R fn (denot rho') (restrict i (stored T rho i c) e) = eval R fn (denot rho') e).
    { intros rho' EX. apply (restrict_eval i bound); auto. intros a Ha. destruct (ACC a Ha) as [W LG].
      split; auto. apply (LG [i] vars); auto. }
    destruct (restrict i (stored T rho i c) e) as [e'|] eqn:RS.
    + rewrite (IH (i :: bound)); auto.
      * apply (sum_over_ext vars (i :: bound)); auto. intros rho' EX. destruct (sel rho'); auto.
        exact (RE rho' EX).
      * intros a Ha. destruct (zero_accesses _ _ _ RS a Ha) as [Hae _]. destruct (ACC a Hae) as [W LG].
        split; auto. intros pre post E. specialize (LG (i :: pre) post). simpl rev in LG.
        rewrite <- app_assoc in LG. apply LG. simpl. congruence.
    + simpl. etransitivity; [symmetry; apply (sum_over_zero vars (upd rho i c))|]. apply (sum_over_ext vars (i :: bound)); auto.
      intros rho' EX. rewrite <- (RE rho' EX). simpl. destruct (sel rho'); auto.
Qed.
End Ring.

(** ** Which coordinates are visited *)
(** All assignments of the variables, outermost variable slowest, each
    variable counting up. *)
Fixpoint assigns (vars : list ivar) (rho : ivar -> nat) : list (ivar -> nat) :=
  match vars with
  | [] => [rho]
  | i :: vs => flat_map (fun c => assigns vs (upd rho i c)) (seq 0 (dimf i))
  end.

(** An operand that stores nothing at the assigned coordinate. *)
Definition missing (rho : ivar -> nat) (a : access) : bool :=
  match locate (st_levels (T (a_tensor a))) 0 (map rho (map fst (a_vars a))) with
  | Some _ => false
  | None => true
  end.

(** The part of [e] left when the operands that store nothing at the assigned
    coordinate are zero. *)
Definition support (e : expr V) (rho : ivar -> nat) : list ((ivar -> nat) * expr V) :=
  match zero (missing rho) e with Some e' => [(rho, e')] | None => [] end.

Lemma zero_compose : forall z z' (e : expr V),
  ozero z' (zero z e) = zero (fun a => z a || z' a) e.
Proof.
  induction e; simpl; auto.
  - destruct (z a); simpl; auto.
  - rewrite <- IHe. destruct (zero z e); simpl; auto.
  - rewrite <- IHe. destruct (zero z e); simpl; auto.
  - rewrite <- IHe1, <- IHe2. destruct (zero z e1), (zero z e2); simpl; auto;
      repeat match goal with |- context [zero z' ?x] => destruct (zero z' x) end; auto.
  - rewrite <- IHe1, <- IHe2. destruct (zero z e1), (zero z e2); simpl; auto;
      repeat match goal with |- context [zero z' ?x] => destruct (zero z' x) end; auto.
  - rewrite <- IHe1, <- IHe2. destruct (zero z e1), (zero z e2); simpl; auto;
      repeat match goal with |- context [zero z' ?x] => destruct (zero z' x) end; auto.
Qed.

Lemma zero_ext : forall z z' (e : expr V), (forall a, In a (accesses e) -> z a = z' a) -> zero z e = zero z' e.
Proof.
  induction e; simpl; intros H; auto;
    try (rewrite IHe by auto; auto; fail);
    try (rewrite IHe1, IHe2 by (intros; apply H, in_app_iff; auto); auto; fail).
  rewrite H; auto.
Qed.

Lemma zero_nothing' : forall z (x : expr V), (forall a, In a (accesses x) -> z a = false) -> zero z x = Some x.
Proof.
  induction x; simpl; intros H; auto;
    try (rewrite IHx by auto; reflexivity);
    try (rewrite IHx1, IHx2 by (intros; apply H, in_app_iff; auto); reflexivity).
  rewrite H; auto.
Qed.

Lemma missing_apos : forall rho a, wf_access T dimf (a_tensor a) (a_vars a) ->
  missing rho a = match apos T rho (a_tensor a) (a_vars a) (length (a_vars a)) with Some _ => false | None => true end.
Proof.
  intros rho a W. unfold missing. rewrite apos_length, locate_walk; auto.
  rewrite !map_length. symmetry. eapply wf_levels_len; eauto.
Qed.

Lemma flat_map_nil : forall A B (f : A -> list B) l, (forall x, In x l -> f x = []) -> flat_map f l = [].
Proof. induction l; simpl; intros H; auto. rewrite H, IHl; auto. Qed.

Lemma flat_map_flat : forall A B C (f : A -> list B) (g : B -> list C) l,
  flat_map g (flat_map f l) = flat_map (fun x => flat_map g (f x)) l.
Proof. induction l; simpl; auto. rewrite flat_map_app, IHl. auto. Qed.

Lemma flat_map_ext_in : forall A B (f g : A -> list B) l, (forall x, In x l -> f x = g x) -> flat_map f l = flat_map g l.
Proof. induction l; simpl; intros H; auto. rewrite H, IHl; auto. Qed.

Lemma assigns_ext : forall vars bound rho rho', In rho' (assigns vars rho) ->
  (forall v, In v vars -> ~ In v bound) -> extends bound rho rho'.
Proof.
  induction vars; simpl; intros bound rho rho' H N.
  - destruct H as [<-|[]]. intros j; auto.
  - apply in_flat_map in H. destruct H as (c & Hc & H). intros j Hj.
    rewrite (IHvars bound _ _ H); auto. apply upd_neq. intros ->. apply (N a); auto.
Qed.

(** The loops visit the supported coordinates: exactly those, in lexicographic
    order of the loop variables, with the operands that are zero there removed. *)
Theorem visits_spec : forall vars bound rho e,
  (forall a, In a (accesses e) -> wf_access T dimf (a_tensor a) (a_vars a) /\
     (forall pre post, vars = pre ++ post -> legal (rev pre ++ bound) (a_vars a)) /\
     (forall l, l < length (a_vars a) -> In (var_at (a_vars a) l) (rev vars ++ bound))) ->
  NoDup (rev vars ++ bound) ->
  (forall j, In j bound -> rho j < dimf j) ->
  (forall a l, In a (accesses e) -> l < length (a_vars a) -> In (var_at (a_vars a) l) bound ->
     kind_at (a_vars a) l = KComp -> apos T rho (a_tensor a) (a_vars a) (S l) <> None) ->
  visits vars rho e = flat_map (support e) (assigns vars rho).
Proof.
  induction vars as [|i vars IH]; intros bound rho e ACC ND DIM ST.
  - simpl. rewrite app_nil_r. unfold support. rewrite zero_nothing'; auto.
    intros a Ha. destruct (ACC a Ha) as (W & _ & CV). rewrite missing_apos by auto.
    assert (X : forall l, l <= length (a_vars a) -> apos T rho (a_tensor a) (a_vars a) l <> None).
    { induction l; intros L; [unfold apos; simpl; congruence|].
      destruct (kind_at (a_vars a) l) eqn:K.
      - destruct (wf_level_get T dimf _ _ l W ltac:(lia)) as (lv & NE & KE & OK).
        rewrite (apos_S T dimf rho _ _ l lv W) by (auto; lia).
        destruct (apos T rho (a_tensor a) (a_vars a) l) as [q|] eqn:AP; [|exfalso; apply IHl; auto; lia].
        specialize (OK rho q AP). rewrite K in KE. destruct lv as [d|]; [|discriminate]. simpl in *. subst d.
        assert (D : rho (var_at (a_vars a) l) < dimf (var_at (a_vars a) l)) by (apply DIM, CV; lia).
        apply Nat.ltb_lt in D. rewrite D. discriminate.
      - apply ST; auto. }
    specialize (X (length (a_vars a)) (le_n _)). destruct (apos T rho (a_tensor a) (a_vars a) (length (a_vars a))); congruence.
  - cbn [visits assigns]. rewrite flat_map_flat. apply flat_map_ext_in. intros c Hc. apply in_seq in Hc.
    simpl rev in ND. rewrite <- app_assoc in ND. simpl app in ND.
    assert (NI : ~ In i bound).
    { apply NoDup_remove_2 in ND. intros Hi. apply ND. apply in_app_iff. auto. }
    assert (DJ : forall v, In v vars -> ~ In v (i :: bound)).
    { intros v Hv Hb. apply in_split in Hb. destruct Hb as (b1 & b2 & E). rewrite E in ND.
      rewrite app_assoc in ND. apply NoDup_remove_2 in ND. apply ND. rewrite !in_app_iff, <- in_rev. auto. }
    assert (CMP : forall rho', In rho' (assigns vars (upd rho i c)) ->
       ozero (missing rho') (restrict i (stored T rho i c) e) = zero (missing rho') e).
    { intros rho' HA. unfold restrict. rewrite zero_compose. apply zero_ext. intros a Ha.
      destruct (ACC a Ha) as (W & LG & _).
      destruct (absent i (stored T rho i c) a) eqn:AB; auto. simpl. symmetry.
      rewrite missing_apos by auto. unfold absent, compressed, stored in AB.
      destruct (find_level i a) as [l|] eqn:F; [|discriminate].
      destruct (level_kind a l) eqn:K; [discriminate|].
      destruct (apos T (upd rho i c) (a_tensor a) (a_vars a) (S l)) eqn:AP; [discriminate|].
      assert (X : index_of i (a_vars a) = Some l) by exact F.
      destruct (index_of_nth _ _ _ X) as [LT VA].
      assert (AP' : apos T rho' (a_tensor a) (a_vars a) (S l) = None).
      { rewrite <- AP. apply apos_ext. intros m M1 M2.
        apply (assigns_ext vars (i :: bound)); auto.
        destruct (Nat.eq_dec m l) as [->|N]; [rewrite VA; simpl; auto|].
        specialize (LG [i] vars eq_refl). simpl in LG.
        apply (LG m l); [lia|auto|right; exact K|rewrite VA; simpl; auto]. }
      rewrite (apos_none_ge _ _ _ _ (length (a_vars a)) AP'); auto. }
    destruct (restrict i (stored T rho i c) e) as [e'|] eqn:RS.
    + rewrite (IH (i :: bound)); auto.
      * apply flat_map_ext_in. intros rho' HA. unfold support. rewrite <- (CMP rho' HA). auto.
      * intros a Ha. destruct (zero_accesses _ _ _ RS a Ha) as [Hae _]. destruct (ACC a Hae) as (W & LG & CV).
        split; auto. split.
        -- intros pre post E. specialize (LG (i :: pre) post). simpl rev in LG.
           rewrite <- app_assoc in LG. apply LG. simpl. congruence.
        -- intros l Hl. specialize (CV l Hl). simpl rev in CV. rewrite <- app_assoc in CV. exact CV.
      * intros j [<-|Hj]; [rewrite upd_eq; lia|]. rewrite upd_neq by (intros ->; contradiction). auto.
      * intros a l Ha L Hb K. destruct (zero_accesses _ _ _ RS a Ha) as [Hae AB].
        destruct (ACC a Hae) as (W & LG & CV). destruct Hb as [Hi|Hb].
        -- unfold absent, compressed, stored in AB.
           assert (F : find_level i a = Some l).
           { unfold find_level. destruct (index_of i (a_vars a)) as [m|] eqn:IX.
             - destruct (index_of_nth _ _ _ IX) as [LT VA]. f_equal. apply (var_at_inj (a_vars a)); auto; [apply W|congruence].
             - exfalso. apply (index_of_none _ _ l IX L). auto. }
           rewrite F in AB. change (level_kind a l) with (kind_at (a_vars a) l) in AB. rewrite K in AB.
           destruct (apos T (upd rho i c) (a_tensor a) (a_vars a) (S l)); [discriminate|]. simpl in AB. discriminate.
        -- rewrite (apos_ext T _ rho); [apply ST; auto|]. intros m M1 M2.
           apply upd_neq. intros E. apply NI. rewrite <- E.
           destruct (Nat.eq_dec m l) as [->|N]; auto.
           specialize (LG [] (i :: vars) eq_refl). simpl in LG. apply (LG m l); auto; lia.
    + symmetry. apply flat_map_nil. intros rho' HA. unfold support. rewrite <- (CMP rho' HA). auto.
Qed.
End Visits.
