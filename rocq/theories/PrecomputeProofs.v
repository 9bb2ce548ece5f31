(** Hoisting a sub-expression keeps the result (C24). *)
From Coq Require Import List Arith Lia Bool Ring_theory Ring Permutation.
Import ListNotations.
From Verif Require Import IndexExpr Eval Notation NotationSpec NotationProofs NotationRun NotationConv NotationConc Transform PromoteProofs Precompute PrecomputeSpec.
Local Open Scope nat_scope.

Lemma mem_false : forall i l, mem i l = false <-> ~ In i l.
Proof. intros. rewrite <- mem_In. destruct (mem i l); split; intros; congruence. Qed.

(** *** Index set relations *)
Lemma rel_sum : forall lv rv k, In k rv -> ~ In k lv -> (lv = [] \/ exists v, In v lv /\ In v rv) ->
  rel_op (getIndexSetRel lv rv) = Some RSum.
Proof.
  intros lv rv k K N S. unfold getIndexSetRel.
  set (ls := nodup Nat.eq_dec lv). set (rs := nodup Nat.eq_dec rv).
  assert (LT : length (filter (fun v => mem v ls) rs) < length rs).
  { assert (Kr : In k rs) by (apply nodup_In; auto). assert (Nl : mem k ls = false) by (apply mem_false; unfold ls; rewrite nodup_In; auto).
    clearbody ls rs. clear - Kr Nl. induction rs as [|x rs IH]; [destruct Kr|]. cbn [filter length].
    assert (LE : length (filter (fun v => mem v ls) rs) <= length rs) by (clear; induction rs; cbn; [lia|]; destruct (mem a ls); cbn; lia).
    destruct Kr as [->|Kr]; [rewrite Nl; lia|]. specialize (IH Kr). destruct (mem x ls); cbn [length]; lia. }
  assert (LE : length (filter (fun v => mem v ls) rs) <= length ls).
  { apply NoDup_incl_length. { apply NoDup_filter. apply NoDup_nodup. } intros v I. apply filter_In in I as [_ I]. apply mem_In in I. auto. }
  destruct S as [->|(v & Vl & Vr)].
  - cbn in ls. subst ls. cbn. assert (E : filter (fun v => mem v []) rs = []). { clear. induction rs; cbn; auto. }
    cbn [mem existsb] in *. replace (filter (fun _ => false) rs) with (@nil ivar) by (clear; induction rs; cbn; auto). cbn. auto.
  - assert (P : length (filter (fun v => mem v ls) rs) <> 0).
    { intro Z. apply length_zero_iff_nil in Z. assert (I : In v (filter (fun v => mem v ls) rs)).
      { apply filter_In. split; [apply nodup_In; auto|]. apply mem_In. apply nodup_In; auto. } rewrite Z in I. destruct I. }
    destruct (Nat.eqb_spec (length (filter (fun v => mem v ls) rs)) 0) as [|_]; [contradiction|].
    destruct (Nat.ltb_spec (length (filter (fun v => mem v ls) rs)) (length ls)) as [L1|L1];
    destruct (Nat.eqb_spec (length (filter (fun v => mem v ls) rs)) (length rs)) as [|_]; try lia; cbn [andb].
    + apply Nat.ltb_lt in LT. rewrite LT. cbn. auto.
    + assert (E : length (filter (fun v => mem v ls) rs) = length ls) by lia. apply Nat.ltb_lt in LT. rewrite LT.
      rewrite E. rewrite Nat.eqb_refl. cbn. auto.
Qed.
Lemma rel_op_cases : forall lv rv, rel_op (getIndexSetRel lv rv) = None \/ rel_op (getIndexSetRel lv rv) = Some RSum.
Proof. intros. destruct (getIndexSetRel lv rv); cbn; auto. Qed.

(** *** Substitution of variables *)
Lemma sub_out : forall ivs iws v, ~ In v ivs -> sub_var ivs iws v = v.
Proof.
  induction ivs as [|i ivs IH]; intros [|w iws] v N; cbn; auto. destruct (Nat.eqb_spec v i) as [->|]; [exfalso; apply N; left; auto|].
  apply IH. intro; apply N; right; auto.
Qed.
Lemma sub_map : forall ivs iws, NoDup ivs -> length iws = length ivs -> map (sub_var ivs iws) ivs = iws.
Proof.
  induction ivs as [|i ivs IH]; intros [|w iws] N L; try discriminate; auto. inversion N; subst. cbn. rewrite Nat.eqb_refl. f_equal.
  transitivity (map (sub_var ivs iws) ivs); [|apply IH; auto]. apply map_ext_in. intros a I. destruct (Nat.eqb_spec a i); congruence.
Qed.
Lemma sub_in : forall ivs iws v, length iws = length ivs -> In v ivs -> In (sub_var ivs iws v) iws.
Proof.
  induction ivs as [|i ivs IH]; intros [|w iws] v L I; try discriminate; [destruct I|]. cbn. destruct (Nat.eqb_spec v i); auto.
  right. apply IH; auto. destruct I; congruence.
Qed.
Lemma sub_inj : forall ivs iws a b, NoDup ivs -> NoDup iws -> length iws = length ivs -> In a ivs -> In b ivs ->
  sub_var ivs iws a = sub_var ivs iws b -> a = b.
Proof.
  induction ivs as [|i ivs IH]; intros [|w iws] a b N N' L Ia Ib E; try discriminate; [destruct Ia|]. inversion N; inversion N'; subst. cbn in *.
  assert (L' : length iws = length ivs) by lia.
  destruct (Nat.eqb_spec a i) as [->|Na], (Nat.eqb_spec b i) as [->|Nb]; auto.
  - exfalso. destruct Ib as [|Ib]; [congruence|]. apply H5. rewrite E. apply sub_in; auto.
  - exfalso. destruct Ia as [|Ia]; [congruence|]. apply H5. rewrite <- E. apply sub_in; auto.
  - apply (IH iws); auto; [destruct Ia|destruct Ib]; congruence.
Qed.
Lemma sub_back : forall ivs iws v, NoDup ivs -> NoDup iws -> length iws = length ivs -> In v ivs -> sub_var iws ivs (sub_var ivs iws v) = v.
Proof.
  induction ivs as [|i ivs IH]; intros [|w iws] v N N' L I; try discriminate; [destruct I|]. inversion N; inversion N'; subst. cbn in *.
  assert (L' : length iws = length ivs) by lia.
  destruct (Nat.eqb_spec v i) as [->|Nv]; [rewrite Nat.eqb_refl; auto|]. destruct I as [|I]; [congruence|].
  destruct (Nat.eqb_spec (sub_var ivs iws v) w) as [E|]; [|auto]. exfalso. apply H5. rewrite <- E. apply sub_in; auto.
Qed.

(** *** Loops *)
Section S.
Context {V : Type}.
Notation expr := (nexpr V).
Notation stmt := (nstmt V).
Lemma gen_foralls : forall l (s : stmt), generateForalls s l = foralls (rev l) s.
Proof. intros. unfold generateForalls, foralls. rewrite <- fold_left_rev_right. auto. Qed.

Lemma rep0 : forall n p, repeat 0 n ++ 0 :: p = 0 :: repeat 0 n ++ p.
Proof. induction n; cbn; intros; auto. rewrite IHn. auto. Qed.
Lemma nest_bottom : forall is (s b : stmt), nest_of is s b -> forall t vs op x p, b = NAssign t vs op x ->
  bottom p s = Some (repeat 0 (S (length is)) ++ p, t, vs, x) /\ nest_vars s = is /\ contains_where s = false.
Proof.
  induction 1; intros t vs op x p ->.
  - cbn. auto.
  - cbn [bottom nest_vars contains_where length]. destruct (IHnest_of t vs op x (0 :: p) eq_refl) as (-> & -> & ->). repeat split; auto.
    cbn [repeat app]. rewrite rep0. auto.
Qed.

Lemma redundant_foralls : forall anc is ctx (s : stmt), rewrite_redundant anc ctx (foralls is s) = foralls is (rewrite_redundant anc (rev is ++ ctx) s).
Proof.
  induction is as [|i is IH]; intros ctx s; auto. cbn [foralls fold_right rewrite_redundant]. f_equal. fold (foralls is s). rewrite IH.
  cbn [rev]. rewrite <- app_assoc. auto.
Qed.

Lemma acc_vars_vars : forall e : expr, red_vars e = [] -> acc_vars e = vars e.
Proof.
  induction e; cbn; intros H; auto; try discriminate; apply app_eq_nil in H as [A B]; rewrite IHe1, IHe2; auto.
Qed.

Lemma replace_same : forall same (e : expr) x p, marks same e p x -> replace_at same e p x = x.
Proof.
  intros same e. induction x; intros p; cbn [marks replace_at]; destruct (same p) eqn:E; intros M; auto; try (rewrite IHx; auto);
    destruct M; rewrite IHx1, IHx2; auto.
Qed.
Lemma replaces_marked : forall same (x : expr) p, replaces same p x = true <-> marked same p x.
Proof.
  intros same. induction x; intros p; cbn [replaces marked]; rewrite ?orb_true_iff, ?IHx, ?IHx1, ?IHx2; intuition congruence.
Qed.
Lemma not_marked_same : forall same w (x : expr) p, ~ marked same p x -> replace_at same w p x = x.
Proof.
  intros same w. induction x; intros p N; cbn [marked replace_at] in *; destruct (same p) eqn:E; try (exfalso; auto; fail); auto;
   try (rewrite IHx; auto; fail); rewrite IHx1, IHx2; auto.
Qed.
Lemma red_replace : forall same (w : expr), red_vars w = [] -> forall x p, red_vars x = [] -> red_vars (replace_at same w p x) = [].
Proof.
  intros same w W. induction x; intros p H; cbn [replace_at red_vars] in *; destruct (same p); auto; try discriminate; cbn [red_vars]; auto;
    apply app_eq_nil in H as [A B]; rewrite IHx1, IHx2; auto.
Qed.
Lemma replace_vars : forall same (w : expr) x p, red_vars x = [] -> forall v,
  In v (vars (replace_at same w p x)) <-> In v (rest_vars same p x) \/ (marked same p x /\ In v (vars w)).
Proof.
  intros same w. induction x; intros p H u; cbn [replace_at rest_vars marked red_vars] in *; destruct (same p) eqn:E;
    try (cbn; intuition congruence); try discriminate; cbn [vars]; auto.
  all: try (rewrite IHx by auto; intuition congruence).
  all: apply app_eq_nil in H as [A B]; rewrite !in_app_iff, IHx1, IHx2 by auto; intuition congruence.
Qed.
Lemma rest_not_marked : forall same (x : expr) p, red_vars x = [] -> ~ marked same p x -> rest_vars same p x = vars x.
Proof.
  intros same. induction x; intros p H N; cbn [rest_vars marked red_vars vars] in *; destruct (same p) eqn:E; try (exfalso; auto; fail); auto; try discriminate;
    apply app_eq_nil in H as [A B]; rewrite IHx1, IHx2; auto.
Qed.
Lemma rest_in : forall same (x : expr) p, red_vars x = [] -> forall v, In v (rest_vars same p x) -> In v (vars x).
Proof.
  intros same. induction x; intros p H u; cbn [rest_vars red_vars vars] in *; destruct (same p) eqn:E; cbn; try tauto; try discriminate; auto; eauto.
  all: apply app_eq_nil in H as [A B]; rewrite !in_app_iff; intros [I|I]; eauto.
Qed.
Lemma marked_facts : forall same (e : expr) x p, marks same e p x -> marked same p x -> red_vars x = [] ->
  red_vars e = [] /\ (forall v, In v (vars e) -> In v (vars x)) /\ (forall t, In t (reads e) -> In t (reads x)).
Proof.
  intros same e. induction x; intros p M K H; cbn [marks marked red_vars vars reads] in *; destruct (same p) eqn:E;
    try (subst e; cbn; repeat split; auto; fail); try (exfalso; intuition congruence); try discriminate.
  1,2: destruct K as [|K]; [discriminate|]; eauto.
  all: apply app_eq_nil in H as [A B]; destruct M as [M1 M2]; destruct K as [|[K|K]]; [discriminate| |].
  all: try (destruct (IHx1 _ M1 K A) as (? & ? & ?); repeat split; auto; intros; apply in_app_iff; auto; fail).
  all: destruct (IHx2 _ M2 K B) as (? & ? & ?); repeat split; auto; intros; apply in_app_iff; auto.
Qed.
Lemma red_sub : forall f (e : expr), red_vars e = [] -> red_vars (sub_vars f e) = [].
Proof. intros f. induction e; cbn; intros H; auto; try discriminate; apply app_eq_nil in H as [A B]; rewrite IHe1, IHe2; auto. Qed.
Lemma vars_sub : forall f (e : expr), red_vars e = [] -> vars (sub_vars f e) = map f (vars e).
Proof. intros f. induction e; cbn; intros H; auto; try discriminate; apply app_eq_nil in H as [A B]; rewrite IHe1, IHe2, map_app; auto. Qed.
Lemma reads_sub : forall f (e : expr), reads (sub_vars f e) = reads e.
Proof. intros f. induction e; cbn; auto; congruence. Qed.

(** *** Distribution of the loops *)
Lemma distribute_ok : forall ivs iws cv pv outer inner,
  (forall i, In i inner -> In i ivs \/ ~ (In i pv /\ In i cv)) ->
  (forall i, hd_error outer = Some i -> ~ In i ivs /\ In i pv /\ In i cv) ->
  distribute ivs iws cv pv (inner ++ outer) =
    (outer, filter (fun i => mem i ivs || mem i cv) inner, map (sub_var ivs iws) (filter (fun i => mem i ivs || mem i pv) inner)).
Proof.
  intros ivs iws cv pv outer. induction inner as [|i inner IH]; intros H O.
  - cbn. destruct outer as [|i o]; auto. destruct (O i eq_refl) as (A & B & C). cbn [distribute].
    apply mem_false in A. apply mem_In in B. apply mem_In in C. rewrite A, B, C. auto.
  - cbn [app distribute filter]. rewrite IH by (auto; intros; apply H; right; auto).
    destruct (mem i ivs) eqn:Ei; cbn [orb map]; auto.
    destruct (mem i pv) eqn:Ep, (mem i cv) eqn:Ec; cbn [andb map]; auto.
    + exfalso. destruct (H i) as [I|N]; [left; auto| |].
      * apply mem_In in I. congruence.
      * apply N. split; apply mem_In; auto.
    + rewrite sub_out; auto. apply mem_false. auto.
Qed.
End S.
