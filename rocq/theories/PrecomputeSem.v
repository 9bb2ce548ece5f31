(** Hoisting a sub-expression keeps the result (C24): values. *)
From Coq Require Import List Arith Lia Bool Ring_theory Ring Permutation.
Import ListNotations.
From Verif Require Import IndexExpr Eval Notation NotationSpec NotationProofs NotationRun NotationConv NotationConc Transform PromoteProofs Precompute PrecomputeSpec PrecomputeProofs.
From Verif Require LatticeProofs.
Local Open Scope nat_scope.

Section P.
Context {V : Type}.
Variable R : ring_ops V.
Hypothesis RT : ring_theory (r0 R) (r1 R) (radd R) (rmul R) (rsub R) (ropp R) eq.
Variable fn : nat -> V -> V.
Variable dv : V -> V -> V.
Variable dim : ivar -> nat.
Add Ring Rr24 : RT.

Notation "0r" := (r0 R). Notation "a +r b" := (radd R a b) (at level 50, left associativity).
Notation ev := (neval R fn dv dim).
Notation run := (run R fn dv dim).
Notation ups := (ups R fn dv dim).
Notation apply := (apply R).
Notation sumv := (sumv R).
Notation expr := (nexpr V).
Notation stmt := (nstmt V).
Notation store := (@store V).
Notation sum := (sum R).
Notation so := (sum_over R dim).

Definition reds (P : list ivar) (e : expr) : expr := fold_right (NRed RSum) e P.
Lemma reds_value : forall P e T r, ev T r (reds P e) = so P (fun r => ev T r e) r.
Proof. induction P as [|i P IH]; intros e T r; auto. cbn. apply sum_ext. intros c _. apply IH. Qed.

Lemma nest_ups : forall is (s b : stmt), nest_of is s b -> forall r T x, ups s r T x = ups (foralls is b) r T x.
Proof. induction 1; intros r T x; auto. cbn. rewrite !flat_map_concat_map. f_equal. apply map_ext. intros c. apply IHnest_of. Qed.
Lemma nest_res : forall is (s b : stmt), nest_of is s b -> res s = res b /\ rhs_reads s = rhs_reads b /\ temps s = temps b.
Proof. induction 1; auto. Qed.

(** *** Sums are linear *)
Lemma so_scale_l : forall P f a r, (forall r i c, In i P -> a (ext r i c) = a r) -> so P (fun r => rmul R (a r) (f r)) r = rmul R (a r) (so P f r).
Proof.
  induction P as [|i P IH]; intros f a r H; auto. cbn [sum_over]. rewrite <- (sum_scale R RT). apply sum_ext. intros c _.
  rewrite IH by (intros; apply H; right; auto). rewrite H by (left; auto). auto.
Qed.
Lemma ev_fixed : forall (e : expr) T r i c, ~ In i (vars e) -> ev T (ext r i c) e = ev T r e.
Proof. intros. apply neval_ext; auto. intros j J. apply ext_other. intro; subst; auto. Qed.

Lemma factor_value : forall P same e T x p, marks same e p x -> factor same p x -> red_vars x = [] ->
  (forall i, In i P -> ~ In i (rest_vars same p x)) ->
  forall r, ev T r (replace_at same (reds P e) p x) = so P (fun r => ev T r x) r.
Proof.
  intros P same e T. induction x; intros p M F NR D r; cbn [marks factor replace_at rest_vars red_vars] in *;
    destruct (same p) eqn:E; try (subst; apply reds_value); try (exfalso; intuition congruence).
  - destruct F as [|F]; [discriminate|]. cbn [neval]. rewrite IHx by auto. rewrite (so_opp R RT). auto.
  - destruct F as [|F]; [discriminate|]. destruct M as [M1 M2]. apply app_eq_nil in NR as [N1 N2]. destruct F as [[F N]|[N F]].
    + rewrite (not_marked_same same (reds P e) x2) by auto. cbn [neval]. rewrite IHx1 by (auto; intros i I J; apply (D i I); apply in_app_iff; auto).
      rewrite (so_ext R dim P (fun r => rmul R (ev T r x1) (ev T r x2)) (fun r => rmul R (ev T r x2) (ev T r x1))) by (intros; ring).
      rewrite so_scale_l; [ring|]. intros r0 i c I. apply ev_fixed. rewrite <- (rest_not_marked same x2 (1 :: p)) by auto.
      intro J. apply (D i I). apply in_app_iff; auto.
    + rewrite (not_marked_same same (reds P e) x1) by auto. cbn [neval]. rewrite IHx2 by (auto; intros i I J; apply (D i I); apply in_app_iff; auto).
      rewrite so_scale_l; [ring|]. intros r0 i c I. apply ev_fixed. rewrite <- (rest_not_marked same x1 (0 :: p)) by auto.
      intro J. apply (D i I). apply in_app_iff; auto.
Qed.

(** *** Replacement under different stores *)
Lemma replace_value : forall same w w' T T' r, ev T r w = ev T' r w' -> forall x p, red_vars x = [] ->
  (forall t y, In t (reads x) -> T t y = T' t y) -> ev T r (replace_at same w p x) = ev T' r (replace_at same w' p x).
Proof.
  intros same w w' T T' r W. induction x; intros p NR H; cbn [replace_at red_vars reads] in *; destruct (same p); auto; try discriminate; cbn [neval].
  - apply H. left; auto.
  - rewrite IHx; auto.
  - rewrite IHx; auto.
  - apply app_eq_nil in NR as [A B]. rewrite IHx1, IHx2; auto; intros; apply H; apply in_app_iff; auto.
  - apply app_eq_nil in NR as [A B]. rewrite IHx1, IHx2; auto; intros; apply H; apply in_app_iff; auto.
  - apply app_eq_nil in NR as [A B]. rewrite IHx1, IHx2; auto; intros; apply H; apply in_app_iff; auto.
  - apply app_eq_nil in NR as [A B]. rewrite IHx1, IHx2; auto; intros; apply H; apply in_app_iff; auto.
Qed.

(** *** Updates of nests *)
Lemma ups_cong : forall is t vs op (e1 e2 : expr) T1 T2 x r,
  (forall r', (forall i, In i is -> r' i < dim i) -> (forall i, ~ In i is -> r' i = r i) -> ev T1 r' e1 = ev T2 r' e2) ->
  ups (foralls is (NAssign t vs op e1)) r T1 x = ups (foralls is (NAssign t vs op e2)) r T2 x.
Proof.
  induction is as [|i is IH]; intros t vs op e1 e2 T1 T2 x r H.
  - cbn. rewrite (H r); auto. intros i [].
  - cbn [foralls fold_right NotationRun.ups]. rewrite !flat_map_concat_map. f_equal. apply map_ext_in. intros c C. apply in_seq in C.
    apply IH. intros r' A B. apply H.
    + intros j [->|J]; auto. destruct (in_dec Nat.eq_dec j is) as [J|J]; auto. rewrite B, ext_same by auto. lia.
    + intros j J. rewrite B by (intro; apply J; right; auto). apply ext_other. intro; subst; apply J; left; auto.
Qed.
Lemma ups_map : forall is t vs op op' (e : expr) T x r,
  ups (foralls is (NAssign t vs op e)) r T x = map (fun u => (op, snd u)) (ups (foralls is (NAssign t vs op' e)) r T x).
Proof.
  induction is as [|i is IH]; intros t vs op op' e T x r.
  - cbn. destruct (list_eqb x (map r vs)); auto.
  - cbn [foralls fold_right NotationRun.ups]. rewrite !flat_map_concat_map, concat_map, map_map. f_equal. apply map_ext. intros c. apply IH.
Qed.
Lemma ups_none : forall is t vs op (e : expr) T x r v k, In v vs -> ~ In v is -> nth_error vs k = Some v -> nth_error x k <> Some (r v) ->
  ups (foralls is (NAssign t vs op e)) r T x = [].
Proof.
  induction is as [|i is IH]; intros t vs op e T x r v k I N K X.
  - cbn. destruct (list_eqb_spec x (map r vs)) as [->|]; auto. rewrite nth_error_map, K in X. cbn in X. congruence.
  - cbn [foralls fold_right NotationRun.ups]. apply flat_map_nil. intros c _. apply (IH t vs op e T x _ v k); auto.
    + intro; apply N; right; auto.
    + rewrite ext_other; auto. intro; subst; apply N; left; auto.
Qed.
Lemma flat_one : forall {B} n (f : nat -> list B) k, (forall c, length (f c) <= 1) -> (forall c, c <> k -> f c = []) -> length (flat_map f (seq 0 n)) <= 1.
Proof.
  intros B n f k L Z. destruct (Nat.lt_ge_cases k n) as [H|H].
  - rewrite (flat_map_single n k f); auto.
  - rewrite flat_map_nil; auto. intros c C. apply in_seq in C. apply Z. lia.
Qed.
Lemma ups_one : forall is t vs op (e : expr) T x r, NoDup is -> (forall i, In i is -> In i vs) ->
  length (ups (foralls is (NAssign t vs op e)) r T x) <= 1.
Proof.
  induction is as [|i is IH]; intros t vs op e T x r N H.
  - cbn. destruct (list_eqb x (map r vs)); cbn; lia.
  - inversion N; subst. cbn [foralls fold_right NotationRun.ups]. destruct (In_nth_error vs i (H i (or_introl eq_refl))) as (k & K).
    apply (flat_one _ _ (nth k x 0)).
    + intros c. apply IH; auto. intros; apply H; right; auto.
    + intros c C. destruct (nth_error x k) as [a|] eqn:X.
      * apply (ups_none is t vs op e T x _ i k); auto. { apply H; left; auto. }
        rewrite ext_same, X. intro E. injection E as ->. apply C. symmetry. apply nth_error_nth. auto.
      * apply (ups_none is t vs op e T x _ i k); auto. { apply H; left; auto. } rewrite X. discriminate.
Qed.
(** A plain assignment executed at most once per component, starting from zero,
    has the effect of an addition. *)
Lemma apply_as_sum : forall is t vs op (e : expr) T x r, op = Some RSum \/ (op = None /\ NoDup is /\ forall i, In i is -> In i vs) ->
  apply 0r (ups (foralls is (NAssign t vs op e)) r T x) = sumv (ups (foralls is (NAssign t vs (Some RSum) e)) r T x).
Proof.
  intros is t vs op e T x r [->|(-> & N & H)].
  - rewrite (apply_sum R RT). { ring. } intros u U. apply ups_op in U. rewrite U. clear. induction is; cbn; auto.
  - rewrite (ups_map is t vs (Some RSum) None). pose proof (ups_one is t vs None e T x r N H) as L.
    destruct (ups (foralls is (NAssign t vs None e)) r T x) as [|[o v] [|]] eqn:E; cbn in *; try lia.
    + unfold NotationConc.sumv. cbn. auto.
    + assert (o = None). { assert (I : In (o, v) (ups (foralls is (NAssign t vs None e)) r T x)) by (rewrite E; left; auto).
        apply ups_op in I. cbn in I. rewrite I. clear. induction is; cbn; auto. }
      subst. unfold NotationConc.sumv, NotationRun.apply, apply1. cbn. ring.
Qed.
Lemma sumv_perm : forall us us', Permutation us us' -> sumv us = sumv us'.
Proof. unfold NotationConc.sumv. induction 1; cbn; auto; try congruence. ring. Qed.

Lemma ups_inner_sum : forall P t vs (e : expr) T x r, (forall i, In i P -> ~ In i vs) ->
  sumv (ups (foralls P (NAssign t vs (Some RSum) e)) r T x) = sumv (ups (NAssign t vs (Some RSum) (reds P e)) r T x).
Proof.
  intros P t vs e T x r D. cbn [NotationRun.ups]. destruct (list_eqb_spec x (map r vs)) as [->|N].
  - rewrite (sumv_foralls R RT) by auto. unfold NotationConc.sumv. cbn. rewrite reds_value. ring.
  - destruct (ups (foralls P (NAssign t vs (Some RSum) e)) r T x) as [|u l] eqn:E; auto.
    exfalso. assert (I : In u (ups (foralls P (NAssign t vs (Some RSum) e)) r T x)) by (rewrite E; left; auto).
    apply ups_hit in I as (r' & X & _ & O). apply N. rewrite X. apply map_ext_in. intros a A. apply O. intro; eapply D; eauto.
Qed.
Lemma sumv_foralls_cong : forall is (s s' : stmt) T x r, (forall r, sumv (ups s r T x) = sumv (ups s' r T x)) ->
  sumv (ups (foralls is s) r T x) = sumv (ups (foralls is s') r T x).
Proof.
  induction is as [|i is IH]; intros s s' T x r H; [apply H|]. cbn [foralls fold_right NotationRun.ups]. rewrite !(sumv_forall R RT). apply sum_ext. intros c _. apply IH. auto.
Qed.

(** *** The producer *)
Section Producer.
Variables (ivs iws : list ivar).
Hypothesis NI : NoDup ivs.
Hypothesis NW : NoDup iws.
Hypothesis LEN : length iws = length ivs.
Notation sub := (sub_var ivs iws).
Notation unsub := (sub_var iws ivs).

Lemma ev_sub : forall f (e : expr), red_vars e = [] -> forall T r r', (forall v, In v (vars e) -> r (f v) = r' v) -> ev T r (sub_vars f e) = ev T r' e.
Proof.
  intros f. induction e; cbn; intros H T r r' E; auto; try discriminate.
  - f_equal. rewrite map_map. apply map_ext_in. auto.
  - f_equal; auto.
  - f_equal; auto.
  - apply app_eq_nil in H as [A B]. rewrite (IHe1 A T r r'), (IHe2 B T r r'); auto; intros; apply E; apply in_app_iff; auto.
  - apply app_eq_nil in H as [A B]. rewrite (IHe1 A T r r'), (IHe2 B T r r'); auto; intros; apply E; apply in_app_iff; auto.
  - apply app_eq_nil in H as [A B]. rewrite (IHe1 A T r r'), (IHe2 B T r r'); auto; intros; apply E; apply in_app_iff; auto.
  - apply app_eq_nil in H as [A B]. rewrite (IHe1 A T r r'), (IHe2 B T r r'); auto; intros; apply E; apply in_app_iff; auto.
Qed.
Lemma so_sub : forall P (e : expr) T r r', red_vars e = [] ->
  (forall v, In v (vars e) -> (In v P /\ sub v = v) \/ (r (sub v) = r' v /\ ~ In (sub v) P /\ ~ In v P)) ->
  so P (fun r => ev T r (sub_vars sub e)) r = so P (fun r => ev T r e) r'.
Proof.
  induction P as [|i P IH]; intros e T r r' NR H.
  - cbn. apply ev_sub; auto. intros v I. destruct (H v I) as [[[] _]|[? _]]; auto.
  - cbn [sum_over]. apply sum_ext. intros c _. apply IH; auto. intros v I. destruct (in_dec Nat.eq_dec v P) as [J|J].
    + left. split; auto. destruct (H v I) as [[_ E]|(_ & _ & N)]; auto. exfalso. apply N. right; auto.
    + right. destruct (H v I) as [[[->|K] E]|(E & N & N')]; try contradiction.
      * rewrite E. rewrite !ext_same. auto.
      * rewrite (ext_other r i c (sub v)), (ext_other r' i c v) by (intro Q; (apply N + apply N'); left; symmetry; exact Q). split; auto. split; intro; [apply N|apply N']; right; auto.
Qed.

(** [J]: the workspace's variables among the inner loops; [P]: the loops of the
    producer only. *)
Lemma producer_value : forall (Jv P : list ivar) ws op (e : expr) T r r' loops,
  red_vars e = [] -> NoDup (Jv ++ P) -> incl Jv ivs -> (forall i, In i P -> ~ In i ivs) -> (forall i, In i P -> ~ In i iws) ->
  (forall v, In v (vars e) -> In v P \/ In v ivs \/ (~ In v iws /\ r v = r' v)) ->
  (forall i, In i ivs -> In i Jv \/ (sub i = i /\ r i = r' i)) ->
  (forall i, In i Jv -> r' i < dim (sub i)) ->
  Permutation loops (map sub Jv ++ P) ->
  (op = Some RSum \/ (op = None /\ P = [])) ->
  apply 0r (ups (foralls loops (NAssign ws iws op (sub_vars sub e))) r T (map r' ivs)) = ev T r' (reds P e).
Proof.
  intros Jv P ws op e T r r' loops NR ND IJ PI PW HV HI RNG PERM OP.
  assert (NJ : NoDup (map sub Jv)).
  { apply nodup_l in ND. clear - ND IJ NI NW LEN. induction Jv as [|j J IH]; cbn; constructor.
    - intro I. apply in_map_iff in I as (k & E & K). inversion ND; subst. assert (k = j). { apply (sub_inj ivs iws); auto; apply IJ; [right|left]; auto. } subst. auto.
    - apply IH. { inversion ND; auto. } intros a A. apply IJ. right; auto. }
  assert (NL : NoDup loops).
  { eapply Permutation_NoDup; [symmetry; exact PERM|]. apply LatticeProofs.NoDup_app_intro; auto. { apply nodup_r in ND. auto. }
    intros i I K. apply in_map_iff in I as (j & <- & J). apply (PW (sub j)); auto. apply sub_in; auto. }
  rewrite apply_as_sum. 2: { destruct OP as [->|[-> ->]]; auto. right. split; auto. split; auto.
    intros i I. eapply Permutation_in in I; [|exact PERM]. rewrite app_nil_r in I. apply in_map_iff in I as (j & <- & J). apply sub_in; auto. }
  rewrite (sumv_perm _ _ (ups_foralls_perm R fn dv dim loops (map sub Jv ++ P) _ PERM NL r T _)).
  rewrite foralls_app.
  set (rw := fun w => r' (unsub w)).
  assert (MAP : forall r0 : val, map r0 iws = map (fun i => r0 (sub i)) ivs).
  { intros r0. transitivity (map r0 (map sub ivs)); [rewrite sub_map; auto|]. apply map_map. }
  rewrite (ups_point R fn dv dim (map sub Jv) _ T (map r' ivs) rw NJ).
  - assert (E : map r' ivs = map (over r (map sub Jv) rw) iws).
    { rewrite MAP. apply map_ext_in. intros i I. unfold over. destruct (mem (sub i) (map sub Jv)) eqn:M.
      - unfold rw. rewrite sub_back; auto.
      - destruct (HI i I) as [J|[S E]]. { apply mem_false in M. exfalso. apply M. apply in_map. auto. } rewrite S. auto. }
    rewrite E. rewrite (sumv_foralls R RT) by auto. rewrite reds_value. apply so_sub; auto. intros v I.
    destruct (HV v I) as [K|[K|[K EQ]]].
    + left. split; auto. apply sub_out. auto.
    + right. split; [|split; [intro J; apply (PW _ J); apply sub_in; auto|intro J; apply (PI v J K)]].
      unfold over. destruct (mem (sub v) (map sub Jv)) eqn:M. { unfold rw. rewrite sub_back; auto. }
      destruct (HI v K) as [J|[S F]]. { apply mem_false in M. exfalso. apply M. apply in_map. auto. } rewrite S. auto.
    + destruct (in_dec Nat.eq_dec v P) as [J|J]. { left. split; auto. apply sub_out; auto. }
      right. destruct (in_dec Nat.eq_dec v ivs) as [J'|J'].
      * split; [|split; auto; intro Q; apply (PW _ Q); apply sub_in; auto].
        unfold over. destruct (mem (sub v) (map sub Jv)) eqn:M. { unfold rw. rewrite sub_back; auto. }
        destruct (HI v J') as [Q|[S F]]. { apply mem_false in M. exfalso. apply M. apply in_map. auto. } rewrite S. auto.
      * rewrite sub_out by auto. split; [|split; auto]. unfold over. destruct (mem v (map sub Jv)) eqn:M; auto.
        apply mem_In in M. apply in_map_iff in M as (j & <- & Q). exfalso. apply K. apply sub_in; auto.
  - intros w W. apply in_map_iff in W as (j & <- & J). unfold rw. rewrite sub_back; auto.
  - intros r0 w W D. apply in_map_iff in W as (j & <- & J).
    assert (JI : In j ivs) by (apply IJ; auto). destruct (In_nth_error ivs j JI) as (k & K).
    assert (KW : nth_error iws k = Some (sub j)). { transitivity (nth_error (map sub ivs) k); [rewrite sub_map; auto|]. rewrite nth_error_map, K. auto. }
    apply (ups_none P ws iws (Some RSum) _ T _ r0 (sub j) k); auto.
    + apply sub_in; auto.
    + intro Q. apply (PW _ Q). apply sub_in; auto.
    + rewrite nth_error_map, K. cbn. unfold rw in D. rewrite sub_back in D by auto. congruence.
Qed.
End Producer.

Lemma filter_rev : forall {B} (f : B -> bool) l, rev (filter f (rev l)) = filter f l.
Proof.
  intros B f l. rewrite <- (rev_involutive (filter f l)). f_equal. induction l as [|a l IH]; cbn; auto.
  assert (G : forall m m' : list B, filter f (m ++ m') = filter f m ++ filter f m') by (induction m; cbn; intros; auto; destruct (f a0); cbn; congruence).
  rewrite G, IH. cbn. destruct (f a); cbn; auto. apply app_nil_r.
Qed.
Lemma redundant_assign : forall anc ctx t vs op (e : expr), exists op', rewrite_redundant anc ctx (NAssign t vs op e) = NAssign t vs op' e /\
  (op' = op \/ op' = Some RSum) /\ (redundant anc ctx vs e = true -> op' = Some RSum).
Proof. intros. cbn. destruct (redundant anc ctx vs e); eexists; split; eauto; split; auto; discriminate. Qed.
Lemma filter_perm : forall (f g : nat -> bool) l, (forall i, In i l -> g i = negb (f i)) -> Permutation l (filter f l ++ filter g l).
Proof.
  induction l as [|a l IH]; intros H; cbn; auto. rewrite (H a) by (left; auto). destruct (f a); cbn.
  - constructor. apply IH. intros; apply H; right; auto.
  - apply Permutation_cons_app. apply IH. intros; apply H; right; auto.
Qed.
Lemma ups_foralls_inner : forall is (s s' : stmt) T T' x r, (forall r', (forall i, ~ In i is -> r' i = r i) -> ups s r' T x = ups s' r' T' x) ->
  ups (foralls is s) r T x = ups (foralls is s') r T' x.
Proof.
  induction is as [|i is IH]; intros s s' T T' x r H. { apply H. auto. }
  cbn [foralls fold_right NotationRun.ups]. rewrite !flat_map_concat_map. f_equal. apply map_ext. intros c. apply IH.
  intros r' E. apply H. intros j J. rewrite E by (intro; apply J; right; auto). apply ext_other. intro; subst; apply J; left; auto.
Qed.

Lemma reads_replace : forall same (w : expr) t x p, In t (reads (replace_at same w p x)) -> In t (reads w) \/ In t (reads x).
Proof.
  intros same w t. induction x; intros p; cbn [replace_at]; destruct (same p); auto; cbn [reads]; eauto.
  all: rewrite !in_app_iff; intros [I|I]; [apply IHx1 in I|apply IHx2 in I]; tauto.
Qed.

Lemma filter_all : forall (f : nat -> bool) l, (forall i, In i l -> f i = true) -> filter f l = l.
Proof. induction l; cbn; intros H; auto. rewrite H by auto. f_equal. auto. Qed.
Lemma filter_nil : forall (f : nat -> bool) l, (forall i, In i l -> f i = false) -> filter f l = [].
Proof. induction l; cbn; intros H; auto. rewrite H by auto. auto. Qed.
Lemma rel_none_case : forall lv rv k, In k rv -> ~ In k lv -> rel_op (getIndexSetRel lv rv) = None -> getIndexSetRel lv rv = rel_none.
Proof.
  intros lv rv k K N H. destruct (existsb (fun v => mem v rv) lv) eqn:E.
  - apply existsb_exists in E as (v & V1 & V2). apply mem_In in V2. rewrite (rel_sum lv rv k) in H; [discriminate|auto|auto|]. right. eauto.
  - destruct lv as [|a lv]. { rewrite (rel_sum [] rv k) in H; [discriminate|auto|auto|auto]. }
    unfold getIndexSetRel. rewrite filter_nil.
    2: { intros i I. apply nodup_In in I. apply mem_false. rewrite nodup_In. intro J. assert (Q : existsb (fun v => mem v rv) (a :: lv) = true); [|congruence].
         apply existsb_exists. exists i. split; auto. apply mem_In. auto. }
    cbn [length]. destruct (nodup Nat.eq_dec (a :: lv)) as [|b l] eqn:Q; [|reflexivity].
    exfalso. assert (I : In a (nodup Nat.eq_dec (a :: lv))) by (apply nodup_In; left; auto). rewrite Q in I. destruct I.
Qed.

Theorem precompute_ok : forall same (e : expr) ivs iws ws A vs op x Lo Li s,
  nest_of (Lo ++ Li) s (NAssign A vs op x) -> Lo ++ Li <> [] -> NoDup (Lo ++ Li) -> red_vars x = [] ->
  (forall i, In i (Lo ++ Li) -> In i vs \/ In i (vars x)) ->
  ~ In A (reads x) -> ws <> A -> ~ In ws (reads x) ->
  (op = Some RSum \/ (op = None /\ incl (Lo ++ Li) vs)) ->
  let q := rhs_path (length (Lo ++ Li)) in
  let shared i := In i (vars e) /\ (In i vs \/ In i (rest_vars same q x)) in
  marks same e q x -> marked same q x ->
  NoDup ivs -> NoDup iws -> incl ivs (vars e) -> incl ivs (Lo ++ Li) ->
  Forall2 (fun i w => dim w = dim i /\ (w = i \/ (In i Li /\ ~ In w (Lo ++ Li) /\ ~ In w (vars x)))) ivs iws ->
  (forall i, In i Li -> In i ivs \/ ~ shared i) ->
  (Lo = [] \/ exists Lo' i, Lo = Lo' ++ [i] /\ ~ In i ivs /\ shared i) ->
  ((forall v, In v (vars e) -> In v Li -> In v ivs) \/ (op = Some RSum /\ factor same q x)) ->
  (forall k, In k Lo -> In k vs \/ In k ivs \/ In k (rest_vars same q x)) ->
  let used i := In i vs \/ In i ivs \/ In i (rest_vars same q x) in
  (vs = [] \/ (exists v, In v vs /\ (In v ivs \/ In v (rest_vars same q x))) \/ incl (Lo ++ Li) vs \/
   exists L1 k L2, Lo ++ Li = L1 ++ k :: L2 /\ used k /\ (forall i, In i L2 -> ~ used i) /\ (forall i v, In i L1 -> used i -> In v vs -> i = v)) ->
  forall r T, (forall y, T A y = 0r) -> eqT (run (precompute same e ivs iws ws s) r T) (run s r T).
Proof.
  intros same e ivs iws ws A vs op x Lo Li s NEST NE ND NR USED RA WA RW OP q shared MK MKD NI NW EI IL F2 INN OUT USES OUTV used REL r T Z.
  (* facts about the expression and the substitution *)
  destruct (marked_facts same e x q MK MKD NR) as (NRe & VE & RE).
  assert (LEN : length iws = length ivs) by (clear - F2; induction F2; cbn; congruence).
  assert (SUBP : forall i, In i ivs -> dim (sub_var ivs iws i) = dim i /\ (sub_var ivs iws i = i \/ (In i Li /\ ~ In (sub_var ivs iws i) (Lo ++ Li) /\ ~ In (sub_var ivs iws i) (vars x)))).
  { clear - F2 NI. induction F2 as [|i w ivs iws H F IH]; intros j J; [destruct J|]. inversion NI; subst. cbn. destruct (Nat.eqb_spec j i) as [->|]; auto.
    apply IH; auto. destruct J; congruence. }
  assert (IWS : forall w, In w iws -> exists i, In i ivs /\ w = sub_var ivs iws i).
  { intros w W. rewrite <- (sub_map ivs iws NI LEN) in W. apply in_map_iff in W as (i & <- & I). eauto. }
  (* a loop or operand variable that is a workspace variable is one of ivs *)
  assert (INW : forall v, In v (Lo ++ Li) \/ In v (vars x) -> In v iws -> In v ivs).
  { intros v H W. destruct (IWS v W) as (i & I & ->). destruct (SUBP i I) as [_ [->|(_ & N1 & N2)]]; auto. tauto. }
  set (x' := replace_at same (NAcc ws ivs) q x). set (e' := sub_vars (sub_var ivs iws) e).
  assert (NRx' : red_vars x' = []) by (apply red_replace; auto).
  assert (NRe' : red_vars e' = []) by (apply red_sub; auto).
  assert (AX : forall v, In v (acc_vars x') <-> In v (rest_vars same q x) \/ In v ivs).
  { intros v. rewrite acc_vars_vars by auto. unfold x'. rewrite replace_vars by auto. cbn. tauto. }
  assert (AE : forall v, In v (acc_vars e') <-> exists u, In u (vars e) /\ v = sub_var ivs iws u).
  { intros v. rewrite acc_vars_vars by auto. unfold e'. rewrite vars_sub by auto. rewrite in_map_iff. split; intros (u & A1 & A2); eauto. }
  set (cv := vs ++ acc_vars x'). set (pv := iws ++ acc_vars e').
  assert (CV : forall i, ~ In i ivs -> (In i cv <-> In i vs \/ In i (rest_vars same q x))).
  { intros i N. unfold cv. rewrite in_app_iff, AX. tauto. }
  assert (PV : forall i, ~ In i ivs -> In i (Lo ++ Li) -> (In i pv <-> In i (vars e))).
  { intros i N I. unfold pv. rewrite in_app_iff, AE. split.
    - intros [W|(u & U & ->)]; [exfalso; auto|]. destruct (in_dec Nat.eq_dec u ivs) as [J|J]; [|rewrite sub_out by auto; auto].
      destruct (SUBP u J) as [_ [->|(_ & N1 & N2)]]; auto. contradiction.
    - intros J. right. exists i. rewrite sub_out by auto. auto. }
  set (C := filter (fun i => mem i ivs || mem i cv) Li).
  set (Pl := filter (fun i => mem i ivs || mem i pv) Li).
  (* the statement that results *)
  assert (SH : exists oc op_p, (oc = rel_op (getIndexSetRel vs (acc_vars x')) \/ oc = Some RSum) /\
      (redundant (sub_var iws ivs) (rev C ++ rev Lo) vs x' = true -> oc = Some RSum) /\
      (op_p = rel_op (getIndexSetRel iws (acc_vars e')) \/ op_p = Some RSum) /\
      precompute same e ivs iws ws s = foralls Lo (NWhere (foralls C (NAssign A vs oc x')) (foralls (map (sub_var ivs iws) Pl) (NAssign ws iws op_p e')))).
  { destruct (nest_bottom _ _ _ NEST A vs op x [] eq_refl) as (B1 & B2 & B3). rewrite app_nil_r in B1.
    change (repeat 0 (S (length (Lo ++ Li)))) with q in B1.
    assert (RN : rewrite_nest same ws e ivs iws [] s = Some (foralls Lo (NWhere (foralls C (NAssign A vs (rel_op (getIndexSetRel vs (acc_vars x'))) x'))
        (foralls (map (sub_var ivs iws) Pl) (NAssign ws iws (rel_op (getIndexSetRel iws (acc_vars e'))) e'))))).
    { unfold rewrite_nest. rewrite B1, B2. apply replaces_marked in MKD. rewrite MKD. fold x'. fold e'. fold cv. fold pv.
      rewrite rev_app_distr, distribute_ok.
      - rewrite !gen_foralls. rewrite rev_involutive. rewrite <- map_rev. rewrite !filter_rev. reflexivity.
      - intros i I. apply in_rev in I. destruct (in_dec Nat.eq_dec i ivs) as [J|J]; auto. right. destruct (INN i I) as [|N]; [contradiction|].
        rewrite CV, PV by (auto; apply in_app_iff; auto). exact N.
      - intros i H. destruct OUT as [->|(Lo' & j & EL & N & S)]; [discriminate|]. rewrite EL, rev_app_distr in H. cbn in H. injection H as <-.
        split; auto. rewrite CV, PV; auto. rewrite EL. rewrite !in_app_iff. cbn. auto. }
    unfold precompute. destruct s as [| an i b |].
    - exfalso. inversion NEST. apply NE. congruence.
    - cbn [rewrite_stmt]. rewrite B3, RN. rewrite redundant_foralls. cbn [rewrite_redundant]. rewrite !redundant_foralls.
      match goal with |- context [NWhere (foralls C (rewrite_redundant ?a ?c ?n)) (foralls _ (rewrite_redundant ?a ?c' ?n'))] =>
        destruct (redundant_assign a c A vs (rel_op (getIndexSetRel vs (acc_vars x'))) x') as (oc & E1 & O1 & O1');
        destruct (redundant_assign a c' ws iws (rel_op (getIndexSetRel iws (acc_vars e'))) e') as (op_p & E2 & O2 & _) end.
      exists oc, op_p. split; auto. rewrite app_nil_r in O1'. split; auto. split; auto. rewrite E1, E2. auto.
    - exfalso. inversion NEST. }
  destruct SH as (oc & op_p & OC & OCR & OPP & ->).
  (* the loops of the producer only *)
  set (Jv := filter (fun i => mem i ivs) Li). set (P := filter (fun i => negb (mem i ivs) && mem i pv) Li).
  assert (NDi : NoDup Li) by (apply nodup_r in ND; auto).
  assert (DIS : forall i, In i Lo -> In i Li -> False).
  { clear - ND. intros i I J. induction Lo as [|a Lo IH]; [destruct I|]. cbn in ND. inversion ND; subst. destruct I as [->|I]; auto. apply H1. apply in_app_iff. auto. }
  assert (InP : forall i, In i P <-> In i Li /\ ~ In i ivs /\ In i (vars e)).
  { intros i. unfold P. rewrite filter_In, andb_true_iff, negb_true_iff, mem_false, mem_In. split; intros (A1 & A2 & A3); repeat split; auto;
      apply PV in A3 || apply PV; auto; apply in_app_iff; auto. }
  assert (PC : forall i, In i P -> ~ In i vs /\ ~ In i (rest_vars same q x)).
  { intros i I. apply InP in I as (A1 & A2 & A3). destruct (INN i A1) as [|N]; [contradiction|]. unfold shared in N. tauto. }
  assert (PLP : Permutation (map (sub_var ivs iws) Pl) (map (sub_var ivs iws) Jv ++ P)).
  { assert (E : map (sub_var ivs iws) P = P).
    { rewrite <- (map_id P) at 2. apply map_ext_in. intros i I. apply InP in I as (_ & N & _). apply sub_out. auto. }
    rewrite <- E at 1. rewrite <- map_app. apply Permutation_map. unfold Pl, Jv, P. clear. induction Li as [|i l IH]; cbn; auto.
    destruct (mem i ivs); cbn; auto. destruct (mem i pv); cbn; auto. apply Permutation_cons_app. auto. }
  assert (CP : Permutation Li (C ++ P)).
  { unfold C, P. apply filter_perm. intros i I. destruct (mem i ivs) eqn:E; cbn; auto. apply mem_false in E.
    destruct (mem i pv) eqn:E1, (mem i cv) eqn:E2; auto; exfalso.
    - apply mem_In in E1. apply mem_In in E2. apply PV in E1; [|auto|apply in_app_iff; auto]. apply CV in E2; auto.
      destruct (INN i I) as [|N]; [contradiction|]. apply N. split; auto.
    - apply mem_false in E1. apply mem_false in E2. rewrite PV in E1 by (auto; apply in_app_iff; auto). rewrite CV in E2 by auto.
      destruct (USED i) as [U|U]; [apply in_app_iff; auto|tauto|]. 
      assert (K : In i (vars (replace_at same e q x))) by (rewrite replace_same; auto). apply replace_vars in K; auto. tauto. }
  assert (NC : NoDup (C ++ P)) by (eapply Permutation_NoDup; eauto).
  assert (CL : forall i, In i C -> In i Li) by (intros i I; unfold C in I; apply filter_In in I; tauto).
  (* operators *)
  assert (OCK : oc = Some RSum \/ (oc = None /\ NoDup (Lo ++ C) /\ forall i, In i (Lo ++ C) -> In i vs)).
  { destruct OC as [OC|OC]; [|auto]. destruct (rel_op_cases vs (acc_vars x')) as [N|N]; [|left; congruence]. right. split; [congruence|]. split.
    - apply LatticeProofs.NoDup_app_intro. { apply nodup_l in ND. auto. } { apply nodup_l in NC. auto. } intros i I J. apply (DIS i); auto.
    - intros k K. destruct (in_dec Nat.eq_dec k vs) as [|NV]; auto. exfalso.
      assert (KX : In k (acc_vars x')).
      { apply AX. apply in_app_iff in K as [K|K]. { destruct (OUTV k K) as [|[|]]; auto. contradiction. }
        unfold C in K. apply filter_In in K as [K1 K2]. apply orb_true_iff in K2 as [K2|K2]; apply mem_In in K2; auto.
        unfold cv in K2. apply in_app_iff in K2 as [K2|K2]; [contradiction|]. apply AX; auto. }
      destruct REL as [E0|[(v & V1 & V2)|[I|(L1 & k' & L2 & EL & U & U2 & U1)]]].
      + assert (G := rel_sum vs (acc_vars x') k KX NV (or_introl E0)). congruence.
      + assert (G : rel_op (getIndexSetRel vs (acc_vars x')) = Some RSum).
        { apply (rel_sum vs (acc_vars x') k); auto. right. exists v. split; auto. apply AX. tauto. } congruence.
      + apply NV. apply I. apply in_app_iff in K as [K|K]; apply in_app_iff; auto.
      + assert (RN := rel_none_case vs (acc_vars x') k KX NV N). rewrite OCR in OC; [congruence|].
        unfold redundant. rewrite RN. rewrite <- rev_app_distr.
        assert (UD : forall i, mem i ivs || mem i cv = true <-> used i).
        { intros i. rewrite orb_true_iff, !mem_In. unfold cv. rewrite in_app_iff, AX. unfold used. tauto. }
        assert (FL : Lo ++ C = filter (fun i => mem i ivs || mem i cv) (Lo ++ Li)).
        { rewrite filter_app. f_equal. symmetry. apply filter_all. intros i I. apply UD. unfold used. apply OUTV in I. tauto. }
        rewrite FL, EL, filter_app. cbn [filter]. assert (UK : mem k' ivs || mem k' cv = true) by (apply UD; auto). rewrite UK.
        rewrite (filter_nil _ L2). 2: { intros i I. destruct (mem i ivs || mem i cv) eqn:Q; auto. exfalso. apply (U2 i I). apply UD; auto. }
        rewrite rev_app_distr. cbn [rev app]. apply forallb_forall. intros v V1. apply forallb_forall. intros w W. apply orb_true_iff.
        destruct W as [->|W]; [left; apply Nat.eqb_refl|]. right. apply Nat.eqb_eq. symmetry. apply in_rev in W. apply filter_In in W as [W1 W2]. apply (U1 w v); auto. apply UD; auto. }
  assert (OPPK : op_p = Some RSum \/ (op_p = None /\ P = [])).
  { destruct OPP as [OPP|]; [|auto]. destruct P as [|k P'] eqn:EP.
    - destruct (rel_op_cases iws (acc_vars e')) as [N|N]; [right; split; congruence|left; congruence].
    - left. rewrite OPP. assert (K : In k (k :: P')) by (left; auto). apply InP in K as (K1 & K2 & K3). apply (rel_sum iws (acc_vars e') k); [| |].
      + apply AE. exists k. rewrite sub_out by auto. auto.
      + intro W. apply K2. apply INW; auto; left; apply in_app_iff; auto.
      + destruct iws as [|w0 iw] eqn:EW; auto. right. exists w0. split; [left; auto|]. destruct (IWS w0 (or_introl eq_refl)) as (i & I & ->). apply AE. exists i. split; auto. }
  (* the result *)
  destruct (nest_res _ _ _ NEST) as (RS1 & RS2 & RS3). cbn in RS1, RS2, RS3.
  set (s' := foralls Lo (NWhere (foralls C (NAssign A vs oc x')) (foralls (map (sub_var ivs iws) Pl) (NAssign ws iws op_p e')))).
  assert (RS' : res s' = A). { unfold s'. rewrite foralls_res. cbn [res]. rewrite foralls_res. auto. }
  intros t y. destruct (Nat.eq_dec t A) as [->|NA].
  2: { rewrite !frame by (rewrite ?RS', ?RS1; auto). auto. }
  assert (U1 : run s' r T A y = apply (T A y) (ups s' r T y)).
  { pose proof (run_ups R fn dv dim s' r T y) as G. rewrite RS' in G. apply G.
    - unfold s'. rewrite foralls_reads. cbn [rhs_reads]. rewrite !foralls_reads. cbn [rhs_reads]. rewrite in_app_iff. unfold e'. rewrite reads_sub.
    intros [I|I]; [apply RA; auto|]. unfold x' in I. apply reads_replace in I as [[|[]]|I]; auto.
    - unfold s'. rewrite foralls_temps. cbn [temps]. rewrite !foralls_res, !foralls_temps. cbn. intros [|[]]. auto. }
  assert (U2 : run s r T A y = apply (T A y) (ups s r T y)).
  { pose proof (run_ups R fn dv dim s r T y) as G. rewrite RS1, RS2, RS3 in G. apply G; auto. }
  rewrite U1, U2, Z. rewrite (nest_ups _ _ _ NEST).
  (* the updates of the new statement *)
  assert (U : ups s' r T y = ups (foralls (Lo ++ C) (NAssign A vs oc (replace_at same (reds P e) q x))) r T y).
  { unfold s'. rewrite foralls_app. apply ups_foralls_inner. intros r1 E1. cbn [NotationRun.ups]. apply ups_cong. intros r2 B2 E2.
    rewrite foralls_res. cbn [res]. unfold x'. apply replace_value; auto.
    2: { intros t z I. rewrite frame by (rewrite foralls_res; cbn; intro; subst; auto). unfold clear, set_tensor. destruct (Nat.eqb_spec t ws) as [->|]; auto. contradiction. }
    cbn [neval]. 
    assert (RU : run (foralls (map (sub_var ivs iws) Pl) (NAssign ws iws op_p e')) r1 (clear R ws T) ws (map r2 ivs) =
      apply 0r (ups (foralls (map (sub_var ivs iws) Pl) (NAssign ws iws op_p e')) r1 (clear R ws T) (map r2 ivs))).
    { pose proof (run_ups R fn dv dim (foralls (map (sub_var ivs iws) Pl) (NAssign ws iws op_p e')) r1 (clear R ws T) (map r2 ivs)) as G.
      rewrite foralls_res, foralls_reads, foralls_temps in G. cbn [res rhs_reads temps] in G. unfold e' in G. rewrite reads_sub in G. fold e' in G.
      rewrite G; auto. unfold clear, set_tensor. rewrite Nat.eqb_refl. auto. }
    rewrite RU. unfold e'. rewrite (producer_value ivs iws NI NW LEN Jv P ws op_p e (clear R ws T) r1 r2); auto.
    - rewrite !reds_value. apply so_ext. intros r3. apply neval_ext; auto. intros t z I. unfold clear, set_tensor.
      destruct (Nat.eqb_spec t ws) as [->|]; auto. exfalso; auto.
    - apply LatticeProofs.NoDup_app_intro; try (apply NoDup_filter; auto). intros i I J. apply filter_In in I as [_ I]. apply mem_In in I. apply InP in J. tauto.
    - intros i I. apply filter_In in I as [_ I]. apply mem_In in I. auto.
    - intros i I. apply InP in I. tauto.
    - intros i I W. apply InP in I as (I1 & I2 & _). apply I2. apply INW; auto; left; apply in_app_iff; auto.
    - intros v I. destruct (in_dec Nat.eq_dec v ivs) as [J|J]; auto. destruct (in_dec Nat.eq_dec v Li) as [K|K].
      + left. apply InP. auto.
      + right. right. split. { intro W. apply J. apply INW; auto. } symmetry. apply E2. intro Q. apply K. auto.
    - intros i I. destruct (in_dec Nat.eq_dec i Li) as [K|K].
      + left. apply filter_In. split; auto. apply mem_In. auto.
      + right. destruct (SUBP i I) as [_ [S|[S _]]]; [|contradiction]. split; auto. symmetry. apply E2. intro Q. apply K. auto.
    - intros i I. apply filter_In in I as [I1 I2]. assert (J : In i ivs) by (apply mem_In; auto). destruct (SUBP i J) as [-> _]. apply B2.
      unfold C. apply filter_In. split; auto. rewrite I2. auto. }
  rewrite U. rewrite !apply_as_sum by (auto; destruct OP as [|[-> ?]]; auto).
  (* sums *)
  rewrite !foralls_app. apply sumv_foralls_cong. intros r1.
  rewrite (sumv_perm _ _ (ups_foralls_perm R fn dv dim Li (C ++ P) (NAssign A vs (Some RSum) x) CP NDi r1 T y)). rewrite foralls_app.
  apply sumv_foralls_cong. intros r2. rewrite ups_inner_sum by (intros i I; apply PC; auto).
  cbn [NotationRun.ups]. destruct (list_eqb y (map r2 vs)); auto.
  assert (E : ev T r2 (replace_at same (reds P e) q x) = ev T r2 (reds P x)).
  { destruct USES as [US|[_ FA]].
    - assert (P = []) as ->. { destruct P as [|k P'] eqn:EP; auto. exfalso. assert (K : In k (k :: P')) by (left; auto). apply InP in K as (K1 & K2 & K3). auto. }
      cbn [reds fold_right]. rewrite replace_same; auto.
    - rewrite reds_value. apply factor_value; auto. intros i I. apply PC; auto. }
  rewrite E. auto.
Qed.
End P.
