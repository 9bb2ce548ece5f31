(** Proofs about Scheduled.v *)
From Coq Require Import List Arith Lia Bool Ring_theory Permutation.
Import ListNotations.
From Verif Require Accept AcceptSpec AcceptProofs.
From Verif Require Import IndexExpr Eval Notation NotationSpec NotationProofs NotationRun NotationConv NotationConc.
From Verif Require Import Scheduled ScheduledSpec.
Local Open Scope nat_scope.

Lemma no_parents : forall rels v, ~ AcceptSpec.derived rels v -> Accept.getParents rels v = [].
Proof.
  intros rels v N. unfold Accept.getParents. destruct (Accept.parent_rel rels v) as [r|] eqn:E; auto.
  exfalso. apply N. apply AcceptProofs.parent_rel_In in E. exists r. exact E.
Qed.
Lemma no_children : forall rels v, (forall r, In r rels -> ~ In v (Accept.parents r)) -> Accept.isFullyDerived rels v = true.
Proof.
  intros rels v N. unfold Accept.isFullyDerived, Accept.getChildren. destruct (Accept.child_rel rels v) as [r|] eqn:E; auto.
  exfalso. apply AcceptProofs.child_rel_In in E. destruct E as [A B]. exact (N r A B).
Qed.
Lemma not_derived_from : forall rels v f, ~ AcceptSpec.derived rels v -> isDerivedFrom rels v f = false.
Proof. intros rels v f N. unfold isDerivedFrom. cbn [derived_from]. rewrite (no_parents rels v N). reflexivity. Qed.

Lemma nodup_left : forall (a b : list nat), NoDup (a ++ b) -> NoDup a.
Proof.
  induction a; cbn; intros b N; [constructor|]. inversion N; subst. constructor; [rewrite in_app_iff in *; tauto|eauto].
Qed.

Section P.
Context {V : Type}.
Notation nexpr := (nexpr V).
Notation stmt := (nstmt V).

Lemma expr_vars_sub : forall (e : nexpr) seen i, In i (expr_vars_acc seen e) -> In i seen \/ In i (access_vars e).
Proof.
  induction e; cbn; intros seen j J; auto.
  - apply add_vars_In in J. auto.
  - destruct (IHe2 _ _ J) as [K|K]; [destruct (IHe1 _ _ K); auto|]; rewrite in_app_iff; auto.
  - destruct (IHe2 _ _ J) as [K|K]; [destruct (IHe1 _ _ K); auto|]; rewrite in_app_iff; auto.
  - destruct (IHe2 _ _ J) as [K|K]; [destruct (IHe1 _ _ K); auto|]; rewrite in_app_iff; auto.
  - destruct (IHe2 _ _ J) as [K|K]; [destruct (IHe1 _ _ K); auto|]; rewrite in_app_iff; auto.
Qed.

(** *** Reduction notation *)
Lemma should_same : forall rels free v, underived rels free -> ~ AcceptSpec.derived rels v ->
  shouldReduce rels free v = negb (mem v free).
Proof.
  intros rels free v U N. unfold shouldReduce.
  assert (A : existsb (fun f => isDerivedFrom rels v f) free = false).
  { clear U. induction free; cbn [existsb]; auto. rewrite not_derived_from by auto. auto. }
  assert (B : existsb (fun f => isDerivedFrom rels f v) free = false).
  { clear A. induction free as [|f free IH]; cbn [existsb]; auto. rewrite not_derived_from by (apply U; left; auto). apply IH. intros w W. apply U. right; auto. }
  rewrite A, B. destruct (Accept.isFullyDerived rels v), (mem v free); reflexivity.
Qed.
Lemma fold_same : forall rels free l (e : nexpr), underived rels free -> (forall v, In v l -> ~ AcceptSpec.derived rels v) ->
  fold_left (fun e v => if shouldReduce rels free v then NRed RSum v e else e) l e =
  fold_left (fun e v => if mem v free then e else NRed RSum v e) l e.
Proof.
  intros rels free l. induction l as [|v l IH]; intros e U N; cbn; auto.
  rewrite should_same by (auto; apply N; left; auto). rewrite IH by (auto; intros; apply N; right; auto).
  destruct (mem v free); reflexivity.
Qed.
Lemma add_same : forall rels free (e : nexpr), underived rels free -> underived rels (access_vars e) ->
  addReductionsS rels free e = addReductions free e.
Proof.
  intros rels free e U N. unfold addReductionsS, addReductions. apply fold_same; auto.
  intros v I. apply in_rev in I. apply N. destruct (expr_vars_sub e [] v I) as [[]|]; auto.
Qed.
Lemma mrn_same : forall rels free (e : nexpr), underived rels free -> underived rels (access_vars e) ->
  mrnS rels free e = mrn free e.
Proof.
  intros rels free e U. induction e; cbn; intros N; auto; try (rewrite IHe by auto; reflexivity);
    assert (N1 : underived rels (access_vars e1)) by (intros w W; apply N; apply in_app_iff; auto);
    assert (N2 : underived rels (access_vars e2)) by (intros w W; apply N; apply in_app_iff; auto).
  - rewrite !add_same by auto. reflexivity.
  - rewrite !add_same by auto. reflexivity.
  - rewrite IHe1, IHe2 by auto. reflexivity.
  - rewrite IHe1, IHe2 by auto. reflexivity.
Qed.
Lemma fold_access : forall (g : ivar -> bool) l (e : nexpr),
  access_vars (fold_left (fun e v => if g v then e else NRed RSum v e) l e) = access_vars e.
Proof. intros g l. induction l as [|v l IH]; intros e; cbn; auto. rewrite IH. destruct (g v); auto. Qed.
Lemma add_access : forall free (e : nexpr), access_vars (addReductions free e) = access_vars e.
Proof. intros. apply fold_access. Qed.
Lemma mrn_access : forall free (e : nexpr), access_vars (fst (mrn free e)) = access_vars e.
Proof.
  intros free e. induction e; cbn; auto; try (destruct (mrn free e); cbn in *; auto; fail).
  - rewrite !add_access. auto.
  - rewrite !add_access. auto.
  - destruct (mrn free e1), (mrn free e2); cbn in *. congruence.
  - destruct (mrn free e1), (mrn free e2); cbn in *. congruence.
Qed.
Lemma make_same : forall rels free (e : nexpr), underived rels free -> underived rels (access_vars e) ->
  makeReductionNotationScheduled rels free e = makeReductionNotation free e.
Proof.
  intros rels free e U N. unfold makeReductionNotationScheduled, makeReductionNotation. rewrite mrn_same by auto.
  destruct (is_einsum false e); auto. pose proof (mrn_access free e) as A. destruct (mrn free e) as [e' one]. cbn in A.
  destruct one; auto. apply add_same; auto. rewrite A. auto.
Qed.
Lemma make_access : forall free (e : nexpr), access_vars (makeReductionNotation free e) = access_vars e.
Proof.
  intros free e. unfold makeReductionNotation. destruct (is_einsum false e); auto.
  pose proof (mrn_access free e) as A. destruct (mrn free e) as [e' [|]]; cbn in A; auto. rewrite add_access. auto.
Qed.
Lemma bound_iff : forall (e : nexpr) b, vars_bound b e = true <-> (forall v, In v (vars e) -> In v b).
Proof.
  induction e; cbn; intros b; try (apply IHe); try (rewrite andb_true_iff, IHe1, IHe2; setoid_rewrite in_app_iff; firstorder; fail).
  - firstorder.
  - rewrite forallb_forall. setoid_rewrite mem_In. tauto.
  - rewrite IHe. split.
    + intros H v I. apply in_remove in I. destruct I as [I N]. destruct (H v I); auto. subst. tauto.
    + intros H v I. destruct (Nat.eq_dec v i); [left; auto|right]. apply H. apply in_in_remove; auto.
Qed.

(** *** Concrete notation *)
Lemma peel_parts : forall (e : nexpr) is op e', peel e = (is, op, e') -> is = covering e /\ e' = uncovered e.
Proof.
  induction e; cbn; intros is op0 e' H; try (injection H as <- <- <-; auto).
  destruct (peel e) as [[is1 [o|]] e1]; injection H as <- <- <-; destruct (IHe _ _ _ eq_refl) as [-> ->]; auto.
Qed.
Lemma peel_sum : forall (e : nexpr), sum_only e ->
  peel e = (covering e, match covering e with [] => None | _ => Some RSum end, uncovered e) /\ sum_only (uncovered e).
Proof.
  induction e; intros SO; cbn; auto. destruct SO as [-> SO]. destruct (IHe SO) as [-> S1]. split; auto.
  destruct (covering e); reflexivity.
Qed.
Lemma concrete_parts : forall fresh t vs op (e : nexpr), sum_only e -> exists b nx,
  replace_reductions (nreds (uncovered e)) fresh t vs (match covering e with [] => op | _ => Some RSum end) (uncovered e) = Some (b, nx) /\
  makeConcreteNotation fresh t vs op e = Some (foralls vs (foralls (covering e) b)) /\
  forall rels loops, makeConcreteNotationScheduled rels loops fresh t vs op e =
    match loops with
    | [] => option_map (fun ds => foralls ds (foralls (covering e) b)) (free_loops rels (getIndexVars (uncovered e)) vs)
    | _ => option_map (fun ds => foralls ds b) (listed_loops rels (covering e ++ vs) loops)
    end.
Proof.
  intros fresh t vs op e SO. destruct (peel_sum e SO) as [P S1].
  destruct (rr_total (fun _ v => v) (fun _ => 0) (nreds (uncovered e)) fresh t vs (match covering e with [] => op | _ => Some RSum end) (uncovered e)) as (b & nx & E); auto.
  exists b, nx. unfold makeConcreteNotation, makeConcreteNotationScheduled. rewrite P.
  destruct (covering e) as [|i is]; rewrite E; split; auto.
Qed.
Lemma free_loops_same : forall rels rv vs, untouched rels vs -> free_loops rels rv vs = Some vs.
Proof.
  intros rels rv vs. induction vs as [|v vs IH]; intros U; cbn; auto.
  unfold free_loop. rewrite no_children by (intros r I; apply (U v r); auto; left; auto).
  rewrite IH; auto. intros w r W. apply U. right; auto.
Qed.
Lemma listed_same : forall rels known l, (forall i, In i l -> In i known) -> listed_loops rels known l = Some l.
Proof.
  intros rels known l. induction l as [|i l IH]; intros H; cbn; auto. unfold listed_loop.
  assert (M : mem i known = true) by (apply mem_In; apply H; left; auto). rewrite M.
  rewrite IH by (intros; apply H; right; auto). reflexivity.
Qed.
Lemma ancestors_single : forall rels, one_parent rels -> forall n v, length (Accept.ancestors n rels v) <= 1.
Proof.
  intros rels O n. induction n as [|n IH]; intros v; cbn; auto.
  unfold Accept.getParents. destruct (Accept.parent_rel rels v) as [r|] eqn:E; cbn; auto.
  apply AcceptProofs.parent_rel_In in E. destruct (O r (proj1 E)) as [p ->]. cbn. rewrite app_nil_r. apply IH.
Qed.
Lemma listed_derived : forall rels known l, AcceptSpec.in_order [] rels -> one_parent rels ->
  (forall i, In i l -> In i known \/ exists u, AcceptSpec.origin rels i u /\ In u known) ->
  listed_loops rels known l = Some l.
Proof.
  intros rels known l IO OP. induction l as [|i l IH]; intros H; cbn; auto.
  rewrite IH by (intros; apply H; right; auto). unfold listed_loop. destruct (mem_spec i known) as [|N]; auto.
  destruct (H i (or_introl eq_refl)) as [|(u & A & B)]; [tauto|].
  destruct known as [|k known]; [destruct B|]. apply (AcceptProofs.origin_iff rels [] IO) in A.
  pose proof (ancestors_single rels OP (S (length rels)) i) as L. fold (Accept.getUnderivedAncestors rels i) in L.
  destruct (Accept.getUnderivedAncestors rels i) as [|a [|]]; cbn in L; [destruct A| |lia].
  destruct A as [->|[]]. cbn [filter]. apply mem_In in B. rewrite B. reflexivity.
Qed.
End P.

Section Value.
Context {V : Type}.
Variable R : ring_ops V.
Hypothesis RT : is_ring R.
Variable fn : nat -> V -> V.
Variable dv : V -> V -> V.
Variable dim : ivar -> nat.

Lemma determined_foralls : forall vs bs t ws op (e : nexpr V), NoDup vs -> (forall i, In i vs -> ~ In i bs) ->
  (forall v, In v (vars e) -> In v ws) -> determined bs (foralls vs (NAssign t ws op e)).
Proof.
  induction vs as [|v vs IH]; cbn; intros bs t ws op e N D H; auto.
  inversion N; subst. split; [apply D; auto|]. apply IH; auto. intros i I [->|J]; [tauto|]. apply (D i); auto.
Qed.

(** The loops in any order. *)
Lemma permuted : forall fr t vs op (e : nexpr V) s nx L,
  sum_only e -> t < fr -> (forall u, In u (reads e) -> u < fr /\ u <> t) ->
  NoDup (vs ++ covering e) -> (forall v, In v (vars e) -> In v vs) -> Permutation (vs ++ covering e) L ->
  replace_reductions (nreds (uncovered e)) fr t vs (match covering e with [] => op | _ => Some RSum end) (uncovered e) = Some (s, nx) ->
  forall r T, eqT (run R fn dv dim (foralls L s) r T) (run R fn dv dim (foralls vs (foralls (covering e) s)) r T).
Proof.
  intros fr t vs op e s nx L SO LT RD ND VS P ER r T.
  destruct (peel e) as [[is rop] e'] eqn:PE. destruct (peel_parts _ _ _ _ PE) as [EI EE].
  destruct (peel_ok R fn dv dim _ _ _ _ PE SO) as (SO' & _ & _ & PR & _ & PF). subst is e'.
  destruct (rr_ok R RT fn dv dim _ _ _ _ _ _ _ _ ER SO') as (RB & _ & G); auto.
  { intros u U. rewrite PR in U. apply RD; auto. }
  set (S0 := NAssign t vs (match covering e with [] => op | _ => Some RSum end) (uncovered e)) in *.
  assert (A : forall K, eqT (run R fn dv dim (foralls K s) r T) (run R fn dv dim (foralls K S0) r T)).
  { intros K. apply foralls_cong. exact G. }
  rewrite <- foralls_app. eapply eqT_trans; [apply A|]. eapply eqT_trans; [|apply eqT_sym; apply A].
  apply reorder_nest; auto. unfold order_free1. rewrite foralls_res, foralls_reads, foralls_temps, foralls_op. cbn.
  split; [|split]; [|tauto|].
  - intros I. rewrite PR in I. destruct (RD t I); tauto.
  - intros EO. destruct (covering e) as [|i is] eqn:EC; [|discriminate]. rewrite app_nil_r in *. apply determined_foralls; auto.
    intros v I. destruct (PF v I) as [[]|]; auto.
Qed.
End Value.
