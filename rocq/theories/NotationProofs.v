(** Proofs about index notation. *)
From Coq Require Import List Arith Lia Bool Ring_theory Ring Permutation.
Import ListNotations.
From Verif Require Import IndexExpr Eval Notation NotationSpec.
Local Open Scope nat_scope.

Lemma list_eqb_eq : forall a b, list_eqb a b = true <-> a = b.
Proof.
  induction a as [|x a IH]; destruct b as [|y b]; cbn; split; try discriminate; try reflexivity; intro H.
  - apply andb_true_iff in H as [H1 H2]. apply Nat.eqb_eq in H1. apply IH in H2. congruence.
  - injection H as -> ->. rewrite Nat.eqb_refl. apply IH. reflexivity.
Qed.
Lemma list_eqb_refl : forall a, list_eqb a a = true.
Proof. intros. apply list_eqb_eq. reflexivity. Qed.
Lemma list_eqb_spec : forall a b, reflect (a = b) (list_eqb a b).
Proof. intros. destruct (list_eqb a b) eqn:E; constructor. - apply list_eqb_eq; auto. - intro H. apply list_eqb_eq in H. congruence. Qed.
Lemma mem_In : forall i l, mem i l = true <-> In i l.
Proof.
  intros. unfold mem. rewrite existsb_exists. split.
  - intros (x & I & E). apply Nat.eqb_eq in E. subst. auto.
  - intro I. exists i. split; auto. apply Nat.eqb_refl.
Qed.
Lemma mem_spec : forall i l, reflect (In i l) (mem i l).
Proof. intros. destruct (mem i l) eqn:E; constructor. - apply mem_In; auto. - intro H. apply mem_In in H. congruence. Qed.

Lemma add_vars_In : forall vs seen i, In i (add_vars seen vs) <-> In i seen \/ In i vs.
Proof.
  unfold add_vars. induction vs as [|v vs IH]; cbn; intros; [tauto|].
  rewrite IH. destruct (mem_spec v seen); [|rewrite in_app_iff; cbn]; intuition (subst; auto).
Qed.
Lemma add_vars_nodup : forall vs seen, NoDup seen -> NoDup (add_vars seen vs).
Proof.
  unfold add_vars. induction vs as [|v vs IH]; cbn; intros seen N; auto. apply IH.
  destruct (mem_spec v seen); auto. apply NoDup_rev in N.
  assert (G : NoDup (rev (v :: rev seen))). { apply NoDup_rev. constructor; auto. rewrite <- in_rev. auto. }
  cbn in G. rewrite rev_involutive in G. exact G.
Qed.

Section P.
Context {V : Type}.
Variable R : ring_ops V.
Hypothesis RT : ring_theory (r0 R) (r1 R) (radd R) (rmul R) (rsub R) (ropp R) eq.
Variable fn : nat -> V -> V.
Variable dv : V -> V -> V.
Variable dim : ivar -> nat.
Add Ring Rr : RT.

Notation "0r" := (r0 R). Notation "a +r b" := (radd R a b) (at level 50, left associativity).
Notation sum := (sum R). Notation prod := (prod R).
Notation ev := (neval R fn dv dim).
Notation so := (sum_over R dim).

(** *** Sums *)
Lemma foldr_ext : forall (l : list nat) (f g : nat -> V), (forall c, In c l -> f c = g c) ->
  fold_right (fun c a => f c +r a) 0r l = fold_right (fun c a => g c +r a) 0r l.
Proof. induction l; cbn; intros; auto. rewrite H by auto. f_equal. apply IHl; auto. Qed.
Lemma sum_ext : forall n f g, (forall c, c < n -> f c = g c) -> sum n f = sum n g.
Proof. intros. unfold NotationSpec.sum. apply foldr_ext. intros c I. apply H. apply in_seq in I. lia. Qed.
Lemma prod_ext : forall n f g, (forall c, c < n -> f c = g c) -> prod n f = prod n g.
Proof.
  intros n f g H. unfold NotationSpec.prod.
  assert (G : forall l, (forall c, In c l -> f c = g c) -> fold_right (fun c a => rmul R (f c) a) (r1 R) l = fold_right (fun c a => rmul R (g c) a) (r1 R) l).
  { induction l; cbn; intros; auto. rewrite H0 by auto. f_equal. apply IHl; auto. }
  apply G. intros c I. apply H. apply in_seq in I. lia.
Qed.
Lemma foldr_add : forall (l : list nat) (f g : nat -> V),
  fold_right (fun c a => (f c +r g c) +r a) 0r l = fold_right (fun c a => f c +r a) 0r l +r fold_right (fun c a => g c +r a) 0r l.
Proof. induction l; cbn; intros; [ring|]. rewrite IHl. ring. Qed.
Lemma sum_add : forall n f g, sum n (fun c => f c +r g c) = sum n f +r sum n g.
Proof. intros. apply foldr_add. Qed.
Lemma sum_0 : forall n, sum n (fun _ => 0r) = 0r.
Proof. intros. unfold NotationSpec.sum. induction (seq 0 n); cbn; auto. rewrite IHl. ring. Qed.
Lemma sum_opp : forall n f, sum n (fun c => ropp R (f c)) = ropp R (sum n f).
Proof. intros. unfold NotationSpec.sum. induction (seq 0 n); cbn; [ring|]. rewrite IHl. ring. Qed.
Lemma sum_sub : forall n f g, sum n (fun c => rsub R (f c) (g c)) = rsub R (sum n f) (sum n g).
Proof. intros. unfold NotationSpec.sum. induction (seq 0 n); cbn; [ring|]. rewrite IHl. ring. Qed.
Lemma sum_scale : forall n f v, sum n (fun c => rmul R v (f c)) = rmul R v (sum n f).
Proof. intros. unfold NotationSpec.sum. induction (seq 0 n); cbn; [ring|]. rewrite IHl. ring. Qed.
Lemma sum_swap : forall n m f, sum n (fun i => sum m (fun j => f i j)) = sum m (fun j => sum n (fun i => f i j)).
Proof.
  intros n m f. unfold NotationSpec.sum at 1 4. generalize (seq 0 n). induction l; cbn.
  - symmetry. apply sum_0.
  - rewrite IHl. symmetry. apply (sum_add m (fun j => f a j)).
Qed.
(** A sum with one non-zero term. *)
Lemma sum_single : forall n k v, k < n -> sum n (fun c => if Nat.eqb c k then v else 0r) = v.
Proof.
  intros n k v L. unfold NotationSpec.sum.
  assert (G : forall m s, fold_right (fun c a => (if Nat.eqb c k then v else 0r) +r a) 0r (seq s m) =
                          if (s <=? k) && (k <? s + m) then v else 0r).
  { induction m as [|m IH]; intros s; cbn [seq fold_right].
    - destruct (Nat.leb_spec s k), (Nat.ltb_spec k (s + 0)); cbn; auto; lia.
    - rewrite IH. destruct (Nat.eqb_spec s k), (Nat.leb_spec s k), (Nat.leb_spec (S s) k), (Nat.ltb_spec k (s + S m)), (Nat.ltb_spec k (S s + m)); cbn; try lia; ring. }
  rewrite G. destruct (Nat.leb_spec 0 k), (Nat.ltb_spec k (0 + n)); cbn; auto; lia.
Qed.

(** *** Valuations *)
Lemma ext_same : forall r i c, ext r i c i = c.
Proof. intros. unfold ext. rewrite Nat.eqb_refl. auto. Qed.
Lemma ext_other : forall r i c j, j <> i -> ext r i c j = r j.
Proof. intros. unfold ext. destruct (Nat.eqb_spec j i); congruence. Qed.

Lemma neval_ext : forall e T T' r r', (forall t x, In t (reads e) -> T t x = T' t x) ->
  (forall i, In i (vars e) -> r i = r' i) -> ev T r e = ev T' r' e.
Proof.
  induction e; cbn; intros T T' r r' HT Hr; auto.
  - replace (map r vs) with (map r' vs); auto. apply map_ext_in. intros. symmetry. auto.
  - f_equal. auto.
  - f_equal. auto.
  - f_equal; [apply IHe1|apply IHe2]; intros; (apply HT || apply Hr); apply in_app_iff; auto.
  - f_equal; [apply IHe1|apply IHe2]; intros; (apply HT || apply Hr); apply in_app_iff; auto.
  - f_equal; [apply IHe1|apply IHe2]; intros; (apply HT || apply Hr); apply in_app_iff; auto.
  - f_equal; [apply IHe1|apply IHe2]; intros; (apply HT || apply Hr); apply in_app_iff; auto.
  - assert (forall c, ev T (ext r i c) e = ev T' (ext r' i c) e).
    { intros c. apply IHe; auto. intros j J. unfold ext. destruct (Nat.eqb_spec j i); auto. apply Hr. apply in_in_remove; auto. }
    destruct op; [apply sum_ext|apply prod_ext]; auto.
Qed.

Lemma so_ext : forall is f g r, (forall r, f r = g r) -> so is f r = so is g r.
Proof. induction is; cbn; intros; auto. apply sum_ext. auto. Qed.
(** [f] depends only on the values of the variables. *)
Definition respects (f : val -> V) := forall r r', (forall i, r i = r' i) -> f r = f r'.
Lemma so_respects : forall is f, respects f -> respects (so is f).
Proof.
  induction is; cbn; intros f Hf r r' E; auto. apply sum_ext. intros c _. apply IHis; auto.
  intros i. unfold ext. destruct (Nat.eqb i a); auto.
Qed.
Lemma ev_respects : forall T e, respects (fun r => ev T r e).
Proof. intros T e r r' E. apply neval_ext; auto. Qed.
Lemma ext_swap : forall r i j c d k, i <> j -> ext (ext r i c) j d k = ext (ext r j d) i c k.
Proof. intros. unfold ext. destruct (Nat.eqb_spec k i), (Nat.eqb_spec k j); congruence. Qed.
Lemma so_perm : forall is js, Permutation is js -> NoDup is -> forall f r, respects f -> so is f r = so js f r.
Proof.
  induction 1; intros N f r Hf; cbn; auto.
  - inversion N; subst. apply sum_ext. intros. apply IHPermutation; auto.
  - inversion N as [|? ? H1 N1]; subst. rewrite sum_swap. apply sum_ext. intros d _. apply sum_ext. intros c _.
    apply (so_respects l f Hf). intros k. apply ext_swap. intro; subst; apply H1; left; auto.
  - rewrite IHPermutation1 by auto. apply IHPermutation2; auto. eapply Permutation_NoDup; eauto.
Qed.
Lemma so_add : forall is f g r, so is (fun r => f r +r g r) r = so is f r +r so is g r.
Proof. induction is; cbn; intros; auto. rewrite <- sum_add. apply sum_ext. auto. Qed.
Lemma so_opp : forall is f r, so is (fun r => ropp R (f r)) r = ropp R (so is f r).
Proof. induction is; cbn; intros; auto. rewrite <- sum_opp. apply sum_ext. auto. Qed.
Lemma so_0 : forall is r, so is (fun _ => 0r) r = 0r.
Proof. induction is; cbn; intros; auto. rewrite <- (sum_0 (dim a)) at 1. apply sum_ext. auto. Qed.

(** *** C20 *)
Lemma expr_vars_In : forall (e : nexpr V) seen i, is_einsum false e = true \/ is_einsum true e = true ->
  In i (expr_vars_acc seen e) <-> In i seen \/ In i (vars e).
Proof.
  induction e; cbn; intros seen j E; try tauto.
  - apply add_vars_In.
  - rewrite IHe by tauto. tauto.
  - rewrite IHe by tauto. tauto.
  - destruct E as [E|E]; [|discriminate]. rewrite !andb_true_iff in E.
    rewrite IHe2, IHe1 by tauto. rewrite in_app_iff. tauto.
  - destruct E as [E|E]; [|discriminate]. rewrite !andb_true_iff in E.
    rewrite IHe2, IHe1 by tauto. rewrite in_app_iff. tauto.
  - assert (E' : is_einsum true e1 = true /\ is_einsum true e2 = true) by (destruct E as [E|E]; apply andb_true_iff in E; auto).
    rewrite IHe2, IHe1 by tauto. rewrite in_app_iff. tauto.
  - destruct E; discriminate.
  - destruct E; discriminate.
Qed.
Lemma expr_vars_nodup : forall (e : nexpr V) seen, NoDup seen -> NoDup (expr_vars_acc seen e).
Proof. induction e; cbn; intros; auto. apply add_vars_nodup; auto. Qed.

(** Adding reductions sums over the bound variables. *)
Lemma addReductions_fold : forall free l e T r,
  ev T r (fold_left (fun e v => if mem v free then e else NRed RSum v e) l e) =
  so (filter (fun i => negb (mem i free)) (rev l)) (fun r => ev T r e) r.
Proof.
  intros free l. induction l as [|v l IH] using rev_ind; intros e T r; auto.
  rewrite fold_left_app, rev_app_distr. cbn. destruct (mem v free); cbn; [apply IH|].
  apply sum_ext. intros c _. apply IH.
Qed.
Lemma addReductions_ok : forall free e T r, is_einsum false e = true \/ is_einsum true e = true ->
  ev T r (addReductions free e) = so (bound_vars free e) (fun r => ev T r e) r.
Proof.
  intros free e T r E. unfold addReductions. rewrite addReductions_fold, rev_involutive.
  apply so_perm; [|apply NoDup_filter; apply expr_vars_nodup; constructor|apply ev_respects].
  unfold bound_vars. apply NoDup_Permutation.
  - apply NoDup_filter. apply expr_vars_nodup. constructor.
  - apply NoDup_filter. apply NoDup_nodup.
  - intros i. rewrite !filter_In, nodup_In. unfold getIndexVars. rewrite expr_vars_In by auto. cbn. tauto.
Qed.

Definition terms_value (free : list ivar) (T : store) (r : val) (l : list (bool * nexpr V)) : V :=
  fold_right (fun (p : bool * nexpr V) a => (let v := so (bound_vars free (snd p)) (fun r => ev T r (snd p)) r in
                                 if fst p then v else ropp R v) +r a) 0r l.
Lemma terms_value_app : forall free T r l l', terms_value free T r (l ++ l') = terms_value free T r l +r terms_value free T r l'.
Proof. unfold terms_value. induction l as [|p l IH]; cbn; intros; [ring|]. rewrite IH. ring. Qed.
Lemma terms_neg : forall (e : nexpr V) b, terms (negb b) e = map (fun p => (negb (fst p), snd p)) (terms b e).
Proof.
  induction e; intros; cbn; auto.
  - rewrite map_app, <- IHe1, <- IHe2. auto.
  - rewrite map_app, <- IHe1, <- IHe2. auto.
Qed.
Lemma terms_value_neg : forall free T r l,
  terms_value free T r (map (fun p => (negb (fst p), snd p)) l) = ropp R (terms_value free T r l).
Proof.
  unfold terms_value. intros free T r. induction l as [|p l IH]; cbn [map fold_right fst snd]; [ring|].
  rewrite IH. cbv zeta. destruct (fst p); cbn [negb]; ring.
Qed.

(** The plain value of an expression is the sum of its terms. *)
Lemma terms_plain : forall e T r b,
  fold_right (fun (p : bool * nexpr V) a => (if fst p then ev T r (snd p) else ropp R (ev T r (snd p))) +r a) 0r (terms b e) =
  if b then ev T r e else ropp R (ev T r e).
Proof.
  assert (APP : forall T r l l', fold_right (fun (p : bool * nexpr V) a => (if fst p then ev T r (snd p) else ropp R (ev T r (snd p))) +r a) 0r (l ++ l') =
    fold_right (fun (p : bool * nexpr V) a => (if fst p then ev T r (snd p) else ropp R (ev T r (snd p))) +r a) 0r l +r
    fold_right (fun (p : bool * nexpr V) a => (if fst p then ev T r (snd p) else ropp R (ev T r (snd p))) +r a) 0r l').
  { induction l; cbn; intros; [ring|]. rewrite IHl. ring. }
  induction e; intros T r b; cbn [terms]; try (destruct b; cbn; ring).
  - rewrite IHe. destruct b; cbn; ring.
  - rewrite APP, IHe1, IHe2. destruct b; cbn; ring.
  - rewrite APP, IHe1, IHe2. destruct b; cbn; ring.
Qed.

Lemma terms_vars : forall (e : nexpr V) b p i, In p (terms b e) -> In i (vars (snd p)) -> In i (vars e).
Proof.
  induction e; intros b p j Hp Hi; cbn [terms] in Hp; cbn [vars];
    try (destruct Hp as [<-|[]]; exact Hi).
  - eapply IHe; eauto.
  - apply in_app_iff in Hp. apply in_app_iff. destruct Hp as [Hp|Hp]; [left; eapply IHe1|right; eapply IHe2]; eauto.
  - apply in_app_iff in Hp. apply in_app_iff. destruct Hp as [Hp|Hp]; [left; eapply IHe1|right; eapply IHe2]; eauto.
Qed.
Lemma uniform_value : forall free e T r, uniform free e ->
  so (bound_vars free e) (fun r => ev T r e) r = terms_value free T r (terms true e).
Proof.
  intros free e T r U.
  rewrite (so_ext _ _ (fun r => fold_right (fun (p : bool * nexpr V) a => (if fst p then ev T r (snd p) else ropp R (ev T r (snd p))) +r a) 0r (terms true e)))
    by (intros; rewrite terms_plain; auto).
  unfold uniform in U.
  assert (SUB : forall p, In p (terms true e) -> forall i, In i (bound_vars free (snd p)) -> In i (bound_vars free e)).
  { intros p Hp i. unfold bound_vars. rewrite !filter_In, !nodup_In. intros [A B]. split; auto. eapply terms_vars; eauto. }
  generalize dependent (terms true e). induction l as [|p l IH]; intros U SUB; cbn.
  - apply so_0.
  - rewrite so_add. f_equal.
    + assert (P : Permutation (bound_vars free e) (bound_vars free (snd p))).
      { apply NoDup_Permutation; try (apply NoDup_filter; apply NoDup_nodup).
        intros i. split; [apply U|apply SUB]; left; auto. }
      destruct (fst p).
      * apply so_perm; auto; [apply NoDup_filter; apply NoDup_nodup|apply ev_respects].
      * rewrite so_opp. f_equal. apply so_perm; auto; [apply NoDup_filter; apply NoDup_nodup|apply ev_respects].
    + apply IH; intros; [apply U|eapply SUB]; eauto; right; auto.
Qed.

Lemma mrn_no_add : forall free (e : nexpr V), no_add e = true -> mrn free e = (e, true).
Proof.
  induction e; cbn; intros H; auto; try discriminate.
  - rewrite IHe; auto.
  - rewrite IHe; auto.
  - apply andb_true_iff in H as [A B]. rewrite IHe1, IHe2; auto.
  - apply andb_true_iff in H as [A B]. rewrite IHe1, IHe2; auto.
  - rewrite IHe; auto.
Qed.
Lemma einsum_mul_no_add : forall (e : nexpr V), is_einsum true e = true -> no_add e = true.
Proof. induction e; cbn; intros H; auto; try discriminate. apply andb_true_iff in H as [A B]. rewrite IHe1, IHe2; auto. Qed.

Lemma single_neg : forall e b, no_add e = true -> exists b' e', terms b e = [(b', e')] /\
  (forall free, bound_vars free e' = bound_vars free e) /\
  forall T r, (if b then ev T r e else ropp R (ev T r e)) = if b' then ev T r e' else ropp R (ev T r e').
Proof.
  induction e; cbn; intros b0 H; try discriminate; try (exists b0; eexists; split; [reflexivity|split; auto]).
  destruct (IHe (negb b0) H) as (b' & e' & E & B & F). exists b', e'. split; auto. split; auto.
  intros T r. rewrite <- F. destruct b0; cbn; ring.
Qed.

Lemma mrn_ok : forall free e T r, is_einsum false e = true -> fun_terms e = true -> operands_uniform free e ->
  (mrn free e = (e, true) /\ no_add e = true) \/
  (snd (mrn free e) = false /\ ev T r (fst (mrn free e)) = terms_value free T r (terms true e)).
Proof.
  intros free e T r. induction e; cbn [is_einsum fun_terms operands_uniform]; intros E FT U; try discriminate; try (left; split; reflexivity).
  - destruct (IHe E FT U) as [[H N]|[H1 H2]].
    + left. cbn. rewrite H. auto.
    + right. cbn [mrn]. destruct (mrn free e) as [e' o]. cbn [fst snd] in *. split; auto.
      change (terms true (NNeg e)) with (terms false e). cbn [neval].
      rewrite H2. rewrite (terms_neg e true : terms false e = _), terms_value_neg. auto.
  - left. split; [|exact FT]. apply mrn_no_add. exact FT.
  - right. cbn [mrn fst snd neval terms negb]. split; auto. rewrite !andb_true_iff in E. rewrite !addReductions_ok by tauto.
    rewrite !uniform_value by tauto. rewrite terms_value_app. auto.
  - right. cbn [mrn fst snd neval terms negb]. split; auto. rewrite !andb_true_iff in E. rewrite !addReductions_ok by tauto.
    rewrite !uniform_value by tauto. rewrite terms_value_app.
    rewrite (terms_neg e2 true : terms false e2 = _), terms_value_neg. ring.
  - left. assert (N : no_add (NMul e1 e2) = true).
    { cbn. apply andb_true_iff in E as [A B]. rewrite !einsum_mul_no_add; auto. }
    split; auto. apply mrn_no_add; auto.
Qed.

Lemma einsum_ok : forall free e T r, is_einsum false e = true -> fun_terms e = true -> operands_uniform free e ->
  ev T r (makeReductionNotation free e) = einsum_value R fn dv dim free T r e.
Proof.
  intros free e T r E FT U. unfold makeReductionNotation, einsum_value. rewrite E.
  change (fold_right _ _ _) with (terms_value free T r (terms true e)).
  destruct (mrn_ok free e T r E FT U) as [[H N]|[H1 H2]].
  - rewrite H. rewrite addReductions_ok by auto.
    destruct (single_neg e true N) as (b' & e' & Et & B & F). cbn in F. rewrite Et. unfold terms_value. cbn [fold_right fst snd]. cbv zeta. rewrite B.
    rewrite (so_ext _ _ _ _ (F T)). destruct b'; [ring|]. rewrite so_opp. ring.
  - destruct (mrn free e) as [e' o]. cbn [fst snd] in *. subst o. exact H2.
Qed.
End P.
