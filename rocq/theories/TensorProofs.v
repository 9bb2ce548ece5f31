(** Proofs about inserting, packing and reading (Tensor.v). *)
From Coq Require Import List Arith ZArith Lia Bool Sorting.Sorted Permutation Ring_theory Ring.
Import ListNotations.
From Verif Require Import Outcome Storage Eval StorageProofs StorageMore PackKernel Compare Tensor TensorSpec PackKernelProofs.
Local Open Scope nat_scope.
Local Arguments list_eq_dec : simpl never.

(** ** The comparator *)
Section Compare.
Local Open Scope Z_scope.

Lemma wrap32_small : forall z, int32 z -> wrap32 z = z.
Proof. intros z H. unfold wrap32, int32 in *. rewrite Z.mod_small; lia. Qed.

Lemma coord_diff : forall x y, coordinate x -> coordinate y -> int32 (x - y).
Proof. unfold coordinate, int32. intros. lia. Qed.

Lemma cmp_cons : forall x y a b, coordinate x -> coordinate y ->
  lexicographicalCmp (x :: a) (y :: b) = if x =? y then lexicographicalCmp a b else x - y.
Proof.
  intros x y a b X Y. cbn [lexicographicalCmp]. rewrite wrap32_small by (apply coord_diff; auto).
  destruct (Z.eqb_spec x y) as [->|N].
  - rewrite Z.sub_diag. auto.
  - destruct (Z.eqb_spec (x - y) 0); auto. lia.
Qed.

Lemma smaller_cons : forall x y a b, smaller (x :: a) (y :: b) <-> x < y \/ x = y /\ smaller a b.
Proof.
  intros x y a b. split.
  - intros (p & u & w & s & t & E1 & E2 & L). destruct p as [|z p]; simpl in E1, E2; injection E1 as -> ->; injection E2 as -> ->.
    + auto.
    + right. split; auto. exists p, u, w, s, t. auto.
  - intros [L|(-> & p & u & w & s & t & -> & -> & L)].
    + exists [], x, y, a, b. auto.
    + exists (y :: p), u, w, s, t. auto.
Qed.
Lemma smaller_nil : forall a b, smaller a b -> a <> [] /\ b <> [].
Proof. intros a b (p & x & y & s & t & -> & -> & _). split; destruct p; discriminate. Qed.

Lemma cmp_spec : forall a b, length a = length b -> Forall coordinate a -> Forall coordinate b ->
  (lexicographicalCmp a b < 0 <-> smaller a b) /\
  (lexicographicalCmp a b = 0 <-> a = b) /\
  (lexicographicalCmp a b > 0 <-> smaller b a).
Proof.
  induction a as [|x a IH]; intros [|y b] L A B; try discriminate.
  - cbn. repeat split; try lia; intros H; try (apply smaller_nil in H; destruct H as [H _]; congruence).
  - inversion A; inversion B; subst. rewrite cmp_cons by auto. rewrite !smaller_cons.
    destruct (IH b) as (I1 & I2 & I3); auto.
    destruct (Z.eqb_spec x y) as [->|N].
    + rewrite I1, I2, I3. split; [|split]; split; intros H.
      * right. auto.
      * destruct H as [H|[_ H]]; [lia|auto].
      * congruence.
      * congruence.
      * right. auto.
      * destruct H as [H|[_ H]]; [lia|auto].
    + split; [|split]; split; intros H.
      * left. lia.
      * destruct H as [H|[H _]]; lia.
      * lia.
      * congruence.
      * left. lia.
      * destruct H as [H|[H _]]; lia.
Qed.
End Compare.

Lemma cmp_lexle : forall a b, length a = length b ->
  Forall (fun c => (Z.of_nat c < 2 ^ 31)%Z) a -> Forall (fun c => (Z.of_nat c < 2 ^ 31)%Z) b ->
  ((lexicographicalCmp (map Z.of_nat a) (map Z.of_nat b) <= 0)%Z <-> lexle a b).
Proof.
  induction a as [|x a IH]; intros [|y b] L A B; try discriminate.
  - cbn. split; auto; lia.
  - inversion A; inversion B; subst. cbn [map].
    rewrite cmp_cons by (unfold coordinate; lia).
    cbn [lexle]. destruct (Z.eqb_spec (Z.of_nat x) (Z.of_nat y)) as [E|N].
    + rewrite IH by auto. split; [intros; right; split; [lia|auto]|]. intros [|[]]; [lia|auto].
    + split; [intros; left; lia|]. intros [|[]]; lia.
Qed.

(** ** Orders of modes *)
Section Modes.

Lemma level_of_nth : forall ord m, In m ord -> level_of ord m < length ord /\ nth (level_of ord m) ord 0 = m.
Proof.
  induction ord as [|k ord IH]; intros m H; [destruct H|]. cbn [level_of].
  destruct (Nat.eqb_spec k m) as [->|N]; cbn [length nth]; [split; auto; lia|].
  destruct H as [->|H]; [congruence|]. destruct (IH m H). split; auto. lia.
Qed.
Lemma nth_level_of : forall ord l, NoDup ord -> l < length ord -> level_of ord (nth l ord 0) = l.
Proof.
  induction ord as [|k ord IH]; intros l ND L; [simpl in L; lia|]. inversion ND; subst. destruct l; cbn [nth level_of].
  - rewrite Nat.eqb_refl. auto.
  - simpl in L. destruct (Nat.eqb_spec k (nth l ord 0)) as [E|_].
    + exfalso. apply H1. rewrite E. apply nth_In. lia.
    + f_equal. apply IH; auto. lia.
Qed.

Variable ord : list nat.
Variable n : nat.
Hypothesis MO : mode_order ord n.

Lemma mo_length : length ord = n.
Proof. rewrite (Permutation_length MO), seq_length. auto. Qed.
Lemma mo_nodup : NoDup ord.
Proof. apply (Permutation_NoDup (Permutation_sym MO)). apply seq_NoDup. Qed.
Lemma mo_in : forall m, In m ord <-> m < n.
Proof.
  intros m. split; intros H.
  - apply (Permutation_in _ MO) in H. apply in_seq in H. lia.
  - apply (Permutation_in _ (Permutation_sym MO)). apply in_seq. lia.
Qed.
Lemma mo_lt : forall l, l < n -> nth l ord 0 < n.
Proof. intros l H. apply mo_in. apply nth_In. rewrite mo_length. auto. Qed.

Lemma permute_length : forall cs, length (permute ord cs) = n.
Proof. intros. unfold permute. rewrite map_length, mo_length. auto. Qed.
Lemma unpermute_length : forall cs, length (unpermute ord cs) = n.
Proof. intros. unfold unpermute. rewrite map_length, seq_length, mo_length. auto. Qed.
Lemma nth_permute : forall cs l, l < n -> nth l (permute ord cs) 0 = nth (nth l ord 0) cs 0.
Proof.
  intros cs l L. unfold permute. rewrite (nth_indep _ 0 (nth 0 cs 0)) by (rewrite map_length, mo_length; auto).
  change (nth 0 cs 0) with ((fun m => nth m cs 0) 0). rewrite map_nth. auto.
Qed.
Lemma nth_unpermute : forall ls m, m < n -> nth m (unpermute ord ls) 0 = nth (level_of ord m) ls 0.
Proof.
  intros ls m L. unfold unpermute. rewrite mo_length.
  rewrite (nth_indep _ 0 (nth (level_of ord 0) ls 0)) by (rewrite map_length, seq_length; auto).
  change (nth (level_of ord 0) ls 0) with ((fun m => nth (level_of ord m) ls 0) 0). rewrite map_nth. rewrite seq_nth; auto.
Qed.
Lemma list_ext : forall (a b : list nat), length a = n -> length b = n -> (forall i, i < n -> nth i a 0 = nth i b 0) -> a = b.
Proof. intros a b A B H. apply nth_ext with 0 0; [congruence|]. intros i Hi. apply H. congruence. Qed.

Lemma unpermute_permute : forall cs, length cs = n -> unpermute ord (permute ord cs) = cs.
Proof.
  intros cs L. apply list_ext; auto; [apply unpermute_length|]. intros m M. rewrite nth_unpermute by auto.
  destruct (level_of_nth ord m) as [A B]; [apply mo_in; auto|]. rewrite mo_length in A. rewrite nth_permute by auto. congruence.
Qed.
Lemma permute_unpermute : forall ls, length ls = n -> permute ord (unpermute ord ls) = ls.
Proof.
  intros ls L. apply list_ext; auto; [apply permute_length|]. intros l M. rewrite nth_permute by auto.
  rewrite nth_unpermute by (apply mo_lt; auto). rewrite nth_level_of; auto; [apply mo_nodup|rewrite mo_length; auto].
Qed.
Lemma permute_inj : forall a b, length a = n -> length b = n -> permute ord a = permute ord b -> a = b.
Proof. intros a b A B E. rewrite <- (unpermute_permute a A), <- (unpermute_permute b B). congruence. Qed.

Lemma in_range_nth : forall dims cs, in_range dims cs <-> length cs = length dims /\ forall i, i < length dims -> nth i cs 0 < nth i dims 0.
Proof.
  unfold in_range. induction dims as [|d dims IH]; intros cs.
  - split; [intros H; inversion H; subst; split; auto; simpl; lia|]. intros [L _]. destruct cs; [constructor|discriminate].
  - split.
    + intros H. inversion H; subst. apply IH in H4. destruct H4 as [A B]. split; [simpl; auto|]. intros [|i] Hi; simpl; auto. apply B. simpl in Hi. lia.
    + intros [L H]. destruct cs as [|c cs]; [discriminate|]. constructor; [exact (H 0 ltac:(simpl; lia))|].
      apply IH. simpl in L. split; [lia|]. intros i Hi. exact (H (S i) ltac:(simpl; lia)).
Qed.

Lemma in_range_permute : forall dims cs, length dims = n -> length cs = n ->
  (in_range (permute ord dims) (permute ord cs) <-> in_range dims cs).
Proof.
  intros dims cs LD LC. rewrite !in_range_nth. rewrite !permute_length, LD, LC. split; intros [_ H]; split; auto; intros i Hi.
  - destruct (level_of_nth ord i) as [A B]; [apply mo_in; auto|]. rewrite mo_length in A. specialize (H _ A).
    rewrite !nth_permute in H by auto. rewrite B in H. auto.
  - rewrite !nth_permute by auto. apply H. apply mo_lt. auto.
Qed.
End Modes.

(** ** Sums of inserted values *)
Section Sums.
Context {V : Type}.
Variable R : ring_ops V.
Hypothesis HR : ring_theory (r0 R) (r1 R) (radd R) (rmul R) (rsub R) (ropp R) eq.
Add Ring VRing : HR.
Notation row := (@Storage.row V).

Lemma sum_app : forall a b, sum_values R (a ++ b) = radd R (sum_values R a) (sum_values R b).
Proof. unfold sum_values. induction a as [|x a IH]; intros b; cbn [app fold_right]; [ring|]. rewrite IH. ring. Qed.
Lemma sum_perm : forall a b, Permutation a b -> sum_values R a = sum_values R b.
Proof. unfold sum_values. induction 1; cbn [fold_right]; [auto|congruence|ring|congruence]. Qed.

Lemma inserted_app : forall (a b : list row) cs, inserted_at R (a ++ b) cs = radd R (inserted_at R a cs) (inserted_at R b cs).
Proof. intros. unfold inserted_at. rewrite filter_app, map_app, sum_app. auto. Qed.
Lemma filter_perm : forall A (f : A -> bool) l l', Permutation l l' -> Permutation (filter f l) (filter f l').
Proof.
  induction 1; cbn [filter]; auto.
  - destruct (f x); auto.
  - destruct (f x), (f y); auto. constructor.
  - eapply Permutation_trans; eauto.
Qed.
Lemma inserted_perm : forall (a b : list row) cs, Permutation a b -> inserted_at R a cs = inserted_at R b cs.
Proof. intros. unfold inserted_at. apply sum_perm. apply Permutation_map. apply filter_perm. auto. Qed.

Lemma inserted_map : forall (f : list nat -> list nat) (rows : list row) cs,
  (forall r, In r rows -> f (fst r) = f cs -> fst r = cs) ->
  inserted_at R (map (fun r => (f (fst r), snd r)) rows) (f cs) = inserted_at R rows cs.
Proof.
  intros f rows cs INJ. unfold inserted_at. f_equal. induction rows as [|r rows IH]; auto. cbn [map filter fst].
  specialize (IH (fun x H => INJ x (or_intror H))).
  replace (same_coords (f (fst r)) (f cs)) with (same_coords (fst r) cs).
  - destruct (same_coords (fst r) cs); cbn [map snd]; rewrite IH; auto.
  - unfold same_coords. destruct (list_eq_dec Nat.eq_dec (fst r) cs), (list_eq_dec Nat.eq_dec (f (fst r)) (f cs)); auto; try congruence.
    exfalso. apply n. apply INJ; simpl; auto.
Qed.

Lemma inserted_absent : forall (rows : list row) cs, ~ In cs (map fst rows) -> inserted_at R rows cs = r0 R.
Proof.
  intros rows cs N. unfold inserted_at. replace (filter (fun r => same_coords (fst r) cs) rows) with (@nil row); auto.
  symmetry. induction rows as [|r rows IH]; auto. cbn [filter]. destruct (same_coords (fst r) cs) eqn:E.
  - apply same_coords_eq in E. exfalso. apply N. simpl. auto.
  - apply IH. intros H. apply N. simpl. auto.
Qed.
Lemma inserted_unique : forall (rows : list row) cs v, NoDup (map fst rows) -> In (cs, v) rows -> inserted_at R rows cs = v.
Proof.
  induction rows as [|r rows IH]; intros cs v ND IN; [destruct IN|]. cbn [map] in ND. inversion ND; subst.
  change (r :: rows) with ([r] ++ rows). rewrite inserted_app. destruct IN as [->|IN].
  - rewrite (inserted_absent rows) by auto. unfold inserted_at. cbn [filter fst]. replace (same_coords cs cs) with true by (symmetry; apply same_coords_eq; auto).
    cbn. ring.
  - rewrite (IH cs v); auto. rewrite inserted_absent; [ring|]. cbn [map]. intros [E|[]]. apply H1. rewrite E. apply in_map_iff.
    exists (cs, v). auto.
Qed.

Lemma lexlt_nodup : forall l, StronglySorted lexlt l -> NoDup l.
Proof.
  induction 1; constructor; auto. rewrite Forall_forall in H0. intros X. apply (lexlt_irrefl a). auto.
Qed.

Lemma components_nodup : forall dims (s : storage V) d, wf_storage dims s -> NoDup (map fst (components d s)).
Proof.
  intros dims s d W. unfold components. rewrite map_map. cbn [fst]. apply lexlt_nodup. eapply enum_sorted; eauto.
Qed.
Lemma components_in : forall dims (s : storage V) d cs v, wf_storage dims s ->
  (In (cs, v) (components d s) <-> in_range dims cs /\ locate (st_levels s) 0 cs <> None /\ v = value_at d s cs).
Proof.
  intros dims s d cs v W. unfold components, value_at. rewrite in_map_iff. split.
  - intros ((c & q) & E & IN). cbn [fst snd] in E. inversion E; subst. apply (enum_locate _ _ _ _ 0 W) in IN; [|lia].
    destruct IN as [A B]. rewrite B. repeat split; auto. discriminate.
  - intros (A & B & ->). destruct (locate (st_levels s) 0 cs) as [q|] eqn:E; [|congruence]. exists (cs, q). split; auto.
    apply (enum_locate _ _ _ _ 0 W); auto.
Qed.
Lemma inserted_components : forall dims (s : storage V) cs, wf_storage dims s -> in_range dims cs ->
  inserted_at R (components (r0 R) s) cs = value_at (r0 R) s cs.
Proof.
  intros dims s cs W IR. destruct (locate (st_levels s) 0 cs) eqn:E.
  - apply inserted_unique; [eapply components_nodup; eauto|]. apply (components_in _ _ _ _ _ W). repeat split; auto. congruence.
  - rewrite inserted_absent.
    + unfold value_at. rewrite E. auto.
    + intros H. apply in_map_iff in H. destruct H as ((c & v) & X & H). cbn [fst] in X. subst.
      apply (components_in _ _ _ _ _ W) in H. tauto.
Qed.

End Sums.

(** ** The coordinate buffer *)
Section Buffer.
Context {V : Type}.
Notation row := (@Storage.row V).
Notation tensor := (@tensor V).

Lemma buffered_app : forall n (s x : list (option row)) rows, buffered n s = Val rows -> buffered n (s ++ x) = Val rows.
Proof.
  induction n as [|n IH]; intros s x rows H; [simpl in *; auto|].
  destruct s as [|[r|] s]; cbn [buffered app] in *; try discriminate.
  destruct (buffered n s) as [l| |] eqn:E; try discriminate. rewrite (IH s x l) by auto. auto.
Qed.
Lemma buffered_set : forall n (s : list (option row)) rows r, buffered n s = Val rows -> n < length s ->
  buffered (n + 1) (set_nth n (Some r) s) = Val (rows ++ [r]).
Proof.
  induction n as [|n IH]; intros s rows r H L.
  - destruct s as [|x s]; [simpl in L; lia|]. simpl in *. injection H as <-. auto.
  - destruct s as [|[x|] s]; cbn [buffered plus set_nth] in *; try discriminate.
    destruct (buffered n s) as [l| |] eqn:E; try discriminate. cbn [obind] in H. injection H as <-.
    rewrite (IH s l r) by (auto; simpl in L; lia). auto.
Qed.
Lemma set_nth_length : forall A i (x : A) l, length (set_nth i x l) = length l.
Proof. induction i; intros x [|y l]; simpl; auto. Qed.

Definition buffer_ok (t : tensor) (rows : list row) : Prop :=
  buffered (t_used t) (t_slots t) = Val rows /\ t_used t <= length (t_slots t).

Lemma insert_ok : forall r (t : tensor) rows, buffer_ok t rows ->
  exists t', insertUnsynced r t = Val t' /\ buffer_ok t' (rows ++ [r]) /\ t_dims t' = t_dims t /\ t_kinds t' = t_kinds t /\
    t_ord t' = t_ord t /\ t_store t' = t_store t /\ t_never t' = t_never t /\ t_needs t' = t_needs t.
Proof.
  intros r t rows [B U]. unfold insertUnsynced.
  rewrite (proj2 (Nat.leb_le _ _) U). cbn [andb].
  set (slots := if length (t_slots t) - t_used t <? 1 then t_slots t ++ [None] else t_slots t).
  assert (X : buffered (t_used t) slots = Val rows /\ t_used t < length slots).
  { unfold slots. destruct (Nat.ltb_spec (length (t_slots t) - t_used t) 1).
    - split; [apply buffered_app; auto|]. rewrite app_length. simpl. lia.
    - split; auto. lia. }
  destruct X as [X1 X2]. rewrite (proj2 (Nat.ltb_lt _ _) X2).
  eexists. split; [reflexivity|]. cbn. repeat split; auto.
  - apply buffered_set; auto.
  - cbn [with_buffer t_used t_slots]. rewrite set_nth_length. lia.
Qed.

Lemma insert_all_ok : forall new (t : tensor) rows, buffer_ok t rows ->
  exists t', insert_all new t = Val t' /\ buffer_ok t' (rows ++ new) /\ t_dims t' = t_dims t /\ t_kinds t' = t_kinds t /\
    t_ord t' = t_ord t /\ t_store t' = t_store t /\ t_never t' = t_never t /\ t_needs t' = t_needs t.
Proof.
  induction new as [|r new IH]; intros t rows B.
  - exists t. rewrite app_nil_r. cbn. auto 10.
  - destruct (insert_ok r t rows B) as (t1 & E & B1 & D1 & K1 & O1 & S1 & N1 & P1).
    destruct (IH t1 _ B1) as (t2 & E2 & B2 & D2 & K2 & O2 & S2 & N2 & P2).
    exists t2. cbn [insert_all]. rewrite E. cbn [obind]. rewrite <- app_assoc in B2. cbn [app] in B2.
    split; [exact E2|]. split; [exact B2|]. repeat split; congruence.
Qed.
End Buffer.

(** ** The kinds of levels *)
Definition lkind (l : level) : kind := match l with LDense _ => KDense | LComp _ _ => KComp end.
Lemma mk_levels_kinds : forall fmt idx, length (mk_levels fmt idx) = length fmt -> map lkind (mk_levels fmt idx) = map fst fmt.
Proof.
  induction fmt as [|[k d] fmt IH]; intros idx L; auto. cbn [mk_levels] in *.
  destruct k, idx as [|[p c] idx]; cbn in L |- *; try discriminate; f_equal; apply IH; lia.
Qed.
Lemma wf_levels_length : forall ls n dims nv, wf_levels n ls dims nv -> length ls = length dims.
Proof.
  induction ls as [|[d|p c] ls IH]; intros n [|dd dims] nv W; cbn in *; try tauto.
  - destruct W as [_ W]. f_equal. eapply IH; eauto.
  - f_equal. eapply IH. apply W.
Qed.

(** ** Histories *)
Section History.
Context {V : Type}.
Variable R : ring_ops V.
Hypothesis HR : ring_theory (r0 R) (r1 R) (radd R) (rmul R) (rsub R) (ropp R) eq.
Add Ring VRing2 : HR.
Notation row := (@Storage.row V).
Notation tensor := (@tensor V).
Variable sort : list row -> list row.
Hypothesis SORT : sorts sort.
Variable dims : list nat.
Variable kinds : list kind.
Variable ord : list nat.
Hypothesis OK : format_ok dims kinds ord.
Hypothesis NE : dims <> [].

Definition fmt : list (kind * nat) := combine kinds (permute ord dims).

Lemma MO : mode_order ord (length dims).
Proof. apply OK. Qed.
Lemma fmt_dims : dims_of fmt = permute ord dims.
Proof.
  unfold dims_of, fmt. assert (L : length kinds = length (permute ord dims)).
  { rewrite (permute_length ord (length dims) MO). apply OK. }
  revert L. generalize (permute ord dims). generalize kinds. clear.
  induction kinds as [|k ks IH]; intros [|d l] L; simpl in *; try discriminate; auto. f_equal. apply IH. lia.
Qed.
Lemma fmt_length : length fmt = length dims.
Proof. rewrite <- (map_length snd). change (map snd fmt) with (dims_of fmt). rewrite fmt_dims. apply (permute_length _ _ MO). Qed.

Lemma range_length : forall cs, in_range dims cs -> length cs = length dims.
Proof. intros cs H. apply in_range_nth in H. tauto. Qed.
Lemma range_int : forall cs, in_range dims cs -> Forall (fun c => (Z.of_nat c < 2 ^ 31)%Z) (permute ord cs).
Proof.
  intros cs H. apply in_range_nth in H. destruct H as [L H]. apply Forall_forall. intros c Hc. unfold permute in Hc.
  apply in_map_iff in Hc. destruct Hc as (m & <- & Hm). apply (mo_in _ _ MO) in Hm. specialize (H m Hm).
  destruct OK as (_ & _ & D). rewrite Forall_forall in D. specialize (D (nth m dims 0) (nth_In _ _ Hm)). lia.
Qed.

(** What the sorted, permuted buffer packs to. *)
Definition permuted (rows : list row) : list row := map (fun r => (permute ord (fst r), snd r)) rows.
Definition packed_store (rows : list row) : storage V := pack_kernel R fmt (sort (permuted rows)).

Lemma permuted_packable : forall rows, (forall r, In r rows -> in_range dims (fst r)) ->
  Permutation (permuted rows) (sort (permuted rows)) /\ packable (dims_of fmt) (sort (permuted rows)).
Proof.
  intros rows IR.
  assert (X : forall r, In r (permuted rows) -> length (fst r) = length dims /\ Forall (fun c => (Z.of_nat c < 2 ^ 31)%Z) (fst r)).
  { intros r Hr. apply in_map_iff in Hr. destruct Hr as (x & <- & Hx). cbn [fst]. split; [apply (permute_length _ _ MO)|apply range_int; auto]. }
  destruct (SORT _ _ X) as [P S]. split; [exact P|].
  assert (X' : forall r, In r (sort (permuted rows)) -> length (fst r) = length dims /\ Forall (fun c => (Z.of_nat c < 2 ^ 31)%Z) (fst r)).
  { intros r Hr. apply X. apply (Permutation_in _ (Permutation_sym P)). auto. }
  split.
  - intros r Hr. apply (Permutation_in _ (Permutation_sym P)) in Hr. apply in_map_iff in Hr. destruct Hr as (x & <- & Hx). cbn [fst].
    rewrite fmt_dims. apply (in_range_permute _ _ MO); auto. apply range_length. auto.
  - assert (X2 : forall c, In c (map fst (sort (permuted rows))) -> length c = length dims /\ Forall (fun c => (Z.of_nat c < 2 ^ 31)%Z) c).
    { intros c Hc. apply in_map_iff in Hc. destruct Hc as (r & <- & Hr). auto. }
    clear X X'. induction S; constructor.
    + apply IHS. intros c Hc. apply X2. simpl; auto.
    + rewrite Forall_forall in *. intros c Hc. specialize (H c Hc). destruct (X2 a (or_introl eq_refl)) as [A1 A2].
      destruct (X2 c (or_intror Hc)) as [C1 C2]. apply cmp_lexle in H; auto. congruence.
Qed.

Lemma packed_store_wf : forall rows, (forall r, In r rows -> in_range dims (fst r)) -> wf_storage (permute ord dims) (packed_store rows).
Proof.
  intros rows IR. destruct (permuted_packable rows IR) as [_ P]. unfold packed_store. rewrite (pack_kernel_pack R HR) by auto.
  rewrite <- fmt_dims. apply pack_wf. apply (valid_totalled R fmt). exact P.
Qed.
Lemma packed_store_kinds : forall rows, (forall r, In r rows -> in_range dims (fst r)) ->
  map lkind (st_levels (packed_store rows)) = kinds.
Proof.
  intros rows IR. assert (W := packed_store_wf rows IR). destruct (permuted_packable rows IR) as [_ P].
  unfold packed_store in *. rewrite (pack_kernel_pack R HR) in * by auto.
  unfold pack in *. destruct (packTensor fmt (r0 R) (totalled R (sort (permuted rows))) (init_indices fmt, [])) as [idx vals].
  unfold wf_storage in W. cbn [st_levels] in *. apply wf_levels_length in W.
  rewrite (permute_length _ _ MO) in W. assert (F := fmt_length).
  rewrite mk_levels_kinds by congruence. unfold fmt. destruct OK as (LK & _ & _).
  assert (L : length kinds = length (permute ord dims)) by (rewrite (permute_length _ _ MO); auto).
  revert L. generalize (permute ord dims). generalize kinds. clear.
  induction kinds as [|k ks IH]; intros [|d l] L; simpl in *; try discriminate; auto. f_equal. apply IH. lia.
Qed.
Lemma packed_store_value : forall rows cs, (forall r, In r rows -> in_range dims (fst r)) -> in_range dims cs ->
  logical R ord (packed_store rows) cs = inserted_at R rows cs.
Proof.
  intros rows cs IR RC. destruct (permuted_packable rows IR) as [PM P]. unfold packed_store, logical. rewrite (pack_kernel_pack R HR) by auto.
  change (map (fun m => nth m cs 0) ord) with (permute ord cs).
  rewrite pack_value_at.
  - rewrite row_value_totalled by auto. rewrite <- (inserted_perm R HR _ _ _ PM).
    unfold permuted. apply inserted_map. intros r Hr E. apply (permute_inj _ _ MO) in E; auto; apply range_length; auto.
  - apply (valid_totalled R fmt). exact P.
  - rewrite fmt_dims. apply (in_range_permute _ _ MO); auto. apply range_length. auto.
Qed.
Lemma packed_store_stored : forall rows cs, (forall r, In r rows -> in_range dims (fst r)) -> in_range dims cs ->
  (locate (st_levels (packed_store rows)) 0 (permute ord cs) <> None <->
   comp_depth fmt = 0 \/
   exists r, In r rows /\ firstn (comp_depth fmt) (permute ord (fst r)) = firstn (comp_depth fmt) (permute ord cs)).
Proof.
  intros rows cs IR RC. destruct (permuted_packable rows IR) as [PM P]. unfold packed_store. rewrite (pack_kernel_pack R HR) by auto.
  rewrite pack_stored.
  - split; (intros [H|(r & Hr & H)]; [auto|right]).
    + unfold totalled in Hr. apply in_map_iff in Hr. destruct Hr as (x & <- & Hx). cbn [fst] in H.
      apply (Permutation_in _ (Permutation_sym PM)) in Hx. apply in_map_iff in Hx. destruct Hx as (y & <- & Hy). exists y. auto.
    + exists (permute ord (fst r), inserted_at R (sort (permuted rows)) (permute ord (fst r))). split; auto.
      unfold totalled. apply in_map_iff. exists (permute ord (fst r), snd r). split; auto.
      apply (Permutation_in _ PM). unfold permuted. apply in_map_iff. exists r. auto.
  - apply (valid_totalled R fmt). exact P.
  - rewrite fmt_dims. apply (in_range_permute _ _ MO); auto. apply range_length. auto.
Qed.

(** The iterator of a packed tensor. *)
Lemma iterate_range : forall t : tensor, t_ord t = ord -> wf_storage (permute ord dims) (t_store t) ->
  forall r, In r (iterate R t) -> in_range dims (fst r).
Proof.
  intros t TO W r Hr. unfold iterate in Hr. rewrite TO in Hr. apply in_map_iff in Hr. destruct Hr as ((c & v) & <- & Hc). cbn [fst snd].
  apply (components_in _ _ _ _ _ W) in Hc. destruct Hc as (IR & _). assert (L := IR). apply in_range_nth in L. destruct L as [L _].
  rewrite (permute_length _ _ MO) in L. apply (in_range_permute _ _ MO); auto; [apply (unpermute_length _ _ MO)|].
  rewrite (permute_unpermute _ _ MO); auto.
Qed.
Lemma iterate_value : forall t : tensor, t_ord t = ord -> wf_storage (permute ord dims) (t_store t) ->
  forall cs, in_range dims cs -> inserted_at R (iterate R t) cs = logical R ord (t_store t) cs.
Proof.
  intros t TO W cs RC. unfold iterate, logical. rewrite TO. change (map (fun m => nth m cs 0) ord) with (permute ord cs).
  rewrite <- (inserted_components R HR _ _ _ W) by (apply (in_range_permute _ _ MO); auto; apply range_length; auto).
  rewrite <- (unpermute_permute _ _ MO cs) at 1 by (apply range_length; auto).
  apply inserted_map. intros [c v] Hc E. cbn [fst] in *.
  apply (components_in _ _ _ _ _ W) in Hc. destruct Hc as (IR & _). apply in_range_nth in IR. destruct IR as [L _].
  rewrite (permute_length _ _ MO) in L.
  rewrite <- (permute_unpermute _ _ MO c), <- (permute_unpermute _ _ MO (permute ord cs)) by (auto; apply (permute_length _ _ MO)).
  congruence.
Qed.
Lemma iterate_in : forall t : tensor, t_ord t = ord -> wf_storage (permute ord dims) (t_store t) ->
  forall cs v, In (cs, v) (iterate R t) <->
    in_range dims cs /\ locate (st_levels (t_store t)) 0 (permute ord cs) <> None /\ v = logical R ord (t_store t) cs.
Proof.
  intros t TO W cs v. unfold iterate. rewrite TO. split.
  - intros H. apply in_map_iff in H. destruct H as ((c & w) & E & Hc). cbn [fst snd] in E. injection E as <- <-.
    apply (components_in _ _ _ _ _ W) in Hc. destruct Hc as (IR & LO & ->). assert (L := IR). apply in_range_nth in L. destruct L as [L _].
    rewrite (permute_length _ _ MO) in L. assert (PU := permute_unpermute _ _ MO c L).
    rewrite PU. split; [|split; auto].
    + apply (in_range_permute _ _ MO); auto; [apply (unpermute_length _ _ MO)|]. rewrite PU. auto.
    + unfold logical. change (map (fun m => nth m (unpermute ord c) 0) ord) with (permute ord (unpermute ord c)). rewrite PU. auto.
  - intros (IR & LO & ->). apply in_map_iff. exists (permute ord cs, logical R ord (t_store t) cs). cbn [fst snd]. split.
    + rewrite (unpermute_permute _ _ MO) by (apply range_length; auto). auto.
    + apply (components_in _ _ _ _ _ W). split; [apply (in_range_permute _ _ MO); auto; apply range_length; auto|auto].
Qed.

(** The state of a tensor after the insertions [hist]. *)
Definition shape (t : tensor) : Prop := t_dims t = dims /\ t_kinds t = kinds /\ t_ord t = ord.
Definition kept_at (t : tensor) (cs : list nat) : Prop := t_never t = false /\ locate (st_levels (t_store t)) 0 (permute ord cs) <> None.
Definition inv (t : tensor) (hist : list row) : Prop :=
  shape t /\ exists rows, buffer_ok t rows /\ (forall r, In r rows -> in_range dims (fst r)) /\
    (t_never t = false -> wf_storage (permute ord dims) (t_store t) /\ map lkind (st_levels (t_store t)) = kinds) /\
    (forall cs, in_range dims cs ->
       radd R (if t_never t then r0 R else logical R ord (t_store t) cs) (inserted_at R rows cs) = inserted_at R hist cs) /\
    (comp_depth fmt = length dims -> forall cs, in_range dims cs ->
       (kept_at t cs \/ In cs (map fst rows) <-> In cs (map fst hist))) /\
    (t_needs t = false -> rows = [] /\ t_never t = false).

Lemma inv_new : inv (new_tensor dims kinds ord) [].
Proof.
  split; [repeat split|]. exists []. unfold buffer_ok. cbn. repeat split; auto; try discriminate; try tauto.
  - intros cs _. ring.
  - intros [[X _]|[]]. discriminate.
Qed.

Lemma inv_insert : forall t hist r, inv t hist -> in_range dims (fst r) ->
  exists t', insert r t = Val t' /\ inv t' (hist ++ [r]).
Proof.
  intros t hist r ((D & K & O) & rows & B & IR & W & VAL & ST & ND) RR.
  destruct (insert_ok r t rows B) as (t1 & E & B1 & D1 & K1 & O1 & S1 & N1 & P1).
  unfold insert. rewrite E. cbn [obind]. eexists. split; [reflexivity|].
  split; [split; [|split]; cbn; congruence|]. exists (rows ++ [r]). split; [exact B1|].
  split; [intros x Hx; apply in_app_iff in Hx; destruct Hx as [Hx|[<-|[]]]; auto|].
  split; [cbn; rewrite N1, S1; auto|]. split; [|split].
  - intros cs RC. cbn. rewrite N1, S1, !(inserted_app R HR), <- (VAL cs RC). ring.
  - intros CD cs RC. specialize (ST CD cs RC). unfold kept_at in *. cbn. rewrite N1, S1, !map_app, !in_app_iff. tauto.
  - cbn. discriminate.
Qed.

Lemma level_fmt_eq : forall t : tensor, shape t -> level_fmt t = fmt.
Proof. intros t (D & K & O). unfold level_fmt, fmt, permute. rewrite D, K, O. reflexivity. Qed.

Lemma pack_ok : forall t hist, inv t hist ->
  exists t', pack_tensor R sort t = Val t' /\ inv t' hist /\ t_needs t' = false.
Proof.
  intros t hist ((D & K & O) & rows & B & IR & W & VAL & ST & ND). unfold pack_tensor.
  destruct (t_needs t) eqn:NP; cbn [negb].
  2:{ exists t. split; auto. split; [split; [split; auto|]|auto]. exists rows. rewrite NP. auto 10. }
  assert (X : exists t1 rows1,
    (if t_never t then Val (with_flags t false false) else insert_all (iterate R t) (with_flags t false false)) = Val t1 /\
    buffer_ok t1 rows1 /\ shape t1 /\ t_never t1 = false /\ t_needs t1 = false /\ (forall r, In r rows1 -> in_range dims (fst r)) /\
    (forall cs, in_range dims cs -> inserted_at R rows1 cs = inserted_at R hist cs) /\
    (comp_depth fmt = length dims -> forall cs, in_range dims cs -> (In cs (map fst rows1) <-> In cs (map fst hist)))).
  { destruct (t_never t) eqn:NV.
    - exists (with_flags t false false), rows. split; auto. split; [exact B|]. split; [split; auto|]. repeat split; auto.
      + intros cs RC. rewrite <- (VAL cs RC). ring.
      + intros HI. apply (ST H cs H0). auto.
      + intros HI. apply (ST H cs H0) in HI. unfold kept_at in HI. destruct HI as [[HI _]|HI]; auto. congruence.
    - destruct (W eq_refl) as [W' _]. clear W. rename W' into W.
      destruct (insert_all_ok (iterate R t) (with_flags t false false) rows B) as (t1 & E & B1 & D1 & K1 & O1 & S1 & N1 & P1).
      exists t1, (rows ++ iterate R t). split; [exact E|]. split; [exact B1|]. cbn in *.
      split; [split; [|split]; congruence|]. split; auto. split; auto. split; [|split].
      + intros r Hr. apply in_app_iff in Hr. destruct Hr as [Hr|Hr]; auto. eapply iterate_range; eauto.
      + intros cs RC. rewrite (inserted_app R HR), (iterate_value t O W cs RC), <- (VAL cs RC). ring.
      + intros CD cs RC. rewrite <- (ST CD cs RC). unfold kept_at. rewrite map_app, in_app_iff.
        assert (IT : In cs (map fst (iterate R t)) <-> locate (st_levels (t_store t)) 0 (permute ord cs) <> None).
        { split.
          - intros H. apply in_map_iff in H. destruct H as ((c & v) & EC & H). cbn [fst] in EC. subst.
            apply (iterate_in t O W) in H. tauto.
          - intros H. apply in_map_iff. exists (cs, logical R ord (t_store t) cs). split; auto. apply (iterate_in t O W). auto. }
        tauto. }
  destruct X as (t1 & rows1 & E1 & (B1 & U1) & SH & N1 & P1 & IR1 & V1 & ST1). rewrite E1. cbn [obind]. rewrite B1. cbn [obind].
  assert (SH' := SH). destruct SH' as (D1 & K1 & O1). rewrite D1. destruct dims as [|d ds] eqn:DD; [congruence|]. rewrite <- DD in *. clear DD d ds.
  rewrite (level_fmt_eq t1 SH), O1.
  match goal with |- context [with_store ?a ?b] => change b with (packed_store rows1) end.
  eexists. split; [reflexivity|]. split; [|auto].
  split; [split; auto|]. exists []. cbn. rewrite N1. split; [split; auto; simpl; lia|].
  split; [intros r []|]. split; [intros _; split; [apply packed_store_wf; auto|apply packed_store_kinds; auto]|]. split; [|split].
  - intros cs RC. rewrite (packed_store_value rows1 cs IR1 RC), <- (V1 cs RC). change (inserted_at R [] cs) with (r0 R). ring.
  - intros CD cs RC. rewrite <- (ST1 CD cs RC). unfold kept_at. cbn. rewrite N1.
    rewrite (packed_store_stored rows1 cs IR1 RC). rewrite CD. split.
    + intros [[_ [H|(r & Hr & H)]]|[]].
      * destruct dims; [congruence|discriminate].
      * rewrite !firstn_all2 in H by (rewrite (permute_length _ _ MO); auto).
        apply (permute_inj _ _ MO) in H; [|apply range_length; auto|apply range_length; auto]. subst. apply in_map. auto.
    + intros H. left. split; auto. right. apply in_map_iff in H. destruct H as (r & <- & Hr). exists r. auto.
  - auto.
Qed.

Lemma run_ok : forall cs t hist, inv t hist -> (forall r, In r (inserts cs) -> in_range dims (fst r)) ->
  exists t', run R sort cs t = Val t' /\ inv t' (hist ++ inserts cs).
Proof.
  induction cs as [|c cs IH]; intros t hist I IR.
  - exists t. cbn. rewrite app_nil_r. auto.
  - cbn [run]. destruct c as [x v| |n]; cbn [do_call].
    + destruct (inv_insert t hist (x, v) I) as (t1 & E & I1); [apply IR; simpl; auto|]. rewrite E. cbn [obind].
      destruct (IH t1 _ I1) as (t2 & E2 & I2); [intros r Hr; apply IR; simpl; auto|].
      exists t2. split; auto. cbn [inserts flat_map app]. rewrite <- app_assoc in I2. exact I2.
    + destruct (pack_ok t hist I) as (t1 & E & I1 & _). rewrite E. cbn [obind]. apply IH; auto.
    + cbn [obind]. apply IH; auto. destruct I as (SH & rows & (B & U) & I). split; [exact SH|]. exists rows. split; [|exact I].
      split; [apply buffered_app; auto|]. cbn. rewrite app_length. lia.
Qed.

Theorem history_ok : forall cs, (forall r, In r (inserts cs) -> in_range dims (fst r)) ->
  exists t, run R sort (cs ++ [Pack]) (new_tensor dims kinds ord) = Val t /\
    shape t /\ t_needs t = false /\ t_never t = false /\ wf_storage (permute ord dims) (t_store t) /\
    map lkind (st_levels (t_store t)) = kinds /\
    (forall x, in_range dims x -> logical R ord (t_store t) x = inserted_at R (inserts cs) x) /\
    (comp_depth fmt = length dims -> forall x, In x (map fst (iterate R t)) <-> In x (map fst (inserts cs))).
Proof.
  intros cs IR. destruct (run_ok cs _ [] inv_new IR) as (t1 & E1 & I1). cbn [app] in I1.
  destruct (pack_ok t1 _ I1) as (t2 & E2 & I2 & N2). exists t2. split.
  - assert (X : forall a b t, run R sort (a ++ b) t = obind (run R sort a t) (run R sort b)).
    { induction a as [|c a IHa]; intros b t; auto. cbn [app run]. destruct (do_call R sort c t); cbn [obind]; auto. }
    rewrite X, E1. cbn [obind run do_call]. rewrite E2. auto.
  - destruct I2 as (SH & rows & B & _ & W & VAL & ST & ND). destruct (ND N2) as [-> NV]. destruct (W NV) as [W' KK]. clear W. rename W' into W. rewrite NV in VAL.
    split; auto. split; auto. split; auto. split; auto. split; auto. split.
    + intros x RX. rewrite <- (VAL x RX). change (inserted_at R [] x) with (r0 R). ring.
    + intros CD x. destruct SH as (_ & _ & O). split.
      * intros H. apply in_map_iff in H. destruct H as ((c & v) & <- & H). apply (iterate_in t2 O W) in H. destruct H as (RX & L & _).
        apply (ST CD _ RX). left. split; auto.
      * intros H. assert (RX : in_range dims x).
        { apply in_map_iff in H. destruct H as (r & <- & Hr). auto. }
        apply (ST CD x RX) in H. destruct H as [[_ H]|[]]. apply in_map_iff. exists (x, logical R ord (t_store t2) x). split; auto.
        apply (iterate_in t2 O W). auto.
Qed.

(** Looking up one coordinate. *)
Lemma find_component_in : forall l cs v, NoDup (map fst l) -> In (cs, v) l -> find_component R cs l = v.
Proof.
  induction l as [|[c w] l IH]; intros cs v ND IN; [destruct IN|]. cbn [map fst] in ND. inversion ND; subst. cbn [find_component].
  destruct (list_eq_dec Nat.eq_dec c cs) as [->|N].
  - destruct IN as [X|IN]; [congruence|]. exfalso. apply H1. apply in_map_iff. exists (cs, v). auto.
  - destruct IN as [X|IN]; [congruence|]. auto.
Qed.
Lemma find_component_out : forall l cs, ~ In cs (map fst l) -> find_component R cs l = r0 R.
Proof.
  induction l as [|[c w] l IH]; intros cs N; auto. cbn [find_component].
  destruct (list_eq_dec Nat.eq_dec c cs) as [->|_]; [exfalso; apply N; simpl; auto|]. apply IH. intros H. apply N. simpl. auto.
Qed.
Lemma iterate_nodup : forall t : tensor, t_ord t = ord -> wf_storage (permute ord dims) (t_store t) -> NoDup (map fst (iterate R t)).
Proof.
  intros t O W. unfold iterate. rewrite O, map_map. cbn [fst].
  assert (ND := components_nodup _ _ (r0 R) W).
  assert (IN : forall c, In c (map fst (components (r0 R) (t_store t))) -> length c = length dims).
  { intros c H. apply in_map_iff in H. destruct H as ((x & v) & <- & H). apply (components_in _ _ _ _ _ W) in H. destruct H as [H _].
    apply in_range_nth in H. destruct H as [H _]. rewrite (permute_length _ _ MO) in H. auto. }
  rewrite <- (map_map fst (unpermute ord)). revert ND IN. generalize (map fst (components (r0 R) (t_store t))).
  induction 1 as [|c l NI ND IH]; intros IN; [constructor|]. cbn [map]. constructor.
  - intros H. apply in_map_iff in H. destruct H as (c' & E & H). apply NI.
    replace c with c'; auto. rewrite <- (permute_unpermute _ _ MO c'), <- (permute_unpermute _ _ MO c); [congruence| |]; apply IN; simpl; auto.
  - apply IH. intros x Hx. apply IN. simpl. auto.
Qed.
Lemma find_ok : forall t : tensor, t_ord t = ord -> wf_storage (permute ord dims) (t_store t) ->
  forall cs, in_range dims cs -> find_component R cs (iterate R t) = logical R ord (t_store t) cs.
Proof.
  intros t O W cs RC. destruct (locate (st_levels (t_store t)) 0 (permute ord cs)) eqn:E.
  - apply find_component_in; [apply iterate_nodup; auto|]. apply (iterate_in t O W). repeat split; auto. congruence.
  - rewrite find_component_out.
    + unfold logical, value_at. change (map (fun m => nth m cs 0) ord) with (permute ord cs). rewrite E. auto.
    + intros H. apply in_map_iff in H. destruct H as ((c & v) & X & H). cbn [fst] in X. subst c. apply (iterate_in t O W) in H. tauto.
Qed.

End History.
