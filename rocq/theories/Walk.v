(** Walking down the levels of a stored tensor along a prefix of a coordinate. *)
From Coq Require Import List Arith Lia Bool.
Import ListNotations.
From Verif Require Import Storage StorageProofs.

(** One level down: from position [q], to coordinate [c]. *)
Definition step (lv : level) (q c : nat) : option nat :=
  match lv with
  | LDense d => if c <? d then Some (q * d + c) else None
  | LComp pos crd => find_crd crd c (nth q pos 0) (nth (S q) pos 0 - nth q pos 0)
  end.

Fixpoint walk (ls : list level) (p : nat) (cs : list nat) {struct cs} : option nat :=
  match cs with
  | [] => Some p
  | c :: cs =>
      match ls with
      | [] => None
      | lv :: ls => match step lv p c with Some q => walk ls q cs | None => None end
      end
  end.

Lemma locate_walk : forall ls p cs, length cs = length ls -> locate ls p cs = walk ls p cs.
Proof.
  induction ls as [|lv ls IH]; destruct cs; simpl; intros H; try discriminate; auto.
  destruct lv; simpl.
  - destruct (n <? dim); auto.
  - destruct (find_crd _ _ _ _); auto.
Qed.

Lemma walk_snoc : forall ls p cs c lv, nth_error ls (length cs) = Some lv ->
  walk ls p (cs ++ [c]) = match walk ls p cs with Some q => step lv q c | None => None end.
Proof.
  intros ls p cs; revert ls p. induction cs as [|x cs IH]; simpl; intros ls p c lv H.
  - destruct ls; simpl in *; [discriminate|]. inversion H; subst.
    destruct (step lv p c); auto.
  - destruct ls as [|l0 ls]; simpl in *; [discriminate|].
    destruct (step l0 p x); auto.
Qed.

Lemma walk_prefix : forall cs1 ls p cs2, walk ls p (cs1 ++ cs2) <> None -> walk ls p cs1 <> None.
Proof.
  induction cs1; simpl; intros ls p cs2 H; [congruence|].
  destruct ls; auto. destruct (step l p a); auto. eauto.
Qed.

(** What is known about a level at a position reached by a walk. *)
Definition level_ok (lv : level) (q dim : nat) : Prop :=
  match lv with
  | LDense d => d = dim
  | LComp pos crd =>
      S q < length pos /\ nth q pos 0 <= nth (S q) pos 0 /\ nth (S q) pos 0 <= length crd /\
      (forall i j, nth q pos 0 <= i -> i < j -> j < nth (S q) pos 0 -> nth i crd 0 < nth j crd 0) /\
      (forall i, i < length crd -> nth i crd 0 < dim)
  end.

Lemma pos_le_end : forall n pos len, (forall p, p < n -> nth p pos 0 <= nth (S p) pos 0) ->
  nth n pos 0 = len -> forall p, p <= n -> nth p pos 0 <= len.
Proof.
  intros n pos len M E p Hp.
  assert (forall k, k <= n - p -> nth p pos 0 <= nth (p + k) pos 0).
  { induction k; intros; [rewrite Nat.add_0_r; auto|].
    rewrite Nat.add_succ_r. etransitivity; [apply IHk; lia|]. apply M. lia. }
  specialize (H (n - p) ltac:(lia)). replace (p + (n - p)) with n in H by lia. lia.
Qed.

Lemma wf_walk : forall cs ls n dims nv p q,
  wf_levels n ls dims nv -> p < n -> walk ls p cs = Some q ->
  length cs <= length ls /\
  exists m, wf_levels m (skipn (length cs) ls) (skipn (length cs) dims) nv /\ q < m.
Proof.
  induction cs as [|c cs IH]; intros ls n dims nv p q W P H.
  - simpl in *. inversion H; subst. split; [lia|]. exists n. auto.
  - destruct ls as [|lv ls]; [simpl in H; discriminate|]. simpl in H.
    destruct (step lv p c) as [q1|] eqn:S1; [|discriminate].
    destruct lv as [d|pos crd]; destruct dims as [|dim dims]; simpl in W; try tauto.
    + destruct W as [-> W]. simpl in S1. destruct (c <? dim) eqn:C; [|discriminate].
      apply Nat.ltb_lt in C. inversion S1; subst.
      destruct (IH ls (n * dim) dims nv (p * dim + c) q W ltac:(nia) H) as (L & m & Wm & Q).
      split; [simpl; lia|]. exists m. auto.
    + destruct W as (L & Z & E & M & SS & B & W). simpl in S1.
      assert (F := find_crd_spec (nth (S p) pos 0 - nth p pos 0) crd c (nth p pos 0)).
      rewrite S1 in F.
      destruct (IH ls (length crd) dims nv q1 q W ltac:(lia) H) as (L' & m & Wm & Q).
      split; [simpl; lia|]. exists m. auto.
Qed.

Lemma skipn_nth_error : forall A k (l : list A) x, nth_error l k = Some x ->
  skipn k l = x :: skipn (S k) l.
Proof.
  induction k; destruct l; simpl; intros x H; try discriminate.
  - congruence.
  - apply IHk. auto.
Qed.

Lemma wf_level_at : forall ls n dims nv p cs q lv dim,
  wf_levels n ls dims nv -> p < n -> walk ls p cs = Some q ->
  nth_error ls (length cs) = Some lv -> nth_error dims (length cs) = Some dim ->
  level_ok lv q dim.
Proof.
  intros ls n dims nv p cs q lv dim W P H L D.
  destruct (wf_walk _ _ _ _ _ _ _ W P H) as (_ & m & Wm & Q).
  rewrite (skipn_nth_error _ _ _ _ L), (skipn_nth_error _ _ _ _ D) in Wm.
  destruct lv; simpl in *.
  - tauto.
  - destruct Wm as (A & B & C & M & SS & F & _). repeat split; auto; try lia.
    + rewrite <- C. eapply pos_le_end with (n := m); eauto; lia.
    + eauto.
Qed.

Lemma wf_vals_at : forall ls n dims nv p cs q,
  wf_levels n ls dims nv -> p < n -> length cs = length ls -> walk ls p cs = Some q -> q < nv.
Proof.
  intros ls n dims nv p cs q W P E H.
  destruct (wf_walk _ _ _ _ _ _ _ W P H) as (_ & m & Wm & Q).
  rewrite E, skipn_all in Wm.
  destruct (skipn (length ls) dims); simpl in Wm; [lia|tauto].
Qed.

Lemma wf_length : forall ls n dims nv, wf_levels n ls dims nv -> length ls = length dims.
Proof.
  induction ls as [|[d|pos crd] ls IH]; destruct dims; simpl; intros nv W; try tauto; f_equal.
  - destruct W. eauto.
  - destruct W as (_ & _ & _ & _ & _ & _ & W). eauto.
Qed.

(** Lookup in a sorted segment. *)
Lemma find_crd_sorted : forall crd b e c q,
  e <= length crd -> b <= q < e -> nth q crd 0 = c ->
  (forall i j, b <= i -> i < j -> j < e -> nth i crd 0 < nth j crd 0) ->
  find_crd crd c b (e - b) = Some q.
Proof.
  intros crd b e c q E Q N SS. assert (F := find_crd_spec (e - b) crd c b).
  destruct (find_crd crd c b (e - b)) as [q'|].
  - destruct F as (F1 & F2 & F3 & F4). f_equal.
    destruct (Nat.lt_trichotomy q q') as [L|[->|L]]; auto.
    + exfalso. apply (F4 q); auto; lia.
    + assert (nth q' crd 0 < nth q crd 0) by (apply SS; lia). lia.
  - exfalso. apply (F ltac:(lia) q ltac:(lia) N).
Qed.

Lemma find_crd_none : forall crd b e c, b <= e -> e <= length crd ->
  (forall i, b <= i < e -> nth i crd 0 <> c) -> find_crd crd c b (e - b) = None.
Proof.
  intros crd b e c B E H. assert (F := find_crd_spec (e - b) crd c b).
  destruct (find_crd crd c b (e - b)); auto.
  destruct F as (F1 & F2 & F3 & _). exfalso. apply (H n); auto. lia.
Qed.

(** Distinct coordinates have distinct positions. *)
Lemma walk_inj : forall cs cs' ls n dims nv p p' q, wf_levels n ls dims nv -> p < n -> p' < n ->
  length cs = length cs' -> walk ls p cs = Some q -> walk ls p' cs' = Some q -> p = p' /\ cs = cs'.
Proof.
  induction cs as [|c cs IH]; destruct cs' as [|c' cs']; simpl; intros ls n dims nv p p' q W P P' LE H H';
    try discriminate.
  - split; congruence.
  - destruct ls as [|lv ls]; [discriminate|].
    destruct (step lv p c) as [q1|] eqn:S1; [|discriminate].
    destruct (step lv p' c') as [q2|] eqn:S2; [|discriminate].
    destruct lv as [d|pos crd]; destruct dims as [|dim dims]; simpl in W; try tauto.
    + destruct W as [-> W]. simpl in S1, S2.
      destruct (c <? dim) eqn:C; [|discriminate]. destruct (c' <? dim) eqn:C'; [|discriminate].
      apply Nat.ltb_lt in C, C'. inversion S1; subst q1. inversion S2; subst q2.
      destruct (IH cs' ls (n * dim) dims nv (p * dim + c) (p' * dim + c') q W) as [E1 E2]; auto; try nia.
      assert (p = p') by nia. subst. split; auto. f_equal; auto. lia.
    + destruct W as (L & Z & E & M & SS & B & W). simpl in S1, S2.
      assert (F := find_crd_spec (nth (S p) pos 0 - nth p pos 0) crd c (nth p pos 0)). rewrite S1 in F.
      assert (F' := find_crd_spec (nth (S p') pos 0 - nth p' pos 0) crd c' (nth p' pos 0)). rewrite S2 in F'.
      destruct (IH cs' ls (length crd) dims nv q1 q2 q W) as [E1 E2]; auto; try lia. subst q2.
      assert (MM : forall a b, a <= b -> b <= n -> nth a pos 0 <= nth b pos 0).
      { intros a b AB. induction AB; intros; auto. etransitivity; [apply IHAB; lia|]. apply M. lia. }
      assert (p = p').
      { destruct (Nat.lt_trichotomy p p') as [X|[X|X]]; auto; exfalso.
        - assert (nth (S p) pos 0 <= nth p' pos 0) by (apply MM; lia). lia.
        - assert (nth (S p') pos 0 <= nth p pos 0) by (apply MM; lia). lia. }
      subst p'. split; auto. f_equal; auto. destruct F as (_ & _ & <- & _), F' as (_ & _ & <- & _). auto.
Qed.
