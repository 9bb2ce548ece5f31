(** A boolean check of storage well-formedness, used to discharge the
    hypotheses of theorems in examples. *)
From Coq Require Import List Arith Lia Bool.
Import ListNotations.
From Verif Require Import Storage IndexExpr KernelSpec.

Definition all_below (n : nat) (f : nat -> bool) : bool := forallb f (seq 0 n).
Lemma all_below_ok : forall n f, all_below n f = true -> forall i, i < n -> f i = true.
Proof. unfold all_below. intros n f H i L. rewrite forallb_forall in H. apply H, in_seq. lia. Qed.

Fixpoint wf_levelsb (n : nat) (ls : list level) (dims : list nat) (nvals : nat) : bool :=
  match ls, dims with
  | [], [] => nvals =? n
  | LDense d :: ls, dim :: dims => (d =? dim) && wf_levelsb (n * d) ls dims nvals
  | LComp pos crd :: ls, dim :: dims =>
      (length pos =? S n) && (nth 0 pos 0 =? 0) && (nth n pos 0 =? length crd) &&
      all_below n (fun p => nth p pos 0 <=? nth (S p) pos 0) &&
      all_below n (fun p => all_below (nth (S p) pos 0) (fun j => all_below j (fun i =>
        (i <? nth p pos 0) || (nth i crd 0 <? nth j crd 0)))) &&
      all_below (length crd) (fun i => nth i crd 0 <? dim) &&
      wf_levelsb (length crd) ls dims nvals
  | _, _ => false
  end.

Lemma wf_levelsb_ok : forall ls n dims nv, wf_levelsb n ls dims nv = true -> wf_levels n ls dims nv.
Proof.
  induction ls as [|[d|pos crd] ls IH]; destruct dims as [|dim dims]; simpl; intros nv H; try discriminate.
  - apply Nat.eqb_eq. auto.
  - apply andb_prop in H. destruct H as [H1 H2]. split; [apply Nat.eqb_eq; auto|auto].
  - repeat (apply andb_prop in H; destruct H as [H ?]). repeat split; auto; try (apply Nat.eqb_eq; auto).
    + intros p P. apply Nat.leb_le. apply (all_below_ok _ _ H3 p P).
    + intros p i j P I J K. assert (X := all_below_ok _ _ H2 p P). simpl in X.
      assert (Y := all_below_ok _ _ X j K). assert (Z := all_below_ok _ _ Y i J). simpl in Z.
      apply orb_prop in Z. destruct Z as [Z|Z]; apply Nat.ltb_lt in Z; lia.
    + intros i I. apply Nat.ltb_lt. apply (all_below_ok _ _ H1 i I).
Qed.

Fixpoint nodupb (l : list nat) : bool :=
  match l with [] => true | x :: t => negb (existsb (Nat.eqb x) t) && nodupb t end.
Lemma nodupb_ok : forall l, nodupb l = true -> NoDup l.
Proof.
  induction l; simpl; intros H; constructor; apply andb_prop in H; destruct H as [H1 H2]; auto.
  intros Hin. apply negb_true_iff in H1. rewrite <- not_true_iff_false in H1. apply H1.
  apply existsb_exists. exists a. split; auto. apply Nat.eqb_refl.
Qed.

Definition level_is (k : kind) (lv : level) : bool :=
  match k, lv with KDense, LDense _ | KComp, LComp _ _ => true | _, _ => false end.
Fixpoint kinds_match (ls : list level) (ks : list kind) : bool :=
  match ls, ks with
  | [], [] => true
  | lv :: ls, k :: ks => level_is k lv && kinds_match ls ks
  | _, _ => false
  end.
Lemma kinds_match_ok : forall ls ks, kinds_match ls ks = true -> map level_format ls = ks.
Proof.
  induction ls as [|lv ls IH]; destruct ks as [|k ks]; simpl; intros H; try discriminate; auto.
  apply andb_prop in H. destruct H as [H1 H2]. f_equal; auto. destruct k, lv; simpl in *; congruence.
Qed.

Definition stored_asb {V} (T : nat -> storage V) (dim : ivar -> nat) (t : nat) (vs : list (ivar * kind)) : bool :=
  kinds_match (st_levels (T t)) (map snd vs) &&
  wf_levelsb 1 (st_levels (T t)) (map dim (map fst vs)) (length (st_vals (T t))) && nodupb (map fst vs).
Lemma stored_asb_ok : forall V (T : nat -> storage V) dim t vs, stored_asb T dim t vs = true -> stored_as T dim t vs.
Proof.
  intros V T dim t vs H. apply andb_prop in H. destruct H as [H H3]. apply andb_prop in H. destruct H as [H1 H2].
  split; [apply kinds_match_ok; auto|]. split; [apply wf_levelsb_ok; auto|apply nodupb_ok; auto].
Qed.

(** [precedes], decided. *)
Fixpoint precedesb (vars : list ivar) (x y : ivar) : bool :=
  match vars with
  | [] => false
  | v :: t => ((v =? x) && existsb (Nat.eqb y) t) || precedesb t x y
  end.
Lemma precedesb_ok : forall vars x y, precedesb vars x y = true -> precedes vars x y.
Proof.
  induction vars as [|v t IH]; simpl; intros x y H; [discriminate|].
  apply orb_prop in H. destruct H as [H|H].
  - apply andb_prop in H. destruct H as [H1 H2]. apply Nat.eqb_eq in H1. subst v.
    apply existsb_exists in H2. destruct H2 as (z & Hz & E). apply Nat.eqb_eq in E. subst z.
    apply in_split in Hz. destruct Hz as (q & r & ->). exists [], q, r. auto.
  - destruct (IH x y H) as (p & q & r & ->). exists (v :: p), q, r. auto.
Qed.
Definition order_fitsb (vars : list ivar) (vs : list (ivar * kind)) : bool :=
  all_below (length vs) (fun l => existsb (Nat.eqb (fst (nth l vs (0, KDense)))) vars) &&
  all_below (length vs) (fun l2 => all_below l2 (fun l1 =>
    match snd (nth l1 vs (0, KDense)), snd (nth l2 vs (0, KDense)) with
    | KDense, KDense => true
    | _, _ => precedesb vars (fst (nth l1 vs (0, KDense))) (fst (nth l2 vs (0, KDense)))
    end)).
Lemma order_fitsb_ok : forall vars vs, order_fitsb vars vs = true -> order_fits vars vs.
Proof.
  intros vars vs H. apply andb_prop in H. destruct H as [H1 H2]. split.
  - intros l L. assert (X := all_below_ok _ _ H1 l L). simpl in X. apply existsb_exists in X.
    destruct X as (z & Hz & E). apply Nat.eqb_eq in E. rewrite E. auto.
  - intros l1 l2 L1 L2 K. assert (X := all_below_ok _ _ (all_below_ok _ _ H2 l2 L2) l1 L1). simpl in X.
    apply precedesb_ok. destruct (snd (nth l1 vs (0, KDense))), (snd (nth l2 vs (0, KDense))); auto.
    destruct K; discriminate.
Qed.

Fixpoint nodup_acc (l : list access) : bool :=
  match l with [] => true | a :: t => negb (existsb (access_eqb a) t) && nodup_acc t end.
Lemma nodup_acc_ok : forall l, nodup_acc l = true -> NoDup l.
Proof.
  induction l; simpl; intros H; constructor; apply andb_prop in H; destruct H as [H1 H2]; auto.
  intros Hin. rewrite <- not_false_iff_true in H1. apply H1. apply negb_false_iff.
  apply existsb_exists. exists a. split; auto. unfold access_eqb. destruct (access_eq_dec a a); congruence.
Qed.

Definition supportedb {V} (T : nat -> storage V) (dim : ivar -> nat) (vars : list ivar) (e : expr V) : bool :=
  nodupb vars && nodup_acc (accesses e) &&
  forallb (fun a => stored_asb T dim (a_tensor a) (a_vars a) && order_fitsb vars (a_vars a)) (accesses e).
Lemma supportedb_ok : forall V (T : nat -> storage V) dim vars (e : expr V),
  supportedb T dim vars e = true -> supported T dim vars e.
Proof.
  intros V T dim vars e H. apply andb_prop in H. destruct H as [H H3]. apply andb_prop in H. destruct H as [H1 H2].
  constructor; [apply nodupb_ok; auto|apply nodup_acc_ok; auto|].
  intros a Ha. rewrite forallb_forall in H3. specialize (H3 a Ha). apply andb_prop in H3. destruct H3 as [A B].
  split; [apply stored_asb_ok|apply order_fitsb_ok]; auto.
Qed.
