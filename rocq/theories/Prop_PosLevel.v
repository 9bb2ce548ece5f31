(** C68: which stored positions the scheduling command pos iterates. *)

From Coq Require Import List Arith Bool Lia.
From Verif Require Import PosLevel PosLevelSpec.
Import ListNotations.

Lemma mode_index_nth : forall vs v k, NoDup vs -> nth_error vs k = Some v -> mode_index vs v = k.
Proof.
  induction vs as [|w vs IH]; intros v [|k] ND H; cbn in H; try discriminate; cbn [mode_index].
  - injection H as ->. now rewrite Nat.eqb_refl.
  - inversion ND; subst. destruct (Nat.eqb_spec w v) as [->|_].
    + exfalso. apply nth_error_In in H. contradiction.
    + f_equal. now apply IH.
Qed.

Lemma mode_index_absent : forall vs v, ~ In v vs -> mode_index vs v = length vs.
Proof.
  induction vs as [|w vs IH]; intros v H; cbn; auto.
  destruct (Nat.eqb_spec w v) as [->|_]; [exfalso; apply H; now left|].
  f_equal. apply IH. intros Hi. apply H. now right.
Qed.

Lemma fold_max_ge : forall xs z, z <= fold_left max xs z /\ forall x, In x xs -> x <= fold_left max xs z.
Proof.
  induction xs as [|y xs IH]; intros z; cbn.
  - split; [lia|tauto].
  - destruct (IH (max z y)) as [H1 H2]. split; [lia|]. intros x [->|Hx]; [lia|auto].
Qed.

Lemma fold_max_in : forall xs z, fold_left max xs z = z \/ In (fold_left max xs z) xs.
Proof.
  induction xs as [|y xs IH]; intros z; cbn; auto.
  destruct (IH (max z y)) as [H|H]; auto.
  destruct (Nat.max_spec z y) as [[_ E]|[_ E]]; rewrite E in *; auto.
Qed.

Lemma largest_ge : forall xs x, In x xs -> x <= largest xs.
Proof. intros. now apply fold_max_ge. Qed.

Lemma largest_in : forall xs, xs <> [] -> In (largest xs) xs.
Proof.
  intros [|x xs] H; [congruence|]. unfold largest. cbn [fold_left].
  destruct (fold_max_in xs (max 0 x)) as [E|E]; [left; rewrite E; lia|now right].
Qed.

Lemma find_level : forall (o : list nat) c l m, NoDup o -> nth_error o l = Some m ->
  find (fun ml => fst ml =? m) (combine o (seq c (length o))) = Some (m, c + l).
Proof.
  induction o as [|x o IH]; intros c [|l] m ND H; cbn in H; try discriminate; cbn [length seq combine find fst].
  - injection H as ->. rewrite Nat.eqb_refl. now rewrite Nat.add_0_r.
  - inversion ND; subst. destruct (Nat.eqb_spec x m) as [->|_].
    + exfalso. apply nth_error_In in H. contradiction.
    + rewrite (IH (S c) l m) by auto. do 2 f_equal. lia.
Qed.

Definition is_argument (arguments : list access) (a : access) : Prop :=
  exists b, In b arguments /\ tensor b = tensor a /\ vars b = vars a.

Lemma same_vars_spec : forall a b, same_vars a b = true <-> a = b.
Proof.
  induction a as [|x a IH]; intros [|y b]; cbn; try (split; congruence).
  rewrite andb_true_iff, Nat.eqb_eq, IH. split; [intros [-> ->]|intros [= -> ->]]; auto.
Qed.

Lemma is_argument_spec : forall args a,
  existsb (fun b => (tensor b =? tensor a) && same_vars (vars b) (vars a)) args = true <->
  is_argument args a.
Proof.
  intros args a. rewrite existsb_exists. unfold is_argument. split; intros (b & Hb & H); exists b.
  - apply andb_true_iff in H as [H1 H2]. apply Nat.eqb_eq in H1. apply same_vars_spec in H2. auto.
  - destruct H as [H1 H2]. split; auto. rewrite H1, Nat.eqb_refl. now apply same_vars_spec.
Qed.

(** Modes stored in the order they are written: pos iterates the bottom level
    of its variables, and is refused exactly if that level is dense. *)
Theorem C68_natural : forall arguments a ancestors,
  proper a -> natural a -> is_argument arguments a ->
  ancestors <> [] -> incl ancestors (vars a) ->
  exists l, bottom a ancestors l /\ pos_level ancestors a = Some l /\
            pos_check arguments ancestors a = if nth l (dense a) false then DenseLevel else Accepted.
Proof.
  intros args a anc (ND & NO & LO & LD & HO) HN HA Hne Hin. unfold natural in HN.
  assert (HM : forall v, In v anc -> exists k, nth_error (vars a) k = Some v /\ mode_index (vars a) v = k /\ k < length (vars a)).
  { intros v Hv. destruct (In_nth_error _ _ (Hin v Hv)) as [k Hk]. exists k. split; [auto|].
    split; [now apply mode_index_nth|]. apply nth_error_Some. congruence. }
  assert (HE : map (fun v => nth (mode_index (vars a) v) (ordering a) 0) anc = map (mode_index (vars a)) anc).
  { apply map_ext_in. intros v Hv. destruct (HM v Hv) as (k & _ & -> & Hlt).
    rewrite HN. now rewrite seq_nth. }
  set (l := largest (map (mode_index (vars a)) anc)).
  assert (Hl : In l (map (mode_index (vars a)) anc)).
  { apply largest_in. destruct anc; [congruence|discriminate]. }
  apply in_map_iff in Hl as (w & Hw & Hwin). destruct (HM w Hwin) as (k & Hk & Hk2 & Hlt).
  assert (Hkl : k = l) by congruence. clear Hk2.
  assert (HNl : forall j, j < length (vars a) -> nth_error (ordering a) j = Some j).
  { intros j Hj. rewrite HN. rewrite (nth_error_nth' _ 0) by (rewrite seq_length; lia). now rewrite seq_nth. }
  exists l. split; [|split].
  - split.
    + exists w. split; [auto|]. exists l. split; [apply HNl; lia|congruence].
    + intros v j Hv (m & H1 & H2).
      assert (j < length (vars a)) by (rewrite <- LO; apply nth_error_Some; congruence).
      rewrite HNl in H1 by auto. injection H1 as <-.
      rewrite <- (mode_index_nth _ _ _ ND H2). apply largest_ge. now apply in_map.
  - unfold pos_level. rewrite HE. fold l. unfold level_iterators.
    rewrite (find_level _ 0 l l NO) by (apply HNl; lia). reflexivity.
  - unfold pos_check. apply is_argument_spec in HA. rewrite HA. fold l.
    destruct (Nat.leb_spec (length (vars a)) l); [lia|].
    rewrite HN, seq_nth by lia. reflexivity.
Qed.
Print Assumptions C68_natural.

(** Accesses that are not arguments, and variables that are not in the access,
    are refused, whatever the format. *)
Theorem C68_foreign : forall arguments a ancestors,
  ~ is_argument arguments a -> pos_check arguments ancestors a = NoSuchAccess.
Proof.
  intros args a anc H. unfold pos_check.
  destruct (existsb _ args) eqn:E; auto. exfalso. apply H. now apply is_argument_spec.
Qed.
Print Assumptions C68_foreign.

Theorem C68_absent : forall arguments a ancestors v,
  is_argument arguments a -> In v ancestors -> ~ In v (vars a) ->
  pos_check arguments ancestors a = NotInAccess.
Proof.
  intros args a anc v HA Hv Hn. unfold pos_check. apply is_argument_spec in HA. rewrite HA.
  assert (length (vars a) <= largest (map (mode_index (vars a)) anc)).
  { rewrite <- (mode_index_absent _ _ Hn). apply largest_ge. now apply in_map. }
  destruct (Nat.leb_spec (length (vars a)) (largest (map (mode_index (vars a)) anc))); [auto|lia].
Qed.
Print Assumptions C68_absent.

(** Any order of modes, one variable: the level iterated has the number of the
    variable's mode, so it is the variable's level exactly if that level stores
    the mode of its own number. *)
Theorem C68_one_variable : forall a v k, proper a -> nth_error (vars a) k = Some v ->
  pos_level [v] a = Some k /\ (level_of a v k <-> nth k (ordering a) 0 = k).
Proof.
  intros a v k (ND & NO & LO & LD & HO) Hk.
  assert (Hlt : k < length (ordering a)) by (rewrite LO; apply nth_error_Some; congruence).
  assert (HN : nth_error (ordering a) k = Some (nth k (ordering a) 0)) by (now apply nth_error_nth').
  split.
  - unfold pos_level. cbn [map]. rewrite (mode_index_nth _ _ _ ND Hk).
    unfold largest. cbn [fold_left]. rewrite Nat.max_0_l. unfold level_iterators.
    now rewrite (find_level _ 0 k _ NO HN).
  - unfold level_of. split.
    + intros (m & H1 & H2). rewrite H1 in HN. injection HN as HN. rewrite <- HN.
      apply (proj1 (NoDup_nth_error (vars a)) ND).
      * apply nth_error_Some. congruence.
      * congruence.
    + intros H. exists k. split; [congruence|auto].
Qed.
Print Assumptions C68_one_variable.

(** The check of one variable looks at its level if the order of modes is its
    own inverse, as it is for every matrix. *)
Theorem C68_one_check : forall arguments a v l, proper a -> is_argument arguments a ->
  (forall m, m < length (vars a) -> nth (nth m (ordering a) 0) (ordering a) 0 = m) ->
  level_of a v l ->
  pos_check arguments [v] a = if nth l (dense a) false then DenseLevel else Accepted.
Proof.
  intros args a v l (ND & NO & LO & LD & HO) HA Hinv (m & H1 & H2).
  unfold pos_check. apply is_argument_spec in HA. rewrite HA. cbn [map].
  rewrite (mode_index_nth _ _ _ ND H2). unfold largest. cbn [fold_left]. rewrite Nat.max_0_l.
  assert (m < length (vars a)) by (apply nth_error_Some; congruence).
  destruct (Nat.leb_spec (length (vars a)) m); [lia|].
  assert (Hl : l < length (vars a)) by (rewrite <- LO; apply nth_error_Some; congruence).
  assert (E : nth m (ordering a) 0 = l).
  { rewrite <- (nth_error_nth _ _ 0 H1). now apply Hinv. }
  now rewrite E.
Qed.
Print Assumptions C68_one_check.

Lemma matrix_inverse : forall a, proper a -> length (vars a) <= 2 ->
  forall m, m < length (vars a) -> nth (nth m (ordering a) 0) (ordering a) 0 = m.
Proof.
  intros a (ND & NO & LO & LD & HO) H2 m Hm. rewrite <- LO in *.
  destruct (ordering a) as [|x [|y [|z o]]]; cbn in *; try lia.
  - pose proof (HO x (or_introl eq_refl)). destruct x; [|lia]. destruct m; [reflexivity|lia].
  - pose proof (HO x (or_introl eq_refl)). pose proof (HO y (or_intror (or_introl eq_refl))).
    inversion NO as [|? ? Hn _]; subst. cbn in Hn.
    destruct x as [|[|x]], y as [|[|y]], m as [|[|m]]; cbn; try lia; auto; exfalso; apply Hn; now left.
Qed.

Theorem C68_matrix_check : forall arguments a v l, proper a -> length (vars a) <= 2 ->
  is_argument arguments a -> level_of a v l ->
  pos_check arguments [v] a = if nth l (dense a) false then DenseLevel else Accepted.
Proof. intros. apply C68_one_check; auto. now apply matrix_inverse. Qed.
Print Assumptions C68_matrix_check.

(** * Findings *)

Definition csr := Access 7 [0; 1] [0; 1] [true; false].
Definition csc := Access 7 [0; 1] [1; 0] [true; false].
Definition dcsc := Access 7 [0; 1] [1; 0] [false; false].

(** pos of the rows of a column-major matrix is accepted, since rows are the
    compressed level 1, but the level iterated is level 0, the dense columns. *)
Theorem C68_csc_refuted :
  proper csc /\ level_of csc 0 1 /\ pos_check [csc] [0] csc = Accepted /\
  pos_level [0] csc = Some 0 /\ nth 0 (dense csc) false = true.
Proof.
  repeat split; try (repeat constructor; cbn; intuition lia).
  - cbn. intuition lia.
  - exists 0. auto.
Qed.
Print Assumptions C68_csc_refuted.

(** With both levels compressed the positions of the wrong level are iterated. *)
Theorem C68_dcsc_refuted :
  proper dcsc /\ level_of dcsc 0 1 /\ level_of dcsc 1 0 /\
  pos_check [dcsc] [0] dcsc = Accepted /\ pos_level [0] dcsc = Some 0 /\
  pos_check [dcsc] [1] dcsc = Accepted /\ pos_level [1] dcsc = Some 1.
Proof.
  repeat split; try (repeat constructor; cbn; intuition lia).
  - cbn. intuition lia.
  - exists 0. auto.
  - exists 1. auto.
Qed.
Print Assumptions C68_dcsc_refuted.

(** Columns and rows fused: refused because of the dense columns, although the
    bottom level is compressed; for the row-major matrix it is accepted. *)
Theorem C68_fused_refuted :
  bottom csc [1; 0] 1 /\ nth 1 (dense csc) true = false /\
  pos_check [csc] [1; 0] csc = DenseLevel /\
  bottom csr [0; 1] 1 /\ pos_check [csr] [0; 1] csr = Accepted.
Proof.
  assert (H : forall o d v k, level_of (Access 7 [0; 1] o d) v k -> length o = 2 -> k <= 1).
  { intros o d v k (m & E & _) Hl. cbn in E.
    assert (k < length o) by (apply nth_error_Some; congruence). lia. }
  repeat split.
  - exists 0. split; [cbn; auto|]. exists 0. auto.
  - intros v k _ Hk. now apply (H _ _ _ _ Hk).
  - exists 1. split; [cbn; auto|]. exists 1. auto.
  - intros v k _ Hk. now apply (H _ _ _ _ Hk).
Qed.
Print Assumptions C68_fused_refuted.

(** Three modes stored in the order 1, 2, 0: the check looks at another
    variable's level, so a dense level is accepted and a compressed one refused. *)
Definition rotated := Access 7 [0; 1; 2] [1; 2; 0] [true; false; false].

Theorem C68_check_refuted :
  proper rotated /\
  (level_of rotated 1 0 /\ nth 0 (dense rotated) false = true /\
   pos_check [rotated] [1] rotated = Accepted) /\
  (level_of rotated 2 1 /\ nth 1 (dense rotated) true = false /\
   pos_check [rotated] [2] rotated = DenseLevel).
Proof.
  repeat split; try (repeat constructor; cbn; intuition lia).
  - cbn. intuition lia.
  - exists 1. auto.
  - exists 2. auto.
Qed.
Print Assumptions C68_check_refuted.

(** The conditions of [C68_natural] hold for the rows and columns of a
    row-major matrix, fused. *)
Example C68_natural_example :
  proper csr /\ natural csr /\ is_argument [csr] csr /\ incl [0; 1] (vars csr) /\
  pos_level [0; 1] csr = Some 1.
Proof.
  repeat split; try (repeat constructor; cbn; intuition lia).
  - cbn. intuition lia.
  - exists csr. cbn. auto.
  - apply incl_refl.
Qed.
