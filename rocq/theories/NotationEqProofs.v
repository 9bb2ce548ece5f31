From Coq Require Import String List Bool Arith ZArith Lia.
From Verif Require Import NotationEq NotationEqSpec.
Import ListNotations.
Local Open Scope nat_scope.

Section Ind.
Variable P : expr -> Prop.
Hypothesis H0 : P EUndef.
Hypothesis H1 : forall v, P (EVar v).
Hypothesis H2 : forall a, P (EAcc a).
Hypothesis H3 : forall l, P (ELit l).
Hypothesis H4 : forall a, P a -> P (ENeg a).
Hypothesis H5 : forall a, P a -> P (ESqrt a).
Hypothesis H6 : forall a b, P a -> P b -> P (EAdd a b).
Hypothesis H7 : forall a b, P a -> P b -> P (ESub a b).
Hypothesis H8 : forall a b, P a -> P b -> P (EMul a b).
Hypothesis H9 : forall a b, P a -> P b -> P (EDiv a b).
Hypothesis H10 : forall t a, P a -> P (ECast t a).
Hypothesis H11 : forall n ps d f xs al ds, Forall P xs -> P (ECall n ps d f xs al ds).
Hypothesis H12 : forall n xs, Forall P xs -> P (EIntrinsic n xs).
Hypothesis H13 : forall o v a, P o -> P a -> P (EReduce o v a).
Fixpoint expr_ind' (e : expr) : P e :=
  let all := fix all (l : list expr) : Forall P l := match l with [] => Forall_nil P | x :: l => Forall_cons x (expr_ind' x) (all l) end in
  match e with
  | EUndef => H0 | EVar v => H1 v | EAcc a => H2 a | ELit l => H3 l
  | ENeg a => H4 a (expr_ind' a) | ESqrt a => H5 a (expr_ind' a)
  | EAdd a b => H6 a b (expr_ind' a) (expr_ind' b) | ESub a b => H7 a b (expr_ind' a) (expr_ind' b)
  | EMul a b => H8 a b (expr_ind' a) (expr_ind' b) | EDiv a b => H9 a b (expr_ind' a) (expr_ind' b)
  | ECast t a => H10 t a (expr_ind' a)
  | ECall n ps d f xs al ds => H11 n ps d f xs al ds (all xs)
  | EIntrinsic n xs => H12 n xs (all xs)
  | EReduce o v a => H13 o v a (expr_ind' o) (expr_ind' a)
  end.
End Ind.

(** The loop over the arguments *)
Fixpoint all (l m : list expr) : option bool :=
  match l, m with x :: l, y :: m => equals x y &&& all l m | _, _ => Some true end.
Lemma equals_call n ps d f xs al ds n' qs e g ys bl es :
  equals (ECall n ps d f xs al ds) (ECall n' qs e g ys bl es) =
  Some (List.length ps =? List.length qs) &&& Some (forallb (fun p => existsb (property_equals p) qs) ps) &&&
  Some (nats_eqb d e) &&& same_target f g &&&
  Some (List.length xs =? List.length ys) &&& all xs ys &&& Some (check_alg al bl) &&& check_regions ds es.
Proof. reflexivity. Qed.
Lemma equals_intrinsic n xs m ys :
  equals (EIntrinsic n xs) (EIntrinsic m ys) = Some (String.eqb n m) &&& Some (List.length xs =? List.length ys) &&& all xs ys.
Proof. reflexivity. Qed.

Lemma andthen_true a b : a &&& b = Some true <-> a = Some true /\ b = Some true.
Proof. destruct a as [[]|]; cbn; intuition discriminate. Qed.
Lemma andthen_none a b : a <> None -> b <> None -> a &&& b <> None.
Proof. destruct a as [[]|]; cbn; auto; discriminate. Qed.
Lemma some_true b : Some b = Some true <-> b = true.
Proof. split; congruence. Qed.

Lemma list_eqb_spec {A} (e : A -> A -> bool) (E : forall x y, e x y = true <-> x = y) : forall l m, list_eqb e l m = true <-> l = m.
Proof.
  induction l as [|x l IH]; intros [|y m]; cbn; try (split; [discriminate|discriminate]); [split; auto|].
  rewrite andb_true_iff, E, IH. split; [intros [-> ->]; auto|intros H; inversion H; auto].
Qed.
Lemma nats_spec l m : nats_eqb l m = true <-> l = m.
Proof. apply list_eqb_spec. apply Nat.eqb_eq. Qed.
Lemma literal_spec a b : literal_eqb a b = true <-> a = b.
Proof.
  destruct a, b. unfold literal_eqb. cbn. rewrite andb_true_iff, Nat.eqb_eq, nats_spec. split; [intros [-> ->]; auto|intros H; inversion H; auto].
Qed.
Lemma window_spec a b : window_eqb a b = true <-> a = b.
Proof.
  destruct a as [k [[lo hi] st]], b as [k' [[lo' hi'] st']]. cbn. rewrite !andb_true_iff, Nat.eqb_eq, !Z.eqb_eq.
  split; [intros [[[-> ->] ->] ->]; auto|intros H; inversion H; auto].
Qed.
Lemma set_spec a b : set_eqb a b = true <-> a = b.
Proof.
  destruct a as [k [s t]], b as [k' [s' t']]. cbn. rewrite !andb_true_iff, !Nat.eqb_eq, (list_eqb_spec _ Z.eqb_eq).
  split; [intros [[-> ->] ->]; auto|intros H; inversion H; auto].
Qed.
Lemma access_spec a b : access_equals a b = true <-> a = b.
Proof.
  destruct a, b. unfold access_equals. cbn. rewrite !andb_true_iff, Nat.eqb_eq, nats_spec, Bool.eqb_true_iff, (list_eqb_spec _ window_spec), (list_eqb_spec _ set_spec).
  split; [intros [[[[-> ->] ->] ->] ->]; auto|intros H; inversion H; auto].
Qed.
Lemma access_eqb_spec a b : access_eqb a b = true <->
  exists s, b = Access (tensor a) (vars a) (windows a) (sets a) s.
Proof.
  destruct a, b. unfold access_eqb. cbn. rewrite !andb_true_iff, Nat.eqb_eq, nats_spec, (list_eqb_spec _ window_spec), (list_eqb_spec _ set_spec).
  split; [intros [[[-> ->] ->] ->]; eauto|intros [s H]; inversion H; auto].
Qed.
Lemma property_spec p q : property_equals p q = true <-> same_property p q.
Proof.
  split.
  - destruct p, q; cbn; try discriminate; intros H; try (apply literal_spec in H as ->); try (apply nats_spec in H as ->); constructor.
  - intros []; cbn; try apply literal_spec; try apply nats_spec; auto.
Qed.
Lemma properties_spec ps qs : forallb (fun p => existsb (property_equals p) qs) ps = true <->
  forall p, In p ps -> exists q, In q qs /\ same_property p q.
Proof.
  rewrite forallb_forall. split; intros H p I; specialize (H p I).
  - apply existsb_exists in H as (q & J & E). exists q. rewrite <- property_spec. auto.
  - apply existsb_exists. destruct H as (q & J & E). exists q. rewrite property_spec. auto.
Qed.
Lemma ordering_length a : forall b, alg_structure a b = true -> List.length (ordering a) = List.length (ordering b).
Proof.
  induction a; intros []; cbn; try discriminate; auto; rewrite andb_true_iff, !app_length; intros [A B]; rewrite (IHa1 _ A), (IHa2 _ B); auto.
Qed.
Lemma app_same {A} (a a' b b' : list A) : List.length a = List.length b -> a ++ a' = b ++ b' -> a = b /\ a' = b'.
Proof.
  revert b. induction a as [|x a IH]; intros [|y b] L E; cbn in *; try discriminate; auto.
  inversion E; subst. inversion L. destruct (IH b) as [-> ->]; auto.
Qed.
Lemma alg_spec a b : check_alg a b = true <-> a = b.
Proof.
  unfold check_alg. rewrite andb_true_iff, nats_spec. split.
  - revert b. induction a; intros []; cbn; intros [S O]; try discriminate.
    + inversion O; auto.
    + f_equal. auto.
    + apply andb_true_iff in S as [S1 S2]. apply app_same in O as [O1 O2]; [|apply ordering_length; auto]. f_equal; auto.
    + apply andb_true_iff in S as [S1 S2]. apply app_same in O as [O1 O2]; [|apply ordering_length; auto]. f_equal; auto.
  - intros <-. split; auto. induction a; cbn; auto; rewrite IHa1, IHa2; auto.
Qed.
Lemma target_spec f g : same_target f g = Some true <-> exists n, f = Pointer n /\ g = Pointer n.
Proof.
  destruct f, g; cbn; try (split; [discriminate|intros (? & E & F); discriminate]).
  rewrite some_true, Nat.eqb_eq. split; [intros ->; eauto|intros (? & E & F); congruence].
Qed.
Lemma defs_spec : forall l m, check_regions l m = Some true <-> l = m /\ Forall (fun d => is_pointer (snd d)) l.
Proof.
  unfold check_regions. intros l m. destruct (Nat.eqb_spec (List.length l) (List.length m)) as [L|L];
    [|split; [discriminate|intros [-> _]; contradiction]].
  revert m L. induction l as [|[r f] l IH]; intros [|[r' g] m] L; cbn [check_defs List.length] in *; try discriminate; [split; auto|].
  destruct (nats_eqb r r') eqn:N.
  - apply nats_spec in N as ->. rewrite andthen_true, target_spec, IH by lia. split.
    + intros [(n & -> & ->) [-> F]]. split; auto. constructor; auto. exists n. reflexivity.
    + intros [E F]. inversion E; subst. inversion F as [|? ? [n Hn] F']; subst. cbn in Hn. subst. split; eauto.
  - split; [discriminate|]. intros [E _]. inversion E; subst. pose proof (proj2 (nats_spec r' r') eq_refl). congruence.
Qed.
Lemma defs_none l : forall m, Forall (fun d => is_pointer (snd d)) l -> Forall (fun d => is_pointer (snd d)) m -> check_regions l m <> None.
Proof.
  intros m F G. unfold check_regions. destruct (_ =? _); [|discriminate]. revert m G. induction F as [|[r f] l [n Hn] F IH]; intros [|[r' g] m] G; cbn [check_defs]; try discriminate.
  inversion G as [|? ? [k Hk] G']; subst. cbn in Hn, Hk. subst. destruct (nats_eqb r r'); [|discriminate]. apply andthen_none; [discriminate|auto].
Qed.

Lemma all_alike xs : Forall (fun a => forall b, equals a b = Some true -> alike a b) xs ->
  forall ys, List.length xs = List.length ys -> all xs ys = Some true -> Forall2 alike xs ys.
Proof.
  induction 1 as [|x xs Hx F IH]; intros [|y ys] L E; cbn in L, E; try discriminate; constructor.
  - apply andthen_true in E as [E _]. auto.
  - apply andthen_true in E as [_ E]. auto.
Qed.
Ltac binary := match goal with E : _ &&& _ = Some true |- _ => apply andthen_true in E as [? ?]; constructor; auto end.
Lemma equals_alike : forall a b, equals a b = Some true -> alike a b.
Proof.
  induction a using expr_ind'; intros b E; destruct b; try discriminate E.
  - constructor.
  - cbn [equals] in E. apply some_true, Nat.eqb_eq in E as ->. constructor.
  - cbn [equals] in E. apply some_true, access_spec in E as ->. constructor.
  - cbn [equals] in E. apply some_true, literal_spec in E as ->. constructor.
  - constructor. auto.
  - constructor. auto.
  - cbn [equals] in E. binary.
  - cbn [equals] in E. binary.
  - cbn [equals] in E. binary.
  - cbn [equals] in E. binary.
  - cbn [equals] in E. apply andthen_true in E as [E1 E2]. apply some_true, Nat.eqb_eq in E1 as ->. constructor. auto.
  - rewrite equals_call in E. rewrite !andthen_true, !some_true, !Nat.eqb_eq, properties_spec, nats_spec, target_spec, alg_spec, defs_spec in E.
    destruct E as [[[[[[[L P] ->] (k & -> & ->)] La] A] ->] [-> F]]. constructor; auto. apply all_alike; auto.
  - rewrite equals_intrinsic in E. rewrite !andthen_true, !some_true, !Nat.eqb_eq, String.eqb_eq in E. destruct E as [[-> L] A].
    constructor. apply all_alike; auto.
  - cbn [equals] in E. rewrite !andthen_true, some_true, Nat.eqb_eq in E. destruct E as [[E1 ->] E2]. constructor; auto.
Qed.
Lemma all_equals xs : Forall (fun a => forall b, pointers a -> alike a b -> equals a b = Some true) xs ->
  forall ys, Forall pointers xs -> Forall2 alike xs ys -> List.length xs = List.length ys /\ all xs ys = Some true.
Proof.
  induction 1 as [|x xs Hx F IH]; intros ys P A; inversion A; subst; cbn; auto. inversion P; subst.
  destruct (IH l' H4 H3) as [L E]. split; [lia|]. rewrite Hx, E by auto. reflexivity.
Qed.
Lemma alike_equals : forall a b, pointers a -> alike a b -> equals a b = Some true.
Proof.
  induction a using expr_ind'; intros b P A; inversion A; subst; inversion P; subst; try (cbn; auto; rewrite ?Nat.eqb_refl; auto; fail).
  all: try (cbn; apply some_true, access_spec; auto; fail).
  all: try (cbn; apply some_true, literal_spec; auto; fail).
  all: try (cbn; rewrite IHa1, IHa2 by auto; rewrite ?Nat.eqb_refl; reflexivity).
  all: try (cbn; rewrite ?Nat.eqb_refl, IHa by auto; reflexivity).
  - rewrite equals_call. rewrite !andthen_true, !some_true, !Nat.eqb_eq, properties_spec, nats_spec, target_spec, alg_spec, defs_spec.
    match goal with F2 : Forall2 alike _ ?ys |- _ => destruct (all_equals xs H ys) as [L E]; auto end. rewrite E. repeat split; eauto.
  - rewrite equals_intrinsic. rewrite !andthen_true, !some_true, !Nat.eqb_eq, String.eqb_eq.
    match goal with F2 : Forall2 alike _ ?ys |- _ => destruct (all_equals xs H ys) as [L E]; auto end.
Qed.
Lemma all_none xs : Forall (fun a => forall b, pointers a -> pointers b -> equals a b <> None) xs ->
  forall ys, Forall pointers xs -> Forall pointers ys -> all xs ys <> None.
Proof.
  induction 1 as [|x xs Hx F IH]; intros ys P Q; destruct ys; cbn; try discriminate. inversion P; inversion Q; subst. apply andthen_none; auto.
Qed.
Lemma equals_none : forall a b, pointers a -> pointers b -> equals a b <> None.
Proof.
  induction a using expr_ind'; intros b P Q; destruct b; try discriminate; inversion P; subst; inversion Q; subst; try (cbn; auto; fail).
  - cbn [equals]. apply andthen_none; auto.
  - cbn [equals]. apply andthen_none; auto.
  - cbn [equals]. apply andthen_none; auto.
  - cbn [equals]. apply andthen_none; auto.
  - cbn [equals]. apply andthen_none; auto. discriminate.
  - rewrite equals_call. repeat apply andthen_none; try discriminate.
    + match goal with A : is_pointer _, B : is_pointer _ |- _ => destruct A as [? ->]; destruct B as [? ->] end. discriminate.
    + apply all_none; auto.
    + apply defs_none; auto.
  - rewrite equals_intrinsic. repeat apply andthen_none; try discriminate. apply all_none; auto.
  - cbn [equals]. repeat apply andthen_none; auto. discriminate.
Qed.

(** Values *)
Lemma combine_alike V I o p x y : alike o p -> combine V I o x y = combine V I p x y.
Proof. intros []; reflexivity. Qed.
Lemma fold_left_ext {A B} (f g : A -> B -> A) (E : forall a b, f a b = g a b) : forall l a, fold_left f l a = fold_left g l a.
Proof. induction l; intros a0; cbn; auto. rewrite E. auto. Qed.
Lemma all_values V I xs : Forall (fun a => forall b rho, alike a b -> value V I rho a = value V I rho b) xs ->
  forall ys rho, Forall2 alike xs ys -> map (value V I rho) xs = map (value V I rho) ys.
Proof.
  induction 1; intros ys rho A; inversion A; subst; cbn; auto. f_equal; auto.
Qed.
Lemma value_alike V I : forall a b rho, alike a b -> value V I rho a = value V I rho b.
Proof.
  induction a using expr_ind'; intros b rho A; inversion A; subst; cbn [value]; auto; try (f_equal; auto; fail).
  - f_equal. apply all_values; auto.
  - f_equal. apply all_values; auto.
  - rewrite (IHa2 _ _ H4). apply fold_left_ext. intros x y. rewrite (combine_alike V I a1 p) by auto. f_equal. auto.
Qed.

(** Statements *)
Lemma rel_spec a b : rel_equals a b = true <-> alike_rel a b.
Proof.
  split.
  - destruct a, b; cbn; try discriminate; rewrite ?andb_true_iff, ?Nat.eqb_eq, ?access_eqb_spec; intros H; decompose [and ex] H; subst;
      try (apply alike_rel_same; discriminate). destruct a. constructor.
  - intros []; [|cbn; rewrite !Nat.eqb_refl; apply access_eqb_spec; eexists; reflexivity].
    destruct r; cbn; rewrite ?Nat.eqb_refl; auto. exfalso. eapply H. reflexivity.
Qed.
Lemma rels_spec : forall p q, list_eqb rel_equals p q = true <-> Forall2 alike_rel p q.
Proof.
  induction p as [|a p IH]; intros [|b q]; cbn; try (split; [discriminate|intros F; inversion F]); [split; auto|].
  rewrite andb_true_iff, rel_spec, IH. split; [intros []; auto|intros F; inversion F; auto].
Qed.
Lemma equals_stmt_alike : forall a b, equals_stmt a b = Some true -> alike_stmt a b.
Proof.
  induction a; intros b E; destruct b; try discriminate E; cbn [equals_stmt] in E;
    rewrite ?andthen_true, ?some_true, ?andb_true_iff, ?Nat.eqb_eq, ?nats_spec, ?rels_spec in E; decompose [and] E; subst; constructor; auto using equals_alike.
Qed.
Lemma alike_stmt_equals : forall a b, pointers_stmt a -> alike_stmt a b -> equals_stmt a b = Some true.
Proof.
  induction a; intros b P A; inversion A; subst; inversion P; subst; cbn [equals_stmt];
    rewrite ?andthen_true, ?some_true, ?andb_true_iff, ?Nat.eqb_eq, ?nats_spec, ?rels_spec; repeat split; auto using alike_equals.
Qed.
Lemma equals_stmt_none : forall a b, pointers_stmt a -> pointers_stmt b -> equals_stmt a b <> None.
Proof.
  induction a; intros b P Q; destruct b; try discriminate; inversion P; subst; inversion Q; subst; cbn [equals_stmt];
    repeat apply andthen_none; auto using equals_none; discriminate.
Qed.
