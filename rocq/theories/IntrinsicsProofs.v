From Coq Require Import List Arith Bool ZArith Reals Lia Lra.
From Verif Require Import Intrinsics.
Import ListNotations.

(** [vals] are values of the arguments [args]: a literal has its own value. *)
Definition values_of {V} (args : list (option V)) (vals : list V) :=
  Forall2 (fun a v => match a with Some l => v = l | None => True end) args vals.

Ltac inv H := inversion H; clear H; subst.
Ltac splitvals :=
  repeat match goal with
  | H : Forall2 _ (_ :: _) _ |- _ => inv H
  | H : Forall2 _ [] _ |- _ => inv H
  end.

Lemma Zlit : forall a : option Z,
  (lit_ge0 Zsign a = true -> exists v, a = Some v /\ (0 <= v)%Z) /\
  (lit_le0 Zsign a = true -> exists v, a = Some v /\ (v <= 0)%Z) /\
  (lit_gt0 Zsign a = true -> exists v, a = Some v /\ (0 < v)%Z) /\
  (lit_lt0 Zsign a = true -> exists v, a = Some v /\ (v < 0)%Z) /\
  (lit_0 Zsign a = true -> exists v, a = Some v /\ (v = 0)%Z).
Proof.
  intros [v|]; simpl; [|repeat split; discriminate]. unfold Zsign.
  destruct (Z.compare_spec v 0); repeat split; intros; try discriminate; exists v; split; auto; lia.
Qed.
Lemma Rsign_spec : forall x, match Rsign x with Lt => (x < 0)%R | Gt => (0 < x)%R | Eq => (x = 0)%R end.
Proof.
  intros x. unfold Rsign, rlt. destruct (Rlt_dec x 0); auto. destruct (Rlt_dec 0 x); auto. lra.
Qed.
Lemma Rlit : forall a : option R,
  (lit_ge0 Rsign a = true -> exists v, a = Some v /\ (0 <= v)%R) /\
  (lit_le0 Rsign a = true -> exists v, a = Some v /\ (v <= 0)%R) /\
  (lit_gt0 Rsign a = true -> exists v, a = Some v /\ (0 < v)%R) /\
  (lit_lt0 Rsign a = true -> exists v, a = Some v /\ (v < 0)%R) /\
  (lit_0 Rsign a = true -> exists v, a = Some v /\ (v = 0)%R).
Proof.
  intros [v|]; simpl; [|repeat split; discriminate]. pose proof (Rsign_spec v).
  destruct (Rsign v); repeat split; intros; try discriminate; exists v; split; auto; lra.
Qed.

Ltac litfacts L :=
  repeat match goal with
  | H : lit_ge0 _ ?a = true |- _ => apply (proj1 (L a)) in H; destruct H as [? [? ?]]
  | H : lit_le0 _ ?a = true |- _ => apply (proj1 (proj2 (L a))) in H; destruct H as [? [? ?]]
  | H : lit_gt0 _ ?a = true |- _ => apply (proj1 (proj2 (proj2 (L a)))) in H; destruct H as [? [? ?]]
  | H : lit_lt0 _ ?a = true |- _ => apply (proj1 (proj2 (proj2 (proj2 (L a))))) in H; destruct H as [? [? ?]]
  | H : lit_0 _ ?a = true |- _ => apply (proj2 (proj2 (proj2 (proj2 (L a))))) in H; destruct H as [? [? ?]]
  end.
Ltac cases Z :=
  repeat match type of Z with
  | context [if ?b then _ else _] => destruct b eqn:?
  end; inv Z.
Ltac pick I Hz :=
  repeat (destruct I as [I|I]; [subst|]); try (elim I; fail);
  try (pose proof (Hz 0%nat (or_introl eq_refl)));
  try (pose proof (Hz 1%nat (or_introl eq_refl)));
  try (pose proof (Hz 1%nat (or_intror (or_introl eq_refl))));
  cbn [nth] in *; subst.

Lemma int_zero_preserving : forall f k args vals sets S, k <> KFloat ->
  zeroPreservingArgs Zsign f k args = Some sets -> In S sets -> values_of args vals ->
  (forall n, In n S -> nth n vals 0%Z = 0%Z) -> (k = KUInt -> Forall (fun v => 0 <= v)%Z vals) ->
  for_integers f = true -> (f = IMod -> nth 1 vals 0%Z <> 0%Z) ->
  int_value f k vals = Some 0%Z.
Proof.
  intros f k args vals sets S NF Z I V Hz U FI M. unfold values_of in V.
  assert (U' : forall n, k = KUInt -> (0 <= nth n vals 0)%Z).
  { intros n Hk. specialize (U Hk). rewrite Forall_forall in U. destruct (nth_in_or_default n vals 0%Z) as [H|H]; [auto|rewrite H; lia]. }
  pose proof (U' 0%nat) as U0. pose proof (U' 1%nat) as U1. clear U U'.
  destruct f; try discriminate FI;
  destruct args as [|a [|b [|c args]]]; try discriminate Z; splitvals;
  cbn [zeroPreservingArgs] in Z; cbn [nth] in *;
  try (destruct k; [specialize (U0 eq_refl); specialize (U1 eq_refl)| |congruence]);
  cases Z; pick I Hz; litfacts Zlit; subst; cbn [int_value]; f_equal;
  try (specialize (M eq_refl));
  try solve [ lia | unfold b2z; repeat match goal with |- context [if ?x then _ else _] => destruct x eqn:? end; lia ].
  all: try (destruct (Z.eqb_spec y0 0); [congruence|]; rewrite ?Z.rem_0_l; auto).
  all: try congruence.
Qed.

Section RealProofs.
Local Open Scope R_scope.
Lemma rlt_spec : forall a b, rlt a b = true <-> a < b.
Proof. intros. unfold rlt. destruct (Rlt_dec a b); split; auto; congruence. Qed.
Lemma rlt_nspec : forall a b, rlt a b = false <-> b <= a.
Proof. intros. unfold rlt. destruct (Rlt_dec a b); split; try congruence; intros; lra. Qed.
Lemma req_spec : forall a b, req a b = true <-> a = b.
Proof. intros. unfold req. destruct (Req_EM_T a b); split; auto; congruence. Qed.
Lemma req_nspec : forall a b, req a b = false <-> a <> b.
Proof. intros. unfold req. destruct (Req_EM_T a b); split; auto; congruence. Qed.
Lemma tanh_0' : tanh 0 = 0.
Proof. unfold tanh. rewrite sinh_0. unfold Rdiv. apply Rmult_0_l. Qed.
Lemma rtrunc_0 : Rtruncate 0 = 0.
Proof.
  unfold Rtruncate. destruct (Rle_dec 0 0); [|lra]. rewrite (Int_part_INR 0) || idtac.
  replace (Int_part 0) with 0%Z; [reflexivity|]. symmetry. change 0 with (INR 0). rewrite Int_part_INR. reflexivity.
Qed.

Lemma real_zero_preserving : forall f args vals sets S,
  zeroPreservingArgs Rsign f KFloat args = Some sets -> In S sets -> values_of args vals ->
  (forall n, In n S -> nth n vals 0 = 0) -> f <> IPow -> (f = IMod -> nth 1 vals 0 <> 0) ->
  real_value f vals = Some 0.
Proof.
  intros f args vals sets S Z I V Hz NP M. unfold values_of in V.
  destruct f; try congruence;
  destruct args as [|a [|b [|c args]]]; try discriminate Z; splitvals;
  cbn [zeroPreservingArgs] in Z; cbn [nth] in *;
  cases Z; pick I Hz; litfacts Rlit; subst; cbn [real_value]; try (specialize (M eq_refl));
  try (unfold b2r; f_equal;
       repeat match goal with |- context [rlt ?x ?y] => destruct (rlt x y) eqn:?; [apply rlt_spec in Heqb || idtac | apply rlt_nspec in Heqb || idtac] end;
       repeat match goal with H : rlt _ _ = true |- _ => apply rlt_spec in H | H : rlt _ _ = false |- _ => apply rlt_nspec in H end;
       repeat match goal with |- context [req ?x ?y] => destruct (req x y) eqn:? end;
       repeat match goal with H : req _ _ = true |- _ => apply req_spec in H | H : req _ _ = false |- _ => apply req_nspec in H end;
       simpl; subst; solve [lra | congruence | exfalso; lra]).
  - rewrite (proj2 (req_nspec y0 0) M). f_equal. unfold Rdiv. rewrite Rmult_0_l, rtrunc_0. lra.
  - rewrite Rabs_R0. auto.
  - rewrite (proj2 (rlt_nspec 0 0)) by lra. rewrite sqrt_0. auto.
  - unfold ccbrt. rewrite (proj2 (rlt_nspec 0 0)) by lra. auto.
  - rewrite sin_0. auto.
  - rewrite (proj2 (req_nspec (cos 0) 0)) by (rewrite cos_0; lra). rewrite tan_0. auto.
  - rewrite Rabs_R0. rewrite (proj2 (rlt_nspec 1 0)) by lra. rewrite asin_0. auto.
  - rewrite atan_0. auto.
  - unfold catan2. rewrite (proj2 (rlt_spec 0 _)) by eassumption. unfold Rdiv. rewrite Rmult_0_l, atan_0. auto.
  - unfold catan2. rewrite (proj2 (rlt_nspec 0 0)) by lra. auto.
  - rewrite sinh_0. auto.
  - rewrite tanh_0'. auto.
  - rewrite Rmult_0_l, !Rplus_0_l, sqrt_1, ln_1. auto.
  - rewrite Rabs_R0. rewrite (proj2 (rlt_spec 0 1)) by lra. f_equal.
    rewrite Rplus_0_r, Rminus_0_r. unfold Rdiv at 2. rewrite Rinv_1, Rmult_1_r, ln_1. lra.
  - rewrite Rmax_left; auto; lra.
  - rewrite Rmax_left; auto; lra.
  - rewrite Rmax_left; auto; lra.
  - rewrite Rmin_left; auto; lra.
  - rewrite Rmin_left; auto; lra.
  - rewrite Rmin_left; auto; lra.
Qed.
End RealProofs.

(** ** The rewriter *)
Lemma zero_args_positions {V} : forall (args : list (option (option V))) base n,
  In n (map fst (filter (fun p => match snd p with None => true | Some _ => false end) (combine (seq base (length args)) args))) ->
  exists m, n = (base + m)%nat /\ nth_error args m = Some None.
Proof.
  induction args as [|a args IH]; intros base n H; simpl in H; [elim H|].
  destruct a as [a|]; simpl in H.
  - apply IH in H. destruct H as [m [-> H]]. exists (S m). split; auto. lia.
  - destruct H as [<-|H]; [exists 0%nat; split; auto; lia|]. apply IH in H. destruct H as [m [-> H]]. exists (S m). split; auto. lia.
Qed.
Lemma includes_in : forall big small, includes big small = true -> forall n, In n small -> In n big.
Proof.
  intros big small H n I. unfold includes in H. rewrite forallb_forall in H. specialize (H n I).
  apply existsb_exists in H. destruct H as [x [Ix E]]. apply Nat.eqb_eq in E. subst. auto.
Qed.

Lemma zero_call_sets {V} : forall (sign : V -> comparison) z f k args,
  zero_call sign z f k args = Some true ->
  exists sets S, zeroPreservingArgs sign f k (map (fun a => match a with None => Some z | Some a => a end) args) = Some sets /\
    In S sets /\ forall n, In n S -> nth_error args n = Some None.
Proof.
  intros sign z f k args H. unfold zero_call in H.
  destruct (zeroPreservingArgs _ _ _ _) as [sets|] eqn:E; [|discriminate]. injection H as H.
  apply existsb_exists in H. destruct H as [S [I H]]. exists sets, S. split; [auto|]. split; [auto|].
  intros n In'. apply includes_in with (n := n) in H; auto. apply zero_args_positions in H.
  destruct H as [m [-> H]]. auto.
Qed.
