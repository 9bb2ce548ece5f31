From Coq Require Import List Bool Ring_theory Ring.
Import ListNotations.
From Verif Require Import IndexExpr Eval.

Section EP.
Context {V : Type}.
Variable R : ring_ops V.
Hypothesis HR : ring_theory (r0 R) (r1 R) (radd R) (rmul R) (rsub R) (ropp R) eq.
Variable fn : nat -> V -> V.
Hypothesis fn0 : forall f, fn f (r0 R) = r0 R.
Add Ring Vr : HR.

Theorem zero_eval : forall (e : expr V) z env,
  (forall a, In a (accesses e) -> z a = true -> env a = r0 R) ->
  oeval R fn env (zero z e) = eval R fn env e.
Proof.
  induction e; simpl; intros z env H; auto.
  - destruct (z a) eqn:Z; simpl; auto. symmetry. auto.
  - rewrite <- (IHe z env H). destruct (zero z e); simpl; [auto | ring].
  - rewrite <- (IHe z env H). destruct (zero z e); simpl; auto.
  - rewrite <- (IHe1 z env), <- (IHe2 z env) by (intros; apply H; auto; apply in_app_iff; auto).
    destruct (zero z e1), (zero z e2); simpl; ring.
  - rewrite <- (IHe1 z env), <- (IHe2 z env) by (intros; apply H; auto; apply in_app_iff; auto).
    destruct (zero z e1), (zero z e2); simpl; ring.
  - rewrite <- (IHe1 z env), <- (IHe2 z env) by (intros; apply H; auto; apply in_app_iff; auto).
    destruct (zero z e1), (zero z e2); simpl; ring.
Qed.

Lemma eval_ext : forall (e : expr V) env env',
  (forall a, In a (accesses e) -> env a = env' a) -> eval R fn env e = eval R fn env' e.
Proof.
  induction e; simpl; intros env env' H; auto;
    try (f_equal; auto; fail);
    rewrite (IHe1 env env'), (IHe2 env env') by (intros; apply H, in_app_iff; auto); reflexivity.
Qed.
End EP.
