(** Interleavings given as lists of thread numbers, for counterexamples. *)
From Coq Require Import List Arith Bool Relations.
Import ListNotations.
From Verif Require Import IndexExpr Eval Notation NotationSpec Parallel ParallelSpec.
Local Open Scope nat_scope.

Section S.
Context {V : Type}.
Variable R : ring_ops V.
Variable P : list tensor.
Notation store := (@store V).
Notation thread := (@thread V).
Fixpoint sched1 (k : nat) (M : store) (before ths : list thread) : store * list thread :=
  match ths with
  | [] => (M, before)
  | th :: ths =>
      match k with
      | S k => sched1 k M (before ++ [th]) ths
      | O => match todo th with
             | [] => (M, before ++ th :: ths)
             | a :: rest => let '(M', L', g') := act R P a M (private th) (registers th) in
                            (M', before ++ {| private := L'; registers := g'; todo := rest |} :: ths)
             end
      end
  end.
Fixpoint sched (ks : list nat) (st : store * list thread) : store * list thread :=
  match ks with [] => st | k :: ks => sched ks (sched1 k (fst st) [] (snd st)) end.
Lemma sched1_step : forall k M (ths before : list thread),
  clos_refl_trans _ (step R P) (M, before ++ ths) (sched1 k M before ths).
Proof.
  induction k as [|k IH]; intros M [|[L g td] ths] before; cbn.
  - rewrite app_nil_r. apply rt_refl.
  - destruct td as [|a rest]; [apply rt_refl|]. destruct (act R P a M L g) as [[M' L'] g'] eqn:E. apply rt_step. constructor. auto.
  - rewrite app_nil_r. apply rt_refl.
  - replace (before ++ {| private := L; registers := g; todo := td |} :: ths) with ((before ++ [{| private := L; registers := g; todo := td |}]) ++ ths) by (rewrite <- app_assoc; auto). apply IH.
Qed.
Lemma sched_steps : forall ks st, clos_refl_trans _ (step R P) st (sched ks st).
Proof.
  induction ks as [|k ks IH]; intros st; cbn; [apply rt_refl|]. eapply rt_trans; [|apply IH].
  destruct st as [M ths]. exact (sched1_step k M ths []).
Qed.
End S.
Definition done {V} (ths : list (@thread V)) : bool := forallb (fun th => match todo th with [] => true | _ => false end) ths.
Definition sched_loop {V} (R : ring_ops V) fn dv dim d ws an i (b : nstmt V) r T ks :=
  sched R (temps b) ks (T, start (dim i) (fun _ => T) (fun c => actions R fn dv dim (depth_in an d) ws b (ext r i c))).
Lemma sched_prun : forall V (R : ring_ops V) fn dv dim d ws an i (b : nstmt V) r T ks, runs_parallel an = true ->
  done (snd (sched_loop R fn dv dim d ws an i b r T ks)) = true ->
  prun R fn dv dim d ws (NForall an i b) r T (fst (sched_loop R fn dv dim d ws an i b r T ks)).
Proof.
  intros V R fn dv dim d ws an i b r T ks RP D. eapply prun_parallel with (ths := snd (sched_loop R fn dv dim d ws an i b r T ks)); auto.
  - rewrite <- surjective_pairing. apply sched_steps.
  - intros th I. unfold done in D. rewrite forallb_forall in D. specialize (D th I). destruct (todo th); auto; discriminate.
Qed.
