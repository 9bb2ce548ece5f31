(** An interpreter for the loop language, for concrete executions. *)
From Coq Require Import List Arith Lia Bool.
Import ListNotations.
From Verif Require Import Outcome Storage IndexExpr Eval LoopIR.
Local Open Scope nat_scope.

Section Run.
Context {V : Type}.
Variable R : ring_ops V.
Variable fn : nat -> V -> V.
Variable T : nat -> storage V.
Variable junkV : nat -> V.
Variable junkI : nat -> nat.
Fixpoint run (k : nat) (s : stmt V) (st : state V) {struct k} : option (state V) :=
  match k with
  | 0 => None
  | S k =>
    match s with
    | Skip => Some st
    | Seq s1 s2 => match run k s1 st with Some st1 => run k s2 st1 | None => None end
    | Asg v x => match ieval T st x with Some n => Some (setv st v n) | None => None end
    | StV n x y =>
        match ieval T st x, veval R fn T st y with
        | Some p, Some u => if p <? length (vbuf st n) then Some (setV st n (upd_nth (vbuf st n) p u)) else None
        | _, _ => None
        end
    | StI n x y =>
        match ieval T st x, ieval T st y with
        | Some p, Some u => if p <? length (ibuf st n) then Some (setI st n (upd_nth (ibuf st n) p u)) else None
        | _, _ => None
        end
    | RszV n x => match ieval T st x with Some p => Some (setV st n (resize junkV (vbuf st n) p)) | None => None end
    | RszI n x => match ieval T st x with Some p => Some (setI st n (resize junkI (ibuf st n) p)) | None => None end
    | If b s1 s2 => match beval T st b with Some true => run k s1 st | Some false => run k s2 st | None => None end
    | While b s1 =>
        match beval T st b with
        | Some true => match run k s1 st with Some st1 => run k (While b s1) st1 | None => None end
        | Some false => Some st
        | None => None
        end
    end
  end.

Lemma run_exec : forall k s st st', run k s st = Some st' -> exec R fn T junkV junkI s st st'.
Proof.
  induction k; intros s st st' H; [discriminate|]. destruct s; simpl in H.
  - inversion H; subst. constructor.
  - destruct (run k s1 st) as [st1|] eqn:E; [|discriminate]. econstructor; eauto.
  - destruct (ieval T st x) eqn:E; inversion H; subst. constructor. auto.
  - destruct (ieval T st x) eqn:E, (veval R fn T st y) eqn:E1; try discriminate.
    destruct (Nat.ltb_spec n0 (length (vbuf st n))); inversion H; subst. econstructor; eauto.
  - destruct (ieval T st x) eqn:E, (ieval T st y) eqn:E1; try discriminate.
    destruct (Nat.ltb_spec n0 (length (ibuf st n))); inversion H; subst. econstructor; eauto.
  - destruct (ieval T st x) eqn:E; inversion H; subst. econstructor; eauto.
  - destruct (ieval T st x) eqn:E; inversion H; subst. econstructor; eauto.
  - destruct (beval T st b) as [[|]|] eqn:E; [| |discriminate]; eapply X_if; eauto; simpl; auto.
  - destruct (beval T st b) as [[|]|] eqn:E; [| |discriminate].
    + destruct (run k s st) as [st1|] eqn:E1; [|discriminate]. eapply X_while; eauto.
    + inversion H; subst. constructor. auto.
Qed.

(** Observing the final state of a terminating run. *)
Lemma run_obs : forall (A : Type) k s st (f : state V -> A) a, option_map f (run k s st) = Some a ->
  exists st', exec R fn T junkV junkI s st st' /\ f st' = a.
Proof.
  intros A k s st f a H. destruct (run k s st) as [st'|] eqn:E; [|discriminate]. exists st'. split; [eapply run_exec; eauto|].
  simpl in H. congruence.
Qed.
End Run.
