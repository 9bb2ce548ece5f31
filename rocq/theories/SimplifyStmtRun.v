(** An interpreter for the semantics in SimplifyStmtSpec.v, to run concrete programs. *)
From Coq Require Import List ZArith Bool.
From Verif Require Import Outcome Types Simplify SimplifySpec SimplifyStmt SimplifyStmtSpec.
Import ListNotations.
Local Open Scope nat_scope.

Section Run.
Variable F : Type.
Variable FO : fops F.
Variable M : Type.
Variable op1 : M -> kind -> nat -> value F -> option (value F).
Variable op2 : M -> kind -> nat -> value F -> value F -> option (value F).
Variable cast : kind -> value F -> option (value F).
Variable eff : nat -> list (value F) -> M -> option M.
Notation state := (state F M).
Notation value_in := (value_in F FO M op1 op2 cast).
Notation values_in := (values_in F FO M op1 op2 cast).
Notation exec := (exec F FO M op1 op2 cast eff).

Fixpoint run (fuel : nat) (c : code F) (st : state) : option (signal * state) :=
  match fuel with
  | O => None
  | S n =>
      match c with
      | Code (SDecl _ _ x e) | Code (SAssign _ x e) =>
          match value_in st e with Some v => Some (Go, set_var x v st) | None => None end
      | Code (SEff o args raw) =>
          match values_in st args, values_in st raw with
          | Some vs, Some ws => match eff o (vs ++ ws) (snd st) with Some m => Some (Go, (fst st, m)) | None => None end
          | _, _ => None
          end
      | Code SNil => Some (Go, st)
      | Code (SCons s r) =>
          match run n (Code s) st with
          | Some (Go, st1) => run n (Code r) st1
          | other => other
          end
      | Code (SScope s) => run n (Code s) st
      | Code (SIf c a b) => match value_in st c with Some (VBool t) => run n (Code (if t then a else b)) st | _ => None end
      | Code (SWhile c b) =>
          match value_in st c with
          | Some (VBool false) => Some (Go, st)
          | Some (VBool true) =>
              match run n (Code b) st with
              | Some (Brk, st1) => Some (Go, st1)
              | Some (_, st1) => match run n (Code (SWhile c b)) st1 with Some (Go, st2) => Some (Go, st2) | _ => None end
              | None => None
              end
          | _ => None
          end
      | Code (SFor k x start stop inc b) =>
          match value_in st start with
          | Some v => match run n (Loop k x stop inc b) (set_var x v st) with Some (Go, st1) => Some (Go, st1) | _ => None end
          | None => None
          end
      | Code SContinue => Some (Cont, st)
      | Code SBreak => Some (Brk, st)
      | Loop k x stop inc b =>
          match value_in st (lt_ (EVar k x) stop) with
          | Some (VBool false) => Some (Go, st)
          | Some (VBool true) =>
              match run n (Code b) st with
              | Some (Brk, st1) => Some (Go, st1)
              | Some (_, st1) =>
                  match value_in st1 (EAdd (EVar k x) inc) with
                  | Some v => match run n (Loop k x stop inc b) (set_var x v st1) with Some (Go, st2) => Some (Go, st2) | _ => None end
                  | None => None
                  end
              | None => None
              end
          | _ => None
          end
      end
  end.

Theorem run_exec : forall n c st g st', run n c st = Some (g, st') -> exec c st g st'.
Proof.
  induction n as [|n IH]; intros c st g st' E; cbn [run] in E; [discriminate|].
  destruct c as [s|k x stop inc b]; [destruct s as [id k x e|k x e|o args raw| |s r|s|c a b|c b|k x start stop inc b| |]|];
    repeat match goal with
    | E : match ?u with _ => _ end = Some _ |- _ => destruct u eqn:?; try discriminate
    end; try (injection E as <- <-);
    repeat match goal with H : run n _ _ = Some _ |- _ => apply IH in H end;
    try (econstructor; eauto; congruence).
  all: try (eapply X_if; eauto; fail).
  all: try (eapply X_while_break; eauto; fail).
  all: try (eapply X_loop_break; eauto; fail).
  all: try (eapply X_cons_end; eauto; congruence).
  all: try (eapply X_while; eauto; congruence).
  all: try (eapply X_loop; eauto; congruence).
Qed.
End Run.
Arguments run {F}. Arguments run_exec {F}.
