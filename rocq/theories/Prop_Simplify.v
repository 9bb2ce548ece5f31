(** C37: simplification of generated expressions. *)
From Coq Require Import List ZArith Lia Bool SpecFloat.
From Verif Require Import Types TypesProofs Simplify SimplifySpec SimplifyProofs.
Import ListNotations.
Local Open Scope Z_scope.

(** Expressions without implicit conversions keep their type and, wherever they
    have a value, their value; integers wrap around. *)
Theorem C37_value : forall F (FL : flits F) (FO : fops F) env op1 op2 cast,
  typed_operations op1 op2 cast FL -> float_laws FO FL ->
  forall e e', well_typed env e -> simplify_expr FL e = Done e' ->
  well_typed env e' /\ kind_of e' = kind_of e /\
  forall v, eval FO env op1 op2 cast e = Some v -> eval FO env op1 op2 cast e' = Some v.
Proof. intros. eapply simp_ok; eauto. Qed.
Print Assumptions C37_value.

(** The simplifier terminates and does not enlarge the expression. *)
Theorem C37_terminates : forall F (FL : flits F) (e : expr F),
  simplify_expr FL e <> OutOfFuel /\ forall e', simplify_expr FL e = Done e' -> (size e' <= size e)%nat.
Proof. intros. apply simp_fuel. reflexivity. Qed.
Print Assumptions C37_terminates.

(** Expressions without division are always simplified (the compiler does not
    crash). *)
Theorem C37_no_crash : forall F (FL : flits F) (FO : fops F) env op1 op2 cast,
  typed_operations op1 op2 cast FL -> float_laws FO FL ->
  forall e, well_typed env e -> no_division e -> exists e', simplify_expr FL e = Done e'.
Proof.
  intros F FL FO env op1 op2 cast TO LAW e W D.
  pose proof (proj1 (simp_fuel F FL (size e) e (le_n _))) as NF.
  pose proof (proj1 (simp_no_crash F FL FO env op1 op2 cast TO LAW (size e) e D W)) as NC.
  unfold simplify_expr. destruct (simp FL (size e) e); try congruence. eauto.
Qed.
Print Assumptions C37_no_crash.

(** *** A concrete instance: "floats" are integers *)
Definition ZL : flits Z := {| fl0 := 0; fl1 := 1; fis0 := Z.eqb 0; fis1 := Z.eqb 1 |}.
Definition ZF : fops Z := {| fadd := Z.add; fsub := Z.sub; fmul := Z.mul; fdiv := Z.quot; fneg := Z.opp; fofZ := fun z => z |}.
Definition ex_cast (k : kind) (v : value Z) : option (value Z) :=
  match k, v with
  | KInt t, VBool b => Some (VInt (if b then 1 else 0))
  | KFlt, VBool b => Some (VFlt (if b then 1 else 0))
  | KBool, VBool b => Some (VBool b)
  | KInt t, VInt z => Some (VInt (wrap t z))
  | KFlt, VInt z => Some (VFlt z)
  | KFlt, VFlt f => Some (VFlt f)
  | _, _ => None
  end.
(** An array of 32-bit integers (operation 0: load), and less-than. *)
Definition ex_op1 (k : kind) (op : nat) (v : value Z) : option (value Z) :=
  match k, v with KInt I32, VInt z => Some (VInt (wrap I32 (z * z + 7))) | _, _ => None end.
Definition ex_op2 (k : kind) (op : nat) (v w : value Z) : option (value Z) :=
  match k, v, w with KBool, VInt x, VInt y => Some (VBool (x <? y)) | _, _, _ => None end.
Definition ex_env (x : nat) : value Z := VInt (Z.of_nat x * 10).

Example C37_operations : typed_operations ex_op1 ex_op2 ex_cast ZL.
Proof.
  constructor.
  - intros [[]| |] op [] r E; cbn in E; try discriminate; injection E as <-. apply wrap_range.
  - intros [] op [] [] r E; cbn in E; try discriminate; injection E as <-. exact I.
  - intros [t| |] [] r E; cbn in E; try discriminate; injection E as <-; cbn; auto.
    + apply wrap_range.
    + destruct b; [apply range1|apply range0].
  - intros [t| |] b r E; cbn in E; injection E as <-; auto.
Qed.
Example C37_laws : float_laws ZF ZL.
Proof.
  constructor; cbn -[Z.eqb Z.mul Z.quot]; intros; try lia; apply Z.quot_1_r.
Qed.
Notation i32 z := (ELit (LInt I32 z)).
(** ((B_pos[x + 0] + 3) + 4) * 1 < 0 - (2 * y), conjoined with true *)
Definition ex_expr : expr Z :=
  EAnd (ELit (LBool true))
    (EOp2 KBool 0 (EMul (EAdd (EAdd (EOp1 (KInt I32) 0 (EAdd (EVar (KInt I32) 3) (i32 0))) (i32 3)) (i32 4)) (i32 1))
                  (ESub (i32 0) (EMul (i32 2) (EVar (KInt I32) 4)))).
Example C37_example :
  well_typed ex_env ex_expr /\
  simplify_expr ZL ex_expr =
    Done (EOp2 KBool 0 (EAdd (EOp1 (KInt I32) 0 (EVar (KInt I32) 3)) (i32 7)) (ENeg (EMul (i32 2) (EVar (KInt I32) 4)))) /\
  eval ZF ex_env ex_op1 ex_op2 ex_cast ex_expr = Some (VBool false).
Proof.
  split; [|split; vm_compute; reflexivity].
  cbn. unfold in_range. cbn. repeat split; try lia; discriminate.
Qed.

(** *** Findings *)
(** Folding an unsigned 64-bit literal with a signed one goes through int and
    loses the upper half: 2^32 + 1 folds to 1. *)
Theorem C37_literal_conversion_refuted :
  eval ZF ex_env ex_op1 ex_op2 ex_cast (EAdd (ELit (LInt U64 (2 ^ 32))) (ELit (LInt I64 1))) = Some (VInt (2 ^ 32 + 1)) /\
  simplify_expr ZL (EAdd (ELit (LInt U64 (2 ^ 32))) (ELit (LInt I64 1))) = Done (ELit (LInt I64 1)).
Proof. split; vm_compute; reflexivity. Qed.
Print Assumptions C37_literal_conversion_refuted.

(** IEEE 754 binary64. *)
Definition F64 : fops spec_float := {|
  fadd := SFadd 53 1024; fsub := SFsub 53 1024; fmul := SFmul 53 1024; fdiv := SFdiv 53 1024; fneg := SFopp;
  fofZ := fun z => binary_normalize 53 1024 z 0 false |}.
Definition F64L : flits spec_float := {|
  fl0 := S754_zero false; fl1 := binary_normalize 53 1024 1 0 false;
  fis0 := fun f => match f with S754_zero _ => true | _ => false end;
  fis1 := fun f => SFeqb f (binary_normalize 53 1024 1 0 false) |}.
(** With implicit conversions the value changes: the integer 5 times the floating
    point literal 1.0, divided by the integer 2, is 2.5 = 5 * 2^-1; simplified it
    becomes the integer division 5 / 2 = 2. *)
Theorem C37_conversion_refuted :
  let env := fun _ => VInt 5 in
  let e := EDiv (EMul (EVar (KInt I32) 0) (ELit (LFlt (fl1 F64L)))) (ELit (LInt I32 2)) in
  exists m x, eval F64 env (fun _ _ _ => None) (fun _ _ _ _ => None) (fun _ _ => None) e = Some (VFlt (S754_finite false m x)) /\
    Z.pos m * 2 = 5 * 2 ^ (- x) /\
    exists e', simplify_expr F64L e = Done e' /\
    eval F64 env (fun _ _ _ => None) (fun _ _ _ _ => None) (fun _ _ => None) e' = Some (VInt 2).
Proof.
  exists 5629499534213120%positive, (-51). split; [vm_compute; reflexivity|]. split; [reflexivity|].
  exists (EDiv (EVar (KInt I32) 0) (ELit (LInt I32 2))). split; vm_compute; reflexivity.
Qed.
Print Assumptions C37_conversion_refuted.

(** The laws fail for IEEE 754 binary64: the literal 0.0 times an infinite
    value is NaN, and the simplifier produces 0.0; 0.0 + (-0.0) is 0.0, and the
    simplifier produces -0.0. *)
Theorem C37_ieee_refuted :
  (exists e env v, eval F64 env (fun _ _ _ => None) (fun _ _ _ _ => None) (fun _ _ => None) e = Some (VFlt S754_nan) /\
     simplify_expr F64L e = Done (ELit (LFlt v)) /\ v = S754_zero false) /\
  (exists e env, eval F64 env (fun _ _ _ => None) (fun _ _ _ _ => None) (fun _ _ => None) e = Some (VFlt (S754_zero false)) /\
     exists e', simplify_expr F64L e = Done e' /\
     eval F64 env (fun _ _ _ => None) (fun _ _ _ _ => None) (fun _ _ => None) e' = Some (VFlt (S754_zero true))).
Proof.
  split.
  - exists (EMul (ELit (LFlt (S754_zero false))) (EVar KFlt 0)), (fun _ => VFlt (S754_infinity false)), (S754_zero false).
    vm_compute. auto.
  - exists (EAdd (ELit (LFlt (S754_zero false))) (EVar KFlt 0)), (fun _ => VFlt (S754_zero true)).
    split; [vm_compute; reflexivity|]. exists (EVar KFlt 0). split; vm_compute; reflexivity.
Qed.
Print Assumptions C37_ieee_refuted.

(** A division by zero that the generated code would never reach crashes the
    compiler. *)
Theorem C37_crash_refuted :
  exists e : expr Z, eval ZF ex_env ex_op1 ex_op2 ex_cast e = Some (VBool false) /\
    well_typed ex_env e /\ simplify_expr ZL e = Crash.
Proof.
  exists (EAnd (EOp2 KBool 0 (EVar (KInt I32) 1) (EVar (KInt I32) 0)) (EOp2 KBool 0 (EDiv (i32 1) (i32 0)) (i32 1))).
  split; [vm_compute; reflexivity|]. split; [|reflexivity].
  cbn -[in_range]. repeat split; try apply range0; try apply range1; try apply wrap_range; try discriminate; vm_compute; intuition discriminate.
Qed.
Print Assumptions C37_crash_refuted.
