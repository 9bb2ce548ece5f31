(** Expression simplification: /repo/src/ir/simplify.cpp 17-339. *)
From Coq Require Import List ZArith Lia Bool.
From Verif Require Import Types.
Import ListNotations.
Local Open Scope Z_scope.

(** The component types of IR expressions (ir.h 113-130), with all floating
    point and complex types identified. *)
Inductive kind := KInt (t : itype) | KFlt | KBool.
Definition itype_eqb (a b : itype) : bool :=
  match a, b with
  | U8, U8 | U16, U16 | U32, U32 | U64, U64 | I8, I8 | I16, I16 | I32, I32 | I64, I64 => true
  | _, _ => false
  end.
Definition kind_eqb (a b : kind) : bool :=
  match a, b with KInt s, KInt t => itype_eqb s t | KFlt, KFlt | KBool, KBool => true | _, _ => false end.

(** type.cpp 49-79 restricted to integer types (Types.max_type). *)
Definition dt (t : itype) : dtype :=
  match t with U8 => TUInt8 | U16 => TUInt16 | U32 => TUInt32 | U64 => TUInt64
             | I8 => TInt8 | I16 => TInt16 | I32 => TInt32 | I64 => TInt64 end.
Definition it (d : dtype) : option itype :=
  match d with TUInt8 => Some U8 | TUInt16 => Some U16 | TUInt32 => Some U32 | TUInt64 => Some U64
             | TInt8 => Some I8 | TInt16 => Some I16 | TInt32 => Some I32 | TInt64 => Some I64 | _ => None end.
Definition max_itype (a b : itype) : itype :=
  match max_type (dt a) (dt b) with Some d => match it d with Some t => t | None => a end | None => a end.

Section Expr.
Variable F : Type.

(** Literals: ir.h 205-262; Var 188-203; Neg .. Cast 265-480.  [EOp1] and
    [EOp2] stand for the nodes for which the simplifier has no rule (Sqrt, Not,
    Load of an array, Rem, Min, Max, bit operations, comparisons, calls): their
    operands are simplified and the node is rebuilt (ir_rewriter.cpp 42-330);
    [k] is the node's type and [op] the operation or the array loaded from. *)
Inductive lit := LInt (t : itype) (z : Z) | LFlt (f : F) | LBool (b : bool).
Inductive expr :=
| ELit (l : lit)
| EVar (k : kind) (x : nat)
| ENeg (a : expr)
| EAdd (a b : expr) | ESub (a b : expr) | EMul (a b : expr) | EDiv (a b : expr)
| EOr (a b : expr) | EAnd (a b : expr)
| ECast (k : kind) (a : expr)
| EOp1 (k : kind) (op : nat) (a : expr)
| EOp2 (k : kind) (op : nat) (a b : expr).

Definition kind_of_lit (l : lit) : kind := match l with LInt t _ => KInt t | LFlt _ => KFlt | LBool _ => KBool end.
(** max_expr_type, ir.cpp 276-279 (types are recomputed from the operands). *)
Definition max_kind (a b : kind) : kind :=
  match a, b with
  | KInt s, KInt t => KInt (max_itype s t)
  | KBool, KBool => KBool
  | KBool, k => k | k, KBool => k
  | _, _ => KFlt
  end.
Fixpoint kind_of (e : expr) : kind :=
  match e with
  | ELit l => kind_of_lit l
  | EVar k _ => k
  | ENeg a => kind_of a
  | EAdd a b | ESub a b | EMul a b | EDiv a b => max_kind (kind_of a) (kind_of b)
  | EOr _ _ | EAnd _ _ => KBool
  | ECast k _ | EOp1 k _ _ | EOp2 k _ _ _ => k
  end.

(** The literals 0 and 1 of floating point type, and comparison with them
    (Literal::equalsScalar, ir.cpp 184-255). *)
Record flits := { fl0 : F; fl1 : F; fis0 : F -> bool; fis1 : F -> bool }.
Variable FL : flits.

Definition is_scalar0 (l : lit) : bool :=
  match l with LInt _ z => z =? 0 | LFlt f => fis0 FL f | LBool b => negb b end.
Definition is_scalar1 (l : lit) : bool :=
  match l with LInt _ z => z =? 1 | LFlt f => fis1 FL f | LBool b => b end.

(** The outcome of running the simplifier: a result, a crash of the compiler
    (division by a literal zero, the overflowing 64-bit division, a Boolean
    read of a literal of another type), or exhaustion of the model's fuel. *)
Inductive sres := Done (e : expr) | Crash | OutOfFuel.
Definition sbind (r : sres) (k : expr -> sres) : sres :=
  match r with Done e => k e | Crash => Crash | OutOfFuel => OutOfFuel end.

(** TypedComponentVal(resulttype, (int) v.getAsIndex()) when the types differ,
    simplify.cpp 108-113. *)
Definition convert_literal (from to : itype) (z : Z) : Z :=
  if itype_eqb from to then z else wrap to (wrap I32 (size_t z)).
(** 93-118, 172-192, 219-239: folding two integer literals.  Signed overflow of
    the folding itself is modelled as wrapping around. *)
Definition fold_literals (f : Z -> Z -> Z) (ta tb : itype) (x y : Z) : expr :=
  let r := max_itype ta tb in
  ELit (LInt r (wrap r (f (convert_literal ta r x) (convert_literal tb r y)))).

(** The literal operand of a node. *)
Definition as_lit (e : expr) : option lit := match e with ELit l => Some l | _ => None end.

(** The rules for one Add node with simplified operands, 94-169; [rec] is the
    recursive call simplify(...). *)
Definition add_zero (a b : expr) : sres :=
  match as_lit a with
  | Some l => if is_scalar0 l then Done b
              else match as_lit b with Some l => if is_scalar0 l then Done a else Done (EAdd a b) | None => Done (EAdd a b) end
  | None => match as_lit b with Some l => if is_scalar0 l then Done a else Done (EAdd a b) | None => Done (EAdd a b) end
  end.
Definition add_rule (rec : expr -> sres) (a b : expr) : sres :=
  match a, b with
  | ELit (LInt ta x), ELit (LInt tb y) => Done (fold_literals Z.add ta tb x y)
  | EAdd c (ELit (LInt td d)), ELit (LInt tb y) =>
      if kind_eqb (kind_of c) (KInt td) && itype_eqb td tb
      then rec (EAdd c (ELit (LInt tb (wrap tb (d + y))))) else add_zero a b
  | ESub c (ELit (LInt td d)), ELit (LInt tb y) =>
      if kind_eqb (kind_of c) (KInt td) && itype_eqb td tb
      then rec (EAdd c (ELit (LInt tb (wrap tb (y - d))))) else add_zero a b
  | _, _ => add_zero a b
  end.

(** Sub: 171-214. *)
Definition sub_zero (a b : expr) : sres :=
  match as_lit a with
  | Some l => if is_scalar0 l then Done (ENeg b)
              else match as_lit b with Some l => if is_scalar0 l then Done a else Done (ESub a b) | None => Done (ESub a b) end
  | None => match as_lit b with Some l => if is_scalar0 l then Done a else Done (ESub a b) | None => Done (ESub a b) end
  end.
Definition sub_rule (a b : expr) : sres :=
  match a, b with
  | ELit (LInt ta x), ELit (LInt tb y) => Done (fold_literals Z.sub ta tb x y)
  | _, _ => sub_zero a b
  end.

(** Mul: 216-293. *)
Definition mul_one_right (a b : expr) : sres :=
  match as_lit b with
  | Some l => if is_scalar0 l then Done (ELit l) else if is_scalar1 l then Done a else Done (EMul a b)
  | None => Done (EMul a b)
  end.
Definition mul_one (a b : expr) : sres :=
  match as_lit a with
  | Some l => if is_scalar0 l then Done (ELit l) else if is_scalar1 l then Done b else mul_one_right a b
  | None => mul_one_right a b
  end.
Definition mul_rule (rec : expr -> sres) (a b : expr) : sres :=
  match a, b with
  | ELit (LInt ta x), ELit (LInt tb y) => Done (fold_literals Z.mul ta tb x y)
  | EMul c (ELit (LInt td d)), ELit (LInt tb y) =>
      if kind_eqb (kind_of c) (KInt td) && itype_eqb td tb
      then rec (EMul c (ELit (LInt tb (wrap tb (d * y))))) else mul_one a b
  | _, _ => mul_one a b
  end.

(** Div: 295-333.  The quotient is computed in 64 bits and stored in the type. *)
Definition div_one (a b : expr) : sres :=
  match as_lit b with Some l => if is_scalar1 l then Done a else Done (EDiv a b) | None => Done (EDiv a b) end.
Definition div_rule (a b : expr) : sres :=
  match a, b with
  | ELit (LInt ta x), ELit (LInt tb y) =>
      if itype_eqb ta tb
      then if (y =? 0) || (signed ta && negb (in_rangeb I64 (Z.quot x y))) then Crash
           else Done (ELit (LInt ta (wrap ta (Z.quot x y))))
      else div_one a b
  | _, _ => div_one a b
  end.

(** Or and And: 38-90. *)
Definition or_rule (a b : expr) : sres :=
  match a, b with
  | ELit (LBool x), _ => if x then Done a else Done b
  | ELit _, _ => Crash
  | _, ELit (LBool y) => if y then Done b else Done a
  | _, ELit _ => Crash
  | _, _ => Done (EOr a b)
  end.
Definition and_rule (a b : expr) : sres :=
  match a, b with
  | ELit (LBool x), _ => if x then Done b else Done a
  | ELit _, _ => Crash
  | _, ELit (LBool y) => if y then Done a else Done b
  | _, ELit _ => Crash
  | _, _ => Done (EAnd a b)
  end.

(** Cast: 20-36. *)
Definition cast_rule (k : kind) (a : expr) : sres :=
  match a with
  | ELit (LBool x) =>
      Done (ELit (match k with
                  | KInt t => LInt t (if x then 1 else 0)
                  | KFlt => LFlt (if x then fl1 FL else fl0 FL)
                  | KBool => LBool x
                  end))
  | _ => Done (ECast k a)
  end.

Fixpoint simp (fuel : nat) (e : expr) : sres :=
  match fuel with
  | O => OutOfFuel
  | S n =>
      match e with
      | ELit _ | EVar _ _ => Done e
      | ENeg a => sbind (simp n a) (fun a => Done (ENeg a))
      | EAdd a b => sbind (simp n a) (fun a => sbind (simp n b) (fun b => add_rule (simp n) a b))
      | ESub a b => sbind (simp n a) (fun a => sbind (simp n b) (fun b => sub_rule a b))
      | EMul a b => sbind (simp n a) (fun a => sbind (simp n b) (fun b => mul_rule (simp n) a b))
      | EDiv a b => sbind (simp n a) (fun a => sbind (simp n b) (fun b => div_rule a b))
      | EOr a b => sbind (simp n a) (fun a => sbind (simp n b) (fun b => or_rule a b))
      | EAnd a b => sbind (simp n a) (fun a => sbind (simp n b) (fun b => and_rule a b))
      | ECast k a => sbind (simp n a) (fun a => cast_rule k a)
      | EOp1 k op a => sbind (simp n a) (fun a => Done (EOp1 k op a))
      | EOp2 k op a b => sbind (simp n a) (fun a => sbind (simp n b) (fun b => Done (EOp2 k op a b)))
      end
  end.

Fixpoint size (e : expr) : nat :=
  match e with
  | ELit _ | EVar _ _ => 1
  | ENeg a | ECast _ a | EOp1 _ _ a => S (size a)
  | EAdd a b | ESub a b | EMul a b | EDiv a b | EOr a b | EAnd a b | EOp2 _ _ a b => S (size a + size b)
  end%nat.

(** simplify(const Expr&), 335-339. *)
Definition simplify_expr (e : expr) : sres := simp (size e) e.
End Expr.

Arguments LInt {F}. Arguments LFlt {F}. Arguments LBool {F}.
Arguments ELit {F}. Arguments EVar {F}. Arguments ENeg {F}. Arguments EAdd {F}. Arguments ESub {F}.
Arguments EMul {F}. Arguments EDiv {F}. Arguments EOr {F}. Arguments EAnd {F}. Arguments ECast {F}.
Arguments EOp1 {F}. Arguments EOp2 {F}. Arguments Done {F}. Arguments Crash {F}. Arguments OutOfFuel {F}.
Arguments kind_of {F}. Arguments simp {F}. Arguments size {F}. Arguments simplify_expr {F}.
Arguments fl0 {F}. Arguments fl1 {F}. Arguments fis0 {F}. Arguments fis1 {F}. Arguments sbind {F}.
Arguments add_rule {F}. Arguments sub_rule {F}. Arguments mul_rule {F}. Arguments div_rule {F}.
Arguments or_rule {F}. Arguments and_rule {F}. Arguments cast_rule {F}. Arguments fold_literals {F}.
Arguments add_zero {F}. Arguments sub_zero {F}. Arguments mul_one {F}. Arguments mul_one_right {F}. Arguments div_one {F}.
Arguments as_lit {F}. Arguments is_scalar0 {F}. Arguments is_scalar1 {F}. Arguments kind_of_lit {F}.
