(** The meaning of generated expressions: C arithmetic, with integers wrapping
    around in the type of each node. *)
From Coq Require Import List ZArith Lia Bool.
From Verif Require Import Types Simplify.
Import ListNotations.
Local Open Scope Z_scope.

Section Eval.
Variable F : Type.
(** Floating point arithmetic and the operations the simplifier does not know. *)
Record fops := {
  fadd : F -> F -> F; fsub : F -> F -> F; fmul : F -> F -> F; fdiv : F -> F -> F; fneg : F -> F;
  fofZ : Z -> F
}.
Variable FO : fops.
Inductive value := VInt (z : Z) | VFlt (f : F) | VBool (b : bool).

(** Conversion of an operand to floating point. *)
Definition to_f (v : value) : option F :=
  match v with VInt z => Some (fofZ FO z) | VFlt f => Some f | VBool _ => None end.

(** One arithmetic operation: on integers if both operands are, in floating
    point otherwise. *)
Definition arith2 (fi : Z -> Z -> option Z) (ff : F -> F -> F) (x y : value) : option value :=
  match x, y with
  | VInt a, VInt b => option_map VInt (fi a b)
  | _, _ => match to_f x, to_f y with Some a, Some b => Some (VFlt (ff a b)) | _, _ => None end
  end.
(** Wrapping arithmetic in the type of the node. *)
Definition in_kind (k : kind) (z : Z) : Z := match k with KInt t => wrap t z | _ => z end.
(** C division: undefined for a zero divisor and when the quotient does not fit. *)
Definition c_div (k : kind) (x y : Z) : option Z :=
  if y =? 0 then None else
  match k with KInt t => if in_rangeb t (Z.quot x y) then Some (Z.quot x y) else None | _ => None end.

Definition value_of_lit (l : lit F) : value := match l with LInt _ z => VInt z | LFlt f => VFlt f | LBool b => VBool b end.

(** [env]: variables; [op1], [op2]: the operations without rules; [cast]:
    conversions. *)
Variable env : nat -> value.
Variable op1 : kind -> nat -> value -> option value.
Variable op2 : kind -> nat -> value -> value -> option value.
Variable cast : kind -> value -> option value.

Definition bind2 (x y : option value) (f : value -> value -> option value) : option value :=
  match x, y with Some a, Some b => f a b | _, _ => None end.

Fixpoint eval (e : expr F) : option value :=
  match e with
  | ELit l => Some (value_of_lit l)
  | EVar _ x => Some (env x)
  | ENeg a =>
      match eval a with
      | Some (VInt z) => Some (VInt (in_kind (kind_of a) (- z)))
      | Some (VFlt f) => Some (VFlt (fneg FO f))
      | _ => None
      end
  | EAdd a b => bind2 (eval a) (eval b)
      (arith2 (fun x y => Some (in_kind (kind_of e) (x + y))) (fadd FO))
  | ESub a b => bind2 (eval a) (eval b)
      (arith2 (fun x y => Some (in_kind (kind_of e) (x - y))) (fsub FO))
  | EMul a b => bind2 (eval a) (eval b)
      (arith2 (fun x y => Some (in_kind (kind_of e) (x * y))) (fmul FO))
  | EDiv a b => bind2 (eval a) (eval b) (arith2 (c_div (kind_of e)) (fdiv FO))
  | EOr a b =>
      match eval a with
      | Some (VBool true) => Some (VBool true)
      | Some (VBool false) => match eval b with Some (VBool y) => Some (VBool y) | _ => None end
      | _ => None
      end
  | EAnd a b =>
      match eval a with
      | Some (VBool true) => match eval b with Some (VBool y) => Some (VBool y) | _ => None end
      | Some (VBool false) => Some (VBool false)
      | _ => None
      end
  | ECast k a => match eval a with Some v => cast k v | None => None end
  | EOp1 k op a => match eval a with Some v => op1 k op v | None => None end
  | EOp2 k op a b => bind2 (eval a) (eval b) (op2 k op)
  end.

(** A value belongs to a type. *)
Definition has_kind (k : kind) (v : value) : Prop :=
  match k, v with
  | KInt t, VInt z => in_range t z
  | KFlt, VFlt _ => True
  | KBool, VBool _ => True
  | _, _ => False
  end.

(** Expressions without implicit conversions: the operands of an arithmetic
    node have the same, non-Boolean type; those of a Boolean one are Boolean.
    Literals and variables have values of their type. *)
Fixpoint well_typed (e : expr F) : Prop :=
  match e with
  | ELit l => has_kind (kind_of_lit l) (value_of_lit l)
  | EVar k x => has_kind k (env x)
  | ENeg a => well_typed a /\ kind_of a <> KBool
  | EAdd a b | ESub a b | EMul a b | EDiv a b => well_typed a /\ well_typed b /\ kind_of a = kind_of b /\ kind_of a <> KBool
  | EOr a b | EAnd a b => well_typed a /\ well_typed b /\ kind_of a = KBool /\ kind_of b = KBool
  | ECast _ a | EOp1 _ _ a => well_typed a
  | EOp2 _ _ a b => well_typed a /\ well_typed b
  end.

(** The operations produce values of their type; casting a Boolean gives 0 or 1. *)
Record typed_operations (FL : flits F) : Prop := {
  to_op1 : forall k op v r, op1 k op v = Some r -> has_kind k r;
  to_op2 : forall k op v w r, op2 k op v w = Some r -> has_kind k r;
  to_cast : forall k v r, cast k v = Some r -> has_kind k r;
  to_cast_bool : forall k b r, cast k (VBool b) = Some r ->
    r = match k with
        | KInt t => VInt (if b then 1 else 0)
        | KFlt => VFlt (if b then fl1 FL else fl0 FL)
        | KBool => VBool b
        end
}.
(** The laws of floating point arithmetic the simplifier uses. *)
Record float_laws (FL : flits F) : Prop := {
  fl_is0 : forall f, fis0 FL f = true -> f = fl0 FL;
  fl_is1 : forall f, fis1 FL f = true -> f = fl1 FL;
  fl_add0 : forall f, fadd FO (fl0 FL) f = f;
  fl_0add : forall f, fadd FO f (fl0 FL) = f;
  fl_0sub : forall f, fsub FO (fl0 FL) f = fneg FO f;
  fl_sub0 : forall f, fsub FO f (fl0 FL) = f;
  fl_mul0 : forall f, fmul FO (fl0 FL) f = fl0 FL;
  fl_0mul : forall f, fmul FO f (fl0 FL) = fl0 FL;
  fl_mul1 : forall f, fmul FO (fl1 FL) f = f;
  fl_1mul : forall f, fmul FO f (fl1 FL) = f;
  fl_div1 : forall f, fdiv FO f (fl1 FL) = f
}.

(** Expressions without division. *)
Fixpoint no_division (e : expr F) : Prop :=
  match e with
  | ELit _ | EVar _ _ => True
  | EDiv _ _ => False
  | ENeg a | ECast _ a | EOp1 _ _ a => no_division a
  | EAdd a b | ESub a b | EMul a b | EOr a b | EAnd a b | EOp2 _ _ a b => no_division a /\ no_division b
  end.
End Eval.
Arguments no_division {F}.
Arguments VInt {F}. Arguments VFlt {F}. Arguments VBool {F}.
Arguments fadd {F}. Arguments fsub {F}. Arguments fmul {F}. Arguments fdiv {F}. Arguments fneg {F}. Arguments fofZ {F}.
Arguments eval {F}. Arguments well_typed {F}. Arguments typed_operations {F}. Arguments float_laws {F}.
Arguments has_kind {F}. Arguments value_of_lit {F}. Arguments arith2 {F}. Arguments to_f {F}. Arguments bind2 {F}.
