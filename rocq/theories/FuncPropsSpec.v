(** What declared properties of functions mean, and what the inferred iteration
    spaces, fill values and simplifications are supposed to be (for FuncProps.v). *)
From Coq Require Import List Arith Bool.
From Verif Require Import Checks ChecksSpec FuncProps.
Import ListNotations.
Local Open Scope nat_scope.

(** The operations on values. *)
Record ops (V : Type) := Ops {
  v0 : V;
  vneg : V -> V;
  vadd : V -> V -> V;
  vsub : V -> V -> V;
  vmul : V -> V -> V;
  vdiv : V -> V -> V;
  vcast : nat -> V -> V
}.
Arguments Ops {V}. Arguments v0 {V}. Arguments vneg {V}. Arguments vadd {V}. Arguments vsub {V}.
Arguments vmul {V}. Arguments vdiv {V}. Arguments vcast {V}.

Section Spec.
Context {V : Type} (V_eq : forall a b : V, {a = b} + {a <> b}) (o : ops V).
Variable fill : nat -> literal V.

(** One coordinate: for each tensor the value it stores there, if any. *)
Definition coordinate := nat -> option V.
Definition nothing : coordinate := fun _ => None.
(** A component that is not stored has the fill value of the tensor. *)
Definition value (c : coordinate) (t : nat) : V := match c t with Some v => v | None => l_val (fill t) end.

(** The value of an expression at a coordinate. *)
Fixpoint eval (c : coordinate) (e : fexpr V) : V :=
  match e with
  | FLit l => l_val l
  | FAcc t => value c t
  | FNeg a => vneg o (eval c a)
  | FAdd a b => vadd o (eval c a) (eval c b)
  | FSub a b => vsub o (eval c a) (eval c b)
  | FMul a b => vmul o (eval c a) (eval c b)
  | FDiv a b => vdiv o (eval c a) (eval c b)
  | FCast ty a => vcast o ty (eval c a)
  | FCall f p x args => f (map (eval c) args)
  end.
(** Its value where no tensor stores anything. *)
Definition background (e : fexpr V) : V := eval nothing e.

(** The coordinates the loops visit for an expression (merge_lattice.cpp 266-302:
    literals are everywhere, sums are unions, products and quotients are
    intersections, calls follow their algebra). *)
Fixpoint visited (c : coordinate) (e : fexpr V) : Prop :=
  match e with
  | FLit l => True
  | FAcc t => c t <> None
  | FNeg a | FCast _ a => visited c a
  | FAdd a b | FSub a b => visited c a \/ visited c b
  | FMul a b | FDiv a b => visited c a /\ visited c b
  | FCall f p x args =>
      inside (fun k => match nth_error (map (visited c) args) k with Some P => P | None => False end) x
  end.

(** An expression occurs in another. *)
Inductive occurs (e : fexpr V) : fexpr V -> Prop :=
| oc_here : occurs e e
| oc_neg a : occurs e a -> occurs e (FNeg a)
| oc_add_l a b : occurs e a -> occurs e (FAdd a b)
| oc_add_r a b : occurs e b -> occurs e (FAdd a b)
| oc_sub_l a b : occurs e a -> occurs e (FSub a b)
| oc_sub_r a b : occurs e b -> occurs e (FSub a b)
| oc_mul_l a b : occurs e a -> occurs e (FMul a b)
| oc_mul_r a b : occurs e b -> occurs e (FMul a b)
| oc_div_l a b : occurs e a -> occurs e (FDiv a b)
| oc_div_r a b : occurs e b -> occurs e (FDiv a b)
| oc_cast ty a : occurs e a -> occurs e (FCast ty a)
| oc_call f p x args a : In a args -> occurs e a -> occurs e (FCall f p x args).

(** A property is about the positions given, or about all of them. *)
Definition about (p : property V) (k : nat) : Prop := p_positions p = [] \/ In k (p_positions p).
(** Positions of a function with [n] arguments, each once. *)
Definition proper (p : property V) (n : nat) : Prop :=
  NoDup (p_positions p) /\ forall k, In k (p_positions p) -> k < n.

(** What it means to have an annihilator: if it is given at one of the positions,
    it is the result. *)
Definition has_annihilator (f : list V -> V) (n : nat) (p : property V) : Prop :=
  forall vs k, length vs = n -> about p k -> nth_error vs k = Some (l_val (p_value p)) -> f vs = l_val (p_value p).
(** What it means to have an identity: if it is given at all the other positions,
    an argument is the result. *)
Definition has_identity (f : list V -> V) (n : nat) (p : property V) : Prop :=
  (forall vs k v, length vs = n -> nth_error vs k = Some v ->
     (forall j w, j <> k -> nth_error vs j = Some w -> about p j /\ w = l_val (p_value p)) -> f vs = v) /\
  (forall vs, length vs = n ->
     (forall j w, nth_error vs j = Some w -> about p j /\ w = l_val (p_value p)) -> f vs = l_val (p_value p)).
Definition has_properties (f : list V -> V) (n : nat) (p : properties V) : Prop :=
  (forall a, annihilator p = Some a -> proper a n /\ has_annihilator f n a) /\
  (forall i, identity p = Some i -> proper i n /\ has_identity f n i).

(** All functions called have the properties they declare. *)
Definition truthful (e : fexpr V) : Prop :=
  forall f p x args, occurs (FCall f p x args) e -> has_properties f (length args) p.
(** The algebras are the ones the library infers. *)
Definition inferred (e : fexpr V) : Prop :=
  forall f p x args, occurs (FCall f p x args) e -> inferAlg V_eq (v0 o) fill p args = Ok (Some x).
(** Divisors are literals other than zero. *)
Definition safe_divisors (e : fexpr V) : Prop :=
  forall a b, occurs (FDiv a b) e -> exists l, b = FLit l /\ l_val l <> v0 o.
(** Factors that are not visited everywhere are zero where nothing is stored. *)
Definition zero_factors (e : fexpr V) : Prop :=
  forall a b, occurs (FMul a b) e ->
    (background a = v0 o \/ forall c, visited c a) /\ (background b = v0 o \/ forall c, visited c b).

(** The fill value the library finds for an expression. *)
Definition known_fill (e : fexpr V) (l : literal V) : Prop := inferFill V_eq (v0 o) fill e = Ok (Some (FLit l)).
(** The annihilator is the fill value of an argument it annihilates. *)
Definition annihilated (p : properties V) (args : list (fexpr V)) : Prop :=
  2 <= length args /\
  exists a k e, annihilator p = Some a /\ about a k /\ nth_error args k = Some e /\ known_fill e (p_value a).
(** The identity is the fill value of all arguments, unless positions are given. *)
Definition neutral (p : properties V) (args : list (fexpr V)) : Prop :=
  2 <= length args /\
  exists i, identity p = Some i /\ (p_positions i = [] -> forall e, In e args -> known_fill e (p_value i)).

(** Sums, differences, negations of tensors filled with zero, and their products
    and quotients with each other and with literals. *)
Inductive zero_filled : fexpr V -> Prop :=
| zf_acc t : l_val (fill t) = v0 o -> zero_filled (FAcc t)
| zf_neg a : zero_filled a -> zero_filled (FNeg a)
| zf_add a b : zero_filled a -> zero_filled b -> zero_filled (FAdd a b)
| zf_sub a b : zero_filled a -> zero_filled b -> zero_filled (FSub a b)
| zf_mul a b : zero_filled a -> zero_filled b -> zero_filled (FMul a b)
| zf_scale_l l b : zero_filled b -> zero_filled (FMul (FLit l) b)
| zf_scale_r a l : zero_filled a -> zero_filled (FMul a (FLit l))
| zf_div a b : zero_filled a -> zero_filled b -> zero_filled (FDiv a b)
| zf_div_l a l : zero_filled a -> zero_filled (FDiv a (FLit l)).
(** Arguments the library can find the fill value of. *)
Inductive plain : fexpr V -> Prop :=
| pl_lit l : plain (FLit l)
| pl_acc t : plain (FAcc t)
| pl_zero e : zero_filled e -> plain e.

(** The arithmetic the library assumes. *)
Record arithmetic : Prop := {
  neg_zero : vneg o (v0 o) = v0 o;
  zero_add : forall x, vadd o (v0 o) x = x;
  add_zero : forall x, vadd o x (v0 o) = x;
  zero_sub : forall x, vsub o (v0 o) x = vneg o x;
  sub_zero : forall x, vsub o x (v0 o) = x;
  zero_mul : forall x, vmul o (v0 o) x = v0 o;
  mul_zero : forall x, vmul o x (v0 o) = v0 o;
  zero_div : forall x, x <> v0 o -> vdiv o (v0 o) x = v0 o;
  cast_zero : forall ty, vcast o ty (v0 o) = v0 o
}.
End Spec.
