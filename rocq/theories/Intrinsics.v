(** Intrinsic functions: the arguments they are declared to be zero-preserving in,
    and the values they compute.  src/index_notation/intrinsic.cpp *)
From Coq Require Import List Arith Bool ZArith Reals Lia.
Import ListNotations.

Inductive intrinsic :=
| IMod | IAbs | IPow | ISquare | ICube | ISqrt | ICbrt | IExp | ILog | ILog10
| ISin | ICos | ITan | IAsin | IAcos | IAtan | IAtan2 | ISinh | ICosh | ITanh
| IAsinh | IAcosh | IAtanh | IGt | ILt | IGte | ILte | IEq | INeq | IMax | IMin
| IHeaviside | INot.

(** Component types up to what the code distinguishes; complex types are left out. *)
Inductive kind := KUInt | KInt | KFloat.

Section Declared.
Context {V : Type}.
(** The sign of a literal. *)
Variable sign : V -> comparison.

(** An argument as the code sees it: a literal, or not.  The two arguments of a
    binary intrinsic have the same type (asserted by [inferReturnType] for mod, pow,
    atan2, max, min and heaviside; a simplification for the comparisons). *)
Definition arg := option V.
(** [isa<Literal>(a) && to<Literal>(a).getVal() op 0] *)
Definition lit_ge0 (a : arg) := match a with Some v => match sign v with Lt => false | _ => true end | None => false end.
Definition lit_le0 (a : arg) := match a with Some v => match sign v with Gt => false | _ => true end | None => false end.
Definition lit_gt0 (a : arg) := match a with Some v => match sign v with Gt => true | _ => false end | None => false end.
Definition lit_lt0 (a : arg) := match a with Some v => match sign v with Lt => true | _ => false end | None => false end.
(** [equals(a, Literal::zero(type))] *)
Definition lit_0 (a : arg) := match a with Some v => match sign v with Eq => true | _ => false end | None => false end.

(** [zeroPreservingArgs] of each class.  [None]: the library stops
    ([taco_not_supported_yet], or a wrong number of arguments). *)
Definition zeroPreservingArgs (f : intrinsic) (k : kind) (args : list arg) : option (list (list nat)) :=
  match f, args with
  | IMod, [_; _] => Some [[0]; [1]]                     (* 57-60 *)
  | IAbs, [_] => Some [[0]]                             (* 111-114 *)
  | IPow, [_; _] => Some [[0]]                          (* 165-168 *)
  | ISquare, [_] => Some [[0]]                          (* 195-198 *)
  | ICube, [_] => Some [[0]]                            (* 225-228 *)
  | ISqrt, [_] => Some [[0]]
  | ICbrt, [_] => Some [[0]]
  | IExp, [_] => Some []
  | ILog, [_] => Some []
  | ILog10, [_] => Some []
  | ISin, [_] => Some [[0]]
  | ICos, [_] => Some []
  | ITan, [_] => Some [[0]]
  | IAsin, [_] => Some [[0]]
  | IAcos, [_] => Some []                               (* 646-649 *)
  | IAtan, [_] => Some [[0]]                            (* 689-692 *)
  | IAtan2, [_; b] =>                                   (* 732-755 *)
      match k with
      | KFloat => if lit_gt0 b then Some [[0]] else Some [[0; 1]]
      | _ => None
      end
  | ISinh, [_] => Some [[0]]
  | ICosh, [_] => Some []
  | ITanh, [_] => Some [[0]]
  | IAsinh, [_] => Some [[0]]
  | IAcosh, [_] => Some []
  | IAtanh, [_] => Some [[0]]                           (* 1006-1009 *)
  | IGt, [a; b] =>                                      (* 1031-1092 *)
      match k with
      | KUInt => Some [[0]]
      | _ => if lit_ge0 b then Some [[0]] else if lit_le0 a then Some [[1]] else Some [[0; 1]]
      end
  | ILt, [a; b] =>                                      (* 1114-1175 *)
      match k with
      | KUInt => Some [[1]]
      | _ => if lit_ge0 a then Some [[1]] else if lit_le0 b then Some [[0]] else Some [[0; 1]]
      end
  | IGte, [a; b] =>                                     (* 1197-1273 *)
      match k with
      | KUInt => if lit_gt0 b then Some [[0]] else Some []
      | _ => if lit_gt0 b then Some [[0]] else if lit_lt0 a then Some [[1]] else Some []
      end
  | ILte, [a; b] =>                                     (* 1295-1371 *)
      match k with
      | KUInt => if lit_gt0 a then Some [[1]] else Some []
      | _ => if lit_gt0 a then Some [[1]] else if lit_lt0 b then Some [[0]] else Some []
      end
  | IEq, [_; _] => Some []                              (* 1393-1396 *)
  | INeq, [a; b] | IMax, [a; b] | IMin, [a; b] =>       (* 1418-1427, 1459-1470, 1501-1512 *)
      if lit_0 a then Some [[1]] else if lit_0 b then Some [[0]] else Some [[0; 1]]
  | IHeaviside, [_; b] =>                               (* 1543-1552 *)
      if lit_0 b then Some [[0]] else Some []
  | INot, [_] => Some []                                (* 1578-1581 *)
  | _, _ => None
  end.

(** [std::includes] on the two increasing sequences, and the test of the [Zero]
    rewriter (src/index_notation/index_notation.cpp:3978-3986): whether the call
    becomes undefined, i.e. is dropped as zero.  [zeroArgs] are the positions whose
    rewritten argument was undefined; those arguments are replaced by literal
    zeros before [zeroPreservingArgs] is asked. *)
Definition includes (big small : list nat) : bool := forallb (fun x => existsb (Nat.eqb x) big) small.
Definition zero_call (zeroV : V) (f : intrinsic) (k : kind) (args : list (option arg)) : option bool :=
  let zeroArgs := map fst (filter (fun p => match snd p with None => true | Some _ => false end) (combine (seq 0 (length args)) args)) in
  let args' := map (fun a => match a with None => Some zeroV | Some a => a end) args in
  match zeroPreservingArgs f k args' with
  | None => None
  | Some sets => Some (existsb (includes zeroArgs) sets)
  end.
End Declared.

(** ** Values *)

(** Integer types; [None]: not supported for integers, or undefined behaviour.
    The values are unbounded integers ([KUInt]: non-negative ones); comparisons give
    0 or 1. *)
Definition b2z (b : bool) : Z := if b then 1%Z else 0%Z.
Definition int_value (f : intrinsic) (k : kind) (args : list Z) : option Z :=
  match f, args with
  | IMod, [a; b] => if (b =? 0)%Z then None else Some (Z.rem a b)      (* 25-55: C's % *)
  | IAbs, [a] => match k with KUInt => Some a | _ => Some (Z.abs a) end (* 74-109 *)
  | ISquare, [a] => Some (a * a)%Z                                      (* 182-193 *)
  | ICube, [a] => Some (a * a * a)%Z                                    (* 212-223 *)
  | IGt, [a; b] => Some (b2z (b <? a)%Z)                                (* 1022-1029 *)
  | ILt, [a; b] => Some (b2z (a <? b)%Z)
  | IGte, [a; b] => Some (b2z (b <=? a)%Z)
  | ILte, [a; b] => Some (b2z (a <=? b)%Z)
  | IEq, [a; b] => Some (b2z (a =? b)%Z)
  | INeq, [a; b] => Some (b2z (negb (a =? b)%Z))
  | IMax, [a; b] => Some (Z.max a b)
  | IMin, [a; b] => Some (Z.min a b)
  | IHeaviside, [a; b] => Some (b * b2z (a =? 0) + b2z (0 <? a))%Z      (* 1526-1541 *)
  | INot, [a] => Some (b2z (a =? 0)%Z)
  | _, _ => None
  end.

Section RealValues.
Local Open Scope R_scope.
(** Floating-point types as exact real numbers; [None] is NaN, an infinity or an
    unsupported function. *)
Definition Rtruncate (x : R) : R := if Rle_dec 0 x then IZR (Int_part x) else - IZR (Int_part (- x)).
Definition b2r (b : bool) : R := if b then 1 else 0.
Definition rlt (a b : R) : bool := if Rlt_dec a b then true else false.
Definition req (a b : R) : bool := if Req_EM_T a b then true else false.
(** C's pow, for a base that is not negative. *)
Definition cpow (a b : R) : option R :=
  if req b 0 then Some 1
  else if rlt 0 a then Some (Rpower a b)
  else if req a 0 then (if rlt 0 b then Some 0 else None)
  else None.
Definition ccbrt (x : R) : R := if rlt 0 x then Rpower x (/ 3) else if rlt x 0 then - Rpower (- x) (/ 3) else 0.
(** C's atan2(y, x). *)
Definition catan2 (y x : R) : R :=
  if rlt 0 x then atan (y / x)
  else if rlt x 0 then (if rlt y 0 then atan (y / x) - PI else atan (y / x) + PI)
  else if rlt 0 y then PI / 2 else if rlt y 0 then - (PI / 2) else 0.

Definition real_value (f : intrinsic) (args : list R) : option R :=
  match f, args with
  | IMod, [a; b] => if req b 0 then None else Some (a - Rtruncate (a / b) * b)    (* fmod *)
  | IAbs, [a] => Some (Rabs a)
  | IPow, [a; b] => cpow a b                                                      (* 129-163 *)
  | ISquare, [a] => Some (a * a)
  | ICube, [a] => Some (a * a * a)
  | ISqrt, [a] => if rlt a 0 then None else Some (sqrt a)
  | ICbrt, [a] => Some (ccbrt a)
  | IExp, [a] => Some (exp a)
  | ILog, [a] => if rlt 0 a then Some (ln a) else None
  | ILog10, [a] => if rlt 0 a then Some (ln a / ln 10) else None
  | ISin, [a] => Some (sin a)
  | ICos, [a] => Some (cos a)
  | ITan, [a] => if req (cos a) 0 then None else Some (tan a)
  | IAsin, [a] => if rlt 1 (Rabs a) then None else Some (asin a)
  | IAcos, [a] => if rlt 1 (Rabs a) then None else Some (acos a)
  | IAtan, [a] => Some (atan a)
  | IAtan2, [a; b] => Some (catan2 a b)
  | ISinh, [a] => Some (sinh a)
  | ICosh, [a] => Some (cosh a)
  | ITanh, [a] => Some (tanh a)
  | IAsinh, [a] => Some (ln (a + sqrt (a * a + 1)))
  | IAcosh, [a] => if rlt a 1 then None else Some (ln (a + sqrt (a * a - 1)))
  | IAtanh, [a] => if rlt (Rabs a) 1 then Some (ln ((1 + a) / (1 - a)) / 2) else None
  | IGt, [a; b] => Some (b2r (rlt b a))
  | ILt, [a; b] => Some (b2r (rlt a b))
  | IGte, [a; b] => Some (b2r (negb (rlt a b)))
  | ILte, [a; b] => Some (b2r (negb (rlt b a)))
  | IEq, [a; b] => Some (b2r (req a b))
  | INeq, [a; b] => Some (b2r (negb (req a b)))
  | IMax, [a; b] => Some (Rmax a b)
  | IMin, [a; b] => Some (Rmin a b)
  | IHeaviside, [a; b] => Some (b * b2r (req a 0) + b2r (rlt 0 a))
  | INot, [a] => Some (b2r (req a 0))
  | _, _ => None
  end.
Definition Rsign (x : R) : comparison := if rlt x 0 then Lt else if rlt 0 x then Gt else Eq.
End RealValues.
Definition Zsign (z : Z) : comparison := (z ?= 0)%Z.

(** Intrinsics that exist for integer types. *)
Definition for_integers (f : intrinsic) : bool :=
  match f with
  | IMod | IAbs | ISquare | ICube | IGt | ILt | IGte | ILte | IEq | INeq | IMax | IMin | IHeaviside | INot => true
  | _ => false
  end.
