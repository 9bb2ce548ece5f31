(** Component types (/repo/src/type.cpp) and dynamically typed indices
    (/repo/src/storage/typed_index.cpp). *)
From Coq Require Import List ZArith Lia Bool.
Import ListNotations.
Local Open Scope Z_scope.

(** ** Component types: /repo/include/taco/type.h 18-35 *)
Inductive dtype :=
| TBool | TUInt8 | TUInt16 | TUInt32 | TUInt64 | TUInt128
| TInt8 | TInt16 | TInt32 | TInt64 | TInt128
| TFloat32 | TFloat64 | TComplex64 | TComplex128 | TUndefined.

Definition dtype_eq_dec : forall x y : dtype, {x = y} + {x <> y}.
Proof. decide equality. Defined.
Definition teq (x y : dtype) : bool := if dtype_eq_dec x y then true else false.

(** type.cpp 31-47. *)
Definition isUInt (t : dtype) : bool :=
  match t with TUInt8 | TUInt16 | TUInt32 | TUInt64 | TUInt128 => true | _ => false end.
Definition isInt (t : dtype) : bool :=
  match t with TInt8 | TInt16 | TInt32 | TInt64 | TInt128 => true | _ => false end.
Definition isFloat (t : dtype) : bool := match t with TFloat32 | TFloat64 => true | _ => false end.
Definition isComplex (t : dtype) : bool := match t with TComplex64 | TComplex128 => true | _ => false end.

(** type.cpp 84-112, getNumBits; sizeof(bool) is 1.  [None]: internal error. *)
Definition getNumBits (t : dtype) : option Z :=
  match t with
  | TBool => Some 1
  | TUInt8 | TInt8 => Some 8
  | TUInt16 | TInt16 => Some 16
  | TUInt32 | TInt32 | TFloat32 => Some 32
  | TUInt64 | TInt64 | TFloat64 | TComplex64 => Some 64
  | TComplex128 | TInt128 | TUInt128 => Some 128
  | TUndefined => None
  end.

(** type.cpp 153-165 and 173-185, the functions UInt and Int. *)
Definition mkUInt (bits : Z) : option dtype :=
  if bits =? 8 then Some TUInt8 else if bits =? 16 then Some TUInt16 else
  if bits =? 32 then Some TUInt32 else if bits =? 64 then Some TUInt64 else
  if bits =? 128 then Some TUInt128 else None.
Definition mkInt (bits : Z) : option dtype :=
  if bits =? 8 then Some TInt8 else if bits =? 16 then Some TInt16 else
  if bits =? 32 then Some TInt32 else if bits =? 64 then Some TInt64 else
  if bits =? 128 then Some TInt128 else None.

(** type.cpp 167-171 and 187-191: the global type constants (as defined there). *)
Definition global_UInt128 : dtype := TInt128.
Definition global_Int128 : dtype := TUInt128.

(** type.cpp 49-79, max_type.  [None]: internal error. *)
Definition max_type (a b : dtype) : option dtype :=
  if teq a b then Some a
  else if isComplex a || isComplex b then
    if teq a TComplex128 || teq b TComplex128 || teq a TFloat64 || teq b TFloat64
    then Some TComplex128 else Some TComplex64
  else if isFloat a || isFloat b then
    if teq a TFloat64 || teq b TFloat64 then Some TFloat64 else Some TFloat32
  else
    match getNumBits a, getNumBits b with
    | Some x, Some y =>
        let m := if x >? y then x else y in
        if isInt a || isInt b then mkInt m else mkUInt m
    | _, _ => None
    end.

(** ** Dimensions and shapes: type.cpp 216-322 *)
(** A dimension: a fixed size, index-variable sized, or variable. *)
Inductive dimension := DFixed (size : nat) | DIndexVar (v : nat) | DVariable.
(** operator==, 266-270. *)
Definition isFixed (d : dimension) : bool := match d with DFixed n => Nat.ltb 0 n | _ => false end.
Definition getSize (d : dimension) : nat := match d with DFixed n => n | _ => 0%nat end.
Definition dim_eq (a b : dimension) : bool :=
  if negb (Bool.eqb (isFixed a) (isFixed b)) then false
  else if isFixed a && isFixed b && negb (Nat.eqb (getSize a) (getSize b)) then false else true.
(** Shape operator==, 309-322. *)
Definition shape_eq (a b : list dimension) : bool :=
  Nat.eqb (length a) (length b) && forallb (fun p => dim_eq (fst p) (snd p)) (combine a b).

(** ** Typed indices *)
(** The integer types an index array may have (typed_index.cpp: every other
    kind is an internal error). *)
Inductive itype := U8 | U16 | U32 | U64 | I8 | I16 | I32 | I64.
Definition nbytes (t : itype) : nat :=
  match t with U8 | I8 => 1 | U16 | I16 => 2 | U32 | I32 => 4 | U64 | I64 => 8 end%nat.
Definition bits (t : itype) : Z := 8 * Z.of_nat (nbytes t).
Definition signed (t : itype) : bool := match t with I8 | I16 | I32 | I64 => true | _ => false end.
(** Conversion to an integer type (two's complement). *)
Definition wrap (t : itype) (z : Z) : Z :=
  let m := z mod 2 ^ bits t in
  if signed t && (2 ^ (bits t - 1) <=? m) then m - 2 ^ bits t else m.
Definition in_range (t : itype) (z : Z) : Prop :=
  if signed t then - 2 ^ (bits t - 1) <= z < 2 ^ (bits t - 1) else 0 <= z < 2 ^ bits t.
Definition in_rangeb (t : itype) (z : Z) : bool :=
  if signed t then (- 2 ^ (bits t - 1) <=? z) && (z <? 2 ^ (bits t - 1)) else (0 <=? z) && (z <? 2 ^ bits t).

(** Little-endian bytes. *)
Fixpoint bytes_of (n : nat) (z : Z) : list Z :=
  match n with O => [] | S n => z mod 256 :: bytes_of n (z / 256) end.
Fixpoint of_bytes (l : list Z) : Z :=
  match l with [] => 0 | b :: l => b + 256 * of_bytes l end.

(** Writing and reading the member of type [t] of an IndexTypeUnion
    (typed_value.h: a union of the integer types, 8 bytes). *)
Definition set_member (t : itype) (u : list Z) (z : Z) : list Z :=
  bytes_of (nbytes t) z ++ skipn (nbytes t) u.
Definition member (t : itype) (u : list Z) : Z := wrap t (of_bytes (firstn (nbytes t) u)).

(** TypedIndex::getAsIndex 13-33: conversion to size_t. *)
Definition size_t (z : Z) : Z := z mod 2 ^ 64.

(** Memory: one allocation, a list of bytes; an access outside is undefined. *)
Definition load (m : list Z) (p n : nat) : option (list Z) :=
  if Nat.leb (p + n) (length m) then Some (firstn n (skipn p m)) else None.
Definition store (m : list Z) (p : nat) (bs : list Z) : option (list Z) :=
  if Nat.leb (p + length bs) (length m) then Some (firstn p m ++ bs ++ skipn (p + length bs) m) else None.

(** TypedIndexRef: 343-390; the reference is a type and an address. *)
(** getAsIndex: only the member is read. *)
Definition ref_value (m : list Z) (t : itype) (p : nat) : option Z :=
  option_map (member t) (load m p (nbytes t)).
Definition ref_getAsIndex (m : list Z) (t : itype) (p : nat) : option Z := option_map size_t (ref_value m t p).
(** operator=(int), 379-382, and operator=(TypedIndexVal), 369-372. *)
Definition ref_assign_int (m : list Z) (t : itype) (p : nat) (c : Z) : option (list Z) :=
  store m p (bytes_of (nbytes t) c).
Definition ref_assign (m : list Z) (t : itype) (p : nat) (u : list Z) : option (list Z) :=
  store m p (bytes_of (nbytes t) (member t u)).
(** TypedIndexVal(TypedIndexRef), 175-177: copies the whole union. *)
Definition val_of_ref (m : list Z) (p : nat) : option (list Z) := load m p 8.

(** Element [i] of an Array: /repo/src/storage/array.cpp 118-120. *)
Definition elem (t : itype) (i : nat) : nat := (nbytes t * i)%nat.

(** C++ arithmetic: the usual arithmetic conversions; overflow of a signed
    type is undefined ([None]). *)
Definition promoted (t : itype) : itype :=
  match t with U8 | U16 | I8 | I16 | I32 => I32 | U32 => U32 | U64 => U64 | I64 => I64 end.
Definition arith (f : Z -> Z -> Z) (t : itype) (a b : Z) : option Z :=
  let pt := promoted t in
  let r := f (wrap pt a) (wrap pt b) in
  if signed pt then if in_rangeb pt r then Some (wrap t r) else None else Some (wrap t r).
(** TypedIndex::add, addInt, multiply, multiplyInt, 79-161: [a] and [b] are the
    members (or the int constant). *)
Definition ti_add (t : itype) (u1 u2 : list Z) : option Z := arith Z.add t (member t u1) (member t u2).
Definition ti_addInt (t : itype) (u : list Z) (c : Z) : option Z := arith Z.add t (member t u) c.
Definition ti_mul (t : itype) (u1 u2 : list Z) : option Z := arith Z.mul t (member t u1) (member t u2).
Definition ti_mulInt (t : itype) (u : list Z) (c : Z) : option Z := arith Z.mul t (member t u) c.

(** Comparison of two values of one type, 424-486. *)
Definition ti_gt (t : itype) (u1 u2 : list Z) : bool := member t u1 >? member t u2.
Definition ti_eq (t : itype) (u1 u2 : list Z) : bool := member t u1 =? member t u2.
Definition ti_ge (t : itype) (u1 u2 : list Z) : bool := ti_gt t u1 u2 || ti_eq t u1 u2.
Definition ti_lt (t : itype) (u1 u2 : list Z) : bool := negb (ti_ge t u1 u2).
Definition ti_le (t : itype) (u1 u2 : list Z) : bool := negb (ti_gt t u1 u2).
Definition ti_ne (t : itype) (u1 u2 : list Z) : bool := negb (ti_eq t u1 u2).

(** Comparison with an int, 488-550: unsigned members are cast to [signed]. *)
Definition as_signed (t : itype) (z : Z) : Z := if signed t then z else wrap I32 z.
Definition ti_gtI (t : itype) (u : list Z) (c : Z) : bool := as_signed t (member t u) >? c.
Definition ti_eqI (t : itype) (u : list Z) (c : Z) : bool := as_signed t (member t u) =? c.
Definition ti_geI (t : itype) (u : list Z) (c : Z) : bool := ti_gtI t u c || ti_eqI t u c.
Definition ti_ltI (t : itype) (u : list Z) (c : Z) : bool := negb (ti_geI t u c).
Definition ti_leI (t : itype) (u : list Z) (c : Z) : bool := negb (ti_gtI t u c).

(** operator++() 258-262 and operator++(int) 264-267 on TypedIndexVal: the new
    union and the returned value. *)
Definition ti_preinc (t : itype) (u : list Z) : option (list Z * Z) :=
  match ti_addInt t u 1 with Some z => Some (set_member t u z, member t u) | None => None end.
Definition ti_postinc (t : itype) (u : list Z) : option (list Z * Z) :=
  match ti_addInt t u 1 with Some z => Some (set_member t u z, z) | None => None end.
