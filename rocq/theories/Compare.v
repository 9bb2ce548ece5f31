(** The comparator with which coordinates are sorted before packing. *)
From Coq Require Import List ZArith Lia Bool.
Import ListNotations.
Local Open Scope Z_scope.

(** int is 32 bits wide.  A difference outside its range is undefined in C; here
    it wraps around, as it does on the machines taco runs on. *)
Definition int32 (z : Z) : Prop := - 2 ^ 31 <= z < 2 ^ 31.
Definition wrap32 (z : Z) : Z := (z + 2 ^ 31) mod 2 ^ 32 - 2 ^ 31.

(** /repo/src/tensor.cpp 251-260, lexicographicalCmp; numIntegersToCompare is the
    length of the tuples. *)
Fixpoint lexicographicalCmp (a b : list Z) : Z :=
  match a, b with
  | x :: a, y :: b =>
      let diff := wrap32 (x - y) in
      if negb (diff =? 0) then diff else lexicographicalCmp a b
  | _, _ => 0
  end.
