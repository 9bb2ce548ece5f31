(** Which schedules keep the iterations of a loop nest, and what that means. *)
From Coq Require Import List Arith Bool.
From Verif Require Import Schedule.
Import ListNotations.

(** The iterations of the original loops: all tuples in the product of the ranges. *)
Fixpoint iterations (B0 : bounds) (roots : list var) : list (list nat) :=
  match roots with
  | [] => [[]]
  | u :: r => flat_map (fun x => map (cons x) (iterations B0 r)) (seq (lo B0 u) (hi B0 u - lo B0 u))
  end.

(** Relations are added one by one: each replaces loops that exist by loops over
    new, distinct variables. *)
Fixpoint well_formed (L used : list var) (rels : list rel) : Prop :=
  match rels with
  | [] => True
  | r :: rest =>
      incl (parents r) L /\ NoDup (parents r) /\ NoDup (children r) /\
      (forall c, In c (children r) -> ~ In c used) /\
      well_formed (replace_loops L r) (used ++ children r) rest
  end.

(** [tol] lists the variables that may run past their range because an ancestor's
    guard will catch it: guarded variables, and those whose overrun makes such a
    variable overrun.  A relation passes this on from [p] to [c]. *)
Definition mem (v : var) (l : list var) : bool := existsb (Nat.eqb v) l.
Definition inherit (p c : var) (tol : list var) : list var := if mem p tol then c :: tol else tol.

(** The conditions on each relation, given the bounds [B]:
    - a split or divide by a factor that does not divide the range needs a guard
      behind it, and the inner variable of a split has none;
    - a divided variable starts at 0 (so it is no position variable);
    - the inner one of two fused variables starts at 0 and its range is not empty;
    - a bound is put on an underived variable and is its true bound. *)
Fixpoint exact (B : bounds) (roots tol : list var) (rels : list rel) : Prop :=
  match rels with
  | [] => True
  | Split p o i f :: rest =>
      0 < f /\ (mem p tol = true \/ (lo B p mod f = 0 /\ hi B p mod f = 0)) /\
      exact B roots (inherit p o tol) rest
  | Divide p o i f :: rest =>
      0 < f /\ lo B p = 0 /\ (mem p tol = true \/ hi B p mod f = 0) /\
      exact B roots (i :: inherit p o tol) rest
  | Fuse a b c :: rest =>
      lo B b = 0 /\ 0 < hi B b /\ exact B roots (inherit a c tol) rest
  | Bound p b n :: rest =>
      In p roots /\ n = hi B p /\ exact B roots (inherit p b tol) rest
  | Precompute p c :: rest => exact B roots (inherit p c tol) rest
  end.
