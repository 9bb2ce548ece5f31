(** Calls of intrinsic functions in loops: which coordinates a loop over the
    operands of an expression with calls visits, and what is left of the calls at
    a coordinate where some operands are absent.

    /repo/src/lower/merge_lattice.cpp 311-360 (the lattice of a call) and
    /repo/src/index_notation/index_notation.cpp 3962-3993 (zeroing a call). *)
From Coq Require Import List Arith Bool.
Import ListNotations.
From Verif Require Import Storage IndexExpr Lattice.

(** index_notation_nodes.h: expressions with calls (CallIntrinsicNode).  [F] are
    the functions.  Sqrt and cast nodes are as a call in which the only argument is
    zero preserving. *)
Inductive cexpr (F V : Type) : Type :=
| CLit (v : V)
| CAcc (a : access)
| CNeg (e : cexpr F V)
| CAdd (e1 e2 : cexpr F V)
| CSub (e1 e2 : cexpr F V)
| CMul (e1 e2 : cexpr F V)
| CCall (f : F) (args : list (cexpr F V)).
Arguments CLit {F V}. Arguments CAcc {F V}. Arguments CNeg {F V}. Arguments CAdd {F V}.
Arguments CSub {F V}. Arguments CMul {F V}. Arguments CCall {F V}.

(** [isa<Literal>(e)]: the literal, or not a literal. *)
Definition literal {F V} (e : cexpr F V) : option V :=
  match e with CLit v => Some v | _ => None end.

Section Calls.
Context {F V : Type}.
(** [Literal::zero]; one type of components is modelled. *)
Variable zeroV : V.
(** [zeroPreservingArgs] of a function (intrinsic.cpp, modelled in Intrinsics.v):
    sets of argument positions, which depend on the literals among the arguments. *)
Variable declared : F -> list (option V) -> list (list nat).

(** [util::contains] on a set of positions. *)
Definition among (k : nat) (l : list nat) : bool := existsb (Nat.eqb k) l.

(** The positions of the undefined arguments: index_notation.cpp 3964-3977. *)
Fixpoint undefined_from {A} (n : nat) (l : list (option A)) : list nat :=
  match l with
  | [] => []
  | None :: t => n :: undefined_from (S n) t
  | Some _ :: t => undefined_from (S n) t
  end.

(** [std::includes] on sorted sequences: 3981-3983. *)
Definition includes (big small : list nat) : bool := forallb (fun k => among k big) small.

(** index_notation.cpp 3772-3993, Zero: the rewrite with the accesses in [z]
    replaced by zero; [None] is the undefined expression.  The nodes shared with
    Zero on other expressions are as in IndexExpr.v; the call is 3962-3993. *)
Fixpoint czero (z : access -> bool) (e : cexpr F V) : option (cexpr F V) :=
  match e with
  | CLit v => Some (CLit v)
  | CAcc a => if z a then None else Some (CAcc a)
  | CNeg e => option_map CNeg (czero z e)
  | CAdd e1 e2 =>
      match czero z e1, czero z e2 with
      | Some a, Some b => Some (CAdd a b)
      | Some a, None => Some a
      | None, Some b => Some b
      | None, None => None
      end
  | CSub e1 e2 =>
      match czero z e1, czero z e2 with
      | Some a, Some b => Some (CSub a b)
      | Some a, None => Some a
      | None, Some b => Some (CNeg b)
      | None, None => None
      end
  | CMul e1 e2 =>
      match czero z e1, czero z e2 with
      | Some a, Some b => Some (CMul a b)
      | _, _ => None
      end
  | CCall f args =>
      let rewritten := map (czero z) args in
      let args' := map (fun o => match o with Some a => a | None => CLit zeroV end) rewritten in
      if existsb (includes (undefined_from 0 rewritten)) (declared f (map literal args'))
      then None
      else Some (CCall f args')
  end.

Section WithSort.
(** std::sort on merge points, as in Lattice.v. *)
Variable srt : list point -> list point.

(** merge_lattice.cpp 340-346: the arguments that no set mentions are merged with
    all coordinates. *)
Definition otherArgs (mentioned : list nat) (args : list (list point)) : list point :=
  fold_left (fun l k => if among k mentioned then l
                        else unionLattices srt l (nth k args []))
            (seq 0 (length args)) modeIterationLattice.

(** merge_lattice.cpp 349-354: the union of the arguments of one set. *)
Definition unionArgs (args : list (list point)) (S : list nat) : list point :=
  fold_left (fun l k => unionLattices srt l (nth k args [])) S [].

(** merge_lattice.cpp 328-360, visit(CallIntrinsicNode). *)
Definition callLattice (sets : list (list nat)) (args : list (list point)) : list point :=
  fold_left (fun l S => intersectLattices srt l (unionArgs args S))
            sets (otherArgs (concat sets) args).

(** merge_lattice.cpp 260-360: the builder on expressions with calls. *)
Fixpoint cbuild (i : ivar) (e : cexpr F V) : list point :=
  match e with
  | CLit _ => modeIterationLattice
  | CAcc a => accessLattice i a
  | CNeg e => cbuild i e
  | CAdd e1 e2 => unionNode srt (cbuild i e1) (cbuild i e2)
  | CSub e1 e2 => unionNode srt (cbuild i e1) (cbuild i e2)
  | CMul e1 e2 => intersectNode srt (cbuild i e1) (cbuild i e2)
  | CCall f args => callLattice (declared f (map literal args)) (map (cbuild i) args)
  end.

(** merge_lattice.cpp 1003-1027, MergeLattice::make. *)
Definition cmake (i : ivar) (e : cexpr F V) : list point := getLoopLattice (cbuild i e).
End WithSort.
End Calls.
