(** Specification for workspaces with an index list. *)
From Coq Require Import List Arith Lia Bool Permutation Sorted.
Import ListNotations.
From Verif Require Import IndexExpr Eval Notation NotationSpec.
Local Open Scope nat_scope.

Section Spec.
Context {V : Type}.
Variable R : ring_ops V.
(** The values stored at one position, in order. *)
Definition values_at (us : list (nat * V)) (i : nat) : list V :=
  map snd (filter (fun u => Nat.eqb (fst u) i) us).
(** What they amount to: the sum, the product, or the last one. *)
Definition total (op : option redop) (vs : list V) : V :=
  match op with
  | Some RSum => fold_right (radd R) (r0 R) vs
  | Some RProd => fold_right (rmul R) (r1 R) vs
  | None => last vs (r0 R)
  end.
(** A sorting function. *)
Definition sorts (f : list nat -> list nat) : Prop := forall l, Permutation (f l) l /\ StronglySorted le (f l).
(** What the consumer must see after the updates [us]: every touched position
    once, with the total of its values, in increasing order if sorted. *)
Definition correct (comp sorted : bool) (op : option redop) (us : list (nat * V)) (out : list (nat * option V)) : Prop :=
  NoDup (map fst out) /\
  (forall i, In i (map fst out) <-> In i (map fst us)) /\
  (forall i v, In (i, v) out -> v = if comp then Some (total op (values_at us i)) else None) /\
  (sorted = true -> StronglySorted lt (map fst out)).
End Spec.
