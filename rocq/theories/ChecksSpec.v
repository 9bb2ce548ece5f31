(** What the checks of Checks.v are supposed to establish, stated without
    reference to how they do it. *)
From Coq Require Import List Arith Bool ZArith Lia.
From Verif Require Import Types Checks.
Import ListNotations.
Local Open Scope nat_scope.

(** [l] can be obtained from [order] by leaving elements out. *)
Inductive subsequence {A} : list A -> list A -> Prop :=
| sub_nil order : subsequence [] order
| sub_take x l order : subsequence l order -> subsequence (x :: l) (x :: order)
| sub_skip x l order : subsequence l order -> subsequence l (x :: order).

(** The order in which an access stores its variables: the variable of each level. *)
Definition storage_order (a : list ivar * list nat) : list ivar :=
  map (fun m => nth m (fst a) 0) (snd a).

(** A loop order (each variable once) in which every access's variables are met in
    the order in which its levels are stored. *)
Definition compatible (order : list ivar) (accs : list (list ivar * list nat)) : Prop :=
  NoDup order /\ forall a, In a accs -> subsequence (storage_order a) order.

(** An access as the library makes them: as many levels as variables, each level a
    mode of the tensor. *)
Definition proper_access (a : list ivar * list nat) : Prop :=
  length (fst a) = length (snd a) /\ forall m, In m (snd a) -> m < length (fst a).

(** The extent a dimension prescribes: a size, or none if it is dynamic. *)
Definition extent (d : dimension) : option nat := if isFixed d then Some (getSize d) else None.

(** The coordinates of a mode of size [d] that a use of it ranges over. *)
Definition used_coordinates (d : nat) (m : modifier) : list nat :=
  match m with
  | MNone => seq 0 d
  | MWindow lo hi stride => filter (fun c => (lo <=? c) && (c <? hi) && ((c - lo) mod stride =? 0)) (seq 0 d)
  | MIndexSet l => l
  end.

(** Membership of a point in the space an algebra term describes, given which
    regions contain it. *)
Fixpoint inside {R} (m : R -> Prop) (a : alg R) : Prop :=
  match a with
  | Region r => m r
  | Complement x => ~ inside m x
  | Intersect x y => inside m x /\ inside m y
  | Union x y => inside m x \/ inside m y
  end.
(** Complements are applied to regions only. *)
Fixpoint complements_at_regions {R} (a : alg R) : Prop :=
  match a with
  | Region _ => True
  | Complement x => match x with Region _ => True | _ => False end
  | Intersect x y | Union x y => complements_at_regions x /\ complements_at_regions y
  end.
(** The regions of a term from left to right. *)
Fixpoint regions {R} (a : alg R) : list R :=
  match a with
  | Region r => [r]
  | Complement x => regions x
  | Intersect x y | Union x y => regions x ++ regions y
  end.

(** Strict total order up to an equality, as ordered containers require. *)
Record strict_order {A} (dom : A -> Prop) (eq lt : A -> A -> bool) : Prop := {
  so_irrefl : forall a, dom a -> lt a a = false;
  so_trans : forall a b c, dom a -> dom b -> dom c -> lt a b = true -> lt b c = true -> lt a c = true;
  so_total : forall a b, dom a -> dom b -> lt a b = false -> lt b a = false -> eq a b = true;
  so_equal : forall a b, dom a -> dom b -> eq a b = true -> lt a b = false
}.
