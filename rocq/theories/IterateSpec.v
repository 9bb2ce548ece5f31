(** What iterating over a tensor must give. *)
From Coq Require Import List Arith.
Import ListNotations.
From Verif Require Import Storage.

(** The stored components in the order of storage, with the coordinates listed in
    the order of the modes: mode [m] is stored by the level [l] with
    [nth l ord = m]. *)
Section Spec.
Context {V : Type}.
Definition in_mode_order (ord : list nat) (cs : list nat) (ms : list nat) : Prop :=
  length ms = length ord /\ forall l, l < length ord -> nth (nth l ord 0) ms 0 = nth l cs 0.
Definition traversal (d : V) (ord : list nat) (s : storage V) (seen : list (list nat * option V)) : Prop :=
  Forall2 (fun c x => in_mode_order ord (fst c) (fst x) /\ snd x = Some (snd c)) (components d s) seen.

(** No loop over a level makes [n] iterations. *)
Definition fewer_iterations (n : nat) (ls : list level) : Prop :=
  Forall (fun lv => match lv with LDense d => d | LComp _ crd => length crd end < n) ls.
End Spec.
