(** Specification for consumers of temporary vectors. *)
From Coq Require Import List Arith.
Import ListNotations.
From Verif Require Import IndexExpr Eval Notation NotationSpec WorkspaceSpec Accel.
Local Open Scope nat_scope.

(** The format of the level that stores mode [m]. *)
Definition stored_in (f : fmt) (m : nat) (lv : level) : Prop :=
  exists l, nth_error (f_ordering f) l = Some m /\ nth_error (f_levels f) l = Some lv.
(** The mode ordering is its own inverse (row-major, column-major, any swap). *)
Definition self_inverse (ord : list nat) : Prop :=
  forall l m, nth_error ord l = Some m -> nth_error ord m = Some l.

Section Spec.
Context {V : Type}.
Variable R : ring_ops V.
(** The temporary after the producer: at each position what was stored there,
    zero where nothing was. *)
Definition temporary (op : option redop) (us : list (nat * V)) (i : nat) : V :=
  match values_at us i with [] => r0 R | vs => total R op vs end.
(** The component at a coordinate of a sparse level: zero if it is not stored. *)
Definition component (l : list (nat * V)) (i : nat) : V :=
  match find (fun iv => fst iv =? i) l with Some iv => snd iv | None => r0 R end.
(** [g 0 + ... + g (n - 1)] *)
Definition sum_to (n : nat) (g : nat -> V) : V := fold_right (fun i s => radd R (g i) s) (r0 R) (seq 0 n).
(** An assignment or a compound assignment of [v] to a component that is [x]. *)
Definition assigned (op : option redop) (x v : V) : V :=
  match op with None => v | Some RSum => radd R x v | Some RProd => rmul R x v end.
(** The part of thread [t]. *)
Definition part {A} (size t : nat) (a : list A) : list A := firstn size (skipn (size * t) a).
End Spec.
