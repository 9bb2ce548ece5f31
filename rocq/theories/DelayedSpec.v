(** What a history of insertions, assignments and reads must give, and the
    conditions on it. *)
From Coq Require Import List Arith.
Import ListNotations.
From Verif Require Import DelayedEval.

Section Spec.
Context {D C : Type}.
Variable empty : D.
Variable add_component : C -> D -> D.
(** The value of an index expression for the values of its operands. *)
Variable result : nat -> list D -> D.
Notation op := (@op C).

(** Every operation performed when it is called. *)
Definition values := nat -> D.
Definition eager (o : op) (v : values) : values :=
  match o with
  | Insert t x => fun u => if Nat.eqb u t then add_component x (v t) else v u
  | Assign _ t a => fun u => if Nat.eqb u t then result (a_expr a) (map v (a_ops a)) else v u
  | _ => v
  end.
Fixpoint eager_reads (ops : list op) (v : values) : list D :=
  match ops with
  | [] => []
  | Read t :: ops => v t :: eager_reads ops v
  | o :: ops => eager_reads ops (eager o v)
  end.

Definition is_insert (t : nat) (o : op) : Prop := exists x, o = Insert t x.
Definition is_assign (t : nat) (o : op) : Prop := exists b a, o = Assign b t a.
Definition is_read (t : nat) (o : op) : Prop := o = Read t.

(** Between an [X] and a later [Y] there is a [Q]. *)
Definition separated (X Y Q : op -> Prop) (ops : list op) : Prop :=
  forall a x b y c, ops = a ++ x :: b ++ y :: c -> X x -> Y y -> exists q, In q b /\ Q q.

(** Insertions into a tensor and assignments to it are not mixed. *)
Definition unmixed (ops : list op) : Prop := forall t,
  separated (is_insert t) (is_assign t) (is_read t) ops /\
  separated (is_assign t) (is_insert t) (fun q => is_read t q \/ q = Compute t) ops.
(** A tensor that is assigned and later inserted into was read before it was
    assigned. *)
Definition read_first (ops : list op) : Prop := forall t a x b y c,
  ops = a ++ x :: b ++ y :: c -> is_assign t x -> is_insert t y -> exists q, In q a /\ is_read t q.
(** compile, assemble and compute are called in this order after an assignment. *)
Definition in_order (ops : list op) : Prop := forall t,
  (forall a c, ops = a ++ Compile t :: c -> exists x, In x a /\ is_assign t x) /\
  separated (is_assign t) (eq (Assemble t)) (fun q => is_read t q \/ q = Compile t) ops /\
  separated (is_assign t) (eq (Compute t)) (fun q => is_read t q \/ q = Assemble t) ops.
(** No tensor is assigned an expression of itself, and none is destroyed. *)
Definition not_recursive (ops : list op) : Prop := forall b t a, In (Assign b t a) ops -> ~ In t (a_ops a).
Definition none_destroyed (ops : list op) : Prop := forall t, ~ In (Destroy t) ops.
End Spec.
