(** Which dimensions the tensors of a parsed assignment should have. *)
From Coq Require Import List ZArith.
From Verif Require Import Parser DimInfer.
Import ListNotations.
Local Open Scope nat_scope.

Section Spec.
Variable g : given.
(** The dimensions that were given for a tensor: those of the loaded one, or of the option. *)
Definition given_dims (n : text) : option (list Z) :=
  match find n (loaded g) with Some t => Some (t_dims t) | None => find n (tensorDimensions g) end.
(** The dimension that was given for an index variable. *)
Definition given_var (v : text) (d : Z) : Prop := exists r, find v (tensorDimensions g) = Some (d :: r).
Variable a : assignment.
(** The accesses of the assignment. *)
Definition accesses : list (text * list text) := (lhs_name a, lhs_vars a) :: operands (rhs a).
Definition used (v : text) : Prop := exists n vs, In (n, vs) accesses /\ In v vs.
(** What is known of a variable: its own dimension, or that of a mode of an operand. *)
Inductive known (v : text) (d : Z) : Prop :=
| K_var : used v -> given_var v d -> known v d
| K_mode : forall n vs ds m, In (n, vs) (operands (rhs a)) -> given_dims n = Some ds ->
    nth_error vs m = Some v -> nth_error ds m = Some d -> known v d.
Definition consistent : Prop := forall v d d', known v d -> known v d' -> d = d'.
(** The dimension of a variable is the known one, or the default. *)
Definition extent (ext : text -> Z) : Prop :=
  forall v, used v -> known v (ext v) \/ (ext v = defaultDimension g /\ forall d, ~ known v d).

(** Conditions on what is given: no empty lists, and orders agree. *)
Definition proper : Prop :=
  (forall v, used v -> find v (tensorDimensions g) <> Some []) /\
  (forall n vs ds, In (n, vs) accesses -> given_dims n = Some ds -> length ds = length vs).
(** A tensor whose dimensions are not given is always indexed by the same variables. *)
Definition one_way : Prop :=
  forall n vs vs', given_dims n = None -> In (n, vs) accesses -> In (n, vs') accesses -> vs = vs'.
(** The dimensions of the result are not given, or are what is known of its variables. *)
Definition result_agrees : Prop :=
  forall ds m v d, given_dims (lhs_name a) = Some ds -> nth_error (lhs_vars a) m = Some v -> nth_error ds m = Some d -> known v d.
End Spec.

(** The name and the variables of an access. *)
Definition shape_of (x : access) : text * list text := (a_name x, a_vars x).
(** The access indexes a mode of dimension [d] with [v]. *)
Definition indexed (x : access) (v : text) (d : Z) : Prop :=
  exists k, nth_error (a_vars x) k = Some v /\ nth_error (t_dims (a_tensor x)) k = Some d.
