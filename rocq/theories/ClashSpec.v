(** Which tensors an assignment is about and which were created without a name (C81). *)
From Coq Require Import String List.
From Verif Require Import NotationEq Clash.
Import ListNotations.

(** An expression mentions a tensor. *)
Inductive mentions (h : nat) : expr -> Prop :=
  | m_access : forall a, tensor a = h -> mentions h (EAcc a)
  | m_neg : forall a, mentions h a -> mentions h (ENeg a)
  | m_sqrt : forall a, mentions h a -> mentions h (ESqrt a)
  | m_cast : forall t a, mentions h a -> mentions h (ECast t a)
  | m_reduce : forall o v a, mentions h a -> mentions h (EReduce o v a)
  | m_add : forall a b, mentions h a \/ mentions h b -> mentions h (EAdd a b)
  | m_sub : forall a b, mentions h a \/ mentions h b -> mentions h (ESub a b)
  | m_mul : forall a b, mentions h a \/ mentions h b -> mentions h (EMul a b)
  | m_div : forall a b, mentions h a \/ mentions h b -> mentions h (EDiv a b)
  | m_call : forall n p d f args al ds a, In a args -> mentions h a -> mentions h (ECall n p d f args al ds)
  | m_intrinsic : forall n args a, In a args -> mentions h a -> mentions h (EIntrinsic n args).
(** An assignment mentions it. *)
Definition in_assignment (h lhs : nat) (rhs : expr) : Prop := h = lhs \/ mentions h rhs.

(** The name of a tensor after a history: none if it does not exist. *)
Definition name_of (es : list event) (h : nat) : option string :=
  option_map t_name (nth_error (tvars (history es)) h).

(** The tensors that a history creates, in order, with whether they were given a name. *)
Definition creations (es : list event) : list bool :=
  flat_map (fun e => match e with NewNamed _ => [true] | NewUnnamed => [false] | _ => [] end) es.
(** A tensor that was created without a name and never renamed. *)
Definition unnamed (es : list event) (h : nat) : Prop :=
  nth_error (creations es) h = Some false /\ forall n, ~ In (Rename h n) es.
