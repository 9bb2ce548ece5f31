(** Conditions used by the theorems about automatic transformations. *)
From Coq Require Import List Arith Lia Bool Permutation.
Import ListNotations.
From Verif Require Import Notation NotationSpec.
Local Open Scope nat_scope.

Section Spec.
Context {V : Type}.
(** A statement sums into its result, or assigns it and loops over variables of
    the left-hand side only. *)
Definition sums_or_assigns (s : nstmt V) : Prop :=
  op_of s = Some RSum \/ (op_of s = None /\ forall v, In v (spine s) -> In v (lhs s)).
(** [every P s]: the statement and all its producers satisfy [P]. *)
Definition every (P : nstmt V -> Prop) (s : nstmt V) : Prop := P s /\ forall p, In p (producers s) -> P p.
(** No tensor is computed in two places; no statement reads its own result. *)
Definition distinct_results (s : nstmt V) : Prop := NoDup (res s :: temps s).
Definition not_own_operand (s : nstmt V) : Prop := ~ In (res s) (rhs_reads s).
(** The new tensors [tmp A] are different from each other and from the tensors
    of the statement. *)
Definition tensors (s : nstmt V) : list tensor := res s :: temps s ++ rhs_reads s.
Definition fresh_for (tmp : tensor -> tensor) (s : nstmt V) : Prop :=
  (forall A B, tmp A = tmp B -> A = B) /\ (forall A, ~ In (tmp A) (tensors s)).
End Spec.

(** [a] occurs before [b]. *)
Definition before (l : list ivar) (a b : ivar) : Prop := exists l1 l2 l3, l = l1 ++ a :: l2 ++ b :: l3.

(** ** Storage order *)
From Verif Require Import Transform.
(** In [q], the variables that iterate the levels of a tensor come in the order
    of those levels, if one of the levels can only be traversed in order. *)
Definition storage_order (uses : ivar -> list use) (loops q : list ivar) : Prop :=
  forall i j u u', In i loops -> In j loops -> In u (uses i) -> In u' (uses j) -> u_tensor u = u_tensor u' ->
    u_level u < u_level u' -> u_hard u || u_hard u' = true -> before q i j.
(** Every level of a tensor is traversed by one loop only. *)
Definition one_access (uses : ivar -> list use) (loops : list ivar) : Prop :=
  forall i j u u', In i loops -> In j loops -> In u (uses i) -> In u' (uses j) -> u_tensor u = u_tensor u' ->
    u_level u = u_level u' -> i = j /\ u_hard u = u_hard u'.
(** std::sort with the comparison of levels: some sorted permutation. *)
Fixpoint by_level (l : list entry) : Prop :=
  match l with
  | [] => True
  | e :: r => (forall e', In e' r -> fst (snd e) <= fst (snd e')) /\ by_level r
  end.
Definition admissible_level_sort (srt : list entry -> list entry) : Prop :=
  forall l, Permutation (srt l) l /\ by_level (srt l).
