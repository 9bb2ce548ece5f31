(** Names of tensors and the check that compile makes of them.
    /repo/src/util/name_generator.cpp 11-27 (names and identifiers from one counter),
    /repo/src/tensor.cpp 52-85, 112-118, 150-158, 606-636 (constructors, setName and the
    check), /repo/include/taco/tensor.h 915-926, 1225-1233,
    /repo/src/index_notation/index_notation_visitor.cpp 33-108 (the visitor).

    Simplified: the counter does not overflow; expressions are those of NotationEq.v,
    where a tensor is the number of its content; temporaries that later steps add and the
    tensors of index sets are not visited by the check and are left out. *)
From Coq Require Import String List Bool Arith.
From Verif Require Import Util NotationEq.
Import ListNotations.
Local Open Scope nat_scope.

(** A tensor's name and identifier, tensor.h 915-926. *)
Record tvar := TVar { t_name : string; t_id : nat }.
(** uniqueNameCounter, name_generator.cpp 11, and the tensors in the order of their creation. *)
Record names := Names { counter : nat; tvars : list tvar }.

(** What a program does with names: tensors with a name and without, setName, and everything
    else that takes a number from the counter (index variables, functions). *)
Inductive event := NewNamed (n : string) | NewUnnamed | Rename (h : nat) (n : string) | Other.

(** setName, tensor.cpp 150-155. *)
Fixpoint rename (l : list tvar) (h : nat) (n : string) : list tvar :=
  match l, h with
  | [], _ => []
  | t :: l, O => TVar n (t_id t) :: l
  | t :: l, S h => t :: rename l h n
  end.
(** The constructors, tensor.cpp 52-85, 112-118: the name is made before the identifier. *)
Definition step (s : names) (e : event) : names :=
  match e with
  | NewNamed n => Names (S (counter s)) (tvars s ++ [TVar n (counter s)])
  | NewUnnamed =>
      Names (S (S (counter s))) (tvars s ++ [TVar ("A" ++ dec (counter s))%string (S (counter s))])
  | Rename h n => Names (counter s) (rename (tvars s) h n)
  | Other => Names (S (counter s)) (tvars s)
  end.
Definition history (es : list event) : names := fold_left step es (Names 0 []).

(** The accesses the visitor reaches, in order: index_notation_visitor.cpp 33-108. *)
Fixpoint visited (e : expr) : list nat :=
  match e with
  | EUndef | EVar _ | ELit _ => []
  | EAcc a => [tensor a]
  | ENeg a | ESqrt a | ECast _ a | EReduce _ _ a => visited a
  | EAdd a b | ESub a b | EMul a b | EDiv a b => visited a ++ visited b
  | ECall _ _ _ _ args _ _ | EIntrinsic _ args => flat_map visited args
  end.

(** std::map find, tensor.cpp 622. *)
Fixpoint find_name (n : string) (m : list (string * nat)) : option nat :=
  match m with
  | [] => None
  | (k, id) :: m => if String.eqb n k then Some id else find_name n m
  end.
(** CollisionFinder, tensor.cpp 611-633; [false]: the error is reported. *)
Fixpoint check (s : names) (m : list (string * nat)) (hs : list nat) : bool :=
  match hs with
  | [] => true
  | h :: hs =>
      match nth_error (tvars s) h with
      | Some t =>
          match find_name (t_name t) m with
          | Some id => (t_id t =? id) && check s m hs
          | None => check s ((t_name t, t_id t) :: m) hs
          end
      | None => check s m hs
      end
  end.
(** TensorBase::compile, tensor.cpp 606-636: the left-hand side first, then the assignment, of
    which the visitor reaches the right-hand side. *)
Definition compile_accepts (s : names) (lhs : nat) (rhs : expr) : bool := check s [] (lhs :: visited rhs).
