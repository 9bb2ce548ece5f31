(** Which stored level the scheduling command pos iterates.

    Models src/index_notation/index_notation.cpp 1928-1964 (IndexStmt::pos: the
    checks), src/index_notation/provenance_graph.cpp 529-559
    (PosRelNode::getAccessIterator: the level whose positions are iterated) and
    src/lower/iterator.cpp 572-645 (the iterators of an access, by mode).
    Simplified: variables and tensors are numbers; the underived ancestors of
    the variable given to pos are a list (provenance_graph.cpp 971-990). *)

From Coq Require Import List Arith Bool Lia.
Import ListNotations.

Definition var := nat.

(** An access: tensor, variables, and of the tensor's format the mode stored at
    each level and whether each level is dense.
    include/taco/format.h 47-60 *)
Record access := Access {
  tensor : nat;
  vars : list var;
  ordering : list nat;
  dense : list bool }.

(** Which of the access index vars match: the number of variables if none does.
    index_notation.cpp 1946-1952, provenance_graph.cpp 535-541 *)
Fixpoint mode_index (vs : list var) (v : var) : nat :=
  match vs with
  | [] => 0
  | w :: vs => if w =? v then 0 else S (mode_index vs v)
  end.

Definition largest (xs : list nat) : nat := fold_left max xs 0.

Inductive verdict := NoSuchAccess | NotInAccess | DenseLevel | Accepted.

Fixpoint same_vars (a b : list var) : bool :=
  match a, b with
  | [], [] => true
  | x :: a, y :: b => (x =? y) && same_vars a b
  | _, _ => false
  end.

(** IndexStmt::pos: [arguments] are the accesses read by the statement.
    index_notation.cpp 1928-1962 *)
Definition pos_check (arguments : list access) (ancestors : list var) (a : access) : verdict :=
  if existsb (fun b => (tensor b =? tensor a) && same_vars (vars b) (vars a)) arguments then
    let max_mode := largest (map (mode_index (vars a)) ancestors) in
    if length (vars a) <=? max_mode then NotInAccess
    else
      let mode := nth max_mode (ordering a) 0 in
      if nth mode (dense a) false then DenseLevel else Accepted
  else NoSuchAccess.

(** The iterators of an access: the iterator of level [l] is found by the mode
    stored there.  iterator.cpp 583-645 *)
Definition level_iterators (a : access) : list (nat * nat) :=
  combine (ordering a) (seq 0 (length (ordering a))).

(** PosRelNode::getAccessIterator: the level whose positions are iterated.
    provenance_graph.cpp 529-559 *)
Definition pos_level (ancestors : list var) (a : access) : option nat :=
  let max_mode := largest (map (fun v => nth (mode_index (vars a) v) (ordering a) 0) ancestors) in
  option_map snd (find (fun ml => fst ml =? max_mode) (level_iterators a)).
