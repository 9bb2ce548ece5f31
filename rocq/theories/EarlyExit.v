(** Leaving a loop early when a reduction can no longer change its result:
    /repo/src/lower/lowerer_impl_imperative.cpp (emitEarlyExit, the two places
    in lowerAssignment that call it, lower) and
    /repo/src/index_notation/index_notation.cpp
    (allForFreeLoopsBeforeAllReductionLoops).

    After [r = op(r, e)] the compiler emits [if (r == a) break;] when the
    operator was declared with the annihilator [a] and the order of the loops
    passes a check that is made once for the whole statement. *)
From Coq Require Import String List Arith ZArith Bool.
Import ListNotations.
Local Open Scope Z_scope.

(** ** Statements *)
Definition var := nat.
Definition tensor := nat.
(** An operator of a compound assignment: a user-defined function of the old
    value and the new term (properties.h 23-35: an annihilator comes with the
    positions of the arguments it is for; no positions means all).  [+=] is an
    operator without an annihilator: emitEarlyExit is not called for it
    (lowerer_impl_imperative.cpp 474-475, 533-534). *)
Record operator := { apply : Z -> Z -> Z; annihilator : option (Z * list nat) }.
Inductive expr :=
| Lit (z : Z)
| Read (t : tensor) (vars : list var)
| Op (f : Z -> Z -> Z) (a b : expr).
(** Concrete index notation (index_notation_nodes.h 268-440).  [Where c t init p]:
    the temporary [t], which starts as [init] everywhere, is filled by [p] and
    used by [c].  [Both] is a sequence or a multi.  Yield and assemble are left
    out; suchthat is [splits] below. *)
Inductive stmt :=
| Assign (t : tensor) (vars : list var) (op : option operator) (rhs : expr)
| Forall (v : var) (body : stmt)
| Where (consumer : stmt) (t : tensor) (init : Z) (producer : stmt)
| Both (a b : stmt).

(** ** The check: index_notation.cpp 3414-3454 *)
(** 3430-3433: the variables of the loops in the order in which they are
    visited (index_notation_visitor.cpp 97-117, 126-129: producers before
    consumers). *)
Fixpoint loop_order (s : stmt) : list var :=
  match s with
  | Assign _ _ _ _ => []
  | Forall v b => v :: loop_order b
  | Where c _ _ p => loop_order p ++ loop_order c
  | Both a b => loop_order a ++ loop_order b
  end.
(** 3423-3428: the variables on the left of an assignment, of all assignments
    together. *)
Fixpoint free_vars (s : stmt) : list var :=
  match s with
  | Assign _ vars _ _ => vars
  | Forall _ b => free_vars b
  | Where c _ _ p => free_vars p ++ free_vars c
  | Both a b => free_vars a ++ free_vars b
  end.
Definition mem (v : var) (l : list var) : bool := existsb (Nat.eqb v) l.
(** 3440-3453 *)
Fixpoint order_ok (free : list var) (seen : bool) (l : list var) : bool :=
  match l with
  | [] => true
  | v :: l' =>
      if mem v free then (if seen then false else order_ok free seen l')
      else order_ok free true l'
  end.
Definition allows_short_circuit (s : stmt) : bool :=
  order_ok (free_vars s) false (loop_order s).

(** ** Running the lowered statement *)
Definition env := var -> Z.
Definition store := tensor -> list Z -> Z.
Definition bind (e : env) (v : var) (x : Z) : env :=
  fun w => if Nat.eqb w v then x else e w.
Definition coords_eq (a b : list Z) : bool :=
  if list_eq_dec Z.eq_dec a b then true else false.
Definition write (st : store) (t : tensor) (c : list Z) (x : Z) : store :=
  fun t' c' => if Nat.eqb t' t && coords_eq c' c then x else st t' c'.
Definition fill (st : store) (t : tensor) (f : list Z -> Z) : store :=
  fun t' => if Nat.eqb t' t then f else st t'.

Section Run.
  (** [splits v]: [v] was split into an outer and an inner variable; its value
      is recovered from theirs (SplitRelNode::recoverVariable,
      provenance_graph.cpp 228-235).  Simplification: one
      level of splitting. *)
  Variable splits : var -> option (var * var * Z).
  (** [loops v e]: the coordinates a loop over [v] visits, one list per C loop
      it is lowered to (merged loops are lowered to one loop per lattice point,
      lowerMergeLattice, lowerer_impl_imperative.cpp 1606-1615).  Any such
      coordinates are allowed. *)
  Variable loops : var -> env -> list (list Z).
  (** [later v e x ys]: what one of these C loops that would have visited [ys]
      visits after an earlier one broke at [x]: a break leaves the positions
      where they are, so that the next loop starts there.  Simplification: its
      body is the same statement, not the one with the exhausted operands
      replaced by zero. *)
  Variable later : var -> env -> Z -> list Z -> list Z.

  Definition value (e : env) (v : var) : Z :=
    match splits v with
    | Some (o, i, s) => e o * s + e i
    | None => e v
    end.
  Definition coords (e : env) (vars : list var) : list Z := map (value e) vars.
  Fixpoint eval (x : expr) (e : env) (st : store) : Z :=
    match x with
    | Lit z => z
    | Read t vars => st t (coords e vars)
    | Op f a b => f (eval a e st) (eval b e st)
    end.

  (** emitEarlyExit, lowerer_impl_imperative.cpp 2957-2965: the positions of
      the annihilator are not looked at. *)
  Definition early_exit (allowed : bool) (op : option operator) : option Z :=
    match op with
    | Some o => match annihilator o with
                | Some (a, _) => if allowed then Some a else None
                | None => None
                end
    | None => None
    end.
  (** lowerAssignment, 468-487 and 529-547: the new value, and whether the
      statement breaks. *)
  Definition new_value (op : option operator) (old rhs : Z) : Z :=
    match op with Some o => apply o old rhs | None => rhs end.

  (** One C loop: the iterations run until one breaks.  The result and the
      coordinate at which it broke. *)
  Fixpoint iterate (body : Z -> store -> store * bool) (xs : list Z) (st : store)
    : store * option Z :=
    match xs with
    | [] => (st, None)
    | x :: xs' =>
        let '(st', broke) := body x st in
        if broke then (st', Some x) else iterate body xs' st'
    end.
  (** The C loops of one forall, one after the other; [now]: what the loops
      visit instead of what they would have. *)
  Fixpoint run_loops (after : Z -> list Z -> list Z) (body : Z -> store -> store * bool)
      (now : list Z -> list Z) (xss : list (list Z)) (st : store) : store :=
    match xss with
    | [] => st
    | xs :: xss' =>
        let '(st', broke) := iterate body (now xs) st in
        run_loops after body
          (match broke with Some x => fun ys => after x (now ys) | None => now end) xss' st'
    end.
  (** The result and whether a break is on its way to the enclosing loop.
      lowerForall (a loop catches the break), lowerWhere 2516-2607 (the
      temporary is declared and initialised, then the producer, then the
      consumer), lowerSequence 2609-2617 and lowerMulti 2782-2786 (one after the
      other).
      A temporary ends with its where statement. *)
  Fixpoint exec (allowed : bool) (s : stmt) (e : env) (st : store) : store * bool :=
    match s with
    | Assign t vars op rhs =>
        let c := coords e vars in
        let x := new_value op (st t c) (eval rhs e st) in
        (write st t c x,
         match early_exit allowed op with Some a => Z.eqb x a | None => false end)
    | Forall v b =>
        (run_loops (later v e) (fun x => exec allowed b (bind e v x)) (fun ys => ys)
           (loops v e) st, false)
    | Where c t init p =>
        let '(st1, broke) := exec allowed p e (fill st t (fun _ => init)) in
        if broke then (fill st1 t (st t), true)
        else let '(st2, broke2) := exec allowed c e st1 in
             (fill st2 t (st t), broke2)
    | Both a b =>
        let '(st1, broke) := exec allowed a e st in
        if broke then (st1, true) else exec allowed b e st1
    end.

  (** A break that is not in a loop is not C. *)
  Fixpoint breaks (allowed : bool) (s : stmt) : bool :=
    match s with
    | Assign _ _ op _ => match early_exit allowed op with Some _ => true | None => false end
    | Forall _ _ => false
    | Where c _ _ p => breaks allowed p || breaks allowed c
    | Both a b => breaks allowed a || breaks allowed b
    end.
  (** lower, 241: the check is made for the whole statement.  [None]: the C
      compiler rejects the kernel. *)
  Definition kernel (s : stmt) (e : env) (st : store) : option store :=
    let allowed := allows_short_circuit s in
    if breaks allowed s then None else Some (fst (exec allowed s e st)).
End Run.
