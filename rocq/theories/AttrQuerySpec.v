(** What the queries of AttrQuery.v are for: the coordinates at which a
    statement computes a result, and the meaning of query statements. *)
From Coq Require Import List Arith ZArith Bool.
Import ListNotations.
From Verif Require Import Notation NotationSpec TransformSpec AttrQuery.
Local Open Scope nat_scope.

Section Spec.
Variable dim : ivar -> nat.

(** ** The coordinates that a statement inserts *)
(** Sparse loops visit an operand at its stored coordinates only; sums and
    differences are computed where one operand is present, products and quotients
    where both are; a scalar temporary counts as present once it has been assigned
    (lowerer_impl_imperative.cpp 552-558 and 3870-3955: the guards of
    assembly by insertion).  [marks]: the coordinates of each tensor that are
    present. *)
Definition marks := tensor -> list nat -> bool.
Fixpoint present (M : marks) (r : val) (e : nexpr Z) : bool :=
  match e with
  | NLit _ => true
  | NAcc t vs => M t (map r vs)
  | NNeg a | NFun _ a | NRed _ _ a => present M r a
  | NAdd a b | NSub a b => present M r a || present M r b
  | NMul a b | NDiv a b => present M r a && present M r b
  end.
Definition mark (M : marks) (t : tensor) (x : list nat) : marks :=
  fun t' x' => if Nat.eqb t' t && list_eqb x' x then true else M t' x'.
Definition unmark (t : tensor) (M : marks) : marks := fun t' x => if Nat.eqb t' t then false else M t' x.
Fixpoint mark_run (s : nstmt Z) (r : val) (M : marks) : marks :=
  match s with
  | NAssign t vs _ e => if present M r e then mark M t (map r vs) else M
  | NForall _ i b => fold_left (fun M c => mark_run b (ext r i c) M) (seq 0 (dim i)) M
  | NWhere c p => mark_run c r (mark_run p r (unmark (res p) M))
  end.
(** The coordinates of the result that the statement inserts, when the operands
    store the coordinates [stored]; the result and the temporaries start empty. *)
Definition operands_only (s : nstmt Z) (stored : marks) : marks :=
  fun t x => if mem t (res s :: temps s) then false else stored t x.
Definition inserts (stored : marks) (s : nstmt Z) (x : list nat) : Prop :=
  mark_run s (fun _ => 0) (operands_only s stored) (res s) x = true.

(** ** Running query statements *)
(** Values are integers; tensors and expressions of type Bool hold 0 and 1.
    [None]: the point is not visited, because an operand stores nothing there
    (merge_lattice.cpp; zeroed operands are removed from sums).  An access to the
    structure of an operand is [true] (lowerer_impl_imperative.cpp 2795-2798);
    Or and And for sums and products of type Bool (2875-2880, 2888-2893), ir::Sub
    for differences (2883-2885); negation of type Bool is printed as [!]
    (src/ir/ir_printer.cpp 137-145).  A temporary [t] with [sparse t] is read at
    the coordinates where it was set only (a workspace with a coordinate list).
    Division, sqrt and casts other than to Int32 are given no meaning here. *)
Section Run.
Variable stored : marks.
Variable sparse : tensor -> bool.
Variable queryResult : tensor.
Definition qstore := tensor -> list nat -> Z.
Notation qbool := (qbool queryResult).
Definition of_bool (b : bool) : Z := if b then 1%Z else 0%Z.
Definition to_bool (z : Z) : bool := negb (Z.eqb z 0).
Definition qneg (bool_typed : bool) (v : Z) : Z := if bool_typed then of_bool (negb (to_bool v)) else Z.opp v.
Fixpoint qeval (T : qstore) (r : val) (e : qexpr) : option Z :=
  match e with
  | QLit z => Some z
  | QSym t vs => if stored t (map r vs) then Some 1%Z else None
  | QAcc t vs => if sparse t && negb (to_bool (T t (map r vs))) then None else Some (T t (map r vs))
  | QNeg a => option_map (qneg (qbool a)) (qeval T r a)
  | QCast a => qeval T r a
  | QAdd a b =>
      match qeval T r a, qeval T r b with
      | Some v, Some w => Some (if qbool a && qbool b then of_bool (to_bool v || to_bool w) else (v + w)%Z)
      | Some v, None => Some v
      | None, w => w
      end
  | QSub a b =>
      match qeval T r a, qeval T r b with
      | Some v, Some w => Some (v - w)%Z
      | Some v, None => Some v
      | None, w => option_map (qneg (qbool b)) w
      end
  | QMul a b =>
      match qeval T r a, qeval T r b with
      | Some v, Some w => Some (if qbool a && qbool b then of_bool (to_bool v && to_bool w) else (v * w)%Z)
      | _, _ => None
      end
  | QFun _ _ | QDiv _ _ => None
  end.
Definition qupd (T : qstore) (t : tensor) (x : list nat) (v : Z) : qstore :=
  fun t' x' => if Nat.eqb t' t && list_eqb x' x then v else T t' x'.
Definition qclear (t : tensor) (T : qstore) : qstore := fun t' x => if Nat.eqb t' t then 0%Z else T t' x.
(** [+=] is a logical or for values of type Bool (src/ir/ir_generators.cpp 10-21);
    stores into tensors of type Bool convert. *)
Definition qstored (t : tensor) (red bool_typed : bool) (old v : Z) : Z :=
  let w := if red then if bool_typed then of_bool (to_bool old || to_bool v) else (old + v)%Z else v in
  if is_bool queryResult t then of_bool (to_bool w) else w.
Fixpoint qrun (s : qstmt) (r : val) (T : qstore) : qstore :=
  match s with
  | QAssign t vs red e =>
      match qeval T r e with
      | None => T
      | Some v => qupd T t (map r vs) (qstored t red (qbool e) (T t (map r vs)) v)
      end
  | QForall _ i b => fold_left (fun T c => qrun b (ext r i c) T) (seq 0 (dim i)) T
  | QWhere c p => qrun c r (qrun p r (qclear (qres p) T))
  end.
(** The query results start at zero (lowerAssemble 2640-2654). *)
Definition query_value (q : qstmt) (g : list nat) : Z := qrun q (fun _ => 0) (fun _ _ => 0%Z) queryResult g.
End Run.
End Spec.

(** ** Statements *)
(** Sums and products of operands. *)
Fixpoint positive (e : nexpr Z) : bool :=
  match e with
  | NAcc _ _ => true
  | NAdd a b | NMul a b => positive a && positive b
  | _ => false
  end.
Fixpoint positive_stmt (s : nstmt Z) : bool :=
  match s with
  | NAssign _ _ _ e => positive e
  | NForall _ _ b => positive_stmt b
  | NWhere c p => positive_stmt c && positive_stmt p
  end.
(** A concrete statement: tensors are computed in one place each and not from
    themselves, loops are not nested in loops over the same variable, temporaries
    and the result are summed into or assigned once, the coordinates of the
    result are different variables of loops. *)
Definition countable (s : nstmt Z) : Prop :=
  distinct_results s /\ no_shadow [] s /\
  every (fun p => sums_or_assigns p /\ not_own_operand p) s /\
  NoDup (lhs s) /\ (forall v, In v (lhs s) -> In v (spine s)) /\ positive_stmt s = true.
(** The new tensors differ from all others. *)
Definition fresh_tensors (s : nstmt Z) (tmp qtmp : tensor -> tensor) (dedupTmp queryResult : tensor) : Prop :=
  fresh_for tmp s /\ (forall A B, qtmp A = qtmp B -> A = B) /\ dedupTmp <> queryResult /\
  forall t, t = dedupTmp \/ t = queryResult -> ~ In t (tensors s) /\ forall A, qtmp A <> t /\ tmp A <> t.
(** [x]'s coordinates in storage order. *)
Definition in_storage_order (modeOrdering : list nat) (x : list nat) : list nat :=
  map (fun m => nth m x 0) modeOrdering.
