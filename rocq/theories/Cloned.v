(** Loops that are unrolled or vectorized: the loop is emitted twice, once with the
    guards of the underived variables and once without, behind a test that the
    iterations to come are all in range.
    src/lower/lowerer_impl_imperative.cpp:647-655, 899-1005 (lowerForallCloned) *)
From Coq Require Import List Arith Bool.
From Verif Require Import Schedule.
Import ListNotations.

Definition inb (v : var) (l : list var) : bool := existsb (Nat.eqb v) l.

(** Whether some relation derives variables from [v]: not [isFullyDerived]. *)
Definition is_parent (rels : list rel) (v : var) : bool := existsb (fun r => inb v (parents r)) rels.
(** [isRecoverable], provenance_graph.cpp:1121-1160 without the branches on
    precomputed variables: every child is defined, or is derived further and
    recoverable.  A variable without children is recoverable.  [recs]: the variables
    with children that are recoverable; relations are kept in the order they were
    added, so one pass from the last one finds them. *)
Definition recs (defined : list var) (rels : list rel) : list var :=
  fold_right (fun r acc => if forallb (fun c => inb c defined || inb c acc) (children r)
                           then parents r ++ acc else acc) [] rels.
Definition is_recoverable (rels : list rel) (defined : list var) (v : var) : bool :=
  negb (is_parent rels v) || inb v (recs defined rels).

(** [varsWithGuard], 904-919.  [roots] are the underived variables; a position
    variable is one of them (see Schedule.v), the coordinate above it is not. *)
Definition vars_with_guard (rels : list rel) (outer roots : list var) : list var :=
  filter (fun u => negb (is_recoverable rels outer u)) roots.

(** [getFullyDerivedDescendants], provenance_graph.cpp:956-969. *)
Definition leaves (rels : list rel) (u : var) : list var :=
  fold_left (fun L r => flat_map (fun v => if inb v (parents r) then children r else [v]) L) rels [u].
(** The first of [newlyRecoverableParents], provenance_graph.cpp:1324-1352 (without
    the branch on fused positions, 1337-1344); the others come after it. *)
Definition newly_recoverable (rels : list rel) (defined : list var) (c : var) : option var :=
  match find (fun r => inb c (children r)) rels with
  | None => None
  | Some r => find (fun p => negb (is_recoverable rels defined p) && is_recoverable rels (c :: defined) p) (parents r)
  end.
(** The first variable that the traversal 931-963 recovers: the undefined
    descendants become defined one after the other until one is found. *)
Fixpoint first_recovered (rels : list rel) (defined L : list var) : option var :=
  match L with
  | [] => None
  | c :: rest => match newly_recoverable rels defined c with
                 | Some p => Some p
                 | None => first_recovered rels (c :: defined) rest
                 end
  end.

(** [guardRecoverySteps] and [minVarValues] (941-953, 965): the values of all
    variables if each loop still to come is at its lower bound.  The steps are
    emitted during the traversal; the model has their results. *)
Definition min_values (B : bounds) (rels : list rel) (outer : list var) (s : env) : env :=
  recover_all B rels (fun v => if inb v outer then s v else lo B v).
(** [maxChildValues] (942, 934): a loop still to come is at its upper bound; all
    other variables have the values that the program variables of their names
    have, which for those the recovery steps declared are the least ones. *)
Definition max_child_values (B : bounds) (rels : list rel) (outer : list var) (s : env) : env :=
  fun v => if is_parent rels v then min_values B rels outer s v
           else if inb v outer then s v else hi B v.
(** [recoverVariable] of a variable from given values of its children,
    provenance_graph.cpp:1371-1393. *)
Definition recover_from (B : bounds) (rels : list rel) (t : env) (p : var) : nat :=
  match find (fun r => inb p (parents r)) rels with
  | None => t p
  | Some r => recover B t r p
  end.
Definition max_value (B : bounds) (rels : list rel) (outer : list var) (s : env) (u : var) : nat :=
  recover_from B rels (max_child_values B rels outer s) u.

(** [maxOffset], 929, 950-953: set by the first variable that is recovered. *)
Definition max_offset (B : bounds) (rels : list rel) (outer roots : list var) (s : env) : nat :=
  let todo := filter (fun v => negb (inb v outer)) (flat_map (leaves rels) (vars_with_guard rels outer roots)) in
  match first_recovered rels outer todo with
  | None => 0
  | Some p => max_value B rels outer s p - min_values B rels outer s p
  end.

(** [guardCondition], 969-988: some variable may leave its range.  (The lower
    bound is not tested if it is the literal 0; no coordinate is below 0.) *)
Definition may_leave (B : bounds) (rels : list rel) (outer roots : list var) (s : env) : bool :=
  existsb (fun u => (min_values B rels outer s u <? lo B u) ||
                    (hi B u <=? max_value B rels outer s u + max_offset B rels outer roots s))
          (vars_with_guard rels outer roots).

(** [taco_uassert], 986-988: the loop is refused if no variable needs a guard. *)
Definition accepts_cloned (rels : list rel) (outer roots : list var) : bool :=
  match vars_with_guard rels outer roots with [] => false | _ => true end.

(** The iterations that reach the body if the loop over the first variable of [inner] is
    unrolled or vectorized ([outer]: the loops around it), 993-1005.  If the guard
    condition holds, the clone with all guards runs; else the clone without those
    of underived variables that are recovered in it.  The guards of divided variables,
    and those tested in the loops around, stay.  The loop's own variable has no exact
    bound (else 648-654 does not clone it).  Not modelled: what unrolling and vector
    instructions do to the body. *)
Definition visited_cloned (B0 : bounds) (roots : list var) (rels : list rel) (outer inner : list var)
  : option (list (list nat)) :=
  let B := all_bounds B0 rels in
  match guarded_roots rels (outer ++ inner) roots with
  | None => None
  | Some guarded =>
    Some (map (fun s => map s roots)
           (flat_map (fun s =>
              let emitted := if may_leave B rels outer roots s then guarded
                             else filter (is_recoverable rels outer) guarded in
              filter (guards B emitted rels) (map (recover_all B rels) (loops B inner s)))
           (loops B outer (fun _ => 0))))
  end.
