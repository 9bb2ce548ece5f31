(** Loop transformations: the index variables a schedule derives, the ranges of
    the loops over the derived variables, the expressions that recover the
    original ones and the guards the lowerer puts behind them.
    src/index_notation/provenance_graph.cpp, src/lower/lowerer_impl_imperative.cpp *)
From Coq Require Import List Arith Bool Lia.
Import ListNotations.

Definition var := nat.
(** Values of the index variables; coordinates and positions are not negative. *)
Definition env := var -> nat.
Definition upd {A} (s : var -> A) (v : var) (x : A) : var -> A := fun w => if w =? v then x else s w.
(** Iteration bounds [lo, hi) of every variable. *)
Definition bounds := var -> nat * nat.
Definition lo (B : bounds) v := fst (B v).
Definition hi (B : bounds) v := snd (B v).

(** Index variable relations: include/taco/index_notation/provenance_graph.h.
    A position variable ([pos]) enters as an underived variable that ranges over
    the segment [pos[q], pos[q+1]) of its level. *)
Inductive rel :=
| Split (p o i : var) (f : nat)
| Divide (p o i : var) (f : nat)
| Fuse (a b c : var)
| Bound (p b : var) (n : nat)            (* BoundType::MaxExact *)
| Precompute (p c : var).

(** [getParents] and [getChildren] of each relation node. *)
Definition parents (r : rel) : list var :=
  match r with
  | Split p _ _ _ | Divide p _ _ _ | Bound p _ _ | Precompute p _ => [p]
  | Fuse a b _ => [a; b]
  end.
Definition children (r : rel) : list var :=
  match r with
  | Split _ o i _ | Divide _ o i _ => [o; i]
  | Fuse _ _ c => [c] | Bound _ b _ => [b] | Precompute _ c => [c]
  end.

(** [deriveIterBounds]: SplitRelNode 203-226, DivideRelNode 349-376, FuseRelNode
    663-671 and [combineParentBounds] 712-719, BoundRelNode 783-800, PrecomputeRelNode
    872-884.  BoundRelNode reads the coordinate bounds of the parent's underived
    ancestor; the model is of the case where the parent is underived itself. *)
Definition derive_bounds (B : bounds) (r : rel) : bounds :=
  match r with
  | Split p o i f => upd (upd B o (lo B p / f, (hi B p + (f - 1)) / f)) i (0, f)
  | Divide p o i f => upd (upd B o (0, f)) i (lo B p / f, (hi B p + (f - 1)) / f)
  | Fuse a b c => let inner := hi B b - lo B b in
                  upd B c (lo B a * inner + lo B b, hi B a * inner + lo B b)
  | Bound p b n => upd B b (lo B p, n)
  | Precompute p c => upd B c (B p)
  end.
(** [ProvenanceGraph::deriveIterBounds] (1225-1255) recurses from a variable to the
    underived ones; relations are kept in the order they were added, so one pass
    computes the bounds of all variables. *)
Definition all_bounds (B0 : bounds) (rels : list rel) : bounds := fold_left derive_bounds rels B0.

(** [recoverVariable]: Split 228-235, Divide 378-394, Fuse 673-698 (without [pos]),
    Bound 801-811, Precompute 886-893. *)
Definition recover (B : bounds) (s : env) (r : rel) : env :=
  match r with
  | Split p o i f => upd s p (s o * f + s i)
  | Divide p o i f => upd s p (s o * ((hi B p - lo B p + (f - 1)) / f) + s i)
  | Fuse a b c => let inner := hi B b - lo B b in upd (upd s a (s c / inner)) b (s c mod inner)
  | Bound p b _ => upd s p (s b)
  | Precompute p c => upd s p (s c)
  end.
(** The values of all variables, from the values of the loops' variables. *)
Fixpoint recover_all (B : bounds) (rels : list rel) (s : env) : env :=
  match rels with
  | [] => s
  | r :: rest => recover B (recover_all B rest s) r
  end.

(** The variables that are left to loop over: [ForAllReplace]
    (src/index_notation/transformations.cpp:700-770) replaces the parents' loops
    with the children's. *)
Definition replace_loops (L : list var) (r : rel) : list var :=
  filter (fun v => negb (existsb (Nat.eqb v) (parents r))) L ++ children r.
Definition loop_vars (roots : list var) (rels : list rel) : list var := fold_left replace_loops rels roots.

(** ** Guards: LowererImplImperative::lowerForall, 647-758 *)

(** The loops a variable is recovered from. *)
Definition descends1 (r : rel) (vs : list var) : list var :=
  if existsb (fun p => existsb (Nat.eqb p) vs) (parents r) then vs ++ children r else vs.
Definition descendants (rels : list rel) (u : var) : list var := fold_left (fun vs r => descends1 r vs) rels [u].
(** The innermost of them: at its loop [u] is recovered. *)
Definition recovered_at (rels : list rel) (order : list var) (u : var) : option var :=
  fold_left (fun acc v => if existsb (Nat.eqb v) (descendants rels u) then Some v else acc) order None.

(** [hasExactBound], provenance_graph.cpp:1310-1322 *)
Definition hasExactBound (rels : list rel) (v : var) : bool :=
  existsb (fun r => match r with Bound _ b _ => b =? v | _ => false end) rels.
(** Whether the upper bound of a loop is an [ir::Literal]. *)
Definition literal_bound (rels : list rel) (v : var) : option nat :=
  fold_left (fun acc r => match r with
                          | Split _ _ i f => if i =? v then Some f else acc
                          | Divide _ o _ f => if o =? v then Some f else acc
                          | Bound _ b n => if b =? v then Some n else acc
                          | _ => acc
                          end) rels None.
(** The bound of [u]'s child, when that is an exact bound (704-720). *)
Definition bound_child (rels : list rel) (u : var) : option nat :=
  fold_left (fun acc r => match r with Bound p _ n => if p =? u then Some n else acc | _ => acc end) rels None.

(** Whether the guard of the underived variable [u] is emitted: lines 650-651, 702-727
    (and 664-679 for a position variable).  Outer [None]: a null pointer is
    dereferenced (717-718: the bound of the innermost loop is no literal) or the
    remainder by 0 taken.  [None] inside: [u] has its own loop and is not recovered. *)
Definition underived_guard (rels : list rel) (order : list var) (u : var) : option bool :=
  match recovered_at rels order u with
  | None => Some false
  | Some v =>
    if v =? u then Some false
    else if hasExactBound rels v then Some false
    else match bound_child rels u with
         | None => Some true
         | Some n => match literal_bound rels v with
                     | None | Some 0 => None
                     | Some m => Some (negb (n mod m =? 0))
                     end
         end
  end.

(** The condition under which no [continue] is reached: the guard of an underived
    variable (the lower bound matters for position variables only; coordinates
    start at 0), and for divided variables lines 730-757. *)
Definition in_range (B : bounds) (s : env) (v : var) : bool := (lo B v <=? s v) && (s v <? hi B v).
Definition divide_guard (B : bounds) (s : env) (r : rel) : bool :=
  match r with
  | Divide p o i f => s p <? (s o + 1) * (hi B i - lo B i)
  | _ => true
  end.

(** ** The loop nest *)

(** [for (v = lo; v < hi; v++)] over the loop variables, outermost first: the
    values they take, in the order of execution. *)
Fixpoint loops (B : bounds) (order : list var) (s : env) : list env :=
  match order with
  | [] => [s]
  | v :: r => flat_map (fun x => loops B r (upd s v x)) (seq (lo B v) (hi B v - lo B v))
  end.

(** The iterations that reach the body, as the values of the underived variables.
    [None]: generating the code has undefined behaviour.  The code recovers a
    variable, and tests its guards, in the outermost loop where it can; here all of
    that happens in the innermost one, which skips the same iterations because a guard
    reads only variables of the loops around it. *)
Definition guards (B : bounds) (guarded : list var) (rels : list rel) (s : env) : bool :=
  forallb (in_range B s) guarded && forallb (divide_guard B s) rels.
Fixpoint guarded_roots (rels : list rel) (order roots : list var) : option (list var) :=
  match roots with
  | [] => Some []
  | u :: r => match underived_guard rels order u, guarded_roots rels order r with
              | Some true, Some g => Some (u :: g)
              | Some false, Some g => Some g
              | _, _ => None
              end
  end.
Definition visited (B0 : bounds) (roots : list var) (rels : list rel) (order : list var)
  : option (list (list nat)) :=
  let B := all_bounds B0 rels in
  match guarded_roots rels order roots with
  | None => None
  | Some guarded =>
    Some (map (fun s => map s roots)
              (filter (guards B guarded rels)
                      (map (recover_all B rels) (loops B order (fun _ => 0)))))
  end.
