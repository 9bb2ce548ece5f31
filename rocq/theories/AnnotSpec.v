(** Specification: the annotations a statement's loops over a variable have, and which
    variables a scheduling command names. *)
From Coq Require Import List Arith Bool.
From Verif Require Import Annot.
Import ListNotations.

(** The annotations of the loops over [v], in the order of visiting. *)
Fixpoint annots (v : var) (s : stmt) : list annot :=
  match s with
  | SAssign _ => []
  | SForall w x s => (if w =? v then [x] else []) ++ annots v s
  | SWhere c p => annots v p ++ annots v c
  | SPair a b => annots v a ++ annots v b
  | SSuchThat s _ => annots v s
  end.
(** All loops with their annotations. *)
Fixpoint annotated (s : stmt) : list (var * annot) :=
  match s with
  | SAssign _ => []
  | SForall w x s => (w, x) :: annotated s
  | SWhere c p => annotated p ++ annotated c
  | SPair a b => annotated a ++ annotated b
  | SSuchThat s _ => annotated s
  end.
(** No loop over [v] is inside another one. *)
Fixpoint unnested (v : var) (s : stmt) : Prop :=
  match s with
  | SAssign _ => True
  | SForall w _ s => (w = v -> annots v s = []) /\ unnested v s
  | SWhere a b | SPair a b => unnested v a /\ unnested v b
  | SSuchThat s _ => unnested v s
  end.
(** The variables a command names.  precompute and the topological reordering rebuild whole
    nests: for them every variable counts as named. *)
Definition names (c : command) (v : var) : Prop :=
  match c with
  | Replace pattern replacement _ => In v pattern \/ In v replacement
  | Reorder _ pattern => In v pattern
  | MergeBy w _ | Unroll w _ | Parallelize w _ _ => w = v
  | Hoist => False
  | Precompute _ _ | Topological _ => True
  end.
(** A statement that is a nest of loops: no two loops over the same variable. *)
Fixpoint loop_nest (l : list (var * annot)) (inner : stmt) : stmt :=
  match l with [] => inner | (v, x) :: l => SForall v x (loop_nest l inner) end.
