(** The functions [replace] on index notation: index variables, tensors, and nodes.
    src/index_notation/index_notation_rewriter.cpp *)
From Coq Require Import ZArith List Bool.
Import ListNotations.
Local Open Scope Z_scope.

Definition var := nat.
Definition tensor := nat.

(** The modifier of one mode of an access: none, a window (lower bound and stride),
    or an index set.  include/taco/index_notation/index_notation_nodes.h (AccessNode) *)
Inductive modifier := Plain | Window (lo stride : Z) | IndexSet (elems : list Z).
(** [Access]: tensor, variables, modifiers by mode ([Plain] where there is none), and
    whether it reads if a component is stored instead of its value (isAccessingStructure). *)
Record access := Acc { a_tensor : tensor; a_vars : list var; a_mods : list modifier; a_structure : bool }.

(** Expressions.  The first field of a node is its identity: maps from
    expressions compare nodes by address (include/taco/util/intrusive_ptr.h:103-116).
    [Un]: negation and square root; [Bin]: the four arithmetic operators;
    [Call]: calls of functions and of intrinsics.  Regions and algebras of calls are
    not modelled. *)
Inductive expr :=
| Read (id : nat) (a : access)
| IVar (id : nat) (v : var)
| Lit (id : nat) (z : Z)
| Un (id op : nat) (e : expr)
| Bin (id op : nat) (e1 e2 : expr)
| Cast (id ty : nat) (e : expr)
| Call (id f : nat) (args : list expr)
| Red (id op : nat) (v : var) (e : expr).
Definition expr_id (e : expr) : nat :=
  match e with
  | Read i _ | IVar i _ | Lit i _ | Un i _ _ | Bin i _ _ _ | Cast i _ _ | Call i _ _ | Red i _ _ _ => i
  end.
Definition is_cast (e : expr) : bool := match e with Cast _ _ _ => true | _ => false end.

(** A relation of a such-that node: [split(parent, outer, inner, factor)]; the other
    relations are not modelled. *)
Record relation := Split { r_parent : var; r_outer : var; r_inner : var; r_factor : Z }.
(** Statements; [Yield] nodes are not modelled, nor are the annotations of a forall, which
    are all copied (188, 409-410). *)
Inductive stmt :=
| Assign (id : nat) (lhs : access) (rhs : expr) (op : option nat)
| Forall (id : nat) (v : var) (s : stmt)
| Where (id : nat) (consumer producer : stmt)
| Sequence (id : nat) (definition mutation : stmt)
| Assemble (id : nat) (queries compute : stmt)
| Multi (id : nat) (s1 s2 : stmt)
| SuchThat (id : nat) (s : stmt) (rels : list relation).
Definition stmt_id (s : stmt) : nat :=
  match s with
  | Assign i _ _ _ | Forall i _ _ | Where i _ _ | Sequence i _ _ | Assemble i _ _ | Multi i _ _ | SuchThat i _ _ => i
  end.

(** A substitution is a map; [lookup] is [util::contains] and [at]. *)
Fixpoint lookup {A} (m : list (nat * A)) (k : nat) : option A :=
  match m with
  | [] => None
  | (k', a) :: r => if (k' =? k)%nat then Some a else lookup r k
  end.
Definition subst_of (m : list (nat * nat)) (k : nat) : nat := match lookup m k with Some k' => k' | None => k end.

(** IndexNotationRewriter: expressions 41-158.  [node] is what the derived class
    does with a node itself: [None] to visit it as the base class does.  A rebuilt
    node is a new one in the code; here it keeps its identity, which nothing below
    looks at again. *)
Fixpoint rewrite_expr (node : expr -> option expr) (e : expr) : expr :=
  match node e with
  | Some e' => e'
  | None =>
    match e with
    | Read _ _ | IVar _ _ | Lit _ _ => e
    | Un i o a => Un i o (rewrite_expr node a)
    | Bin i o a b => Bin i o (rewrite_expr node a) (rewrite_expr node b)
    | Cast i t a => Cast i t (rewrite_expr node a)
    | Call i f args => Call i f (map (rewrite_expr node) args)
    | Red i o v a => Red i o v (rewrite_expr node a)
    end
  end.
(** Statements, 160-245: the left-hand side of an assignment is not visited, nor are
    the relations of a such-that node. *)
Fixpoint rewrite_stmt (node : expr -> option expr) (snode : stmt -> option stmt) (s : stmt) : stmt :=
  match snode s with
  | Some s' => s'
  | None =>
    match s with
    | Assign i l r o => Assign i l (rewrite_expr node r) o
    | Forall i v b => Forall i v (rewrite_stmt node snode b)
    | Where i c p => Where i (rewrite_stmt node snode c) (rewrite_stmt node snode p)
    | Sequence i d m => Sequence i (rewrite_stmt node snode d) (rewrite_stmt node snode m)
    | Assemble i q c => Assemble i (rewrite_stmt node snode q) (rewrite_stmt node snode c)
    | Multi i a b => Multi i (rewrite_stmt node snode a) (rewrite_stmt node snode b)
    | SuchThat i b rels => SuchThat i (rewrite_stmt node snode b) rels
    end
  end.

(** ReplaceRewriter, 249-361: every kind of node but casts is looked up. *)
Definition look_expr (m : list (nat * expr)) (e : expr) : option expr :=
  if is_cast e then None else lookup m (expr_id e).
Definition replace_nodes (m : list (nat * expr)) (e : expr) : expr := rewrite_expr (look_expr m) e.
Definition replace_nodes_stmt (m : list (nat * expr)) (s : stmt) : stmt :=
  rewrite_stmt (look_expr m) (fun _ => None) s.
Definition replace_stmts (m : list (nat * stmt)) (s : stmt) : stmt :=
  rewrite_stmt (fun _ => None) (fun s => lookup m (stmt_id s)) s.

(** ReplaceIndexVars, 363-422: accesses (also on the left-hand side), foralls, and
    variables used as values.  A new access is made with the modifiers but without
    the fourth argument (index_notation.h:270-272: false). *)
Definition rename_access (m : list (nat * nat)) (a : access) : access :=
  if existsb (fun v => match lookup m v with Some _ => true | None => false end) (a_vars a)
  then Acc (a_tensor a) (map (subst_of m) (a_vars a)) (a_mods a) false
  else a.
Definition var_node (m : list (nat * nat)) (e : expr) : option expr :=
  match e with
  | Read i a => Some (Read i (rename_access m a))
  | IVar i v => Some (IVar i (subst_of m v))
  | _ => None
  end.
Definition replace_vars (m : list (nat * nat)) (e : expr) : expr := rewrite_expr (var_node m) e.
Fixpoint replace_vars_stmt (m : list (nat * nat)) (s : stmt) : stmt :=
  match s with
  | Assign i l r o => Assign i (rename_access m l) (replace_vars m r) o
  | Forall i v b => Forall i (subst_of m v) (replace_vars_stmt m b)
  | Where i c p => Where i (replace_vars_stmt m c) (replace_vars_stmt m p)
  | Sequence i d u => Sequence i (replace_vars_stmt m d) (replace_vars_stmt m u)
  | Assemble i q c => Assemble i (replace_vars_stmt m q) (replace_vars_stmt m c)
  | Multi i a b => Multi i (replace_vars_stmt m a) (replace_vars_stmt m b)
  | SuchThat i b rels => SuchThat i (replace_vars_stmt m b) rels
  end.

(** ReplaceTensorVars, 424-449: the new access is made from the variables alone. *)
Definition retarget (m : list (nat * nat)) (a : access) : access :=
  match lookup m (a_tensor a) with
  | Some t => Acc t (a_vars a) (map (fun _ => Plain) (a_mods a)) false
  | None => a
  end.
Definition tensor_node (m : list (nat * nat)) (e : expr) : option expr :=
  match e with Read i a => Some (Read i (retarget m a)) | _ => None end.
Definition replace_tensors_expr (m : list (nat * nat)) (e : expr) : expr := rewrite_expr (tensor_node m) e.
Fixpoint replace_tensors (m : list (nat * nat)) (s : stmt) : stmt :=
  match s with
  | Assign i l r o => Assign i (retarget m l) (replace_tensors_expr m r) o
  | Forall i v b => Forall i v (replace_tensors m b)
  | Where i c p => Where i (replace_tensors m c) (replace_tensors m p)
  | Sequence i d u => Sequence i (replace_tensors m d) (replace_tensors m u)
  | Assemble i q c => Assemble i (replace_tensors m q) (replace_tensors m c)
  | Multi i a b => Multi i (replace_tensors m a) (replace_tensors m b)
  | SuchThat i b rels => SuchThat i (replace_tensors m b) rels
  end.
