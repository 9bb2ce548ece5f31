(** Kernels with a dense (or scalar) result:
    /repo/src/lower/lowerer_impl_imperative.cpp, lower 239-445,
    initResultArrays 3056-3145, hasSparseInserts 201-231, lowerAssignment
    449-608 and the inserter positions of lowerForallBody 2078-2079.
    A scalar result is a one-element array here; the code keeps it in a local
    variable that is zeroed at the start (defineScalarVariable 3166) and stored
    at the end. *)
From Coq Require Import List Arith Lia Bool.
Import ListNotations.
From Verif Require Import Storage IndexExpr Eval Lattice LatticeSpec LoopIR Lower.

Section DenseKernel.
Context {V : Type}.
Variable R : ring_ops V.
Variable srt : list point -> list point.
Variable dimf : ivar -> nat.
Variable n : nat.                       (* the result's value array *)
Variable tres : nat.                    (* the result tensor *)
Variable vs : list (ivar * kind).       (* its index variables and level kinds *)
Variable reduce : bool.                 (* compound assignment += *)

(** lowerForallBody 2078: the inserters of the loop over [i]. *)
Definition ins_enter (bound : list ivar) (i : ivar) : stmt V :=
  match index_of i vs with
  | Some l => decl_locate (i :: bound) VRes tres l vs
  | None => Skip
  end.

(** lowerAssignment 523-547, with compoundStore (ir_generators.cpp 10-15). *)
Definition store_leaf (e : expr V) : stmt V :=
  let loc := value_loc VRes vs in
  StV n loc (if reduce then XAdd (XBuf n loc) (lower_expr e) else lower_expr e).

Definition dense_hooks : hooks :=
  Hooks (fun _ _ => Skip) ins_enter (fun _ _ => Skip) (fun _ _ => Skip) store_leaf.

(** hasSparseInserts: a loop over a variable of the result has an iterator over
    a compressed operand. *)
Definition sparse_inserts (vars : list ivar) (e : expr V) : bool :=
  existsb (fun i => match index_of i vs with Some _ => true | None => false end &&
                    existsb (fun it => match it with Lev _ _ => true | Dim => false end)
                            (lat_iters (makeLattice srt i e))) vars.

(** The number of components of the result. *)
Fixpoint dense_size (l : nat) : iexp :=
  match l with 0 => ICst 1 | S l => IMul (dense_size l) (IDimOf tres l) end.

(** initValues 3293-3312. *)
Definition init_values (size : iexp) : stmt V :=
  For (VLoc 0) (ICst 0) size (StV n (IVar (VLoc 0)) (XLit (r0 R))).

(** The kernel that assembles and computes. *)
Definition dense_kernel (vars : list ivar) (e : expr V) : stmt V :=
  Block [RszV n (dense_size (length vs));
         if reduce || sparse_inserts vars e then init_values (dense_size (length vs)) else Skip;
         lower srt dimf dense_hooks vars [] e].

(** The kernel that computes into an already allocated result. *)
Definition dense_compute (vars : list ivar) (e : expr V) : stmt V :=
  Block [if reduce || sparse_inserts vars e then init_values (dense_size (length vs)) else Skip;
         lower srt dimf dense_hooks vars [] e].
End DenseKernel.
