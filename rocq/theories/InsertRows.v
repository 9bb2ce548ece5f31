(** Ungrouped insertion into a compressed level below dense levels:
    /repo/src/lower/mode_format_compressed.cpp 217-272 (getSeqInitEdges,
    getSeqInsertEdge, getInitCoords, getYieldPos, getInsertCoord,
    getFinalizeYieldPos), /repo/src/lower/mode_format_dense.cpp 82-90, placed as by
    /repo/src/lower/lowerer_impl_imperative.cpp 2616-2779 (lowerAssemble) and
    497-523 (lowerAssignment).  The statements of the loops that count and insert
    are given as sequences: any sequence may come out of the loops.  One result,
    one compressed level; the code for assembling and computing at once. *)
From Coq Require Import List Arith Lia Bool.
Import ListNotations.
From Verif Require Import Storage IndexExpr Eval LoopIR Lower SparseKernel.
Local Open Scope nat_scope.

Section Insert.
Context {V : Type}.
Variable R : ring_ops V.
Variable nv : nat.                 (* value array of the result *)
Variable ds : list nat.            (* widths of the dense levels above *)
Notation K := (length ds).

(** getAssembledSize of dense levels, mode_format_dense.cpp 82-84. *)
Definition prev_size : iexp := fold_left (fun s d => IMul s (ICst d)) ds (ICst 1).
(** The array of the attribute query "nnz". *)
Definition nnz : iname := RBuf 0.

(** lowerAssemble 2617-2663: allocate and clear the query result; every nonzero
    that will be stored counts one for its parent position. *)
Definition count_one (p : nat) : stmt V := StI nnz (ICst p) (IAdd (IBuf nnz (ICst p)) (ICst 1)).
Definition count_all (ps : list nat) : stmt V :=
  Block [RszI nnz prev_size; For v_p (ICst 0) prev_size (StI nnz (IVar v_p) (ICst 0));
         Block (map count_one ps)].

(** getSeqInitEdges 217-222. *)
Definition seq_init_edges : stmt V :=
  Block [RszI (RPos K) (IAdd prev_size (ICst 1)); StI (RPos K) (ICst 0) (ICst 0)].
(** getSeqInsertEdge 224-232. *)
Definition seq_insert_edge (p : iexp) : stmt V :=
  StI (RPos K) (IAdd p (ICst 1)) (IAdd (IBuf (RPos K) p) (IBuf nnz p)).
(** lowerAssemble 2696-2715: loops over the coordinates of the dense levels. *)
Fixpoint edge_loops (k : nat) (widths : list nat) (p : iexp) : stmt V :=
  match widths with
  | [] => seq_insert_edge p
  | d :: widths =>
      For (VIdx k) (ICst 0) (ICst d)
        (Block [Asg (VRes k) (IAdd (IMul p (ICst d)) (IVar (VIdx k))); edge_loops (S k) widths (IVar (VRes k))])
  end.
(** getInitCoords 234-239; the values 2729-2748. *)
Definition init_coords : stmt V := RszI (RCrd K) (IBuf (RPos K) prev_size).
Definition init_vals : stmt V := RszV nv (IBuf (RPos K) prev_size).

(** getYieldPos 245-253, getInsertCoord 255-261, lowerAssignment 497-531: store
    coordinate [c] with value [v] below parent position [p]. *)
Definition insert_one (x : nat * (nat * V)) : stmt V :=
  Block [Asg (VRes K) (IBuf (RPos K) (ICst (fst x)));
         StI (RPos K) (ICst (fst x)) (IAdd (IBuf (RPos K) (ICst (fst x))) (ICst 1));
         StI (RCrd K) (IVar (VRes K)) (ICst (fst (snd x)));
         StV nv (IVar (VRes K)) (XLit (snd (snd x)))].

(** getFinalizeYieldPos 263-272. *)
Definition finalize_yield : stmt V :=
  Block [For v_p (ICst 0) prev_size
           (StI (RPos K) (ISub prev_size (IVar v_p)) (IBuf (RPos K) (ISub (ISub prev_size (IVar v_p)) (ICst 1))));
         StI (RPos K) (ICst 0) (ICst 0)].

Definition insert_kernel (counted : list nat) (ins : list (nat * (nat * V))) : stmt V :=
  Block [count_all counted; seq_init_edges; edge_loops 0 ds (ICst 0); init_coords; init_vals;
         Block (map insert_one ins); finalize_yield].
End Insert.
