(** Appending rows to a compressed level: the statements a kernel with such a
    result executes, in the order in which it executes them, for a given sequence
    of rows.  The code fragments are those of SparseKernel.v; where they are
    placed is /repo/src/lower/lowerer_impl_imperative.cpp 3195-3280
    (initResultArrays before the loop), 3749-3796 (appendCoordinate at the end of
    the body), 3799-3823 (generateAppendPositions after the loop) and 3148-3195
    (finalizeResultArrays).  The loops and the values are left out: any sequence
    of rows may come out of them. *)
From Coq Require Import List Arith Lia Bool.
Import ListNotations.
From Verif Require Import Storage IndexExpr Eval LoopIR Lower SparseKernel.
Local Open Scope nat_scope.

Section Rows.
Context {V : Type}.

(** 3749-3796: append coordinate [c] to level [l]. *)
Definition append_one (l c : nat) : stmt V :=
  Block [Asg (VIdx l) (ICst c); append_coord l (IVar (VRes l)) (IVar (VIdx l));
         Asg (VRes l) (IAdd (IVar (VRes l)) (ICst 1))].
(** 3203-3206, the loop, 3799-3823: append the coordinates [cols] below parent
    position [p]. *)
Definition append_row (ap : bool) (l : nat) (p : iexp) (cols : list nat) : stmt V :=
  Block [Asg (VBeg l) (IVar (VRes l)); Block (map (append_one l) cols);
         append_edges ap l p (IVar (VBeg l)) (IVar (VRes l))].

(** A compressed level below a dense level of width [w]. *)
Definition rows_below_dense (alloc w : nat) (rows : list (nat * list nat)) : stmt V :=
  Block [Seq (append_init_level alloc false true 1 (ICst w)) (Asg (VRes 1) (ICst 0));
         Block (map (fun row => append_row false 1 (ICst (fst row)) (snd row)) rows);
         append_finalize true 1 (ICst w)].

(** A compressed level below a compressed level.  A row is appended to the level
    above only if it got coordinates (3768-3785). *)
Definition row_below_compressed (row : nat * list nat) : stmt V :=
  Block [append_init_edges false true 1 (IVar (VRes 0)) (IAdd (IVar (VRes 0)) (ICst 1));
         append_row true 1 (IVar (VRes 0)) (snd row);
         If (BLt (IVar (VBeg 1)) (IVar (VRes 1))) (append_one 0 (fst row)) Skip].
Definition rows_below_compressed (alloc : nat) (rows : list (nat * list nat)) : stmt V :=
  Block [Seq (append_init_level alloc false false 0 (ICst 1)) (Asg (VRes 0) (ICst 0));
         Seq (append_init_level alloc true false 1 (ICst 0)) (Asg (VRes 1) (ICst 0));
         Asg (VBeg 0) (IVar (VRes 0));
         Block (map row_below_compressed rows);
         append_edges true 0 (ICst 0) (IVar (VBeg 0)) (IVar (VRes 0));
         append_finalize false 0 (ICst 1); append_finalize false 1 (IVar (VRes 0))].
End Rows.
