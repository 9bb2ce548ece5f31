(** Kernels whose result has compressed levels:
    /repo/src/lower/lowerer_impl_imperative.cpp (initResultArrays 3054-3145 and
    3195-3280, finalizeResultArrays 3148-3195, resizeAndInitValues 3283-3316,
    appendCoordinate 3749-3796, generateAppendPositions 3799-3823),
    /repo/src/lower/mode_format_compressed.cpp (append functions 106-197) and
    /repo/src/ir/ir_generators.cpp 32-47.
    Result levels are dense or compressed; no branchless levels, no windows, one
    result; operands as in Lower.v. *)
From Coq Require Import List Arith Lia Bool.
Import ListNotations.
From Verif Require Import Storage IndexExpr Eval Lattice LatticeSpec LoopIR Lower DenseKernel.
Local Open Scope nat_scope.

(** Local variables of the kernel: the loop variable "p...", the running sum
    "cs...", the capacities "..._capacity" (values), "..._crd_size" and
    "..._pos_size", and "..._new_size". *)
Definition v_p : var := VLoc 0.
Definition v_cs : var := VLoc 1.
Definition v_cap : var := VLoc 2.
Definition v_new : var := VLoc 3.
Definition v_ccap (l : nat) : var := VLoc (4 + 2 * l).
Definition v_pcap (l : nat) : var := VLoc (5 + 2 * l).

Section Sparse.
Context {V : Type}.
Variable R : ring_ops V.

(** ir_generators.cpp 32-37, on an index array and on a value array. *)
Definition full (size : var) (needed : iexp) : bexp := BNot (BLt needed (IVar size)).
Definition double_i (a : iname) (size : var) (needed : iexp) : stmt V :=
  If (full size needed)
     (Block [RszI a (IMul (IVar size) (ICst 2)); Asg size (IMul (IVar size) (ICst 2))]) Skip.
Definition double_v (n : nat) (size : var) (needed : iexp) : stmt V :=
  If (full size needed)
     (Block [RszV n (IMul (IVar size) (ICst 2)); Asg size (IMul (IVar size) (ICst 2))]) Skip.
(** ir_generators.cpp 39-47. *)
Definition new_size (size : var) (needed : iexp) : iexp :=
  IMax (IMul (IVar size) (ICst 2)) (IAdd needed (ICst 1)).
Definition atleast_i (a : iname) (size : var) (needed : iexp) : stmt V :=
  If (full size needed)
     (Block [Asg v_new (new_size size needed); RszI a (IVar v_new); Asg size (IVar v_new)]) Skip.
Definition atleast_v (n : nat) (size : var) (needed : iexp) : stmt V :=
  If (full size needed)
     (Block [Asg v_new (new_size size needed); RszV n (IVar v_new); Asg size (IVar v_new)]) Skip.

(** mode_format_compressed.cpp 106-120, getAppendCoord. *)
Definition append_coord (l : nat) (p i : iexp) : stmt V :=
  Block [double_i (RCrd l) (v_ccap l) p; StI (RCrd l) p i].

(** 122-129, getAppendEdges; [ap]: there is no parent level or it has append. *)
Definition append_edges (ap : bool) (l : nat) (prev beg fin : iexp) : stmt V :=
  StI (RPos l) (IAdd prev (ICst 1)) (if ap then fin else ISub fin beg).

(** 135-153, getAppendInitEdges; [lit]: the lower bound is the literal 0. *)
Definition append_init_edges (lit ap : bool) (l : nat) (pb pe : iexp) : stmt V :=
  if lit then Skip
  else if ap then double_i (RPos l) (v_pcap l) pe
  else Block [atleast_i (RPos l) (v_pcap l) pe;
              For v_p (IAdd pb (ICst 1)) (IAdd pe (ICst 1)) (StI (RPos l) (IVar v_p) (ICst 0))].

(** 155-188, getAppendInitLevel; [below]: the size of the previous level is the
    literal 0 (there is a compressed level above); [sz]: that size otherwise;
    [dp]: there is a parent level and it is dense. *)
Definition append_init_level (alloc : nat) (below dp : bool) (l : nat) (sz : iexp) : stmt V :=
  Block [if below then Seq (Asg (v_pcap l) (ICst alloc)) (RszI (RPos l) (IVar (v_pcap l)))
         else RszI (RPos l) (IAdd sz (ICst 1));
         StI (RPos l) (ICst 0) (ICst 0);
         if dp && negb below
         then For v_p (ICst 1) (IAdd sz (ICst 1)) (StI (RPos l) (IVar v_p) (ICst 0)) else Skip;
         Asg (v_ccap l) (ICst alloc);
         RszI (RCrd l) (IVar (v_ccap l))].

(** 190-211, getAppendFinalizeLevel. *)
Definition append_finalize (dp : bool) (l : nat) (sz : iexp) : stmt V :=
  if dp then
    Block [Asg v_cs (ICst 0);
           For v_p (ICst 1) (IAdd sz (ICst 1))
             (Block [Asg v_cs (IAdd (IVar v_cs) (IBuf (RPos l) (IVar v_p)));
                     StI (RPos l) (IVar v_p) (IVar v_cs)])]
  else Skip.

(** The result: its index variables and level kinds, outermost level first;
    [tres] gives the widths of its dense levels, [n] is its value array. *)
Variable srt : list point -> list point.
Variable dimf : ivar -> nat.
Variable n tres : nat.
Variable vs : list (ivar * kind).
Variable alloc allocv : nat.            (* allocSize of the level format, DEFAULT_ALLOC_SIZE *)
Variable reduce : bool.                 (* compound assignment += *)
Variable zinit : bool.                  (* isNonFullyInitialized: sparse inserts into dense levels *)
Variable asm comp : bool.               (* generateAssembleCode, generateComputeCode *)

Definition comp_at_level (l : nat) : bool :=
  match nth_error vs l with Some (_, KComp) => true | _ => false end.
(** No parent level, or the parent level has append. *)
Definition app_parent (l : nat) : bool := match l with 0 => true | S l => comp_at_level l end.
Definition dense_parent (l : nat) : bool := negb (app_parent l).
(** A compressed level above [l]. *)
Definition comp_above (l : nat) : bool := existsb comp_at_level (seq 0 l).
Definition leaf_level (l : nat) : bool := S l =? length vs.
(** 3737-3746, isLastAppender. *)
Definition last_appender (l : nat) : bool :=
  comp_at_level l && negb (existsb comp_at_level (seq (S l) (length vs - S l))).

(** Sizes as finalizeResultArrays accumulates them: the position variable of a
    compressed level, the width times the size above for a dense one. *)
Fixpoint size_of (l : nat) : iexp :=
  match l with
  | 0 => ICst 1
  | S l => if comp_at_level l then IVar (VRes l) else IMul (size_of l) (IDimOf tres l)
  end.
(** Sizes as initResultArrays accumulates them for an index that exists
    (mode_format_compressed.cpp 131-133, getSize). *)
Fixpoint size_in (l : nat) : iexp :=
  match l with
  | 0 => ICst 1
  | S l => if comp_at_level l then IBuf (RPos l) (size_in l) else IMul (size_in l) (IDimOf tres l)
  end.

(** Product of the widths of the dense levels [l, l+1, ...] and the next
    compressed level, if any (3225-3245). *)
Fixpoint stride_from (l : nat) (k : nat) : iexp * option nat :=
  match k with
  | 0 => (ICst 1, None)
  | S k => if comp_at_level l then (ICst 1, Some l)
           else let r := stride_from (S l) k in (IMul (IDimOf tres l) (fst r), snd r)
  end.

(** initValues 3319-3335: zero the [b]-th block of [size] values. *)
Definition init_block (b size : iexp) : stmt V :=
  For v_p (IMul b size) (IMul (IAdd b (ICst 1)) size) (StV n (IVar v_p) (XLit (r0 R))).

(** 3054-3145, initResultArrays at the start of the kernel. *)
Definition init_levels : stmt V :=
  Block (map (fun l => if comp_at_level l
                       then Seq (append_init_level alloc (comp_above l) (dense_parent l) l (size_of l))
                                (Asg (VRes l) (ICst 0))
                       else Skip) (seq 0 (length vs))).
Definition init_result : stmt V :=
  if asm then
    Seq init_levels
        (if comp then Seq (Asg v_cap (ICst allocv)) (RszV n (IVar v_cap)) else Skip)
  else
    Seq (Block (map (fun l => if last_appender l then Asg (VRes l) (ICst 0) else Skip) (seq 0 (length vs))))
        (if negb (comp_at_level (length vs - 1)) && (zinit || reduce)
         then init_block (ICst 0) (size_in (length vs)) else Skip).

(** 3195-3280, initResultArrays before the loop of level [l]. *)
Definition res_pre (l : nat) : stmt V :=
  if asm then
    Seq (if comp_at_level l then Asg (VBeg l) (IVar (VRes l)) else Skip)
        (if app_parent l then
           let pp := parent_pos VRes l in
           let sf := stride_from l (length vs - l) in
           match snd sf with
           | Some l' => append_init_edges (l =? 0) (app_parent l') l'
                          (IMul pp (fst sf)) (IMul (IAdd pp (ICst 1)) (fst sf))
           | None => if comp && negb (l =? 0)
                     then Seq (atleast_v n v_cap (IMul (IAdd pp (ICst 1)) (fst sf)))
                              (if zinit || reduce then init_block pp (fst sf) else Skip)
                     else Skip
           end
         else Skip)
  else Skip.

(** 3283-3316, resizeAndInitValues. *)
Definition vals_enter : stmt V :=
  let pos := IVar (VRes (length vs - 1)) in
  if comp then Seq (if asm then double_v n v_cap pos else Skip)
                   (if reduce then StV n pos (XLit (r0 R)) else Skip)
  else Skip.

(** lowerForallBody 2070-2146: initVals and declInserterPosVars.  In a kernel
    that only computes, positions of dense levels above the last compressed
    level are not used and their declarations are removed by simplify. *)
Definition res_enter (bound : list ivar) (i : ivar) (l : nat) : stmt V :=
  if comp_at_level l then (if leaf_level l then vals_enter else Skip)
  else if asm || negb (existsb comp_at_level (seq (S l) (length vs - S l)))
       then decl_locate (i :: bound) VRes tres l vs else Skip.

(** 3749-3796, appendCoordinate. *)
Definition res_exit (i : ivar) (l : nat) : stmt V :=
  if comp_at_level l then
    if asm || last_appender l then
      let code := Seq (if asm then append_coord l (IVar (VRes l)) (IVar (VIdx i)) else Skip)
                      (Asg (VRes l) (IAdd (IVar (VRes l)) (ICst 1))) in
      if comp_at_level (S l) then If (BLt (IVar (VBeg (S l))) (IVar (VRes (S l)))) code Skip else code
    else Skip
  else Skip.

(** 3799-3823, generateAppendPositions. *)
Definition res_post (l : nat) : stmt V :=
  if asm && comp_at_level l
  then append_edges (app_parent l) l (parent_pos VRes l) (IVar (VBeg l)) (IVar (VRes l)) else Skip.

(** The code for the loop over [i], by the level of the result that [i] indexes. *)
Definition at_level (i : ivar) (f : nat -> stmt V) : stmt V :=
  match index_of i vs with Some l => f l | None => Skip end.
Definition sparse_hooks : @hooks V :=
  Hooks (fun _ i => at_level i res_pre)
        (fun bound i => at_level i (res_enter bound i))
        (fun _ i => at_level i (res_exit i))
        (fun _ i => at_level i res_post)
        (fun e => if comp then store_leaf n vs reduce e else Skip).

(** 3148-3195, finalizeResultArrays. *)
Definition finalize_result : stmt V :=
  if asm then
    Seq (Block (map (fun l => if comp_at_level l then append_finalize (dense_parent l) l (size_of l) else Skip)
                    (seq 0 (length vs))))
        (if comp then Skip else RszV n (size_of (length vs)))
  else Skip.

(** 236-445, lower: the kernel. *)
Definition sparse_code (vars : list ivar) (e : expr V) : stmt V :=
  Block [init_result; lower srt dimf sparse_hooks vars [] e; finalize_result].
End Sparse.

Section Kernels.
Context {V : Type}.
Variable R : ring_ops V.
Variable srt : list point -> list point.
Variable dimf : ivar -> nat.
Variable n tres : nat.
Variable vs : list (ivar * kind).
Variable alloc allocv : nat.
Variable reduce : bool.

(** hasSparseInserts 201-231: a loop over the variable of a dense level of the
    result has an iterator over a compressed operand. *)
Definition sparse_dense_inserts (vars : list ivar) (e : expr V) : bool :=
  existsb (fun i => match index_of i vs with
                    | Some l => negb (comp_at_level vs l)
                    | None => false
                    end &&
                    existsb (fun it => match it with Lev _ _ => true | Dim => false end)
                            (lat_iters (makeLattice srt i e))) vars.

(** The kernel that assembles and computes, and the one that only computes. *)
Definition sparse_kernel (vars : list ivar) (e : expr V) : stmt V :=
  sparse_code R srt dimf n tres vs alloc allocv reduce (sparse_dense_inserts vars e) true true vars e.
Definition sparse_compute (vars : list ivar) (e : expr V) : stmt V :=
  sparse_code R srt dimf n tres vs alloc allocv reduce (sparse_dense_inserts vars e) false true vars e.
(** The kernel that only assembles.  Loops that store nothing are dropped
    (lowerForall 860-864): these are the ones inside the loop of the last
    compressed level, so the nest is cut there; [vars] are the loops kept. *)
Definition sparse_assemble (vars : list ivar) (e : expr V) : stmt V :=
  sparse_code R srt dimf n tres vs alloc allocv reduce false true false vars e.
End Kernels.

(** The storage a result's arrays describe: /repo/src/tensor.cpp 263-294,
    unpackTensorData. *)
Section Unpack.
Context {V : Type}.
Fixpoint unpack_levels (l np : nat) (ks : list (kind * nat)) (ib : iname -> list nat) : list level * nat :=
  match ks with
  | [] => ([], np)
  | (KDense, w) :: ks => let r := unpack_levels (S l) (np * w) ks ib in (LDense w :: fst r, snd r)
  | (KComp, _) :: ks =>
      let size := nth np (ib (RPos l)) 0 in
      let r := unpack_levels (S l) size ks ib in
      (LComp (firstn (S np) (ib (RPos l))) (firstn size (ib (RCrd l))) :: fst r, snd r)
  end.
Definition unpack_result (ks : list (kind * nat)) (n : nat) (st : state V) : storage V :=
  let r := unpack_levels 0 1 ks (ibuf st) in
  mkStorage (fst r) (firstn (snd r) (vbuf st n)).
End Unpack.
