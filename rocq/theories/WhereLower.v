(** Lowering of where statements with dense temporaries,
    /repo/src/lower/lowerer_impl_imperative.cpp lowerWhere 2516-2605,
    codeToInitializeTemporary 2462-2514, getTemporarySize 2147-2160,
    lowerAssignment 449-545, for dense operands and results: loops over whole
    dimensions, arrays in row-major order.  The temporary's array is allocated
    once, outside the loops around the where statement (hoisted), or at it:
    either way its contents are arbitrary before the initialisation loop, and
    stay behind afterwards.  Scalar temporaries are arrays of one element.
    Not modelled: parallel temporaries and temporaries with index lists
    (Workspace.v). *)
From Coq Require Import List Arith Lia Bool.
Import ListNotations.
From Verif Require Import IndexExpr Eval Notation NotationSpec Outcome.
Local Open Scope nat_scope.

Section Model.
Context {V : Type}.

(** The emitted code: loops, the initialisation loop
    [for (p = 0; p < n; p++) t[p] = 0], stores.  Right-hand sides are kept as
    expressions whose accesses are loads. *)
Inductive wcode :=
| WFor (i : ivar) (n : nat) (b : wcode)
| WZero (t : tensor) (n : nat)
| WStore (t : tensor) (vs : list ivar) (op : option redop) (e : nexpr V)
| WSeq (a b : wcode).

Variable dim : ivar -> nat.

(** getTemporarySize 2153-2166: the product of the dimensions of the variables
    that index the temporary. *)
Definition temporary_size (vs : list ivar) : nat := fold_right (fun v n => dim v * n) 1 vs.

(** lowerWhere 2561-2600: initialisation loop, producer, consumer. *)
Fixpoint lower (s : nstmt V) : wcode :=
  match s with
  | NAssign t vs op e => WStore t vs op e
  | NForall _ i b => WFor i (dim i) (lower b)
  | NWhere c p => WSeq (WZero (res p) (temporary_size (lhs p))) (WSeq (lower p) (lower c))
  end.

(** Arrays; reading or writing outside one is undefined ([None]). *)
Definition memory := tensor -> list V.
Definition set_mem (m : memory) (t : tensor) (a : list V) : memory := fun t' => if Nat.eqb t' t then a else m t'.

Variable R : ring_ops V.
Variable fn : nat -> V -> V.
Variable dv : V -> V -> V.
(** The dimensions of each tensor. *)
Variable shp : tensor -> list nat.

(** mode_format_dense.cpp locate 36-41, level by level. *)
Definition loc (ws xs : list nat) : nat := fold_left (fun p wx => p * fst wx + snd wx) (combine ws xs) 0.

Definition opt2 {A B C} (f : A -> B -> C) (a : option A) (b : option B) : option C :=
  match a, b with Some a, Some b => Some (f a b) | _, _ => None end.
(** Reductions do not occur in concrete index notation. *)
Fixpoint weval (m : memory) (r : val) (e : nexpr V) : option V :=
  match e with
  | NLit v => Some v
  | NAcc t vs => nth_error (m t) (loc (shp t) (map r vs))
  | NNeg a => option_map (ropp R) (weval m r a)
  | NFun f a => option_map (fn f) (weval m r a)
  | NAdd a b => opt2 (radd R) (weval m r a) (weval m r b)
  | NSub a b => opt2 (rsub R) (weval m r a) (weval m r b)
  | NMul a b => opt2 (rmul R) (weval m r a) (weval m r b)
  | NDiv a b => opt2 dv (weval m r a) (weval m r b)
  | NRed _ _ _ => None
  end.

Definition write (m : memory) (t : tensor) (p : nat) (v : V) : option memory :=
  if p <? length (m t) then Some (set_mem m t (upd_nth (m t) p v)) else None.
Definition obnd {A B} (o : option A) (f : A -> option B) : option B := match o with Some a => f a | None => None end.
Definition iter_range (n : nat) (f : nat -> memory -> option memory) (m : memory) : option memory :=
  fold_left (fun o c => obnd o (f c)) (seq 0 n) (Some m).

Fixpoint wexec (c : wcode) (r : val) (m : memory) : option memory :=
  match c with
  | WFor i n b => iter_range n (fun k => wexec b (ext r i k)) m
  | WZero t n => iter_range n (fun k m => write m t k (r0 R)) m
  | WStore t vs op e =>
      let p := loc (shp t) (map r vs) in
      obnd (weval m r e) (fun v =>
        match op with
        | None => write m t p v
        | Some o => obnd (nth_error (m t) p) (fun u => write m t p (opf R o u v))
        end)
  | WSeq a b => obnd (wexec a r m) (wexec b r)
  end.
End Model.
Arguments wcode V : clear implicits.
