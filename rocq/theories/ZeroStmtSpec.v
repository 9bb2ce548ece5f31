(** Specification for zeroing of statements. *)
From Coq Require Import List Arith Bool.
Import ListNotations.
From Verif Require Import IndexExpr Eval Notation NotationSpec.
Local Open Scope nat_scope.

Section Spec.
Context {V : Type}.
Notation expr := (nexpr V).
Notation stmt := (nstmt V).
(** The accesses of the right-hand sides. *)
Fixpoint expr_uses (e : expr) : list (tensor * list ivar) :=
  match e with
  | NLit _ => []
  | NAcc t vs => [(t, vs)]
  | NNeg a | NFun _ a | NRed _ _ a => expr_uses a
  | NAdd a b | NSub a b | NMul a b | NDiv a b => expr_uses a ++ expr_uses b
  end.
Fixpoint stmt_uses (s : stmt) : list (tensor * list ivar) :=
  match s with
  | NAssign _ _ _ e => expr_uses e
  | NForall _ _ b => stmt_uses b
  | NWhere c p => stmt_uses p ++ stmt_uses c
  end.
(** The variables bound by the loops and reductions of a statement. *)
Fixpoint bound (s : stmt) : list ivar :=
  match s with
  | NAssign _ _ _ e => red_vars e
  | NForall _ i b => i :: bound b
  | NWhere c p => bound p ++ bound c
  end.
(** The access [a] is zero whatever the values of the variables bound in [s]. *)
Definition known_zero (R : ring_ops V) (T : store) (r : val) (s : stmt) (a : tensor * list ivar) : Prop :=
  forall r' : val, (forall i, ~ In i (bound s) -> r' i = r i) -> T (fst a) (map r' (snd a)) = r0 R.
(** Reductions are sums, and nothing that may be zeroed occurs in a
    denominator. *)
Fixpoint plain_expr (bad : tensor * list ivar -> Prop) (e : expr) : Prop :=
  match e with
  | NLit _ | NAcc _ _ => True
  | NNeg a | NFun _ a => plain_expr bad a
  | NAdd a b | NSub a b | NMul a b => plain_expr bad a /\ plain_expr bad b
  | NDiv a b => plain_expr bad a /\ plain_expr bad b /\ forall u, In u (expr_uses b) -> ~ bad u
  | NRed op _ a => op = RSum /\ plain_expr bad a
  end.
Fixpoint plain_stmt (bad : tensor * list ivar -> Prop) (s : stmt) : Prop :=
  match s with
  | NAssign _ _ _ e => plain_expr bad e
  | NForall _ _ b => plain_stmt bad b
  | NWhere c p => plain_stmt bad c /\ plain_stmt bad p
  end.
(** Temporaries are used only by the consumers of the statements that define
    them, and no statement reads its result. *)
Fixpoint scoped (s : stmt) : Prop :=
  match s with
  | NAssign _ _ _ _ => True
  | NForall _ _ b => scoped b
  | NWhere c p => (forall t, In t (temps p) -> ~ In t (rhs_reads c)) /\ ~ In (res p) (rhs_reads p) /\ scoped c /\ scoped p
  end.
End Spec.
