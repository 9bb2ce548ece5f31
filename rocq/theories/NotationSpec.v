(** Meaning of index notation over a commutative ring. *)
From Coq Require Import List Arith Lia Bool Ring_theory.
Import ListNotations.
From Verif Require Import IndexExpr Eval Notation.
Local Open Scope nat_scope.

Section Meaning.
Context {V : Type}.
Variable R : ring_ops V.
Variable fn : nat -> V -> V.        (* the unary functions *)
Variable dv : V -> V -> V.          (* division *)
Variable dim : ivar -> nat.         (* the dimension of each index variable *)

(** A store gives every tensor's value at every coordinate. *)
Definition store := tensor -> list nat -> V.
(** Valuations of index variables. *)
Definition val := ivar -> nat.
Definition ext (r : val) (i : ivar) (c : nat) : val := fun j => if Nat.eqb j i then c else r j.

(** Iterated sum and product over [0, n). *)
Definition sum (n : nat) (f : nat -> V) : V := fold_right (fun c a => radd R (f c) a) (r0 R) (seq 0 n).
Definition prod (n : nat) (f : nat -> V) : V := fold_right (fun c a => rmul R (f c) a) (r1 R) (seq 0 n).

(** The value of an expression. *)
Fixpoint neval (T : store) (r : val) (e : nexpr V) : V :=
  match e with
  | NLit v => v
  | NAcc t vs => T t (map r vs)
  | NNeg a => ropp R (neval T r a)
  | NFun f a => fn f (neval T r a)
  | NAdd a b => radd R (neval T r a) (neval T r b)
  | NSub a b => rsub R (neval T r a) (neval T r b)
  | NMul a b => rmul R (neval T r a) (neval T r b)
  | NDiv a b => dv (neval T r a) (neval T r b)
  | NRed RSum i a => sum (dim i) (fun c => neval T (ext r i c) a)
  | NRed RProd i a => prod (dim i) (fun c => neval T (ext r i c) a)
  end.

(** ** Statements as state transformers *)
Definition upd (T : store) (t : tensor) (x : list nat) (v : V) : store :=
  fun t' x' => if Nat.eqb t' t then if list_eqb x' x then v else T t' x' else T t' x'.
Definition set_tensor (T : store) (t : tensor) (f : list nat -> V) : store :=
  fun t' => if Nat.eqb t' t then f else T t'.
Definition clear (t : tensor) (T : store) : store := set_tensor T t (fun _ => r0 R).
Definition opf (op : redop) : V -> V -> V := match op with RSum => radd R | RProd => rmul R end.

(** The tensor a statement computes. *)
Fixpoint res (s : nstmt V) : tensor :=
  match s with NAssign t _ _ _ => t | NForall _ _ s => res s | NWhere c _ => res c end.

(** Loops run over the dimension in order.  The temporary of a where statement
    is local: it is zero before the producer runs and gone afterwards. *)
Fixpoint run (s : nstmt V) (r : val) (T : store) : store :=
  match s with
  | NAssign t vs op e =>
      let x := map r vs in
      upd T t x (match op with None => neval T r e | Some o => opf o (T t x) (neval T r e) end)
  | NForall _ i b => fold_left (fun T c => run b (ext r i c) T) (seq 0 (dim i)) T
  | NWhere c p =>
      let t := res p in
      set_tensor (run c r (run p r (clear t T))) t (T t)
  end.

(** The coordinates of the result of a left-hand side with variables [vs]. *)
Definition in_dims (vs : list ivar) (x : list nat) : Prop := Forall2 (fun i c => c < dim i) vs x.

(** ** The meaning of Einsum notation *)
(** The terms of an expression with their signs (the unary functions other than
    negation bound a term). *)
Fixpoint terms (pos : bool) (e : nexpr V) : list (bool * nexpr V) :=
  match e with
  | NAdd a b => terms pos a ++ terms pos b
  | NSub a b => terms pos a ++ terms (negb pos) b
  | NNeg a => terms (negb pos) a
  | _ => [(pos, e)]
  end.
(** The variables of an expression's accesses. *)
Fixpoint vars (e : nexpr V) : list ivar :=
  match e with
  | NLit _ => []
  | NAcc _ vs => vs
  | NNeg e | NFun _ e => vars e
  | NAdd a b | NSub a b | NMul a b | NDiv a b => vars a ++ vars b
  | NRed _ i e => remove Nat.eq_dec i (vars e)
  end.
(** Sum of [f] over all values of the variables [is]. *)
Fixpoint sum_over (is : list ivar) (f : val -> V) (r : val) : V :=
  match is with [] => f r | i :: is => sum (dim i) (fun c => sum_over is f (ext r i c)) end.
(** The variables to sum a term over: those that are not free. *)
Definition bound_vars (free : list ivar) (e : nexpr V) : list ivar :=
  filter (fun i => negb (mem i free)) (nodup Nat.eq_dec (vars e)).
(** Every term is summed over its own bound variables. *)
Definition einsum_value (free : list ivar) (T : store) (r : val) (e : nexpr V) : V :=
  fold_right (fun (p : bool * nexpr V) a => radd R (let v := sum_over (bound_vars free (snd p)) (fun r => neval T r (snd p)) r in
                                 if fst p then v else ropp R v) a)
    (r0 R) (terms true e).
(** All terms of [e] have the same bound variables as [e]. *)
Definition uniform (free : list ivar) (e : nexpr V) : Prop :=
  forall p, In p (terms true e) -> forall i, In i (bound_vars free e) -> In i (bound_vars free (snd p)).

(** The operands of the outermost additions. *)
Fixpoint operands_uniform (free : list ivar) (e : nexpr V) : Prop :=
  match e with
  | NNeg a => operands_uniform free a
  | NAdd a b | NSub a b => uniform free a /\ uniform free b
  | _ => True
  end.
(** No additions below the unary functions. *)
Fixpoint no_add (e : nexpr V) : bool :=
  match e with
  | NAdd _ _ | NSub _ _ => false
  | NLit _ | NAcc _ _ => true
  | NNeg a | NFun _ a | NRed _ _ a => no_add a
  | NMul a b | NDiv a b => no_add a && no_add b
  end.
Fixpoint fun_terms (e : nexpr V) : bool :=
  match e with
  | NFun _ a => no_add a
  | NLit _ | NAcc _ _ => true
  | NNeg a | NRed _ _ a => fun_terms a
  | NAdd a b | NSub a b | NMul a b | NDiv a b => fun_terms a && fun_terms b
  end.


(** ** Side conditions on statements *)
(** The tensors an expression reads. *)
Fixpoint reads (e : nexpr V) : list tensor :=
  match e with
  | NLit _ => []
  | NAcc t _ => [t]
  | NNeg e | NFun _ e | NRed _ _ e => reads e
  | NAdd a b | NSub a b | NMul a b | NDiv a b => reads a ++ reads b
  end.

(** The tensors read by the right-hand sides of a statement, its temporaries,
    and its free index variables. *)
Fixpoint rhs_reads (s : nstmt V) : list tensor :=
  match s with
  | NAssign _ _ _ e => reads e
  | NForall _ _ b => rhs_reads b
  | NWhere c p => rhs_reads p ++ rhs_reads c
  end.
Fixpoint temps (s : nstmt V) : list tensor :=
  match s with
  | NAssign _ _ _ _ => []
  | NForall _ _ b => temps b
  | NWhere c p => res p :: temps p ++ temps c
  end.
Fixpoint svars (s : nstmt V) : list ivar :=
  match s with
  | NAssign _ vs _ e => vs ++ vars e
  | NForall _ i b => remove Nat.eq_dec i (svars b)
  | NWhere c p => svars p ++ svars c
  end.
(** The left-hand side and the operator of the assignment to the result. *)
Fixpoint lhs (s : nstmt V) : list ivar :=
  match s with NAssign _ vs _ _ => vs | NForall _ _ b => lhs b | NWhere c _ => lhs c end.
Fixpoint op_of (s : nstmt V) : option redop :=
  match s with NAssign _ _ op _ => op | NForall _ _ b => op_of b | NWhere c _ => op_of c end.
(** The loops around the assignment to the result. *)
Fixpoint spine (s : nstmt V) : list ivar :=
  match s with NAssign _ _ _ _ => [] | NForall _ i b => i :: spine b | NWhere c _ => spine c end.

(** The variables of the loops [bs] that are used on the way to the assignment
    are variables of its left-hand side (so that a plain assignment stores the
    same value whenever it stores at a coordinate). *)
Fixpoint determined (bs : list ivar) (s : nstmt V) : Prop :=
  match s with
  | NAssign _ vs _ e => forall v, In v (vars e) -> In v bs -> In v vs
  | NForall _ i b => ~ In i bs /\ determined (i :: bs) b
  | NWhere c p => (forall v, In v (svars p) -> In v bs -> In v (lhs c)) /\ determined bs c
  end.
(** A statement whose result is not one of its operands or temporaries, and
    whose order of iteration does not matter: it accumulates, or each result
    component is assigned one value only.  Its producers are such statements
    too. *)
Fixpoint producers (s : nstmt V) : list (nstmt V) :=
  match s with
  | NAssign _ _ _ _ => []
  | NForall _ _ b => producers b
  | NWhere c p => p :: producers p ++ producers c
  end.
Definition order_free1 (s : nstmt V) : Prop :=
  ~ In (res s) (rhs_reads s) /\ ~ In (res s) (temps s) /\ (op_of s = None -> determined [] s).
(** No loop is nested in a loop over the same variable. *)
Fixpoint no_shadow (bs : list ivar) (s : nstmt V) : Prop :=
  match s with
  | NAssign _ _ _ _ => True
  | NForall _ i b => ~ In i bs /\ no_shadow (i :: bs) b
  | NWhere c p => no_shadow bs c /\ no_shadow bs p
  end.
Definition order_free (s : nstmt V) : Prop :=
  order_free1 s /\ (forall p, In p (producers s) -> order_free1 p) /\ no_shadow [] s.
(** [nest_of is s b]: [s] is the loop nest over [is] around [b], with any
    annotations. *)
Inductive nest_of : list ivar -> nstmt V -> nstmt V -> Prop :=
| nest_nil : forall b, nest_of [] b b
| nest_cons : forall an i is s b, nest_of is s b -> nest_of (i :: is) (NForall an i s) b.

(** ** Conditions on expressions *)
(** All reductions are sums; the variables reductions bind. *)
Fixpoint sum_only (e : nexpr V) : Prop :=
  match e with
  | NLit _ | NAcc _ _ => True
  | NNeg a | NFun _ a => sum_only a
  | NAdd a b | NSub a b | NMul a b | NDiv a b => sum_only a /\ sum_only b
  | NRed op _ a => op = RSum /\ sum_only a
  end.
Fixpoint red_vars (e : nexpr V) : list ivar :=
  match e with
  | NLit _ | NAcc _ _ => []
  | NNeg a | NFun _ a => red_vars a
  | NAdd a b | NSub a b | NMul a b | NDiv a b => red_vars a ++ red_vars b
  | NRed _ i a => i :: red_vars a
  end.
(** The valuation that gives the variables [vs] the coordinates [x]. *)
Definition bind (vs : list ivar) (x : list nat) : val :=
  fold_right (fun p r => ext r (fst p) (snd p)) (fun _ => 0) (combine vs x).
End Meaning.
