(** Reuse of compiled kernels: isomorphism of statements
    (/repo/src/index_notation/index_notation.cpp 178-625), the parameters of a
    kernel (getTemporaries 3472-3519, getArguments 3387-3413,
    getArgumentAccesses 3598-3617, lower in
    /repo/src/lower/lowerer_impl_imperative.cpp 244-376) and the cache of
    /repo/src/tensor.cpp 583-674. *)
From Coq Require Import List Arith Bool.
Import ListNotations.
From Verif Require Import IndexExpr Eval Notation NotationSpec.
Local Open Scope nat_scope.

Section Iso.
Context {V : Type}.
(** The type and format of a tensor variable, and its fill value. *)
Variable TY : Type.
Variable ty : tensor -> TY.
Variable ty_eqb : TY -> TY -> bool.
(** memcmp on literals of the same type. *)
Variable lit_eqb : V -> V -> bool.

(** ** isomorphic *)
(** std::map with insert (which keeps an existing entry; never used on one). *)
Fixpoint lookup (k : nat) (m : list (nat * nat)) : option nat :=
  match m with [] => None | (a, b) :: m => if Nat.eqb a k then Some b else lookup k m end.
(** The maps isoB and isoA, for tensors and for index variables. *)
Record isomaps := { tB : list (nat * nat); tA : list (nat * nat); vB : list (nat * nat); vA : list (nat * nat) }.
(** check(TensorVar, TensorVar) 210-223. *)
Definition check_tensor (a b : tensor) (m : isomaps) : option isomaps :=
  match lookup a (tB m), lookup b (tA m) with
  | None, None =>
      if ty_eqb (ty a) (ty b) then Some {| tB := (a, b) :: tB m; tA := (b, a) :: tA m; vB := vB m; vA := vA m |} else None
  | Some b', Some a' => if Nat.eqb b' b && Nat.eqb a' a then Some m else None
  | _, _ => None
  end.
(** check(IndexVar, IndexVar) 225-235. *)
Definition check_var (a b : ivar) (m : isomaps) : option isomaps :=
  match lookup a (vB m), lookup b (vA m) with
  | None, None => Some {| tB := tB m; tA := tA m; vB := (a, b) :: vB m; vA := (b, a) :: vA m |}
  | Some b', Some a' => if Nat.eqb b' b && Nat.eqb a' a then Some m else None
  | _, _ => None
  end.
Definition bind_maps (x : option isomaps) (f : isomaps -> option isomaps) : option isomaps :=
  match x with Some m => f m | None => None end.
(** visit(AccessNode) 254-290: the tensors, the number of variables, the
    variables. *)
Fixpoint check_vars (a b : list ivar) (m : isomaps) : option isomaps :=
  match a, b with
  | [], [] => Some m
  | x :: a, y :: b => bind_maps (check_var x y m) (check_vars a b)
  | _, _ => None
  end.
Definition check_access (t : tensor) (vs : list ivar) (u : tensor) (ws : list ivar) (m : isomaps) : option isomaps :=
  bind_maps (check_tensor t u m) (fun m => if Nat.eqb (length vs) (length ws) then check_vars vs ws m else None).
Definition redop_eqb (a b : redop) : bool := match a, b with RSum, RSum | RProd, RProd => true | _, _ => false end.
(** Expressions, 254-400. *)
Fixpoint iso_expr (a b : nexpr V) (m : isomaps) : option isomaps :=
  match a, b with
  | NLit v, NLit w => if lit_eqb v w then Some m else None
  | NAcc t vs, NAcc u ws => check_access t vs u ws m
  | NNeg a, NNeg b => iso_expr a b m
  | NFun f a, NFun g b => if Nat.eqb f g then iso_expr a b m else None
  | NAdd a a', NAdd b b' | NSub a a', NSub b b' | NMul a a', NMul b b' | NDiv a a', NDiv b b' =>
      bind_maps (iso_expr a b m) (iso_expr a' b')
  | NRed o i a, NRed o' j b => if redop_eqb o o' then bind_maps (check_var i j m) (iso_expr a b) else None
  | _, _ => None
  end.
Definition op_eqb (a b : option redop) : bool :=
  match a, b with None, None => true | Some a, Some b => redop_eqb a b | _, _ => false end.
(** Statements, 405-470: the merge strategy of loops is not compared. *)
Fixpoint iso_stmt (a b : nstmt V) (m : isomaps) : option isomaps :=
  match a, b with
  | NAssign t vs o e, NAssign u ws o' e' =>
      bind_maps (bind_maps (check_access t vs u ws m) (iso_expr e e')) (fun m => if op_eqb o o' then Some m else None)
  | NForall an i a, NForall an' j b =>
      bind_maps (bind_maps (check_var i j m) (iso_stmt a b)) (fun m =>
        if Nat.eqb (an_unit an) (an_unit an') && Nat.eqb (an_race an) (an_race an') && Nat.eqb (an_unroll an) (an_unroll an')
        then Some m else None)
  | NWhere c p, NWhere c' p' => bind_maps (iso_stmt c c' m) (iso_stmt p p')
  | _, _ => None
  end.
Definition no_maps : isomaps := {| tB := []; tA := []; vB := []; vA := [] |}.
Definition isomorphic (a b : nstmt V) : bool := match iso_stmt a b no_maps with Some _ => true | None => false end.

(** ** The parameters of a kernel *)
(** getTemporaries: the left-hand sides of all assignments but the first, where
    a consumer comes before its producer. *)
Fixpoint assigned (s : nstmt V) : list tensor :=
  match s with NAssign t _ _ _ => [t] | NForall _ _ s => assigned s | NWhere c p => assigned c ++ assigned p end.
Definition getTemporaries (s : nstmt V) : list tensor := tl (assigned s).
(** getArgumentAccesses: the right-hand sides, where a producer comes before its
    consumer (IndexNotationVisitor::visit(WhereNode)), without temporaries. *)
Fixpoint accesses (e : nexpr V) : list (tensor * list ivar) :=
  match e with
  | NLit _ => []
  | NAcc t vs => [(t, vs)]
  | NNeg e | NFun _ e | NRed _ _ e => accesses e
  | NAdd a b | NSub a b | NMul a b | NDiv a b => accesses a ++ accesses b
  end.
Fixpoint stmt_accesses (s : nstmt V) : list (tensor * list ivar) :=
  match s with
  | NAssign _ _ _ e => accesses e
  | NForall _ _ s => stmt_accesses s
  | NWhere c p => stmt_accesses p ++ stmt_accesses c
  end.
Definition argument_accesses (s : nstmt V) : list (tensor * list ivar) :=
  filter (fun a => negb (mem (fst a) (getTemporaries s))) (stmt_accesses s).
(** getArguments: every tensor once, in order of first occurrence. *)
Definition getArguments (s : nstmt V) : list tensor := add_vars [] (map fst (argument_accesses s)).

(** The position of the first occurrence (the length if there is none). *)
Fixpoint index_of (k : nat) (l : list nat) : nat :=
  match l with [] => 0 | x :: l => if Nat.eqb x k then 0 else S (index_of k l) end.
(** lower 326-376: the tensor and mode that give a variable's dimension; the
    last access of a right-hand side counts, and if there is none so far the
    left-hand side of the assignment. *)
Definition dim_access (tmps : list tensor) (v : ivar) (d : option (tensor * nat)) (a : tensor * list ivar) : option (tensor * nat) :=
  if mem v (snd a) && negb (mem (fst a) tmps) then Some (fst a, index_of v (snd a)) else d.
Fixpoint dim_stmt (tmps : list tensor) (v : ivar) (s : nstmt V) (d : option (tensor * nat)) : option (tensor * nat) :=
  match s with
  | NAssign t vs _ e =>
      match fold_left (dim_access tmps v) (accesses e) d with
      | None => if mem t tmps then None else Some (t, index_of v vs)
      | Some x => Some x
      end
  | NForall _ _ s => dim_stmt tmps v s d
  | NWhere c p => dim_stmt tmps v c (dim_stmt tmps v p d)
  end.
Definition var_dim (s : nstmt V) (v : ivar) : option (tensor * nat) := dim_stmt (getTemporaries s) v s None.

(** ** Calling a kernel *)
(** What a kernel is passed for a tensor: its dimensions and stored components. *)
Record tensor_arg := { ar_dims : list nat; ar_data : list nat -> option V }.
Definition no_arg : tensor_arg := {| ar_dims := []; ar_data := fun _ => None |}.
(** The argument a tensor variable of the compiled statement stands for: results
    come first, operands follow in the order of getArguments. *)
Definition bound_arg (s : nstmt V) (result : tensor_arg) (args : list tensor_arg) (t : tensor) : tensor_arg :=
  if Nat.eqb t (res s) then result else nth (index_of t (getArguments s)) args no_arg.
Variable R : ring_ops V.
Variable fn : nat -> V -> V.
Variable dv : V -> V -> V.
Variable fill : tensor -> V.
(** Components that are not stored have the fill value of the tensor variable in
    the statement that was compiled. *)
Definition arg_store (s : nstmt V) (result : tensor_arg) (args : list tensor_arg) : store :=
  fun t x => if mem t (getTemporaries s) then r0 R
             else match ar_data (bound_arg s result args t) x with Some v => v | None => fill t end.
Definition arg_dim (s : nstmt V) (result : tensor_arg) (args : list tensor_arg) : ivar -> nat :=
  fun v => match var_dim s v with Some (t, k) => nth k (ar_dims (bound_arg s result args t)) 0 | None => 0 end.
(** The components of the result after a call of the kernel compiled from [s]. *)
Definition call (s : nstmt V) (result : tensor_arg) (args : list tensor_arg) : list nat -> V :=
  run R fn dv (arg_dim s result args) s (fun _ => 0) (arg_store s result args) (res s).

(** ** The cache of kernels *)
(** A kernel is known by the statement it was compiled from and by the flag
    assembleWhileCompute. *)
Definition kernel := (nstmt V * bool)%type.
Definition kcache := list (nstmt V * kernel).
(** getComputeKernel 583-596: the last entry with an isomorphic statement. *)
Definition getComputeKernel (c : kcache) (s : nstmt V) : option kernel :=
  match find (fun e => isomorphic s (fst e)) (rev c) with Some e => Some (snd e) | None => None end.
(** compile(stmt, assembleWhileCompute) 644-674, after promotion of scalars. *)
Definition compile (c : kcache) (q : nstmt V * bool) : kernel * kcache :=
  match getComputeKernel c (fst q) with
  | Some k => (k, c)
  | None => (q, c ++ [(fst q, q)])
  end.
(** The cache after a history of compilations. *)
Definition compile_all (h : list (nstmt V * bool)) : kcache := fold_left (fun c q => snd (compile c q)) h [].
End Iso.
