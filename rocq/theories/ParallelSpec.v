(** What a statement with parallel loops may do.

    The iterations of a parallel loop take steps in any order.  A step is one access
    to memory: a read, a write, or, for an atomic assignment, an update.  The
    temporaries of where statements in the loop are private to the iteration, with
    unspecified initial contents; the other tensors are shared.  Threads that run
    several iterations one after the other (the static and dynamic schedules of
    OpenMP) are special cases.  Parallel loops in the body of a parallel loop run
    serially (as in OpenMP unless nested parallelism is switched on). *)
From Coq Require Import List Arith Bool Relations.
Import ListNotations.
From Verif Require Import IndexExpr Eval Notation NotationSpec Parallel.
Local Open Scope nat_scope.

Section Spec.
Context {V : Type}.
Variable R : ring_ops V.
Variable fn : nat -> V -> V.
Variable dv : V -> V -> V.
Variable dim : ivar -> nat.
Notation stmt := (nstmt V).
Notation store := (@store V).

(** ** Steps *)
(** The values that an iteration has read are in its registers, [list V]. *)
Inductive action :=
| ARead (t : tensor) (x : list nat)
| AWrite (t : tensor) (x : list nat) (f : list V -> V)
| AUpdate (t : tensor) (x : list nat) (f : V -> list V -> V)
| AZero (t : tensor).

(** The locations that an expression reads, from left to right. *)
Fixpoint locs (e : nexpr V) (r : val) : list (tensor * list nat) :=
  match e with
  | NLit _ => []
  | NAcc t vs => [(t, map r vs)]
  | NNeg a | NFun _ a => locs a r
  | NAdd a b | NSub a b | NMul a b | NDiv a b => locs a r ++ locs b r
  | NRed _ i a => flat_map (fun c => locs a (ext r i c)) (seq 0 (dim i))
  end.
(** The value of an expression when the locations had the values in [l], and the values
    that are left. *)
Section Reduce.
Variable f : nat -> list V -> V * list V.
Variable op : V -> V -> V.
Variable unit : V.
Fixpoint reduce_from (cs : list nat) (l : list V) : V * list V :=
  match cs with
  | [] => (unit, l)
  | c :: cs => let '(v, l) := f c l in let '(u, l) := reduce_from cs l in (op v u, l)
  end.
End Reduce.
Fixpoint value_from (e : nexpr V) (r : val) (l : list V) : V * list V :=
  match e with
  | NLit v => (v, l)
  | NAcc _ _ => match l with v :: l => (v, l) | [] => (r0 R, []) end
  | NNeg a => let '(v, l) := value_from a r l in (ropp R v, l)
  | NFun f a => let '(v, l) := value_from a r l in (fn f v, l)
  | NAdd a b => let '(v, l) := value_from a r l in let '(u, l) := value_from b r l in (radd R v u, l)
  | NSub a b => let '(v, l) := value_from a r l in let '(u, l) := value_from b r l in (rsub R v u, l)
  | NMul a b => let '(v, l) := value_from a r l in let '(u, l) := value_from b r l in (rmul R v u, l)
  | NDiv a b => let '(v, l) := value_from a r l in let '(u, l) := value_from b r l in (dv v u, l)
  | NRed RSum i a => reduce_from (fun c l => value_from a (ext r i c) l) (radd R) (r0 R) (seq 0 (dim i)) l
  | NRed RProd i a => reduce_from (fun c l => value_from a (ext r i c) l) (rmul R) (r1 R) (seq 0 (dim i)) l
  end.
Definition value (e : nexpr V) (r : val) (l : list V) : V := fst (value_from e r l).

(** An assignment reads the operands, and then writes.  A compound assignment reads
    the old value too, unless it is atomic. *)
Definition assign_actions (atomic : bool) (t : tensor) (vs : list ivar) (op : option redop) (e : nexpr V) (r : val) : list action :=
  let x := map r vs in
  let reads := map (fun p => ARead (fst p) (snd p)) (locs e r) in
  match op with
  | None => reads ++ [AWrite t x (value e r)]
  | Some o =>
      if atomic then reads ++ [AUpdate t x (fun old l => opf R o old (value e r l))]
      else ARead t x :: reads ++ [AWrite t x (fun l => match l with old :: l => opf R o old (value e r l) | [] => r0 R end)]
  end.
Fixpoint actions (depth : nat) (ws : list tensor) (s : stmt) (r : val) : list action :=
  match s with
  | NAssign t vs op e => assign_actions (is_atomic depth ws t vs) t vs op e r
  | NForall an i b => flat_map (fun c => actions (depth_in an depth) ws b (ext r i c)) (seq 0 (dim i))
  | NWhere c p => AZero (res p) :: actions (depth_producer depth) (res p :: ws) p r ++ actions depth ws c r
  end.

(** ** Interleavings *)
(** Shared memory, and an iteration's private memory, registers and remaining steps. *)
Record thread := { private : store; registers : list V; todo : list action }.
Section Threads.
Variable P : list tensor.   (* the private tensors *)
Definition get (M L : store) (t : tensor) : list nat -> V := if mem t P then L t else M t.
Definition put (M L : store) (t : tensor) (x : list nat) (v : V) : store * store :=
  if mem t P then (M, upd L t x v) else (upd M t x v, L).
Definition act (a : action) (M L : store) (g : list V) : store * store * list V :=
  match a with
  | ARead t x => (M, L, g ++ [get M L t x])
  | AWrite t x f => (put M L t x (f g), [])
  | AUpdate t x f => (put M L t x (f (get M L t x) g), [])
  | AZero t => (if mem t P then (M, clear R t L) else (clear R t M, L), g)
  end.
(** One iteration takes a step. *)
Inductive step : store * list thread -> store * list thread -> Prop :=
| step_one : forall before after M L g a rest M' L' g', act a M L g = (M', L', g') ->
    step (M, before ++ {| private := L; registers := g; todo := a :: rest |} :: after)
         (M', before ++ {| private := L'; registers := g'; todo := rest |} :: after).
End Threads.
Definition finished (ths : list thread) : Prop := forall th, In th ths -> todo th = [].
(** The iterations of a loop over [n] coordinates with steps [todos c]. *)
Definition start (n : nat) (L : nat -> store) (todos : nat -> list action) : list thread :=
  map (fun c => {| private := L c; registers := []; todo := todos c |}) (seq 0 n).

(** ** Statements *)
(** [prun depth ws s r T T']: the statement may take the store [T] to [T'].  The numbers
    [depth] and the temporaries [ws] are those of the enclosing loops and where
    statements (0 and [] for a whole statement). *)
Inductive prun : nat -> list tensor -> stmt -> val -> store -> store -> Prop :=
| prun_assign : forall d ws t vs op e r T, prun d ws (NAssign t vs op e) r T (run R fn dv dim (NAssign t vs op e) r T)
| prun_serial : forall d ws an i b r T T', runs_parallel an = false ->
    prun_loop (depth_in an d) ws b i r (seq 0 (dim i)) T T' -> prun d ws (NForall an i b) r T T'
| prun_parallel : forall d ws an i b r T T' L ths, runs_parallel an = true ->
    clos_refl_trans _ (step (temps b)) (T, start (dim i) L (fun c => actions (depth_in an d) ws b (ext r i c))) (T', ths) ->
    finished ths -> prun d ws (NForall an i b) r T T'
| prun_where : forall d ws c p r T T1 T2,
    prun (depth_producer d) (res p :: ws) p r (clear R (res p) T) T1 -> prun d ws c r T1 T2 ->
    prun d ws (NWhere c p) r T (set_tensor T2 (res p) (T (res p)))
with prun_loop : nat -> list tensor -> stmt -> ivar -> val -> list nat -> store -> store -> Prop :=
| prun_nil : forall d ws b i r T, prun_loop d ws b i r [] T T
| prun_cons : forall d ws b i r c cs T T1 T2,
    prun d ws b (ext r i c) T T1 -> prun_loop d ws b i r cs T1 T2 -> prun_loop d ws b i r (c :: cs) T T2.
(** The statement always computes what it computes serially, and it can come to an end. *)
Definition as_serial (s' s : stmt) (r : val) (T : store) : Prop :=
  (forall T', prun 0 [] s' r T T' -> forall t x, T' t x = run R fn dv dim s r T t x) /\
  exists T', prun 0 [] s' r T T'.

(** ** Conditions on statements *)
(** No loop is parallel. *)
Fixpoint serial (s : stmt) : Prop :=
  match s with
  | NAssign _ _ _ _ => True
  | NForall an _ b => an_unit an = not_parallel /\ serial b
  | NWhere c p => serial c /\ serial p
  end.
(** Every loop variable is used in the loop. *)
Fixpoint loops_used (s : stmt) : Prop :=
  match s with
  | NAssign _ _ _ _ => True
  | NForall _ i b => In i (svars b) /\ loops_used b
  | NWhere c p => loops_used c /\ loops_used p
  end.
(** The temporary of a where statement is read by its consumer only. *)
Fixpoint scoped_temps (s : stmt) : Prop :=
  match s with
  | NAssign _ _ _ _ => True
  | NForall _ _ b => scoped_temps b
  | NWhere c p =>
      (forall t, In t (res p :: temps c) -> ~ In t (rhs_reads p)) /\ (forall t, In t (temps p) -> ~ In t (rhs_reads c)) /\
      scoped_temps c /\ scoped_temps p
  end.
(** The bodies of the loops over [i]. *)
Fixpoint bodies (i : ivar) (s : stmt) : list stmt :=
  match s with
  | NAssign _ _ _ _ => []
  | NForall _ j b => if Nat.eqb j i then [b] else bodies i b
  | NWhere c p => bodies i p ++ bodies i c
  end.
End Spec.
