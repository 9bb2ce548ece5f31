(** Choosing how the consumer of a temporary vector is iterated,
    /repo/src/lower/lowerer_impl_imperative.cpp: canAccelerateDenseTemp
    2272-2342, its uses in lowerWhere 2516-2605 and lowerForall 829-852, and the
    per-thread parts of shared temporaries
    (codeToInitializeLocalTemporaryParallel 2344-2410,
    codeToInitializeTemporaryParallel 2412-2459,
    codeToInitializeDenseAcceleratorArrays 2197-2270).
    The statement is where(forall(j, A(..) op= e), producer), where the producer
    stores into the temporary w at a sequence of positions; the loop over the
    list of stored positions is that of Workspace.v.
    Not modelled: consumers with several loops, temporaries accessed at other
    variables than the consumer's loop variable, CUDA code (never accelerated),
    and kernels that only assemble. *)
From Coq Require Import List Arith Bool.
Import ListNotations.
From Verif Require Import IndexExpr Eval Notation NotationSpec WhereLower Workspace.
Local Open Scope nat_scope.

(** What the decision looks at in the format of a level (mode_format.h isFull,
    isOrdered), and a tensor's format: [f_ordering] gives the mode stored at
    each level (format.h getModeOrdering), [f_levels] the level formats in the
    order of the levels (getModeFormats). *)
Record level := Level { l_full : bool; l_ordered : bool }.
Record fmt := Fmt { f_ordering : list nat; f_levels : list level }.

(** The pair that canAccelerateDenseTemp returns: iterate over the stored
    positions only, and sort them first; or an access past the end of a vector. *)
Inductive decision := Decided (accelerate sort : bool) | Undefined.

(** std::find_if, as an index. *)
Fixpoint find_index {A} (p : A -> bool) (l : list A) : option nat :=
  match l with
  | [] => None
  | x :: l => if p x then Some 0 else option_map S (find_index p l)
  end.

Section Decision.
(** ProvenanceGraph::isDerivedFrom *)
Variable derived : ivar -> ivar -> bool.

(** 2286-2342.  [inputs], [results]: the index variables of the accesses that the
    consumer reads and writes.  [flag]: TensorVar::getShouldAccel. *)
Definition can_accelerate (cuda flag dense : bool) (order : nat)
    (inputs : list (list ivar)) (results : list (list ivar * fmt)) : decision :=
  if cuda then Decided false false else
  if negb flag then Decided false false else
  if negb dense || negb (order =? 1) then Decided false false else
  match inputs with
  | [tempVar] =>
    match results with
    | [(resultVars, f)] =>
      match resultVars with
      | [] => Decided true false
      | _ =>
        match tempVar with
        | [] => Undefined                                         (* tempVar[0] *)
        | t :: _ =>
          match find_index (fun v => (v =? t) || derived t v) resultVars with
          | None => Decided true false
          | Some ix =>
            match nth_error (f_ordering f) ix with
            | None => Undefined
            | Some modeIndex =>
              match nth_error (f_levels f) modeIndex with
              | None => Undefined
              | Some lv => if l_full lv then Decided false false else Decided true (l_ordered lv)
              end
            end
          end
        end
      end
    | _ => Decided false false
    end
  | _ => Decided false false
  end.
End Decision.

Section Consumer.
Context {V : Type}.
Variable R : ring_ops V.
Variable fn : nat -> V -> V.       (* unary functions, zero-preserving or not *)
Variable dv : V -> V -> V.         (* division *)
Variable inj : nat -> V.           (* an index variable used as a value *)

(** The consumer's right-hand side. *)
Inductive cexpr :=
| CAcc (t : tensor) (vs : list ivar) | CLit (v : V) | CVar (i : ivar) | CNeg (a : cexpr) | CFun (f : nat) (a : cexpr)
| CAdd (a b : cexpr) | CSub (a b : cexpr) | CMul (a b : cexpr) | CDiv (a b : cexpr).

(** getArgumentAccesses, index_notation.cpp 3598-3617: every access, in order. *)
Fixpoint accesses (e : cexpr) : list (tensor * list ivar) :=
  match e with
  | CAcc t vs => [(t, vs)]
  | CLit _ | CVar _ => []
  | CNeg a | CFun _ a => accesses a
  | CAdd a b | CSub a b | CMul a b | CDiv a b => accesses a ++ accesses b
  end.

(** The value of the right-hand side in one iteration: [x] is the temporary's
    value at the loop variable, [other] the components of other tensors. *)
Fixpoint ceval (r : ivar -> nat) (other : tensor -> list nat -> V) (w : tensor) (x : V) (e : cexpr) : V :=
  match e with
  | CAcc t vs => if t =? w then x else other t (map r vs)
  | CLit v => v
  | CVar i => inj (r i)
  | CNeg a => ropp R (ceval r other w x a)
  | CFun f a => fn f (ceval r other w x a)
  | CAdd a b => radd R (ceval r other w x a) (ceval r other w x b)
  | CSub a b => rsub R (ceval r other w x a) (ceval r other w x b)
  | CMul a b => rmul R (ceval r other w x a) (ceval r other w x b)
  | CDiv a b => dv (ceval r other w x a) (ceval r other w x b)
  end.

(** Where the iterations store, below the current position of the result's
    outer levels: the components of a full level, the coordinates and values
    appended to a sparse one, or a component that does not depend on the loop's
    variable. *)
Inductive place := Full (block : list V) | Appended (l : list (nat * V)) | Reduced (v : V).

(** lowerAssignment 506-545, and appendCoordinate for sparse levels. *)
Definition store (op : option redop) (p : place) (iv : nat * V) : option place :=
  match p with
  | Full b => option_map Full (compute R op b (fst iv) (snd iv))
  | Appended l => Some (Appended (l ++ [iv]))
  | Reduced x => Some (Reduced (match op with None => snd iv | Some o => opf R o x (snd iv) end))
  end.
Definition stores (op : option redop) (visits : list (nat * V)) (p : place) : option place :=
  fold_left (fun o iv => obnd o (fun p => store op p iv)) visits (Some p).

(** lowerWhere 2562-2577 without acceleration: the temporary is set to zero, the
    producer updates it, and the consumer visits its whole dimension. *)
Definition plain (n : nat) (op : option redop) (us : list (nat * V)) : option (list (nat * V)) :=
  obnd (fold_left (fun o u => obnd o (fun vals => compute R op vals (fst u) (snd u))) us (Some (repeat (r0 R) n)))
    (fun vals => Some (combine (seq 0 n) vals)).

Definition visible (out : list (nat * option V)) : list (nat * V) :=
  flat_map (fun iv => match snd iv with Some v => [(fst iv, v)] | None => [] end) out.

(** The where statement.  [ws]: the temporary's arrays when it is accelerated;
    [body i x]: the right-hand side in iteration [i]. *)
Definition run_where (d : decision) (n : nat) (pop : option redop) (srt : list nat -> list nat) (us : list (nat * V))
    (ws : wsp V) (rop : option redop) (body : nat -> V -> V) (p : place) : option place :=
  let finish vs := stores rop (map (fun iv => (fst iv, body (fst iv) (snd iv))) vs) p in
  match d with
  | Undefined => None
  | Decided true sort =>
      obnd (use R true pop (if sort then Some srt else None) us ws) (fun out => finish (visible (fst out)))
  | Decided false _ => obnd (plain n pop us) finish
  end.

(** A forall over threads around the where statement: one array of
    [size * omp_get_max_threads()] elements; thread [t] uses the part that starts
    at [size * t].  A step is an update of one element by one thread; [exec] runs
    the steps of all threads in the order in which they happen. *)
Record step := Step { s_thread : nat; s_loc : nat; s_fun : V -> V }.
Definition exec (size : nat) (a : list V) (steps : list step) : option (list V) :=
  fold_left (fun o s => obnd o (fun a =>
    let p := size * s_thread s + s_loc s in
    obnd (nth_error a p) (fun v => put a p (s_fun s v)))) steps (Some a).
End Consumer.
Arguments cexpr V : clear implicits.
Arguments place V : clear implicits.
Arguments step V : clear implicits.
