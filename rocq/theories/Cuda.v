(** Code generated for GPUs: /repo/src/codegen/codegen_cuda.cpp.  Which threads
    are launched and what each of them does, atomic updates, and the helper
    functions for atomic additions of a warp and for searches by blocks. *)
From Coq Require Import List ZArith Bool.
Import ListNotations.
Local Open Scope Z_scope.

(** ** Loops and kernels *)
Definition env := nat -> Z.
Definition upd (e : env) (v : nat) (x : Z) : env := fun w => if Nat.eqb w v then x else e w.
(** A loop bound: any function of some variables. *)
Record bound := { uses : list nat; value : list Z -> Z }.
Definition eval (e : env) (b : bound) : Z := value b (map e (uses b)).
Inductive unit_ := Block | Warp | Thread.
(** Statements of the intermediate representation.  [Do a vs]: an effect (a store,
    say) determined by the values of the variables [vs].  [Par]: a loop with a
    parallel unit GPUBlock, GPUWarp or GPUThread; its bounds are fixed before the
    kernel is launched.  [Reduce]: a loop of the units GPUWarpReduction or
    GPUBlockReduction.  Declarations, conditionals and allocations are left out. *)
Inductive stmt :=
| Do (a : nat) (vs : list nat)
| Both (s1 s2 : stmt)
| Serial (v : nat) (lo hi : bound) (inc : Z) (s : stmt)
| Par (u : unit_) (v : nat) (lo hi inc : Z) (s : stmt)
| Reduce (v : nat) (lo hi inc : Z) (s : stmt).
(** An effect that happened *)
Definition event := (nat * list Z)%type.

(** The values of v in for (v = lo; v < hi; v += inc); inc is positive. *)
Fixpoint iterate (fuel : nat) (lo hi inc : Z) : list Z :=
  match fuel with
  | O => []
  | S fuel => if lo <? hi then lo :: iterate fuel (lo + inc) hi inc else []
  end.
Definition iterations (lo hi inc : Z) : list Z := iterate (Z.to_nat (hi - lo)) lo hi inc.

(** What a statement does if the loops of the units [d] are not emitted
    (codegen_cuda.cpp 861-970, visit(For)): their variables are set by the
    thread's number.  A reduction loop is run by the first thread only (874-890).
    With no such unit this is the meaning of the loops. *)
Fixpoint sem (d : unit_ -> bool) (e : env) (s : stmt) : list event :=
  match s with
  | Do a vs => [(a, map e vs)]
  | Both s1 s2 => sem d e s1 ++ sem d e s2
  | Serial v lo hi inc b =>
      flat_map (fun x => sem d (upd e v x) b) (iterations (eval e lo) (eval e hi) inc)
  | Par u v lo hi inc b =>
      if d u then sem d e b
      else flat_map (fun x => sem d (upd e v x) b) (iterations lo hi inc)
  | Reduce v lo hi inc b =>
      if d Thread && negb (e v =? lo) then []
      else flat_map (fun x => sem d (upd e v x) b) (iterations lo hi inc)
  end.
Definition device (u : unit_) : bool := match u with Block => false | _ => true end.

(** DeviceFunctionCollector::visit(For), 325-381, for what is inside a loop over
    blocks.  The state is the loop over warps and the loop over threads found so
    far.  [None]: an assertion fails. *)
Definition loop := (nat * Z * Z * Z)%type.
Fixpoint collect (st : option loop * option loop) (s : stmt) : option (option loop * option loop) :=
  match s with
  | Do _ _ => Some st
  | Both s1 s2 => match collect st s1 with Some st => collect st s2 | None => None end
  | Serial _ _ _ _ b | Reduce _ _ _ _ b => collect st b
  | Par Block _ _ _ _ _ => None
  | Par Warp v lo hi inc b =>
      match st with
      | (None, None) => collect (Some (v, lo, hi, inc), None) b
      | _ => None
      end
  | Par Thread v lo hi inc b =>
      match st with
      | (w, None) => collect (w, Some (v, lo, hi, inc)) b
      | _ => None
      end
  end.
(** codegen_cuda.cpp 346, 363 (numWarps and numThreads): a division that rounds down *)
Definition count_of (l : loop) : Z := let '(_, lo, hi, inc) := l in Z.quot (hi - lo) inc.
(** deviceFunctionBlockSizes, 654-659 *)
Definition block_size (w : option loop) (t : loop) : Z :=
  match w with Some w => count_of t * count_of w | None => count_of t end.
(** deviceFunctionGridSizes, 661-663 *)
Definition grid_size (lo hi inc : Z) : Z := Z.quot ((hi - lo) + (inc - 1)) inc.
(** Devices run at most 1024 threads in a block; a launch that asks for more, or
    for none, fails, and the generated code does not look at the error
    (printDeviceFuncCall, 561-611). *)
Definition max_threads : Z := 1024.
(** printThreadIDVariable, 470-497; printWarpIDVariable, 499-523;
    printBlockIDVariable, 525-546 *)
Definition id_of (k : Z) (l : loop) : Z := let '(_, lo, _, inc) := l in k * inc + lo.
Definition var_of (l : loop) : nat := let '(v, _, _, _) := l in v.
(** The variables of thread [tid] of block [k], 715-725 *)
Definition thread_env (e : env) (b : loop) (w : option loop) (t : loop) (k tid : Z) : env :=
  let e := upd e (var_of b) (id_of k b) in
  let e := upd e (var_of t) (id_of (Z.rem tid (count_of t)) t) in
  match w with
  | Some w => upd e (var_of w) (id_of (Z.quot tid (count_of t)) w)
  | None => e
  end.
Definition range (n : Z) : list Z := map Z.of_nat (seq 0 (Z.to_nat n)).
(** A kernel and its launch, 646-738, 891-900.  [None]: an assertion fails.
    Threads run in some order; their effects are listed by thread.  The check of
    the thread's number against the block size (548-559) never fails. *)
Definition kernel (e : env) (v : nat) (lo hi inc : Z) (s : stmt) : option (list event) :=
  match collect (None, None) s with
  | Some (w, Some t) =>
      let size := block_size w t in
      if (1 <=? size) && (size <=? max_threads)
      then Some (flat_map (fun k =>
                   flat_map (fun tid => sem device (thread_env e (v, lo, hi, inc) w t k tid) s)
                     (range size))
                 (range (grid_size lo hi inc)))
      else Some []
  | _ => None
  end.
(** The function on the host: kernels are launched where the loops over blocks
    are, and each is waited for (609). *)
Fixpoint both_all {A} (l : list (option (list A))) : option (list A) :=
  match l with
  | [] => Some []
  | x :: r => match x, both_all r with Some a, Some b => Some (a ++ b) | _, _ => None end
  end.
Fixpoint host (e : env) (s : stmt) : option (list event) :=
  match s with
  | Do a vs => Some [(a, map e vs)]
  | Both s1 s2 => both_all [host e s1; host e s2]
  | Serial v lo hi inc b =>
      both_all (map (fun x => host (upd e v x) b) (iterations (eval e lo) (eval e hi) inc))
  | Par Block v lo hi inc b => kernel e v lo hi inc b
  | Par _ _ _ _ _ _ => None
  | Reduce v lo hi inc b => both_all (map (fun x => host (upd e v x) b) (iterations lo hi inc))
  end.

(** ** Atomic updates *)
(** Compound assignments to a memory cell that are marked atomic, of which the
    generator supports three (visit(Assign), 1352-1404, visit(Store), 1407-1497). *)
Inductive update := AddTo (l : nat) (z : Z) | OrTo (l : nat) (z : Z) | MulTo (l : nat) (z : Z).
(** What a thread does, one indivisible step at a time: atomicAdd, atomicOr, a
    load into the variable atomicOld, and atomicCAS from atomicOld to a multiple
    of it. *)
Inductive step := Add (l : nat) (z : Z) | Or (l : nat) (z : Z) | Old (l : nat) | Cas (l : nat) (z : Z).
Definition steps_of (u : update) : list step :=
  match u with
  | AddTo l z => [Add l z]
  | OrTo l z => [Or l z]
  | MulTo l z => [Old l; Cas l z]
  end.
Definition memory := nat -> Z.
(** A thread: atomicOld and the steps it still has to do. *)
Definition thread := (Z * list step)%type.
Definition do_step (m : memory) (old : Z) (s : step) : memory * Z :=
  match s with
  | Add l z => (upd m l (m l + z), old)
  | Or l z => (upd m l (Z.lor (m l) z), old)
  | Old l => (m, m l)
  | Cas l z => (if m l =? old then upd m l (old * z) else m, old)
  end.
(** Threads take turns in any way. *)
Inductive interleaving : memory -> list thread -> memory -> Prop :=
| finished : forall m ts, (forall t, In t ts -> snd t = []) -> interleaving m ts m
| turn : forall m before old s rest after m',
    interleaving (fst (do_step m old s)) (before ++ (snd (do_step m old s), rest) :: after) m' ->
    interleaving m (before ++ (old, s :: rest) :: after) m'.
Definition start (us : list update) : thread := (0, concat (map steps_of us)).

(** ** atomicAddWarp, codegen_cuda.cpp 142-159 *)
(** The 32 threads of a warp.  [active i = false]: the thread has returned
    already.  [junk]: what is read from such a thread. *)
Definition lanes : list nat := seq 0 32.
Definition shfl_down (active : nat -> bool) (junk : Z) (v : nat -> Z) (d : nat) : nat -> Z :=
  fun i => if Nat.ltb (i + d) 32 then (if active (i + d)%nat then v (i + d)%nat else junk) else v i.
Definition reduce_step (active : nat -> bool) (junk : Z) (v : nat -> Z) (d : nat) : nat -> Z :=
  fun i => v i + shfl_down active junk v d i.
Definition add_warp (active : nat -> bool) (junk : Z) (index : nat -> nat) (junk_index : nat)
    (v : nat -> Z) (m : memory) : memory :=
  let leader := if active 0%nat then index 0%nat else junk_index in
  let mask := forallb (fun i => active i && Nat.eqb leader (index i)) lanes in
  if mask
  then let r := fold_left (reduce_step active junk) [16; 8; 4; 2; 1]%nat v in
       upd m (index 0%nat) (m (index 0%nat) + r 0%nat)
  else fold_left (fun m i => if active i then upd m (index i) (m (index i) + v i) else m) lanes m.

(** ** taco_binarySearchBeforeBlockLaunch, codegen_cuda.cpp 110-141 *)
(** The cells of results that are written, and what is written: [search target]
    is the result of taco_binarySearchBefore.  [target idx]: idx *
    values_per_block, or targets[idx] in the indirect variant. *)
Definition search_launch (search target : Z -> Z) (size num_blocks : Z) : list (Z * Z) :=
  if (1 <=? size) && (size <=? max_threads)
  then flat_map (fun block =>
         flat_map (fun t => let idx := block * size + t in
                     if num_blocks + 1 <=? idx then [] else [(idx, search (target idx))])
           (range size))
       (range (Z.quot (num_blocks + 1 + size - 1) size))
  else [].

(** ** Continue, codegen_cuda.cpp 1160-1169 *)
(** In a loop of a kernel continue is printed as break.  [guard x]: the condition
    under which iteration x is left; [body x]: what it does otherwise. *)
Fixpoint loop_break (guard : Z -> bool) (body : Z -> list event) (xs : list Z) : list event :=
  match xs with
  | [] => []
  | x :: r => if guard x then [] else body x ++ loop_break guard body r
  end.
