(** What kernels for GPUs should do. *)
From Coq Require Import List ZArith Bool.
Import ListNotations.
From Verif Require Import Cuda.
Local Open Scope Z_scope.

(** The loops run one iteration after the other. *)
Definition sequential (e : env) (s : stmt) : list event := sem (fun _ => false) e s.

(** Statements without effects and without parallel loops *)
Fixpoint silent (s : stmt) : Prop :=
  match s with
  | Do _ _ => False
  | Both s1 s2 => silent s1 /\ silent s2
  | Serial _ _ _ _ b => silent b
  | Par _ _ _ _ _ _ | Reduce _ _ _ _ _ => False
  end.
(** Statements without a loop of a unit.  Reductions belong to threads. *)
Fixpoint without (u : unit_) (s : stmt) : Prop :=
  match s with
  | Do _ _ => True
  | Both s1 s2 => without u s1 /\ without u s2
  | Serial _ _ _ _ b => without u b
  | Par u' _ _ _ _ b => u' <> u /\ without u b
  | Reduce _ _ _ _ b => u <> Thread /\ without u b
  end.
(** All effects are inside the loop [l] of unit [u], or, for threads, in a
    reduction after it.  Loops around it neither change its variable nor depend on
    it. *)
Inductive placed (u : unit_) (l : loop) : stmt -> Prop :=
| placed_here : forall v lo hi inc b, l = (v, lo, hi, inc) -> without u b ->
    placed u l (Par u v lo hi inc b)
| placed_left : forall s1 s2, placed u l s1 -> silent s2 -> placed u l (Both s1 s2)
| placed_right : forall s1 s2, silent s1 -> placed u l s2 -> placed u l (Both s1 s2)
| placed_serial : forall v lo hi inc b, placed u l b -> v <> var_of l ->
    ~ In (var_of l) (uses lo) -> ~ In (var_of l) (uses hi) -> placed u l (Serial v lo hi inc b)
| placed_inside : forall v lo hi inc b, u = Thread -> placed u l b ->
    placed u l (Par Warp v lo hi inc b)
| placed_reduction : forall s v lo hi inc hi' inc' b, u = Thread -> l = (v, lo, hi, inc) ->
    placed u l s -> without Thread b -> placed u l (Both s (Reduce v lo hi' inc' b)).
(** A loop with at least one iteration that steps evenly to its end *)
Definition even (l : loop) : Prop :=
  let '(_, lo, hi, inc) := l in 0 < inc /\ lo < hi /\ (inc | hi - lo).

(** The loop over threads, and the loop over warps around it if there is one *)
Inductive kernel_body : stmt -> option loop -> loop -> Prop :=
| no_warps : forall s t, placed Thread t s -> without Warp s -> without Block s ->
    even t -> kernel_body s None t
| warps : forall s w t, placed Thread t s -> placed Warp w s -> without Block s ->
    even t -> even w -> var_of w <> var_of t -> kernel_body s (Some w) t.

(** Programs whose loops over blocks are such kernels, with blocks that the device
    can run *)
Inductive gpu_program : stmt -> Prop :=
| gpu_do : forall a vs, gpu_program (Do a vs)
| gpu_both : forall s1 s2, gpu_program s1 -> gpu_program s2 -> gpu_program (Both s1 s2)
| gpu_serial : forall v lo hi inc b, gpu_program b -> gpu_program (Serial v lo hi inc b)
| gpu_kernel : forall v lo hi inc b w t, kernel_body b w t -> 0 < inc ->
    block_size w t <= max_threads -> gpu_program (Par Block v lo hi inc b).

(** Lists of updates of one kind *)
Definition adds (us : list update) : Prop := forall u, In u us -> exists l z, u = AddTo l z.
Definition muls (us : list update) : Prop := forall u, In u us -> exists l z, u = MulTo l z.
Definition ors (us : list update) : Prop := forall u, In u us -> exists l z, u = OrTo l z.
(** What is added to or or-ed into a cell *)
Definition operands (l : nat) (us : list update) : list Z :=
  flat_map (fun u => match u with AddTo k z | OrTo k z | MulTo k z => if Nat.eqb k l then [z] else [] end) us.
Definition total (zs : list Z) : Z := fold_right Z.add 0 zs.
Definition union (zs : list Z) : Z := fold_right Z.lor 0 zs.
Definition product (zs : list Z) : Z := fold_right Z.mul 1 zs.
