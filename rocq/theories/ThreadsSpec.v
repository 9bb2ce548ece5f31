(** The settings of parallel loops that a program asked for: the last ones. *)
From Coq Require Import ZArith List.
From Verif Require Import Threads.
Import ListNotations.
Local Open Scope Z_scope.

(** [x] is the last value that [f] finds in the history, or [d] if there is none. *)
Definition last_of {A} (f : op -> option A) (d : A) (h : list op) (x : A) : Prop :=
  (exists before o after, h = before ++ o :: after /\ f o = Some x /\ forall o', In o' after -> f o' = None) \/
  (x = d /\ forall o', In o' h -> f o' = None).
Definition asks_threads (o : op) : option Z :=
  match o with SetThreads n => if Z.ltb 0 n then Some n else None | _ => None end.
Definition asks_schedule (o : op) : option (parallel_schedule * Z) :=
  match o with SetSchedule s c => Some (s, c) | _ => None end.
Definition host_threads (o : op) : option Z := match o with HostThreads n => Some n | _ => None end.
Definition host_schedule (o : op) : option (omp_sched * Z) := match o with HostSchedule s c => Some (s, c) | _ => None end.
Definition omp_of (s : parallel_schedule) : omp_sched := match s with Static => omp_sched_static | Dynamic => omp_sched_dynamic end.
