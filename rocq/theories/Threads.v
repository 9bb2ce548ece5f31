(** Settings of parallel loops: src/tensor.cpp 1387-1409 and src/codegen/module.cpp 179-219. *)
From Coq Require Import ZArith List Bool.
Import ListNotations.
Local Open Scope Z_scope.

(** tensor.h 1319-1321 *)
Inductive parallel_schedule := Static | Dynamic.
(** omp_sched_t *)
Inductive omp_sched := omp_sched_static | omp_sched_dynamic | omp_sched_guided | omp_sched_auto.
(** The settings of OpenMP for the calling thread.  Simplification: what is set is what is read
    afterwards; no bound on the number of threads. *)
Record omp := Omp { sched : omp_sched; chunk : Z; threads : Z }.
(** tensor.cpp 1387-1389 and the settings of OpenMP *)
Record settings := Settings { taco_parallel_sched : parallel_schedule; taco_chunk_size : Z; taco_num_threads : Z; host : omp }.
Definition initial (o : omp) : settings := Settings Static 0 1 o.

(** What a program does.  A kernel is the change that it makes to the settings of OpenMP. *)
Inductive op :=
| SetSchedule (s : parallel_schedule) (c : Z) (* taco_set_parallel_schedule *)
| SetThreads (n : Z) (* taco_set_num_threads *)
| HostSchedule (s : omp_sched) (c : Z) (* omp_set_schedule in the program *)
| HostThreads (n : Z) (* omp_set_num_threads in the program *)
| Run (kernel : omp -> omp).

(** taco_set_parallel_schedule, tensor.cpp 1391-1394 *)
Definition taco_set_parallel_schedule (st : settings) (s : parallel_schedule) (c : Z) : settings :=
  Settings s c (taco_num_threads st) (host st).
(** taco_set_num_threads, tensor.cpp 1401-1405 *)
Definition taco_set_num_threads (st : settings) (n : Z) : settings :=
  if 0 <? n then Settings (taco_parallel_sched st) (taco_chunk_size st) n (host st) else st.
Definition omp_set_schedule (o : omp) (s : omp_sched) (c : Z) : omp := Omp s c (threads o).
Definition omp_set_num_threads (o : omp) (n : Z) : omp := Omp (sched o) (chunk o) n.
(** callFuncPackedRaw, module.cpp 179-219; [use_openmp] is USE_OPENMP.  The settings with which
    the kernel starts, and those afterwards. *)
Definition call_kernel (use_openmp : bool) (st : settings) (kernel : omp -> omp) : omp * settings :=
  let put := Settings (taco_parallel_sched st) (taco_chunk_size st) (taco_num_threads st) in
  if use_openmp then
    let existing := host st in
    let o := match taco_parallel_sched st with
             | Static => omp_set_schedule existing omp_sched_static (taco_chunk_size st)
             | Dynamic => omp_set_schedule existing omp_sched_dynamic (taco_chunk_size st)
             end in
    let o := omp_set_num_threads o (taco_num_threads st) in
    let o' := kernel o in
    let o' := omp_set_schedule o' (sched existing) (chunk existing) in
    (o, put (omp_set_num_threads o' (threads existing)))
  else (host st, put (kernel (host st))).
Definition step (use_openmp : bool) (st : settings) (o : op) : settings :=
  match o with
  | SetSchedule s c => taco_set_parallel_schedule st s c
  | SetThreads n => taco_set_num_threads st n
  | HostSchedule s c => Settings (taco_parallel_sched st) (taco_chunk_size st) (taco_num_threads st) (omp_set_schedule (host st) s c)
  | HostThreads n => Settings (taco_parallel_sched st) (taco_chunk_size st) (taco_num_threads st) (omp_set_num_threads (host st) n)
  | Run k => snd (call_kernel use_openmp st k)
  end.
Definition run (use_openmp : bool) (st : settings) (h : list op) : settings := fold_left (step use_openmp) h st.
