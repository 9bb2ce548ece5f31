(** C78: settings of parallel loops. *)
From Coq Require Import ZArith List Bool Lia.
From Verif Require Import Threads ThreadsSpec.
Import ListNotations.
Local Open Scope Z_scope.

Lemma last_snoc {A} (f : op -> option A) d h o x :
  last_of f d h x -> last_of f d (h ++ [o]) (match f o with Some y => y | None => x end).
Proof.
  intros H. destruct (f o) as [y|] eqn:E.
  - left. exists h, o, []. split; [reflexivity|]. split; [exact E|intros o' []].
  - destruct H as [(b & o1 & a & -> & E1 & N)|[-> N]].
    + left. exists b, o1, (a ++ [o]). split; [rewrite <- app_assoc; reflexivity|]. split; [exact E1|].
      intros o' I. apply in_app_or in I as [I|[<-|[]]]; auto.
    + right. split; auto. intros o' I. apply in_app_or in I as [I|[<-|[]]]; auto.
Qed.
Lemma run_snoc b st h o : run b st (h ++ [o]) = step b (run b st h) o.
Proof. unfold run. apply fold_left_app. Qed.
Lemma inv o0 h :
  let st := run true (initial o0) h in
  last_of asks_threads 1 h (taco_num_threads st) /\
  last_of asks_schedule (Static, 0) h (taco_parallel_sched st, taco_chunk_size st) /\
  last_of host_threads (threads o0) h (threads (host st)) /\
  last_of host_schedule (sched o0, chunk o0) h (sched (host st), chunk (host st)).
Proof.
  cbv zeta. induction h as [|o h IH] using rev_ind.
  - cbn. repeat split; right; (split; [reflexivity|intros ? []]).
  - rewrite run_snoc. destruct IH as (A & B & C & D).
    pose proof (last_snoc _ _ _ o _ A) as A'. pose proof (last_snoc _ _ _ o _ B) as B'.
    pose proof (last_snoc _ _ _ o _ C) as C'. pose proof (last_snoc _ _ _ o _ D) as D'. clear A B C D.
    destruct o as [s c|n|s c|n|k]; cbn [asks_threads asks_schedule host_threads host_schedule] in *;
      cbn [step]; unfold taco_set_parallel_schedule, taco_set_num_threads, omp_set_schedule, omp_set_num_threads in *;
      try (cbn; auto; fail).
    + destruct (0 <? n); cbn; auto.
Qed.

(** With OpenMP, a kernel runs with the schedule, chunk size and number of threads that were last
    set for taco (one thread if none was set, and never a number that is not positive), whatever
    happened before. *)
Theorem C78_kernel : forall o0 h k s c n,
  last_of asks_schedule (Static, 0) h (s, c) -> last_of asks_threads 1 h n ->
  fst (call_kernel true (run true (initial o0) h) k) = Omp (omp_of s) c n /\ 0 < n.
Proof.
  assert (U : forall A (f : op -> option A) d h x y, last_of f d h x -> last_of f d h y -> x = y).
  { intros A f d h x y [(b & o & a & E & F & N)|[-> N]] [(b' & o' & a' & E' & F' & N')|[-> N']]; auto.
    - subst h. assert (L : b ++ o :: a = b' ++ o' :: a' -> o = o').
      { clear E'. revert b'. induction b as [|z b IH]; intros [|z' b'] E; cbn in E; inversion E; subst; auto.
        - exfalso. rewrite (N o') in F'; [discriminate|]. apply in_or_app. right. left. auto.
        - exfalso. rewrite (N' o) in F; [discriminate|]. apply in_or_app. right. left. auto.
        - eauto. }
      rewrite (L E') in F. congruence.
    - exfalso. rewrite (N' o) in F; [discriminate|]. subst h. apply in_or_app. right. left. auto.
    - exfalso. rewrite (N o') in F'; [discriminate|]. subst h. apply in_or_app. right. left. auto. }
  intros o0 h k s c n S N. destruct (inv o0 h) as (A & B & _ & _). cbv zeta in *.
  pose proof (U _ _ _ _ _ _ A N) as En. pose proof (U _ _ _ _ _ _ B S) as Es. inversion Es. split.
  - rewrite <- En. cbn. destruct (taco_parallel_sched (run true (initial o0) h)); reflexivity.
  - destruct N as [(b & o & a & _ & F & _)|[-> _]]; [|lia]. destruct o; try discriminate. cbn in F.
    destruct (Z.ltb_spec 0 n0); inversion F; subst; auto.
Qed.
Print Assumptions C78_kernel.

(** Kernels do not change the settings that the program made for its own parallel loops. *)
Theorem C78_host : forall o0 h,
  last_of host_threads (threads o0) h (threads (host (run true (initial o0) h))) /\
  last_of host_schedule (sched o0, chunk o0) h (sched (host (run true (initial o0) h)), chunk (host (run true (initial o0) h))).
Proof. intros o0 h. destruct (inv o0 h) as (_ & _ & A & B). auto. Qed.
Print Assumptions C78_host.

(** A case: four threads, then a number that is refused, and a kernel that changes everything. *)
Example C78_case : let h := [HostThreads 7; SetThreads 4; SetThreads 0; SetSchedule Dynamic 16; Run (fun _ => Omp omp_sched_auto 3 99)] in
  last_of asks_schedule (Static, 0) h (Dynamic, 16) /\ last_of asks_threads 1 h 4 /\
  host (run true (initial (Omp omp_sched_guided 5 2)) h) = Omp omp_sched_guided 5 7.
Proof.
  cbv zeta. split; [|split; [|reflexivity]].
  - left. exists [HostThreads 7; SetThreads 4; SetThreads 0], (SetSchedule Dynamic 16), [Run (fun _ => Omp omp_sched_auto 3 99)].
    split; [reflexivity|]. split; [reflexivity|]. intros o' [<-|[]]; reflexivity.
  - left. exists [HostThreads 7], (SetThreads 4), [SetThreads 0; SetSchedule Dynamic 16; Run (fun _ => Omp omp_sched_auto 3 99)].
    split; [reflexivity|]. split; [reflexivity|]. intros o' [<-|[<-|[<-|[]]]]; reflexivity.
Qed.
