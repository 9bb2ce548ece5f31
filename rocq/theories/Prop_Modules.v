(** C76: which code a tensor runs after any history of operations on any tensors.  Statements,
    their isomorphism (C30), code and lowering are any. *)
From Coq Require Import String List Bool Arith Lia.
From Verif Require Import FileIO Modules ModulesSpec ModulesProofs.
Import ListNotations.
Local Open Scope nat_scope.
Local Open Scope string_scope.

(** The C compiler accepts what lower generates. *)
Definition kernels_compile {S C} (lower_assemble : S -> C) (lower_compute : S -> bool -> C) (fails : list (def C) -> bool) : Prop :=
  forall s b, fails [Def C "assemble" (Body C (lower_assemble s)); Def C "compute" (Body C (lower_compute s b));
                     Def C "_shim_assemble" (Shim C "assemble"); Def C "_shim_compute" (Shim C "compute")] = false.

(** A tensor that must be compiled refuses to run.  One that was compiled runs, for assemble and
    for compute, the code of one statement isomorphic to its own, or, when cached kernels may
    not be used, of its own statement and flag; one with a source of the user's runs that.
    This is so whatever happens to other tensors, cached kernels and modules that are shared. *)
Theorem C76_runs : forall S same iso C lower_assemble lower_compute fails,
  (forall s, iso s s = true) -> kernels_compile lower_assemble lower_compute fails ->
  forall h0 h v, history S C same fails (made h0) fresh_view h v ->
  let st := run S same iso C lower_assemble lower_compute fails (initial S C) (h0 ++ New S C :: h) in
  let calls f := snd (step S same iso C lower_assemble lower_compute fails st (Call S C (made h0) f)) in
  (pending v = true -> forall f, calls f = Threw C) /\
  (pending v = false ->
   match runs v with
   | None => forall f, calls f = Ran C FUndefined
   | Some (Kernel s b caching) => exists s' b', iso s s' = true /\ (caching = false -> s' = s /\ b' = b) /\
       calls "assemble" = Ran C (FOk (lower_assemble s')) /\ calls "compute" = Ran C (FOk (lower_compute s' b'))
   | Some (Source src) => forall f c, In f ["assemble"; "compute"] -> In (f, c) src -> calls f = Ran C (FOk c)
   end).
Proof.
  intros S same iso C lA lC fails IR KC h0 h v H. cbv zeta.
  destruct (history_rel S same iso C lA lC fails IR KC h0 h v H) as (x & m & E & Hm & A & Fl & P & M).
  assert (X : forall f, snd (step S same iso C lA lC fails (run S same iso C lA lC fails (initial S C) (h0 ++ New S C :: h)) (Call S C (made h0) f)) =
    if pending v then Threw C else Ran C (call C m f)).
  { intros f. cbn [step]. rewrite E. cbn [snd]. rewrite P, (nth_error_nth _ _ _ Hm). reflexivity. }
  split; [intros Pe f; rewrite X, Pe; reflexivity|]. intros Pe. rewrite Pe in X. unfold Mod in M. destruct (runs v) as [[s b c|src]|].
  - destruct M as (_ & s' & b' & Is & Un & Km). exists s', b'. split; auto. split; auto. apply kernel_call in Km as [K1 K2]. rewrite !X, K1, K2. auto.
  - destruct M as (_ & Go & _ & L & _). intros f c F I. rewrite X. f_equal. eapply source_call; eauto.
  - destruct M as (_ & L & _). intros f. rewrite X. unfold call. rewrite L. reflexivity.
Qed.
Print Assumptions C76_runs.

(** Every history has a view. *)
Theorem C76_total : forall S C same (fails : list (def C) -> bool) t v h, exists v', history S C same fails t v h v'.
Proof. intros. eapply history_total. Qed.
Print Assumptions C76_total.

(** So a good source on a new tensor works, and what it does is to be seen in no other tensor:
    their views do not depend on it. *)
Theorem C76_source : forall S same iso C lower_assemble lower_compute fails,
  (forall s, iso s s = true) -> kernels_compile lower_assemble lower_compute fails ->
  forall h0 s src f c, good fails src -> In f ["assemble"; "compute"] -> In (f, c) src ->
  let st := run S same iso C lower_assemble lower_compute fails (initial S C)
    (h0 ++ [New S C; Assign S C (made h0) s; CompileSource S C (made h0) src]) in
  snd (step S same iso C lower_assemble lower_compute fails st (Call S C (made h0) f)) = Ran C (FOk c).
Proof.
  intros S same iso C lA lC fails IR KC h0 s src f c Go F I. cbv zeta.
  pose proof (C76_runs S same iso C lA lC fails IR KC h0 [Assign S C (made h0) s; CompileSource S C (made h0) src] (View (Some s) false false (Some (Source src)) true)) as X.
  cbv zeta in X. apply X; auto.
  econstructor; [apply seen_assign|]. econstructor; [apply seen_source; auto; discriminate|]. constructor.
Qed.
Print Assumptions C76_source.

(** *** Findings *)
(** Once a tensor has been compiled, by compile or compileSource, or an attempt has failed,
    compileSource always fails: it adds the source to the one the module has. *)
Theorem C76_source_refuted : forall S same iso C lower_assemble lower_compute fails,
  (forall s, iso s s = true) -> kernels_compile lower_assemble lower_compute fails ->
  forall h0 h v src, history S C same fails (made h0) fresh_view h v -> touched v = true ->
  snd (step S same iso C lower_assemble lower_compute fails
         (run S same iso C lower_assemble lower_compute fails (initial S C) (h0 ++ New S C :: h)) (CompileSource S C (made h0) src)) = Threw C.
Proof.
  intros S same iso C lA lC fails IR KC h0 h v src H T.
  destruct (history_rel S same iso C lA lC fails IR KC h0 h v H) as (x & m & E & Hm & A & Fl & P & M).
  cbn [step]. rewrite E. destruct (assignment S x); auto. rewrite (nth_error_nth _ _ _ Hm).
  assert (X : exists m', compile_module C fails (set_source C m (map (fun d => Def C (fst d) (Body C (snd d))) src ++ [shim C "assemble"; shim C "compute"])) = (m', false)).
  { unfold Mod in M. destruct (runs v) as [[s0 b0 c0|src0]|].
    - destruct M as (_ & s' & b & _ & _ & Km). destruct (kernel_source S C lA lC fails m s' b src Km) as (m' & Cm & _). eauto.
    - destruct M as (_ & _ & F & _ & I). rewrite later_source by auto. eauto.
    - destruct M as (F & _ & I). rewrite T in I. rewrite later_source by auto. eauto. }
  destruct X as (m' & ->). reflexivity.
Qed.
Print Assumptions C76_source_refuted.

(** Instances: statements and code are numbers. *)
Definition lowA (s : nat) : nat := 10 * s.
Definition lowC (s : nat) (b : bool) : nat := 10 * s + if b then 2 else 1.
Definition never (_ : list (def nat)) : bool := false.
Definition parity (a b : nat) : bool := Bool.eqb (Nat.even a) (Nat.even b).
Notation exec fails := (run nat Nat.eqb parity nat lowA lowC fails (initial nat nat)).
Notation ask fails st o := (snd (step nat Nat.eqb parity nat lowA lowC fails st o)).

(** A statement that is scheduled and compiled after a first compilation is ignored, without an
    error: the tensor runs the code of the first. *)
Theorem C76_ignored_refuted :
  let st := exec never [New _ _; Assign _ _ 0 3; Compile _ _ 0 true] in
  ask never st (CompileStmt _ _ 0 4 false true) = Done nat /\
  ask never (fst (step nat Nat.eqb parity nat lowA lowC never st (CompileStmt _ _ 0 4 false true))) (Call _ _ 0 "compute") = Ran nat (FOk (lowC 3 false)).
Proof. vm_compute. split; reflexivity. Qed.
Print Assumptions C76_ignored_refuted.

(** After a compilation that fails, compiling again does nothing and reports success; then running
    the tensor calls a null pointer. *)
Theorem C76_failure_refuted :
  let h := [New _ _; Assign _ _ 0 3; Compile _ _ 0 true] in
  ask (fun _ => true) (exec (fun _ => true) [New _ _; Assign _ _ 0 3]) (Compile _ _ 0 true) = Threw nat /\
  ask never (exec (fun _ => true) h) (Compile _ _ 0 true) = Done nat /\
  ask never (exec (fun _ => true) h) (Call _ _ 0 "compute") = Ran nat FUndefined.
Proof. vm_compute. repeat split; reflexivity. Qed.
Print Assumptions C76_failure_refuted.

(** A misprint in a source cannot be corrected: the corrected source is added to the first. *)
Theorem C76_misprint_refuted :
  let good_source := [("assemble", 7); ("compute", 8)] in
  good never good_source /\
  ask never (exec never [New _ _; Assign _ _ 0 3; CompileSource _ _ 0 [("assemble", 7); ("comptue", 8)]]) (CompileSource _ _ 0 good_source) = Threw nat.
Proof.
  split; [|vm_compute; reflexivity]. repeat split; cbn; try (intuition discriminate). repeat constructor; cbn; intuition discriminate.
Qed.
Print Assumptions C76_misprint_refuted.

(** The hypotheses are met. *)
Example C76_hypotheses : (forall s, parity s s = true) /\ kernels_compile lowA lowC never.
Proof. split; [intros s; unfold parity; apply eqb_reflx|intros s b; reflexivity]. Qed.
(** Two tensors share a cached kernel; a failed source on one of them leaves it as it is. *)
Definition shared : list (op nat nat) :=
  [New _ _; Assign _ _ 0 3; Compile _ _ 0 true; New _ _; Assign _ _ 1 5; Compile _ _ 1 true; CompileSource _ _ 1 [("assemble", 7); ("compute", 8)]].
Example C76_shared : modul nat (nth 0 (tensors nat nat (exec never shared)) (Tensor nat None false false 9)) = modul nat (nth 1 (tensors nat nat (exec never shared)) (Tensor nat None false false 8)) /\
  ask never (exec never shared) (Call _ _ 0 "compute") = Ran nat (FOk 31) /\ ask never (exec never shared) (Call _ _ 1 "assemble") = Ran nat (FOk 30).
Proof. vm_compute. repeat split; reflexivity. Qed.
Example C76_view : history nat nat Nat.eqb never 0 fresh_view (tl shared) (View (Some 3) false false (Some (Kernel 3 false true)) true).
Proof.
  unfold shared. cbn [tl]. econstructor; [apply seen_assign|]. econstructor; [eapply seen_compile; reflexivity|]. econstructor; [apply seen_new|].
  econstructor; [apply (seen_other _ _ _ _ _ _ _ 1); eauto 20|]. econstructor; [apply (seen_other _ _ _ _ _ _ _ 1); eauto 20|].
  econstructor; [apply (seen_other _ _ _ _ _ _ _ 1); eauto 20|]. constructor.
Qed.
