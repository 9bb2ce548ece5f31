(** C59: the memory of tensors. *)
From Coq Require Import List Arith Bool Lia.
From Verif Require Import StoreMem StoreMemSpec StoreMemProofs.
Import ListNotations.
Local Open Scope nat_scope.

(** No careful program accesses memory that is not there. *)
Theorem C59_safe es : careful es init -> exists s, run es init = Some s.
Proof. intros C. destruct (run_ok es init init_inv C) as (s & R & _). now exists s. Qed.
Print Assumptions C59_safe.

(** No memory is freed twice. *)
Theorem C59_freed_once es s : careful es init -> run es init = Some s -> NoDup (freed (memory s)).
Proof. intros C R. exact (mo_nodup _ _ (i_mem s (run_inv es s C R))). Qed.
Print Assumptions C59_freed_once.

(** The user's arrays are never freed. *)
Theorem C59_user_arrays es s b : careful es init -> run es init = Some s -> In b (lent s) -> valid s b.
Proof.
  intros C R I. pose proof (i_mem s (run_inv es s C R)) as M.
  apply alive_valid. apply unowned_alive with (lent s); auto. now apply (mo_lent _ _ M).
Qed.
Print Assumptions C59_user_arrays.

(** The arrays of a tensor that needs neither packing nor computing can be accessed,
    whatever happened to other tensors. *)
Theorem C59_usable es s t x : careful es init -> run es init = Some s -> get_tensor s t = Some x ->
  t_needsPack x = false -> t_needsAssemble x = false \/ t_needsCompute x = false -> usable s x.
Proof.
  intros C R G P O. pose proof (run_inv es s C R) as I. destruct (flags_values s t x I G P O) as (d & D & V).
  now apply inv_usable with t d.
Qed.
Print Assumptions C59_usable.

(** So compute is called with care after assemble. *)
Theorem C59_assembled es s t x : careful es init -> run es init = Some s -> get_tensor s t = Some x ->
  t_needsPack x = false -> t_needsAssemble x = false -> has_values s t.
Proof.
  intros C R G P O. destruct (C59_usable es s t x C R G P (or_introl O)) as (d & D & (b & V & _) & _).
  now exists x, d, b.
Qed.
Print Assumptions C59_assembled.

(** An array the user keeps stays accessible. *)
Theorem C59_held es s c : careful es init -> run es init = Some s -> In c (held s) ->
  exists p, data (memory s) c = Some p /\ forall b, p = Some b -> valid s b.
Proof.
  intros C R H. pose proof (run_inv es s C R) as I. destruct (exists_data _ _ (i_held s I c H)) as (p & P).
  exists p. split; auto. intros b ->. destruct (live_valid s c I (data_live _ _ _ P)) as (b' & E & V). congruence.
Qed.
Print Assumptions C59_held.

(** Tensors that do not share a storage have values in different memory, unless the
    user supplied one array to both. *)
Theorem C59_no_sharing es s t u x y d e b : careful es init -> run es init = Some s ->
  get_tensor s t = Some x -> get_tensor s u = Some y -> get_sto s x = Some d -> get_sto s y = Some e -> t_sto x <> t_sto y ->
  data (memory s) (s_values d) = Some (Some b) -> data (memory s) (s_values e) = Some (Some b) -> In b (lent s).
Proof.
  intros C R. pose proof (run_inv es s C R) as I. pose proof (run_sep es init s init_inv C init_sep R) as S.
  intros. now apply (no_sharing s t u x y d e b).
Qed.
Print Assumptions C59_no_sharing.

(** Values arrays that kernels allocate do not leak if assembling and computing are
    separate ... *)
Theorem C59_accounted es s b : careful es init -> Forall separate es -> run es init = Some s ->
  In b (computed s) -> accounted s b.
Proof.
  intros C F R B. pose proof (run_inv es s C R) as I. apply known_accounted; auto.
  refine (run_known es init s init_inv C F _ _ R b B).
  - intros [|t] x H; discriminate.
  - intros b' [].
Qed.
Print Assumptions C59_accounted.
Theorem C59_all_freed es s b : careful es init -> Forall separate es -> run es init = Some s ->
  all_gone s -> In b (computed s) -> In b (freed (memory s)).
Proof.
  intros C F R [_ G] B. destruct (C59_accounted es s b C F R B) as [H|(c & x & X & D & _)]; [auto|].
  apply nth_error_In in X. rewrite (G x X) in D. discriminate.
Qed.
Print Assumptions C59_all_freed.

(* ------------------------------------------------------------------ *)
(** * A careful program *)

Ltac careful_steps :=
  match goal with
  | |- True => exact Logic.I
  | |- careful [] _ => exact Logic.I
  | |- careful (_ :: _) _ => split; [careful_steps | intros ? E; vm_compute in E; injection E as <-; careful_steps]
  | |- careful_call (Compute _) _ =>
      let x := fresh in let H := fresh in
      intros x H _ _; vm_compute in H; injection H as <-;
      split; [reflexivity | intros _; eexists _, _, _; split; [reflexivity|]; split; reflexivity]
  | |- careful_call (SetStorage _ _) _ => eexists _, _, _; split; [reflexivity|]; split; reflexivity
  | |- careful_call _ _ => exact Logic.I
  end.

(** a is packed, b has the user's arrays, c = a * b is computed twice, d takes c's
    storage, the user keeps the values, everything is dropped. *)
Definition history : list event :=
  [New [Dense; Compressed]; Insert 0; Pack 0;
   Alloc; Alloc; Alloc; New [Dense; Compressed]; Supply 1 [(None, None); (Some 5, Some 6)] (Some 7);
   New [Dense; Dense]; Assign 2 [0; 1] true; Compile 2 false; Assemble 2; Compute 2; Read 2; Hold 2;
   Insert 0; Pack 0; Assign 2 [0; 1] false; Assemble 2; Compute 2;
   New [Dense; Dense]; SetStorage 3 2; Read 3;
   Drop 0; Drop 1; Drop 2; DestroyTensor 0; DestroyTensor 2; DestroyTensor 0; DestroyTensor 1; Read 3]
  ++ map DestroyArray (seq 0 40).
Example C59_example : careful history init /\ Forall separate history /\
  exists s, run history init = Some s /\ computed s <> [] /\ freed (memory s) <> [] /\ lent s <> [] /\ held s <> [].
Proof.
  split; [|split].
  - unfold history. cbn [map seq app]. careful_steps.
  - unfold history. cbn [map seq app]. repeat constructor.
  - eexists. split; [vm_compute; reflexivity|]. repeat split; discriminate.
Qed.
(** And when the rest is given up nothing is left. *)
Example C59_example_gone : exists s, run (history ++ Drop 3 :: DestroyTensor 3 :: map Release (seq 0 40) ++ map DestroyArray (seq 0 40)) init = Some s /\
  all_gone s /\ computed s <> [].
Proof.
  eexists. split; [vm_compute; reflexivity|]. split; [|discriminate].
  split; intros x H; simpl in H; repeat (destruct H as [<-|H]; [reflexivity|]); contradiction.
Qed.

(* ------------------------------------------------------------------ *)
(** * Findings *)

(** compute() before assemble() writes through a pointer that was never set; so does
    evaluate() of a compound assignment to a new tensor, which skips assemble(). *)
Theorem C59_compute_first_refuted : exists es, Forall separate es /\ run es init = None.
Proof. exists [New [Dense]; Assign 0 [] true; Compile 0 false; Compute 0]. split; [repeat constructor | reflexivity]. Qed.
Print Assumptions C59_compute_first_refuted.

(** A compute function that was compiled, or found in the cache, without allocation,
    and run with assembleWhileCompute set: one block has two owners and is freed
    twice, and is read after it was freed. *)
Definition stale : list event :=
  [New [Dense]; Insert 0; Pack 0; Assign 0 [] true; Compile 0 false; SetAWC 0 true; Compute 0; DestroyArray 3].
Theorem C59_stale_kernel_refuted :
  run (stale ++ [Read 0]) init = None /\
  exists s, run (stale ++ [Drop 0; DestroyTensor 0; DestroyArray 5]) init = Some s /\ ~ NoDup (freed (memory s)).
Proof.
  split; [vm_compute; reflexivity|]. eexists. split; [vm_compute; reflexivity|].
  simpl. intros H. inversion H as [|? ? N _]; subst. apply N. simpl. auto.
Qed.
Print Assumptions C59_stale_kernel_refuted.

(** compile(stmt, true) on a tensor without assembleWhileCompute: the computed values
    are in memory that no array points to. *)
Theorem C59_lost_values_refuted :
  exists s b, run [New [Dense]; Assign 0 [] true; Compile 0 true; Assemble 0; Compute 0; Read 0] init = Some s /\
    In b (computed s) /\ last (computed s) 0 = b /\
    (forall c x, nth_error (cells (memory s)) c = Some x -> c_ptr x <> Some b) /\ ~ In b (freed (memory s)).
Proof.
  eexists _, _. split; [vm_compute; reflexivity|]. split; [simpl; right; left; reflexivity|]. split; [reflexivity|].
  split; [|simpl; tauto]. intros c x H. apply nth_error_In in H.
  simpl in H. repeat (destruct H as [<-|H]; [discriminate|]). contradiction.
Qed.
Print Assumptions C59_lost_values_refuted.

(** The index arrays that kernels allocate are never freed. *)
Theorem C59_index_leak_refuted :
  exists es s b, careful es init /\ Forall separate es /\ run es init = Some s /\ all_gone s /\
    b < next (memory s) /\ ~ In b (lent s) /\ ~ In b (freed (memory s)).
Proof.
  exists [New [Compressed]; Insert 0; Pack 0; Drop 0; DestroyTensor 0;
          DestroyArray 0; DestroyArray 1; DestroyArray 2; DestroyArray 3].
  eexists _, 0. split; [careful_steps|]. split; [repeat constructor|]. split; [vm_compute; reflexivity|].
  split; [|simpl; split; [lia|]; intuition discriminate].
  split; intros x H; simpl in H; repeat (destruct H as [<-|H]; [reflexivity|]); contradiction.
Qed.
Print Assumptions C59_index_leak_refuted.

(** With assembleWhileCompute every evaluation also leaks a values array. *)
Theorem C59_values_leak_refuted :
  exists es s b, careful es init /\ run es init = Some s /\ all_gone s /\ In b (computed s) /\ ~ In b (freed (memory s)).
Proof.
  exists [New [Dense]; Assign 0 [] true; SetAWC 0 true; Compile 0 true; Assemble 0; Compute 0; Read 0; Drop 0; DestroyTensor 0;
          DestroyArray 0; DestroyArray 1; DestroyArray 2; DestroyArray 3].
  eexists _, 1. split.
  { repeat match goal with
    | |- careful (Compute _ :: _) _ => split; [intros x H _ _; vm_compute in H; injection H as <-; split; [reflexivity | discriminate] | intros ? E; vm_compute in E; injection E as <-]
    | |- careful (_ :: _) _ => split; [exact Logic.I | intros ? E; vm_compute in E; injection E as <-]
    end. exact Logic.I. }
  split; [vm_compute; reflexivity|].
  split; [|simpl; split; [auto|]; intuition discriminate].
  split; intros x H; simpl in H; repeat (destruct H as [<-|H]; [reflexivity|]); contradiction.
Qed.
Print Assumptions C59_values_leak_refuted.
