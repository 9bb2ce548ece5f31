(** C40: packing and computing are delayed until a tensor is read. *)
From Coq Require Import List Arith ZArith Lia Bool.
Import ListNotations.
From Verif Require Import Outcome DelayedEval DelayedSpec DelayedProofs.
Local Open Scope nat_scope.

(** For every history of insertions, assignments, reads and explicit calls of
    compile, assemble and compute, over any number of tensors, that does not mix
    insertions into a tensor with assignments to it: no call fails, the evaluation
    of every read ends, and it gives what performing every operation at once
    gives. *)
Theorem C40_reads : forall D C (empty : D) (add_component : C -> D -> D) assemble_kernel compute_kernel result,
  (forall e ds, compute_kernel e (assemble_kernel e ds) ds = result e ds) ->
  forall ops fuel, S (length ops) < fuel ->
  unmixed ops -> read_first ops -> in_order ops -> not_recursive ops -> none_destroyed ops ->
  run empty add_component assemble_kernel compute_kernel fuel ops (start empty)
    = Val (eager_reads add_component result ops (fun _ => empty)).
Proof. intros. apply history_ok; auto. Qed.
Print Assumptions C40_reads.

(** Tensors that are only inserted into, and tensors that are only assigned. *)
Theorem C40_inputs_and_results : forall D C (empty : D) (add_component : C -> D -> D) assemble_kernel compute_kernel result,
  (forall e ds, compute_kernel e (assemble_kernel e ds) ds = result e ds) ->
  forall (is_result : nat -> bool) ops fuel, S (length ops) < fuel ->
  Forall (fun o => match o with
                   | Insert t _ => is_result t = false
                   | Assign _ t a => is_result t = true /\ ~ In t (a_ops a)
                   | Read _ => True
                   | _ => False
                   end) ops ->
  run empty add_component assemble_kernel compute_kernel fuel ops (start empty)
    = Val (eager_reads add_component result ops (fun _ => empty)).
Proof.
  intros D C empty add_component assemble_kernel compute_kernel result Hk is_result ops fuel Hf H.
  rewrite Forall_forall in H.
  assert (Hmid : forall (a : list op) x b y c, ops = a ++ x :: b ++ y :: c -> In x ops /\ In y ops).
  { intros a x b y c ->. split; apply in_or_app; right; [left; auto|right; apply in_or_app; right; left; auto]. }
  apply C40_reads; auto.
  - intro t. split; intros a x b y c E Hx Hy; exfalso; destruct (Hmid _ _ _ _ _ E) as (I1 & I2);
      pose proof (H _ I1) as H1; pose proof (H _ I2) as H2;
      repeat match goal with X : is_insert _ _ |- _ => destruct X as (? & ->) | X : is_assign _ _ |- _ => destruct X as (? & ? & ->) end;
      cbn in *; repeat match goal with X : _ /\ _ |- _ => destruct X end; congruence.
  - intros t a x b y c E Hx Hy. exfalso. destruct (Hmid _ _ _ _ _ E) as (I1 & I2).
    destruct Hx as (? & ? & ->). destruct Hy as (? & ->).
    pose proof (H _ I1) as H1; pose proof (H _ I2) as H2. cbn in *. repeat match goal with X : _ /\ _ |- _ => destruct X end. congruence.
  - intro t. split; [|split].
    + intros a c ->. exfalso. apply (H (Compile t)). apply in_or_app. right. left. auto.
    + intros a x b y c E Hx <-. exfalso. destruct (Hmid _ _ _ _ _ E) as (I1 & I2). apply (H _ I2).
    + intros a x b y c E Hx <-. exfalso. destruct (Hmid _ _ _ _ _ E) as (I1 & I2). apply (H _ I2).
  - intros b t a Hin. apply (H _ Hin).
  - intros t Hin. apply (H _ Hin).
Qed.
Print Assumptions C40_inputs_and_results.

(** Tensors of one integer component; expression 0 is the sum of the operands. *)
Definition sumZ (l : list Z) : Z := fold_right Z.add 0%Z l.
Definition result1 (e : nat) (ds : list Z) : Z := (sumZ ds + Z.of_nat e)%Z.
Definition asmk (e : nat) (ds : list Z) : Z := 77%Z.
Definition cmpk (e : nat) (d : Z) (ds : list Z) : Z := (d - 77 + result1 e ds)%Z.
Definition run1 := run (D := Z) (C := Z) 0%Z Z.add asmk cmpk.
Definition eager1 (ops : list (@op Z)) : list Z := eager_reads Z.add result1 ops (fun _ => 0%Z).
Lemma kernels1 : forall e ds, cmpk e (asmk e ds) ds = result1 e ds.
Proof. intros. unfold cmpk, asmk. lia. Qed.

(** Tensor 2 := 0 + 1, tensor 3 := 2 + 0 + 5, then tensor 0 changes. *)
Definition hist1 : list (@op Z) :=
  [Insert 0 10%Z; Insert 1 1%Z; Assign false 2 (Asg 0 [0; 1]); Assign true 3 (Asg 5 [2; 0]); Insert 0 100%Z;
   Read 3; Read 2; Assign false 2 (Asg 0 [0; 0]); Read 2; Insert 0 1000%Z; Read 2; Read 0].
Example C40_satisfiable :
  run1 20 hist1 (start 0%Z) = Val [26; 11; 220; 220; 1110]%Z /\ eager1 hist1 = [26; 11; 220; 220; 1110]%Z /\
  Forall (fun o => match o with
                   | Insert t _ => (2 <=? t) = false
                   | Assign _ t a => (2 <=? t) = true /\ ~ In t (a_ops a)
                   | Read _ => True
                   | _ => False
                   end) hist1.
Proof.
  split; [vm_compute; reflexivity|]. split; [vm_compute; reflexivity|].
  repeat constructor; cbn; lia.
Qed.

(** The conditions on a concrete history over tensors 0, 1 and 2. *)
Ltac conditions :=
  match goal with
  | |- unmixed _ => apply unmixed_check; intros [|[|[|t]]]; reflexivity
  | |- read_first _ => apply read_first_check; intros [|[|[|t]]]; reflexivity
  | |- in_order _ => apply in_order_check; intros [|[|[|t]]]; reflexivity
  | |- not_recursive _ => let b := fresh in let t := fresh in let a := fresh in let H := fresh in
      intros b t a H; cbn in H;
      repeat (destruct H as [H|H]; [try discriminate H; injection H; intros; subst; cbn; intuition discriminate|]); destruct H
  | |- none_destroyed _ => let t := fresh in let H := fresh in
      intros t H; cbn in H; repeat (destruct H as [H|H]; [discriminate H|]); destruct H
  end.

(** Mixing that C40_reads allows: a tensor that was read, assigned, computed by
    explicit calls, and inserted into. *)
Definition hist2 : list (@op Z) :=
  [Insert 0 10%Z; Read 0; Insert 1 5%Z; Assign false 0 (Asg 0 [1]); Compile 0; Assemble 0; Compute 0; Insert 0 1%Z; Read 0].
Example C40_satisfiable_mixed :
  run1 20 hist2 (start 0%Z) = Val [10; 6]%Z /\ eager1 hist2 = [10; 6]%Z /\
  unmixed hist2 /\ read_first hist2 /\ in_order hist2 /\ not_recursive hist2 /\ none_destroyed hist2.
Proof. split; [vm_compute; reflexivity|]. split; [vm_compute; reflexivity|]. repeat (split; [conditions|]). conditions. Qed.

(** Findings: without any one of the conditions the claim is false. *)

(** An insertion into a tensor with a pending assignment: the next read gives the
    old values and the insertion, and the read after that gives the assignment,
    without the insertion. *)
Definition pending : list (@op Z) :=
  [Insert 1 5%Z; Insert 0 10%Z; Read 0; Assign false 0 (Asg 0 [1]); Insert 0 1%Z; Read 0; Read 0].
Theorem C40_insert_while_pending_refuted :
  read_first pending /\ in_order pending /\ not_recursive pending /\ none_destroyed pending /\
  eager1 pending = [10; 6; 6]%Z /\
  forall fuel, S (length pending) < fuel -> run1 fuel pending (start 0%Z) = Val [10; 11; 5]%Z.
Proof.
  repeat (split; [conditions|]). split; [reflexivity|].
  intros fuel H. do 9 (destruct fuel as [|fuel]; [cbn in H; lia|]). reflexivity.
Qed.
Print Assumptions C40_insert_while_pending_refuted.

(** An assignment to a tensor with insertions in its buffer: the assignment does not
    empty the buffer, and the components in it are added to the result at the next
    insertion. *)
Definition buffered : list (@op Z) :=
  [Read 0; Insert 1 5%Z; Insert 0 10%Z; Assign false 0 (Asg 0 [1]); Read 0; Insert 0 1%Z; Read 0].
Theorem C40_assign_over_buffer_refuted :
  read_first buffered /\ in_order buffered /\ not_recursive buffered /\ none_destroyed buffered /\
  eager1 buffered = [0; 5; 6]%Z /\
  forall fuel, S (length buffered) < fuel -> run1 fuel buffered (start 0%Z) = Val [0; 5; 16]%Z.
Proof.
  repeat (split; [conditions|]). split; [reflexivity|].
  intros fuel H. do 9 (destruct fuel as [|fuel]; [cbn in H; lia|]). reflexivity.
Qed.
Print Assumptions C40_assign_over_buffer_refuted.

(** An insertion into a result that was computed but never packed: the computed
    values are lost. *)
Definition unread : list (@op Z) :=
  [Insert 1 5%Z; Assign false 0 (Asg 0 [1]); Read 0; Insert 0 1%Z; Read 0].
Theorem C40_insert_into_result_refuted :
  unmixed unread /\ in_order unread /\ not_recursive unread /\ none_destroyed unread /\
  eager1 unread = [5; 6]%Z /\
  forall fuel, S (length unread) < fuel -> run1 fuel unread (start 0%Z) = Val [5; 1]%Z.
Proof.
  repeat (split; [conditions|]). split; [reflexivity|].
  intros fuel H. do 7 (destruct fuel as [|fuel]; [cbn in H; lia|]). reflexivity.
Qed.
Print Assumptions C40_insert_into_result_refuted.

(** A tensor assigned an expression of itself: the next read does not end. *)
Definition recursive : list (@op Z) := [Insert 0 5%Z; Read 0; Assign false 0 (Asg 1 [0]); Read 0].
Lemma sync_recursive : forall fuel (h : heap), c_alive (h 0) = true -> c_pack (h 0) = false -> c_compute (h 0) = true ->
  c_assemble (h 0) = true -> c_asg (h 0) = Some (Asg 1 [0]) ->
  sync 0%Z Z.add asmk cmpk fuel 0 h = NoFuel.
Proof.
  induction fuel as [|fuel IH]; intros h A P Q R T; [reflexivity|].
  cbn [sync]. rewrite A, P, Q. cbn [negb].
  assert (E : exists h', compile 0 h = Val h' /\ c_alive (h' 0) = true /\ c_pack (h' 0) = false /\ c_compute (h' 0) = true /\
                         c_compile (h' 0) = false /\ c_assemble (h' 0) = true /\ c_asg (h' 0) = Some (Asg 1 [0])).
  { unfold compile. rewrite T. destruct (c_compile (h 0)) eqn:E; cbn [negb]; eexists; (split; [reflexivity|]).
    - unfold set_. cbn. auto 10.
    - auto 10. }
  destruct E as (h' & -> & A' & P' & Q' & E' & R' & T'). cbn [obind].
  unfold assemble. rewrite E', R', T'. cbn [negb]. change (operands (Asg 1 [0])) with [0].
  cbn [each]. rewrite IH; auto.
Qed.
Theorem C40_recursive_refuted :
  unmixed recursive /\ read_first recursive /\ in_order recursive /\ none_destroyed recursive /\
  eager1 recursive = [5; 6]%Z /\
  forall fuel, run1 fuel recursive (start 0%Z) = NoFuel.
Proof.
  repeat (split; [conditions|]). split; [reflexivity|].
  intros [|fuel]; [reflexivity|].
  unfold run1, recursive. cbn [run]. 
  destruct fuel as [|fuel]; [reflexivity|].
  cbn.
  match goal with |- context [sync _ _ _ _ fuel 0 ?h] => rewrite (sync_recursive fuel h); reflexivity end.
Qed.
Print Assumptions C40_recursive_refuted.

(** A result that is destroyed before it is computed: the next insertion into one of
    its operands dereferences a null pointer. *)
Definition destroyed : list (@op Z) := [Insert 1 5%Z; Assign true 0 (Asg 0 [1]); Destroy 0; Insert 1 1%Z; Read 1].
Theorem C40_destroyed_refuted :
  unmixed destroyed /\ read_first destroyed /\ in_order destroyed /\ not_recursive destroyed /\
  eager1 destroyed = [6]%Z /\
  forall fuel, 0 < fuel -> run1 fuel destroyed (start 0%Z) = Oob.
Proof.
  repeat (split; [conditions|]). split; [reflexivity|].
  intros [|fuel] H; [lia|]. reflexivity.
Qed.
Print Assumptions C40_destroyed_refuted.
