(** Properties C39 (unique names), C41 (reference counts) and C42 (scoped maps). *)
From Coq Require Import List Arith Lia Bool String Ascii.
Import ListNotations.
From Verif Require Import Util UtilSpec UtilProofs.
Local Open Scope nat_scope.

(** ** C39 *)
(** Names handed out by a generator are pairwise distinct, and none of them is a
    reserved name, when neither requests nor reserved names end in a digit. *)
Theorem C39_names_distinct : forall reserved reqs,
  Forall no_digit_end reserved -> Forall no_digit_end reqs ->
  NoDup (unique_names (new_generator reserved) reqs) /\
  (forall n, In n (unique_names (new_generator reserved) reqs) -> ~ In n reserved) /\
  List.length (unique_names (new_generator reserved) reqs) = List.length reqs.
Proof.
  intros reserved reqs R Q. destruct (generator_ok reserved reqs R Q). split; auto. split; auto.
  generalize (new_generator reserved). clear. induction reqs as [|r reqs IH]; simpl; intros c; auto.
  destruct (get_unique_name c r). simpl. auto.
Qed.
Print Assumptions C39_names_distinct.

(** A name that has not been used is handed out unchanged. *)
Theorem C39_first_request_unchanged : forall reserved n,
  ~ In n reserved -> unique_names (new_generator reserved) [n] = [n].
Proof.
  intros reserved n H. simpl. unfold get_unique_name.
  assert (X : counter n (new_generator reserved) = None).
  { unfold new_generator. assert (G : forall l c, ~ In n l -> counter n c = None -> counter n (fold_left reserve l c) = None).
    { clear. induction l as [|a l IH]; simpl; intros c H C; auto. apply IH; [tauto|]. unfold reserve.
      destruct (counter a c); auto. rewrite counter_set. destruct (string_dec a n) as [->|]; auto. tauto. }
    apply G; auto. }
  rewrite X. auto.
Qed.
Print Assumptions C39_first_request_unchanged.

(** The free function with the global counter: prefix and number. *)
Theorem C39_global_names_distinct : forall start prefixes,
  Forall no_digit_end prefixes -> NoDup (global_names start prefixes).
Proof. intros. apply global_names_ok. auto. Qed.
Print Assumptions C39_global_names_distinct.

(** Finding: without the restriction names repeat. *)
Theorem C39_digit_suffix_refuted : exists reqs, ~ NoDup (unique_names (new_generator []) reqs).
Proof.
  exists ["a"%string; "a"%string; "a0"%string]. vm_compute. intros H. inversion H as [|? ? _ H2]; subst.
  inversion H2 as [|? ? N _]; subst. apply N. simpl. auto.
Qed.
Print Assumptions C39_digit_suffix_refuted.
Theorem C39_reserved_refuted : exists reserved reqs n,
  In n (unique_names (new_generator reserved) reqs) /\ In n reserved.
Proof. exists ["i"%string; "i0"%string], ["i"%string], "i0"%string. vm_compute. auto. Qed.
Print Assumptions C39_reserved_refuted.

Example C39_example :
  unique_names (new_generator ["A"%string]) ["i"%string; "A"%string; "i"%string; "i"%string; "A"%string]
  = ["i"%string; "A0"%string; "i0"%string; "i1"%string; "A1"%string] /\
  Forall no_digit_end ["A"%string] /\ Forall no_digit_end ["i"%string; "A"%string; "i"%string].
Proof. vm_compute. repeat (split || constructor). Qed.

(** ** C41 *)
(** References to node [p]: handles in variables and fields of live nodes. *)
Definition references (m : mem) (p : nat) : nat := var_refs p (vars m) + field_refs p (heap m).

(** Any history of safe operations runs without touching a freed node; each node
    ever allocated is live with a count that equals its (positive) number of
    references, or is freed and has none. *)
Theorem C41_counts_exact : forall history, safe_history (Mem [] []) history ->
  exists m, steps (Mem [] []) history = Some m /\
    forall p c, nth_error (heap m) p = Some c ->
      match c with
      | Live r _ => r = references m p /\ 0 < r
      | Freed => references m p = 0
      end.
Proof.
  intros os S. destruct (history_ok os _ empty_ok S) as (m & E & C & P & A). exists m. split; auto.
  intros p c N. specialize (C p). unfold ref_of in C. rewrite N in C. simpl in C. unfold references.
  destruct c; [|lia]. split; [lia|]. eauto.
Qed.
Print Assumptions C41_counts_exact.

(** Once no handle is left every node has been freed: nothing leaks. *)
Theorem C41_no_leak : forall history m, safe_history (Mem [] []) history ->
  steps (Mem [] []) history = Some m ->
  (forall v p, nth_error (vars m) v <> Some (Some (Some p))) ->
  forall p c, nth_error (heap m) p = Some c -> c = Freed.
Proof.
  intros os m S E Z p c N. destruct (history_ok os _ empty_ok S) as (m' & E' & OK).
  rewrite E in E'. inversion E'; subst m'.
  assert (VZ : forall q, var_refs q (vars m) = 0).
  { intros q. clear - Z. revert Z. generalize (vars m). induction l as [|v l IH]; simpl; intros Z; auto.
    rewrite IH; [|intros v' p; exact (Z (S v') p)]. destruct v as [[x|]|]; simpl; auto.
    destruct (x =? q) eqn:X; auto. exfalso. exact (Z 0 x eq_refl). }
  assert (LT : p < List.length (heap m)) by (apply nth_error_Some; congruence).
  rewrite (no_leak m OK VZ p LT) in N. congruence.
Qed.
Print Assumptions C41_no_leak.

(** A node is still live as long as a handle refers to it. *)
Theorem C41_handles_valid : forall history m v p, safe_history (Mem [] []) history ->
  steps (Mem [] []) history = Some m -> nth_error (vars m) v = Some (Some (Some p)) ->
  exists r fields, nth_error (heap m) p = Some (Live r fields).
Proof.
  intros os m v p S E V. destruct (history_ok os _ empty_ok S) as (m' & E' & C & _).
  rewrite E in E'. inversion E'; subst m'. apply var_refs_pos in V. specialize (C p). unfold ref_of in C.
  destruct (nth_error (heap m) p) as [[r fs|]|]; eauto; lia.
Qed.
Print Assumptions C41_handles_valid.

(** Finding: copy-assigning the last handle to itself frees the node and then
    touches it; so does assigning a field of the last handle's node to it. *)
Theorem C41_self_assignment_refuted :
  exists history m v, steps (Mem [] []) history = Some m /\ exists_loc m (Var v) /\
    step m (CopyAssign v (Var v)) = None.
Proof. exists [New []], (Mem [Live 1 []] [Some (Some 0)]), 0. vm_compute. eauto. Qed.
Print Assumptions C41_self_assignment_refuted.
Theorem C41_field_assignment_refuted :
  exists history m v p k, steps (Mem [] []) history = Some m /\ exists_loc m (Var v) /\ exists_loc m (Field p k) /\
    step m (CopyAssign v (Field p k)) = None.
Proof.
  exists [New []; New [0]], (Mem [Live 2 []; Live 1 [0]] [Some (Some 0); Some (Some 1)]), 1, 1, 0.
  vm_compute. split; auto. split; [eauto|]. split; [exists 1, [0], 0; auto|auto].
Qed.
Print Assumptions C41_field_assignment_refuted.

(** A history with copies, moves, a self move and cascading destruction. *)
Definition sample_history : list op :=
  [New []; New [0]; CopyCtor (Field 1 0); MoveCtor 1; CopyAssign 0 (Var 3); MoveAssign 3 3; Null; Destroy 2; Destroy 0].
Example C41_example : safe_history (Mem [] []) sample_history /\
  steps (Mem [] []) sample_history = Some (Mem [Freed; Freed] [None; Some None; None; Some None; Some None]).
Proof.
  split; [|reflexivity]. unfold sample_history.
  Ltac next := let E := fresh in intros ? E; vm_compute in E; inversion E; subst; clear E.
  split; [simpl; tauto|]. next.
  split; [intros v [<-|[]]; simpl; eauto|]. next.
  split; [exists 1, [0], 0; auto|]. next.
  split; [simpl; eauto|]. next.
  split; [simpl; repeat split; eauto; left; exists 3; split; auto; lia|]. next.
  split; [simpl; eauto|]. next.
  split; [exact I|]. next.
  split; [simpl; eauto|]. next.
  split; [simpl; eauto|]. next.
  exact I.
Qed.

(** ** C42 *)
(** For any sequence of scope, unscope and insert operations the map answers as
    the insertion history says: the first insertion of the innermost scope that
    has the key. *)
Theorem C42_lookup_innermost : forall (K W : Type) (keq : forall a b : K, {a = b} + {a <> b}) (os : list (sop K W)),
  forallb (fun o => negb (removes o)) os = true ->
  match ssteps keq (snew (K:=K) (W:=W)) os, hsteps [[]] os with
  | Some m, Some h => forall k, sget keq k m = binding keq k h /\
                       scontains keq k m = match binding keq k h with Some _ => true | None => false end
  | None, None => True
  | _, _ => False
  end.
Proof.
  intros K W keq os NR. assert (X := scoped_refines keq os (snew (K:=K) (W:=W)) [[]]).
  assert (F : Forall2 (same keq) (snew (K:=K) (W:=W)) [[]]) by (constructor; [intros k; reflexivity|constructor]).
  specialize (X F NR). destruct (ssteps keq snew os), (hsteps [[]] os); auto.
  intros k. rewrite scontains_get, (sget_binding keq _ _ X). auto.
Qed.
Print Assumptions C42_lookup_innermost.

(** Leaving a scope restores the map as it was when the scope was entered,
    whatever was inserted (and however deeply nested) in between. *)
Theorem C42_unscope_restores : forall (K W : Type) (keq : forall a b : K, {a = b} + {a <> b}) (m : smap K W) (os : list (sop K W)),
  nested 0 os = Some 0 -> forallb (fun o => negb (removes o)) os = true ->
  ssteps keq m (Scope :: os ++ [Unscope]) = Some m.
Proof.
  intros K W keq m os N NR. destruct (nested_outer keq os m 0 [[]]) as (s & E); auto.
  simpl in *. assert (G : forall (os : list (sop K W)) (m' : smap K W), ssteps keq m' (os ++ [Unscope]) =
    match ssteps keq m' os with Some m => match m with _ :: m => Some m | [] => None end | None => None end).
  { clear. induction os as [|o os IH]; simpl; intros m'.
    - destruct m'; auto.
    - destruct (sstep keq m' o); auto. }
  rewrite G, E. auto.
Qed.
Print Assumptions C42_unscope_restores.

(** Inserting changes no other key, and no outer scope. *)
Theorem C42_insert_local : forall (K W : Type) (keq : forall a b : K, {a = b} + {a <> b}) (m m' : smap K W) k v,
  sstep keq m (Insert k v) = Some m' ->
  tl m' = tl m /\ (forall k', k' <> k -> sget keq k' m' = sget keq k' m) /\ sget keq k m' <> None.
Proof.
  intros K W keq [|s m] m' k v E; simpl in E; inversion E; subst. split; auto. split.
  - intros k' N. simpl. destruct (find_in keq k s); auto. simpl. destruct (keq k k'); congruence.
  - simpl. destruct (find_in keq k s) eqn:F.
    + rewrite F. congruence.
    + simpl. destruct (keq k k); congruence.
Qed.
Print Assumptions C42_insert_local.

(** Removing takes away the innermost binding of the key and nothing else. *)
Theorem C42_remove_innermost : forall (K W : Type) (keq : forall a b : K, {a = b} + {a <> b}) (m m' : smap K W) k,
  sstep keq m (Remove k) = Some m' ->
  sget keq k m <> None /\ forall k', k' <> k -> sget keq k' m' = sget keq k' m.
Proof.
  intros K W keq m m' k. simpl. revert m'. induction m as [|s m IH]; simpl; intros m' E; [discriminate|].
  assert (ER : forall k', k' <> k -> find_in keq k' (erase_in keq k s) = find_in keq k' s).
  { clear. intros k' N. induction s as [|[x v] s IH]; simpl; auto. destruct (keq x k); simpl.
    - destruct (keq x k'); congruence.
    - destruct (keq x k'); auto. }
  destruct (find_in keq k s) eqn:F.
  - inversion E; subst. split; [congruence|]. intros k' N. simpl. rewrite ER; auto.
  - destruct (sremove keq k m) eqn:R; [|discriminate]. inversion E; subst. destruct (IH _ eq_refl) as [A B].
    split; auto. intros k' N. simpl. rewrite B; auto.
Qed.
Print Assumptions C42_remove_innermost.

(** Finding: removal reaches into enclosing scopes, so leaving a scope in which a
    key was removed does not restore it. *)
Theorem C42_remove_not_restored_refuted : exists (m m' : smap nat nat) k,
  ssteps Nat.eq_dec m [Scope; Remove k; Unscope] = Some m' /\
  sget Nat.eq_dec k m = Some 7 /\ sget Nat.eq_dec k m' = None.
Proof. exists [[(1, 7)]], [[]], 1. auto. Qed.
Print Assumptions C42_remove_not_restored_refuted.

Example C42_example :
  let os := [Insert 1 10; Scope; Insert 1 11; Insert 1 12; Insert 2 20] in
  exists m, ssteps Nat.eq_dec snew os = Some m /\ sget Nat.eq_dec 1 m = Some 11 /\
    exists m', sstep Nat.eq_dec m Unscope = Some m' /\ sget Nat.eq_dec 1 m' = Some 10 /\ sget Nat.eq_dec 2 m' = None.
Proof. simpl. eexists. split; [reflexivity|]. split; auto. eexists. split; [reflexivity|]. auto. Qed.
