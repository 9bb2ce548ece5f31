(** C70: leaving the loop of a reduction early does not change the result.

    The code is [kernel] of EarlyExit.v; [meaning] of EarlyExitSpec.v runs
    every iteration. *)
From Coq Require Import List Arith ZArith Bool Lia.
Import ListNotations.
From Verif Require Import EarlyExit EarlyExitSpec EarlyExitProofs.
Local Open Scope Z_scope.

(** Any statement, any loops, any coordinates visited by them, whatever later
    loops visit after a break: when each break leaves a loop that does nothing
    but reduce into one component by an operator whose annihilator absorbs, the
    kernel computes what the statement means. *)
Theorem C70_safe : forall splits s, safe splits s -> ~ breaks_out s ->
  forall loops later e st, exists r,
    kernel splits loops later s e st = Some r /\ same r (meaning splits loops s e st).
Proof.
  intros splits s S N loops later e st. unfold kernel.
  destruct (breaks (allows_short_circuit s) s) eqn:B;
    [exfalso; exact (N (breaks_breaks_out _ s B))|].
  eexists. split; [reflexivity|]. now apply (main splits loops later s S).
Qed.
Print Assumptions C70_safe.

(** Statements the check does not let through, or without annihilators, are not
    affected. *)
Theorem C70_no_exit : forall splits loops later s e st, allows_short_circuit s = false ->
  exists r, kernel splits loops later s e st = Some r /\ same r (meaning splits loops s e st).
Proof.
  intros splits loops later s e st A. unfold kernel. rewrite A, breaks_false.
  eexists. split; [reflexivity|]. apply exec_false.
Qed.
Print Assumptions C70_no_exit.

(** Loops in any order around one assignment: the check is right when the
    statement reduces over some variable and the result's variables have not
    been split. *)
Theorem C70_nest : forall splits vs t vars op rhs,
  absorbing op -> (forall w, In w vars -> splits w = None) ->
  (exists w, In w vs /\ ~ In w vars) ->
  forall loops later e st, exists r,
    kernel splits loops later (nest vs (Assign t vars op rhs)) e st = Some r /\
    same r (meaning splits loops (nest vs (Assign t vars op rhs)) e st).
Proof.
  intros splits vs t vars op rhs Ab Ns Red loops later e st.
  destruct (allows_short_circuit (nest vs (Assign t vars op rhs))) eqn:A;
    [|now apply C70_no_exit].
  destruct op as [o|].
  2: { apply C70_safe.
       - apply safe_nest; [exact I|discriminate].
       - destruct vs; cbn; [discriminate|intros []]. }
  destruct (exists_last (l := vs)) as [pre [v E]]; [destruct Red as (w & I & _); now destruct vs|].
  unfold allows_short_circuit in A. rewrite loop_order_nest, free_vars_nest in A.
  cbn in A. rewrite app_nil_r in A.
  pose proof (order_ok_last vars vs A pre v E Red) as L.
  apply C70_safe; [|apply nest_breaks; destruct Red as (w & I & _); now destruct vs].
  rewrite E, nest_app. apply safe_nest; [|intros []].
  split; [exact I|]. intros _. exists t. split; [reflexivity|]. split; [discriminate|].
  split; [exact Ab|]. intros w I M. unfold moves in M. rewrite (Ns w I) in M. now subst.
Qed.
Print Assumptions C70_nest.

(** What reductions in expressions become (a scalar temporary that is reduced
    into and then used), any number of result and reduction variables, also
    after reduction or result variables were split. *)
Theorem C70_reduction : forall splits frees reds c t init op rhs,
  absorbing (Some op) -> reds <> [] -> safe splits c -> ~ breaks_out c ->
  let s := nest frees (Where c t init (nest reds (Assign t [] (Some op) rhs))) in
  forall loops later e st, exists r,
    kernel splits loops later s e st = Some r /\ same r (meaning splits loops s e st).
Proof.
  intros splits frees reds c t init op rhs Ab N Sc Nc s loops later e st.
  assert (Np : ~ breaks_out (nest reds (Assign t [] (Some op) rhs))) by now apply nest_breaks.
  assert (Sp : safe splits (nest reds (Assign t [] (Some op) rhs))).
  { destruct (exists_last N) as [pre [v ->]]. rewrite nest_app. apply safe_nest; [|intros []].
    split; [exact I|]. intros _. exists t. split; [reflexivity|]. split; [discriminate|].
    split; [exact Ab|]. intros w []. }
  apply C70_safe.
  - apply safe_nest; [now repeat split|]. intros [K|K]; contradiction.
  - unfold s. destruct frees; [|now apply nest_breaks]. intros [K|K]; contradiction.
Qed.
Print Assumptions C70_reduction.

(** ** Examples *)
Arguments Assign _%nat _%nat _ _.
Arguments Read _%nat _%nat.
Arguments Forall _%nat _.
Arguments Where _ _%nat _%Z _.
Definition times : operator := {| apply := Z.mul; annihilator := Some (0, []) |}.
Lemma times_absorbs : absorbing (Some times).
Proof. intros o a ps E A x. injection E as <-. injection A as <- _. reflexivity. Qed.
Definition no_splits : var -> option (var * var * Z) := fun _ => None.
(** Every loop visits 0 and 1. *)
Definition two : var -> env -> list (list Z) := fun _ _ => [[0; 1]].
Definition on : var -> env -> Z -> list Z -> list Z := fun _ _ _ ys => ys.
Definition e0 : env := fun _ => 0.
(** Tensor 0 is the result, all ones; tensor 1 is 0 at 0 and 5 elsewhere. *)
Definition data : store := fun t c =>
  match t with 1%nat => match c with 0 :: _ => 0 | _ => 5 end | _ => 1 end.
Definition result (r : option store) (t : tensor) (c : list Z) : option Z :=
  match r with Some st => Some (st t c) | None => None end.

(** A(i) *= B(j, i) in loops over i and j: i = 0, j = 1. *)
Definition rows := nest [0; 1]%nat (Assign 0 [0]%nat (Some times) (Read 1 [1; 0]%nat)).
Example C70_nest_example :
  allows_short_circuit rows = true /\
  (exists r, kernel no_splits two on rows e0 data = Some r /\
             same r (meaning no_splits two rows e0 data)) /\
  result (kernel no_splits two on rows e0 data) 0%nat [1] = Some 0.
Proof.
  split; [reflexivity|]. split; [|vm_compute; reflexivity].
  apply C70_nest; [apply times_absorbs|reflexivity|]. exists 1%nat. split; [right; now left|].
  cbn. intros [H|[]]. discriminate H.
Qed.
(** A(i) = t where t *= B(j): the temporary is tensor 2. *)
Example C70_reduction_example :
  let s := nest [0]%nat (Where (Assign 0 [0]%nat None (Read 2 [])) 2 1
                           (nest [1]%nat (Assign 2 [] (Some times) (Read 1 [1]%nat)))) in
  allows_short_circuit s = true /\
  (exists r, kernel no_splits two on s e0 data = Some r /\ same r (meaning no_splits two s e0 data)) /\
  result (kernel no_splits two on s e0 data) 0%nat [1] = Some 0.
Proof.
  split; [reflexivity|]. split; [|vm_compute; reflexivity].
  apply C70_reduction; [apply times_absorbs|discriminate|exact I|discriminate].
Qed.
(** A reduction over two variables with a temporary inside the outer loop (the
    break of the outer reduction follows a where statement). *)
Example C70_safe_example :
  let s := Forall 0 (Where (Assign 0 [] (Some times) (Read 2 [])) 2 1
                       (Forall 1 (Assign 2 [] (Some times) (Read 1 [1]%nat)))) in
  safe no_splits s /\ allows_short_circuit s = true /\
  result (kernel no_splits two on s e0 data) 0%nat [] = Some 0.
Proof.
  split; [|split; vm_compute; reflexivity].
  assert (In0 : forall v, safe no_splits (Forall v (Assign 2 [] (Some times) (Read 1 [1]%nat)))).
  { intros v. split; [exact I|]. intros _. exists 2%nat. split; [reflexivity|].
    split; [discriminate|]. split; [apply times_absorbs|]. intros w []. }
  split.
  - split; [exact I|]. split; [apply In0|]. intros [].
  - intros _. exists 0%nat. split; [discriminate|]. split.
    + split; [reflexivity|]. split; [discriminate|]. split; [apply times_absorbs|]. intros w [].
    + split; [intros []|]. cbn. intros u ->. reflexivity.
Qed.

(** ** Findings: statements the check lets through although leaving the loop
    changes the result.  The operator absorbs in all of them but the fourth. *)

(** No reduction variable: A(i) *= B(i) stops at the first zero. *)
Theorem C70_no_reduction_refuted :
  exists s loops, allows_short_circuit s = true /\
    result (kernel no_splits loops on s e0 data) 0%nat [1] <>
    Some (meaning no_splits loops s e0 data 0%nat [1]).
Proof.
  exists (Forall 0 (Assign 0 [0]%nat (Some times) (Read 1 [0]%nat))), two.
  split; [reflexivity|]. vm_compute. discriminate.
Qed.
Print Assumptions C70_no_reduction_refuted.

(** The result's variable was split: its parts do not count as variables of the
    result, so the reduction loop may be outside of them.  Variable 2 is split
    into 3 and 4; the loops are 1, 3, 4. *)
Definition split2 : var -> option (var * var * Z) :=
  fun v => if Nat.eqb v 2 then Some (3%nat, 4%nat, 2) else None.
Theorem C70_split_refuted :
  exists s loops, allows_short_circuit s = true /\
    result (kernel split2 loops on s e0 data) 0%nat [1] <>
    Some (meaning split2 loops s e0 data 0%nat [1]).
Proof.
  exists (nest [1; 3; 4]%nat (Assign 0 [2]%nat (Some times) (Read 1 [2; 1]%nat))),
         (fun v _ => if Nat.eqb v 3 then [[0]] else [[0; 1]]).
  split; [reflexivity|]. vm_compute. discriminate.
Qed.
Print Assumptions C70_split_refuted.
(** In the same order without the split the loop is not left. *)
Example C70_unsplit :
  allows_short_circuit (nest [1; 2]%nat (Assign 0 [2]%nat (Some times) (Read 1 [2; 1]%nat))) = false.
Proof. reflexivity. Qed.

(** A temporary is indexed by the reduction variable, which then counts as a
    variable of the result: w(j) = 1 is computed first, then loops over j and i
    around A(i) *= B(i) * w(j).  i = 0, j = 1, w is tensor 2. *)
Theorem C70_temporary_refuted :
  exists s loops, allows_short_circuit s = true /\
    result (kernel no_splits loops on s e0 data) 0%nat [1] <>
    Some (meaning no_splits loops s e0 data 0%nat [1]).
Proof.
  exists (Where (nest [1; 0]%nat (Assign 0 [0]%nat (Some times)
                   (Op Z.mul (Read 1 [0]%nat) (Read 2 [1]%nat)))) 2 0
            (Forall 1 (Assign 2 [1]%nat None (Lit 1)))), two.
  split; [reflexivity|]. vm_compute. discriminate.
Qed.
Print Assumptions C70_temporary_refuted.

(** The annihilator was declared for the second argument only, and absorbs
    there; as the accumulated value it does not. *)
Definition since_zero : operator :=
  {| apply := fun x y => if Z.eqb y 0 then 0 else x + y; annihilator := Some (0, [1%nat]) |}.
Theorem C70_position_refuted :
  (forall x, apply since_zero x 0 = 0) /\
  exists s loops, allows_short_circuit s = true /\
    result (kernel no_splits loops on s e0 data) 0%nat [] <>
    Some (meaning no_splits loops s e0 data 0%nat []).
Proof.
  split; [reflexivity|].
  exists (Forall 0 (Assign 0 [] (Some since_zero) (Read 1 [0]%nat))), two.
  split; [reflexivity|]. vm_compute. discriminate.
Qed.
Print Assumptions C70_position_refuted.

(** Another statement in the same loop misses its iterations. *)
Theorem C70_together_refuted :
  exists s loops, allows_short_circuit s = true /\
    result (kernel no_splits loops on s e0 data) 3%nat [] <>
    Some (meaning no_splits loops s e0 data 3%nat []).
Proof.
  exists (Forall 0 (Both (Assign 0 [] (Some times) (Read 1 [0]%nat))
            (Assign 3 [] (Some {| apply := Z.add; annihilator := None |}) (Read 1 [0]%nat)))), two.
  split; [reflexivity|]. vm_compute. discriminate.
Qed.
Print Assumptions C70_together_refuted.

(** Without any loop the kernel is not C. *)
Theorem C70_no_loop_refuted : forall splits loops later e st,
  kernel splits loops later (Assign 0 [] (Some times) (Lit 1)) e st = None.
Proof. reflexivity. Qed.
Print Assumptions C70_no_loop_refuted.
