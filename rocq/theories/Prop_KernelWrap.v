(** Property C69: the C function does to the caller's tensors what the lowered
    function does. *)
From Coq Require Import String List Arith ZArith Bool Lia.
Import ListNotations.
From Verif Require Import Util UtilSpec UtilProofs KernelWrap KernelWrapSpec KernelWrapProofs.
Local Open Scope nat_scope.

(** For every function whose names are clear and that sets only arrays of
    results: code is generated, and on all tensors and all memory it ends with
    the same tensors and the same memory as the function run on the tensors
    themselves; or neither has a meaning; or neither has ended. *)
Theorem C69_kernel : forall f, known f -> clear_names f -> sets_results f ->
  exists c, codegen f = Some c /\ forall fuel T h, same (run_c fuel c T h) (run_function fuel f T h).
Proof. exact kernel_ok. Qed.
Print Assumptions C69_kernel.

(** Names: every variable and every property has one; no two have the same;
    none is the name of a tensor or a keyword. *)
Theorem C69_names : forall f, known f -> clear_names f ->
  (forall r, In r (refs RVar (body f)) -> exists n, named (entity_of r) (find_vars f) = Some n) /\
  (forall x y n, named x (find_vars f) = Some n -> named y (find_vars f) = Some n -> x = y) /\
  (forall x n, named x (find_vars f) = Some n -> ~ In n (tensors f) /\ ~ In n keywords).
Proof.
  intros f K C. pose proof (clear_well_named f K C) as W. split; [|split].
  - intros. apply mentioned_named; auto.
  - apply (names_inj (tensors f)). auto.
  - intros x n H. split; [eapply names_not_tensor; eauto|]. apply W. apply in_or_app. right.
    apply named_in in H. apply (in_map snd) in H. auto.
Qed.
Print Assumptions C69_names.

(** Two conditions a user can check.  (a) No name ends in a digit. *)
Lemma number_end : forall n d, number d -> ~ no_digit_end (n ++ d).
Proof.
  intros n d [N D] H. unfold no_digit_end in H. rewrite chars_app, rev_app_distr in H.
  destruct (List.rev (chars d)) as [|c l] eqn:R.
  - apply N. apply chars_inj. rewrite <- (rev_involutive (chars d)), R. auto.
  - cbn [app] in H. assert (X : digit c = true).
    { apply (proj1 (forallb_forall _ _) D). apply in_rev. rewrite R. left. auto. }
    congruence.
Qed.
Theorem C69_no_digits : forall f,
  NoDup (kept f) -> (forall n, In n (kept f) -> ~ In n keywords /\ ~ In n (asked f)) ->
  (forall n, In n (asked f ++ kept f) -> no_digit_end n) -> clear_names f.
Proof.
  intros f N D E. split; auto. split; auto. intros n m d _ I Q ->. apply (number_end n d Q). auto.
Qed.
Print Assumptions C69_no_digits.
(** (b) No name is used twice, and none begins with a keyword and goes on with a
    number. *)
Theorem C69_all_different : forall f,
  NoDup (kept f ++ asked f) -> (forall n, In n (kept f) -> ~ In n keywords) ->
  (forall n k d, In n (asked f ++ kept f) -> In k keywords -> number d -> n <> (k ++ d)%string) -> clear_names f.
Proof.
  intros f N D E.
  assert (G : forall (a b : list string), NoDup (a ++ b) -> NoDup a /\ NoDup b /\ forall n, In n a -> ~ In n b).
  { induction a as [|x a IH]; intros b H; cbn [app] in H. { split; [constructor|]. split; [auto|]. intros n []. }
    inversion H; subst. destruct (IH b H3) as (A & B & C). split; [|split; auto].
    - constructor; auto. intros I. apply H2, in_or_app. auto.
    - intros n [<-|I]; auto. intros I. apply H2, in_or_app. auto. }
  destruct (G _ _ N) as (A & B & C). split; auto. split; [intros n I; split; auto|].
  intros n m d [K|K] I Q; [eapply E; eauto|].
  exfalso. pose proof (proj1 (NoDup_count_occ string_dec (asked f)) B n). lia.
Qed.
Print Assumptions C69_all_different.

(** A function: y(i) = 2 * b(i), which allocates the values of y. *)
Definition y_vals := RProp (Property 0 Values 0 0) "y_vals".
Definition b_vals := RProp (Property 1 Values 0 0) "b_vals".
Definition b_dim := RProp (Property 1 Dimension 0 0) "b1_dimension".
Definition twice : func :=
  Func ["y"; "b"]%string 1 (fun _ => "i"%string) (fun _ => false)
    (Seq (Alloc Malloc y_vals (Ref b_dim))
         (For 0 (Lit 0) (Ref b_dim) (Lit 1)
              (Store (Ref y_vals) (Ref (RVar 0)) (Bin Z.mul (Lit 2) (Load (Ref b_vals) (Ref (RVar 0))))))).
Definition one_vector : store_of := fun i k => match i, fkind k with 1%nat, Dimension => 3%Z | 1%nat, Values => 1%Z | _, _ => 0%Z end.
Definition its_memory : heap := [Some [Some 5; Some 6; Some 7]]%Z.

Lemma twice_clear : known twice /\ clear_names twice /\ sets_results twice.
Proof.
  split; [|split].
  - intros p n H. cbn in H. repeat (destruct H as [H|H]; [inversion H; subst; cbn; lia|]). destruct H.
  - apply C69_no_digits; vm_compute.
    + repeat constructor; cbn; intuition discriminate.
    + intros n H. repeat (destruct H as [<-|H]; [intuition discriminate|]). destruct H.
    + intros n H. repeat (destruct H as [<-|H]; [reflexivity|]). destruct H.
  - intros p n H. cbn in H. destruct H as [H|[]]. inversion H; subst. cbn. repeat split; try discriminate; lia.
Qed.
Example C69_example :
  known twice /\ clear_names twice /\ sets_results twice /\
  option_map unpack (codegen twice)
  = Some [("y_vals", ("y", KernelWrap.Field Values 0 0)); ("b1_dimension", ("b", KernelWrap.Field Dimension 0 0));
          ("b_vals", ("b", KernelWrap.Field Values 0 0))]%string /\
  (exists T h, run_function 20 twice one_vector its_memory = Done (T, h) /\
     T 0 (KernelWrap.Field Values 0 0) = 2%Z /\
     h = [Some [Some 5; Some 6; Some 7]; Some [Some 10; Some 12; Some 14]]%Z).
Proof.
  destruct twice_clear as (A & B & C). repeat (split; auto).
  eexists _, _. split; [vm_compute; reflexivity|]. split; vm_compute; reflexivity.
Qed.

(** ** Findings: names that are accepted and clash *)
Definition quietly_differs (f : func) : Prop :=
  exists c fuel T h, codegen f = Some c /\
    (exists r s, run_c fuel c T h = Done r /\ run_function fuel f T h = Done s /\ snd r <> snd s).
Definition no_program (f : func) : Prop :=
  exists c fuel T h, codegen f = Some c /\ run_c fuel c T h = Stuck /\
    (exists s, run_function fuel f T h = Done s).

(** Loops over i, another i, and i0: the second is renamed to i0, and the third
    hides it.  The program compiles and stores elsewhere. *)
Definition a_vals := RProp (Property 0 Values 0 0) "A_vals".
Definition three_loops : func :=
  Func ["A"]%string 1 (fun v => nth v ["i"; "i"; "i0"]%string "k"%string) (fun _ => false)
    (For 0 (Lit 0) (Lit 1) (Lit 1) (For 1 (Lit 0) (Lit 2) (Lit 1) (For 2 (Lit 0) (Lit 1) (Lit 1)
       (Store (Ref a_vals) (Bin Z.add (Ref (RVar 1)) (Ref (RVar 2))) (Lit 1))))).
Theorem C69_suffix_refuted : exists f, known f /\ sets_results f /\ NoDup (kept f) /\
  (forall n, In n (kept f) -> ~ In n keywords /\ ~ In n (asked f)) /\ quietly_differs f.
Proof.
  exists three_loops. split; [|split; [|split; [|split]]].
  - intros p n H. cbn in H. repeat (destruct H as [H|H]; [inversion H; subst; cbn; lia|]). destruct H.
  - intros p n [].
  - vm_compute. repeat constructor. intros [].
  - vm_compute. intros n H. repeat (destruct H as [<-|H]; [intuition discriminate|]). destruct H.
  - eexists _, 30, (fun _ _ => 1%Z), [Some [Some 0; Some 0]]%Z. split; [vm_compute; reflexivity|].
    eexists _, _. split; [vm_compute; reflexivity|]. split; [vm_compute; reflexivity|].
    vm_compute. intros E. discriminate.
Qed.
Print Assumptions C69_suffix_refuted.

(** Two temporaries named w, one inside a loop that uses the other: arrays are
    not renamed, so the inner one hides the outer one. *)
Definition two_workspaces : func :=
  Func ["A"]%string 1 (fun v => nth v ["w"; "i"; "w"]%string "k"%string) (fun v => negb (v =? 1))
    (Seq (Decl 0 (Lit 0)) (Seq (Alloc Calloc (RVar 0) (Lit 1)) (Seq (Store (Ref (RVar 0)) (Lit 0) (Lit 5))
       (For 1 (Lit 0) (Lit 1) (Lit 1)
         (Seq (Decl 2 (Lit 0)) (Seq (Alloc Calloc (RVar 2) (Lit 1))
           (Store (Ref a_vals) (Lit 0)
              (Bin Z.add (Load (Ref (RVar 0)) (Lit 0)) (Load (Ref (RVar 2)) (Lit 0)))))))))).
Theorem C69_temporaries_refuted : exists f, known f /\ sets_results f /\
  (forall n, In n (kept f) -> ~ In n keywords /\ ~ In n (asked f)) /\ NoDup (asked f) /\ quietly_differs f.
Proof.
  exists two_workspaces. split; [|split; [|split; [|split]]].
  - intros p n H. cbn in H. repeat (destruct H as [H|H]; [inversion H; subst; cbn; lia|]). destruct H.
  - intros p n H. cbn in H. repeat (destruct H as [H|H]; [discriminate|]). destruct H.
  - vm_compute. intros n H. repeat (destruct H as [<-|H]; [intuition discriminate|]). destruct H.
  - vm_compute. repeat constructor; cbn; intuition discriminate.
  - eexists _, 30, (fun _ _ => 1%Z), [Some [Some 0]]%Z. split; [vm_compute; reflexivity|].
    eexists _, _. split; [vm_compute; reflexivity|]. split; [vm_compute; reflexivity|].
    vm_compute. intros E. discriminate.
Qed.
Print Assumptions C69_temporaries_refuted.

(** A tensor A_vals beside a tensor A: the variable for the values of A has the
    name of a parameter, and the C compiler rejects the function. *)
Definition copy_of (s t : string) (p q : string) : func :=
  Func [s; t] 1 (fun _ => "i"%string) (fun _ => false)
    (Store (Ref (RProp (Property 0 Values 0 0) p)) (Lit 0) (Load (Ref (RProp (Property 1 Values 0 0) q)) (Lit 0))).
Theorem C69_tensor_names_refuted : exists f, known f /\ sets_results f /\ NoDup (kept f) /\ NoDup (asked f) /\
  no_program f.
Proof.
  exists (copy_of "A" "A_vals" "A_vals" "A_vals_vals"). split; [|split; [|split; [|split]]].
  - intros p n H. cbn in H. repeat (destruct H as [H|H]; [inversion H; subst; cbn; lia|]). destruct H.
  - intros p n [].
  - vm_compute. repeat constructor; cbn; intuition discriminate.
  - vm_compute. repeat constructor; cbn; intuition discriminate.
  - eexists _, 30, (fun _ _ => 1%Z), [Some [Some 0]]%Z. split; [vm_compute; reflexivity|].
    split; [vm_compute; reflexivity|]. eexists. vm_compute. reflexivity.
Qed.
Print Assumptions C69_tensor_names_refuted.

(** Two tensors with the same name. *)
Theorem C69_same_name_refuted : exists f, known f /\ sets_results f /\
  (forall n, In n (kept f) -> ~ In n keywords /\ ~ In n (asked f)) /\ no_program f.
Proof.
  exists (copy_of "A" "A" "A_vals" "A_vals"). split; [|split; [|split]].
  - intros p n H. cbn in H. repeat (destruct H as [H|H]; [inversion H; subst; cbn; lia|]). destruct H.
  - intros p n [].
  - vm_compute. intros n H. repeat (destruct H as [<-|H]; [intuition discriminate|]). destruct H.
  - eexists _, 30, (fun _ _ => 1%Z), [Some [Some 0]]%Z. split; [vm_compute; reflexivity|].
    split; [vm_compute; reflexivity|]. eexists. vm_compute. reflexivity.
Qed.
Print Assumptions C69_same_name_refuted.

(** A tensor whose name is a keyword. *)
Theorem C69_keyword_refuted : exists f, known f /\ sets_results f /\ NoDup (kept f ++ asked f) /\ no_program f.
Proof.
  exists (copy_of "A" "double" "A_vals" "double_vals"). split; [|split; [|split]].
  - intros p n H. cbn in H. repeat (destruct H as [H|H]; [inversion H; subst; cbn; lia|]). destruct H.
  - intros p n [].
  - vm_compute. repeat constructor; cbn; intuition discriminate.
  - eexists _, 30, (fun _ _ => 1%Z), [Some [Some 0]]%Z. split; [vm_compute; reflexivity|].
    split; [vm_compute; reflexivity|]. eexists. vm_compute. reflexivity.
Qed.
Print Assumptions C69_keyword_refuted.

(** Setting an array of a result without allocating anything is not stored. *)
Definition alias : func :=
  Func ["A"; "B"]%string 1 (fun _ => "i"%string) (fun _ => false)
    (Assign a_vals (Ref (RProp (Property 1 Values 0 0) "B_vals"))).
Example C69_sets_results_needed : known alias /\ clear_names alias /\
  ~ (exists c, codegen alias = Some c /\ forall fuel T h, same (run_c fuel c T h) (run_function fuel alias T h)).
Proof.
  split; [|split].
  - intros p n H. cbn in H. repeat (destruct H as [H|H]; [inversion H; subst; cbn; lia|]). destruct H.
  - apply C69_no_digits; vm_compute.
    + repeat constructor; cbn; intuition discriminate.
    + intros n H. repeat (destruct H as [<-|H]; [intuition discriminate|]). destruct H.
    + intros n H. repeat (destruct H as [<-|H]; [reflexivity|]). destruct H.
  - intros (c & E & H). vm_compute in E. inversion E; subst. specialize (H 5 (fun i _ => Z.of_nat i) []).
    vm_compute in H. destruct H as [H _]. specialize (H 0 (KernelWrap.Field Values 0 0)). discriminate.
Qed.
