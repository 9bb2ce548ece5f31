(** C60: statements that are accepted for compiling are well formed. *)
From Coq Require Import List Arith Bool ZArith Lia.
From Verif Require Schedule.
From Verif Require Import Accept AcceptSpec AcceptProofs AcceptTransform.
Import ListNotations.
Local Open Scope nat_scope.

Definition yes (a : assignment) : bool := true.
(** forall(i, forall(j, y(i) += B(i,j) * x(j))): i is 0, j is 1. *)
Definition spmv : assignment := Assign 0 [0] true (EBin 0 (EAcc 1 [0; 1]) (EAcc 2 [1])).
(** where(forall(i, a(i) = w(i)), forall(j, w(j) = b(j))) *)
Definition copy_where : stmt :=
  SWhere (SForall 0 (SAssign (Assign 0 [0] false (EAcc 9 [0])))) (SForall 1 (SAssign (Assign 9 [1] false (EAcc 1 [1])))).

(** Without relations, a statement is accepted exactly if it has no SuchThat and its
    assignments have no reductions, use only variables of the loops around them, are valid
    outside of where statements, and are compound if they reduce outside of producers. *)
Theorem C60_exact : forall valid s, (forall s' rels, s <> SSuchThat s' rels) ->
  (isConcreteNotation valid s = true <->
   suchthat_free s /\
   forall k a, In (k, a) (all_assignments s) ->
     reduction_free (rhs a) /\
     (forall v, In v (lhs_vars a ++ used (rhs a)) -> In v (loops k)) /\
     (in_producer k = false -> in_consumer k = false -> valid a = true) /\
     (in_producer k = false -> compound a = false -> incl (access_vars (rhs a)) (lhs_vars a))).
Proof. exact exact_plain. Qed.
Print Assumptions C60_exact.

Example C60_exact_example :
  isConcreteNotation yes (nest [0; 1] spmv) = true /\ isConcreteNotation yes copy_where = true /\
  isConcreteNotation yes (nest [0] spmv) = false /\
  isConcreteNotation yes (nest [0; 1] (Assign 0 [0] false (rhs spmv))) = false.
Proof. repeat split; reflexivity. Qed.

(** What an accepted statement computes depends on the tensors only: every variable gets its
    value from a loop. *)
Theorem C60_closed : forall valid s, (forall s' rels, s <> SSuchThat s' rels) -> isConcreteNotation valid s = true ->
  forall M r r' m t k, run M r s m t k = run M r' s m t k.
Proof. exact closed. Qed.
Print Assumptions C60_closed.

(** Loops around an accepted plain assignment give every component of the result the value of
    the right-hand side at its coordinates: no component depends on the order of the loops. *)
Theorem C60_plain : forall valid vs a, isConcreteNotation valid (nest vs a) = true ->
  compound a = false -> accesses_only (rhs a) -> ~ reads (lhs a) (rhs a) ->
  forall M r r0 m, (forall v, In v vs -> r v < dim M v) ->
  run M r0 (nest vs a) m (lhs a) (map r (lhs_vars a)) = eval M r m (rhs a).
Proof. exact plain_value. Qed.
Print Assumptions C60_plain.

Definition ints (n : nat) : meaning :=
  {| fn1 := fun _ z => Z.opp z; fn2 := fun _ => Z.mul; accumulate := Z.add; dim := fun _ => n |}.
Example C60_plain_example :
  let a := Assign 0 [1; 0] false (EBin 0 (EAcc 1 [0; 1]) (EAcc 2 [1])) in
  isConcreteNotation yes (nest [0; 1] a) = true /\ accesses_only (rhs a) /\ ~ reads (lhs a) (rhs a) /\
  run (ints 3) (fun _ => 7) (nest [0; 1] a) (fun t k => Z.of_nat (t * 10 + nth 0 k 0)) 0 [1; 2] = (12 * 21)%Z.
Proof. cbn -[run]. repeat split; auto; try reflexivity. intros [H|H]; discriminate. Qed.

(** Not so when variables are used as values: forall(i, a = i) is accepted, and [a] gets the
    last value. *)
Theorem C60_index_value_refuted : exists valid vs a M r r0 m,
  isConcreteNotation valid (nest vs a) = true /\ compound a = false /\ ~ reads (lhs a) (rhs a) /\
  (forall v, In v vs -> r v < dim M v) /\
  run M r0 (nest vs a) m (lhs a) (map r (lhs_vars a)) <> eval M r m (rhs a).
Proof.
  exists yes, [0], (Assign 0 [] false (EVar 0)), (ints 2), (fun _ => 0), (fun _ => 0), (fun _ _ => 0%Z).
  split; [reflexivity|]. split; [reflexivity|]. split; [cbn; auto|]. split; [cbn; lia|]. vm_compute. discriminate.
Qed.
Print Assumptions C60_index_value_refuted.
(** Nor in the producers of where statements: where(a = w, forall(i, w = b(i))) is accepted,
    and gives the last component of b. *)
Theorem C60_producer_refuted : exists valid s k a, isConcreteNotation valid s = true /\
  In (k, a) (all_assignments s) /\ compound a = false /\ ~ incl (access_vars (rhs a)) (lhs_vars a) /\
  exists M r m, run M r s m 0 [] = m 1 [2] /\ m 1 [2] <> m 1 [0] /\ dim M 0 = 3.
Proof.
  exists yes, (SWhere (SAssign (Assign 0 [] false (EAcc 9 []))) (SForall 0 (SAssign (Assign 9 [] false (EAcc 1 [0]))))),
    (Place [0] true false), (Assign 9 [] false (EAcc 1 [0])).
  split; [reflexivity|]. split; [cbn; auto|]. split; [reflexivity|]. split.
  - intros H. exact (H 0 (or_introl eq_refl)).
  - exists (ints 3), (fun _ => 0), (fun t k => Z.of_nat (nth 0 k 0)). split; [reflexivity|]. split; [discriminate|reflexivity].
Qed.
Print Assumptions C60_producer_refuted.

(** Reduction notation: accepted exactly if every variable of an access is on the left-hand
    side or bound by a reduction around the access; and then the right-hand side depends on
    the variables of the left-hand side only. *)
Theorem C60_reduction : forall valid s, isReductionNotation valid s = true <->
  exists a, s = SAssign a /\ valid a = true /\ incl (free (rhs a)) (lhs_vars a).
Proof.
  intros valid s. split.
  - destruct s as [a|v s|s1 s2|h s1 s2|s rl]; cbn; try discriminate. intros H. apply andb_true_iff in H. destruct H as [V H].
    exists a. split; auto. split; auto. now apply vars_bound_iff.
  - intros (a & -> & V & H). cbn. rewrite V. now apply vars_bound_iff.
Qed.
Print Assumptions C60_reduction.
Theorem C60_reduction_value : forall valid a, isReductionNotation valid (SAssign a) = true -> accesses_only (rhs a) ->
  forall M m r r', (forall v, In v (lhs_vars a) -> r v = r' v) -> eval M r m (rhs a) = eval M r' m (rhs a).
Proof.
  intros valid a H A M m r r' E. apply C60_reduction in H. destruct H as (a' & X & _ & I). injection X as <-.
  apply eval_free; auto.
Qed.
Print Assumptions C60_reduction_value.
Example C60_reduction_example :
  isReductionNotation yes (SAssign (Assign 0 [0] false (ERed 1 (EBin 0 (EAcc 1 [0; 1]) (EAcc 2 [1]))))) = true /\
  isReductionNotation yes (SAssign (Assign 0 [0] false (EBin 0 (ERed 1 (EAcc 1 [0; 1])) (EAcc 2 [1])))) = false.
Proof. split; reflexivity. Qed.

(** ** Derived variables *)
(** With relations, loops around an assignment are accepted exactly if every variable is
    derived or determined by the loops' variables (and the rest as before, where variables of
    the left-hand side stand for those derived from them). *)
Theorem C60_relations : forall valid rels vs a, in_order [] rels -> Forall (fun r => precompute r = false) rels ->
  NoDup (flat_map parents rels) ->
  (isConcreteNotation valid (SSuchThat (nest vs a) rels) = true <->
   valid a = true /\ reduction_free (rhs a) /\
   (forall v, In v (lhs_vars a ++ used (rhs a)) -> derived rels v \/ determined rels vs v) /\
   (compound a = false -> forall v u, In v (access_vars (rhs a)) -> origin rels v u -> In v (lhs_vars a) \/ In u (lhs_vars a))).
Proof. exact exact_nest. Qed.
Print Assumptions C60_relations.

(** i split into i0 = 2 and i1 = 3, then i0 and j fused into f = 4. *)
Definition tiled : list rel := [Rel false [0] [2; 3]; Rel false [2; 1] [4]].
Example C60_relations_example :
  in_order [] tiled /\ Forall (fun r => precompute r = false) tiled /\ NoDup (flat_map parents tiled) /\
  isConcreteNotation yes (SSuchThat (nest [4; 3] spmv) tiled) = true /\
  isConcreteNotation yes (SSuchThat (nest [4] spmv) tiled) = false.
Proof.
  split; [|split; [|split; [|split; reflexivity]]].
  - cbn. repeat split; try discriminate; intros; intuition (subst; try discriminate; try lia).
  - repeat constructor.
  - repeat constructor; cbn; intuition discriminate.
Qed.

(** The values of these variables are those recovered from the loops' variables, whatever the
    others are. *)
Theorem C60_values : forall valid vs a qs, isConcreteNotation valid (SSuchThat (nest vs a) (map of_rel qs)) = true ->
  in_order [] (map of_rel qs) -> Forall (fun r => precompute r = false) (map of_rel qs) -> NoDup (flat_map Schedule.parents qs) ->
  (forall q v, In q qs -> In v vs -> ~ In v (Schedule.parents q)) ->
  forall v, In v (lhs_vars a ++ used (rhs a)) -> ~ derived (map of_rel qs) v ->
  forall B s s', (forall w, In w vs -> s w = s' w) -> Schedule.recover_all B qs s v = Schedule.recover_all B qs s' v.
Proof.
  intros valid vs a qs A O F ND L v I N B s s' E.
  assert (ND' : NoDup (flat_map parents (map of_rel qs))).
  { rewrite flat_map_concat_map, map_map, <- flat_map_concat_map. exact ND. }
  apply (exact_nest valid (map of_rel qs) vs a O F ND') in A. destruct A as (_ & _ & U & _).
  destruct (U v I) as [D|D]; [contradiction|]. apply (determined_values B qs vs); auto.
Qed.
Print Assumptions C60_values.
Example C60_values_example :
  let qs := [Schedule.Split 0 2 3 4; Schedule.Fuse 2 1 4] in
  map of_rel qs = tiled /\ isConcreteNotation yes (SSuchThat (nest [4; 3] spmv) (map of_rel qs)) = true /\
  Schedule.recover_all (fun _ => (0, 5)) qs (fun v => if v =? 4 then 7 else 2) 0 = 1 * 4 + 2.
Proof. repeat split; reflexivity. Qed.

(** In any accepted statement the variables are bound by the loops around them, derived, or
    determined by the variables of loops somewhere in the statement. *)
Theorem C60_anywhere : forall valid s, isConcreteNotation valid s = true ->
  in_order [] (relations s) -> Forall (fun r => precompute r = false) (relations s) ->
  forall k a, In (k, a) (all_assignments s) ->
  (in_producer k = false -> in_consumer k = false -> valid a = true) /\ reduction_free (rhs a) /\
  forall v, In v (lhs_vars a ++ used (rhs a)) ->
    In v (loops k) \/ derived (relations s) v \/ determined (relations s) (loop_variables s) v.
Proof. exact anywhere. Qed.
Print Assumptions C60_anywhere.
(** But not by the loops around them: the loops of a producer count for the consumer. *)
Theorem C60_sibling_refuted : exists valid s k a v, isConcreteNotation valid s = true /\
  in_order [] (relations s) /\ Forall (fun r => precompute r = false) (relations s) /\
  In (k, a) (all_assignments s) /\ In v (used (rhs a)) /\ ~ derived (relations s) v /\ ~ determined (relations s) (loops k) v.
Proof.
  exists yes, (SSuchThat (SWhere (SForall 5 (SAssign (Assign 0 [5] true (EBin 0 (EAcc 9 [5]) (EAcc 1 [0])))))
                                 (SForall 2 (SForall 3 (SAssign (Assign 9 [0] false (EAcc 2 [0])))))) [Rel false [0] [2; 3]]),
    (Place [5] false true), (Assign 0 [5] true (EBin 0 (EAcc 9 [5]) (EAcc 1 [0]))), 0.
  split; [reflexivity|]. split. { cbn. repeat split; try discriminate; intros; intuition (subst; try discriminate; try lia). }
  split; [repeat constructor|]. split; [cbn; auto|]. split; [cbn; auto|]. split.
  - intros (r & [<-|[]] & J). cbn in J. intuition discriminate.
  - intros D. inversion D as [? I|? r Ir Iv NE F]; subst; [cbn in I; intuition discriminate|].
    destruct Ir as [<-|[]]. cbn in F. inversion F as [|? ? D2 _]; subst.
    inversion D2 as [? I|? r Ir Iv2 NE2 F2]; subst; [cbn in I; intuition discriminate|].
    destruct Ir as [<-|[]]. cbn in Iv2. intuition discriminate.
Qed.
Print Assumptions C60_sibling_refuted.
(** Derived variables are accepted without their loops. *)
Theorem C60_derived_refuted : exists valid rels vs a v, isConcreteNotation valid (SSuchThat (nest vs a) rels) = true /\
  in_order [] rels /\ Forall (fun r => precompute r = false) rels /\ In v (used (rhs a)) /\ ~ determined rels vs v.
Proof.
  exists yes, [Rel false [0] [2; 3]], [0], (Assign 0 [0] true (EAcc 1 [3])), 3.
  split; [reflexivity|]. split. { cbn. repeat split; try discriminate; intros; intuition (subst; try discriminate; try lia). }
  split; [repeat constructor|]. split; [cbn; auto|]. intros D.
  inversion D as [? I|? r Ir Iv NE F]; subst; [cbn in I; intuition discriminate|].
  destruct Ir as [<-|[]]. cbn in Iv. intuition discriminate.
Qed.
Print Assumptions C60_derived_refuted.
(** Inside the producer of one precomputation, a variable of another one counts as recovered. *)
Theorem C60_precompute_refuted : exists valid rels vs a v, isConcreteNotation valid (SSuchThat (nest vs a) rels) = true /\
  in_order [] rels /\ In v (used (rhs a)) /\ ~ derived rels v /\ ~ determined rels vs v.
Proof.
  exists yes, [Rel true [0] [1]; Rel true [2] [3]], [1], (Assign 0 [1] true (EAcc 1 [2])), 2.
  split; [reflexivity|]. split. { cbn. repeat split; try discriminate; intros; intuition (subst; try discriminate; try lia). }
  split; [cbn; auto|]. split.
  - intros (r & [<-|[<-|[]]] & J); cbn in J; intuition discriminate.
  - intros D. inversion D as [? I|? r Ir Iv NE F]; subst; [cbn in I; intuition discriminate|].
    destruct Ir as [<-|[<-|[]]]; cbn in Iv; [intuition discriminate|]. cbn in F. inversion F as [|? ? D2 _]; subst.
    inversion D2 as [? I|? r Ir Iv2 NE2 F2]; subst; [cbn in I; intuition discriminate|].
    destruct Ir as [<-|[<-|[]]]; cbn in Iv2; intuition discriminate.
Qed.
Print Assumptions C60_precompute_refuted.

(** ** Transformations *)
(** Splitting, dividing, fusing, bounding and pos give statements that are accepted again,
    when their new variables are new and the loops are not those of a precomputation's
    producer. *)
Theorem C60_kept : forall valid r s s', transform valid r s = Some s' ->
  in_order [] (relations s) -> new_relation r s -> precompute r = false ->
  (forall p q, In p (parents r) -> In q (relations s) -> In p (children q) -> precompute q = false) ->
  isConcreteNotation valid s' = true.
Proof. exact transform_accepted. Qed.
Print Assumptions C60_kept.
(** Those of one loop succeed wherever the statement has this loop and it was not transformed
    before. *)
Theorem C60_succeeds : forall valid r s i, isConcreteNotation valid s = true ->
  in_order [] (relations s) -> new_relation r s -> precompute r = false -> parents r = [i] ->
  Forall (fun q => precompute q = false) (relations s) ->
  (forall q, In q (relations s) -> ~ In i (parents q)) -> In i (loop_variables s) ->
  exists s', transform valid r s = Some s' /\ isConcreteNotation valid s' = true.
Proof. exact transform_succeeds. Qed.
Print Assumptions C60_succeeds.
(** In a loop nest, directly nested loops over the parents become loops over the children. *)
Theorem C60_shape : forall valid r rels pre post a,
  isConcreteNotation valid (SSuchThat (nest (pre ++ parents r ++ post) a) rels) = true ->
  in_order [] rels -> new_relation r (SSuchThat (nest (pre ++ parents r ++ post) a) rels) -> precompute r = false ->
  Forall (fun q => precompute q = false) rels ->
  (forall p q, In p (parents r) -> In q rels -> ~ In p (parents q)) ->
  (forall p, hd_error (parents r) = Some p -> ~ In p pre) ->
  transform valid r (SSuchThat (nest (pre ++ parents r ++ post) a) rels) =
    Some (SSuchThat (nest (pre ++ children r ++ post) a) (rels ++ [r])).
Proof. exact transform_shape. Qed.
Print Assumptions C60_shape.
Example C60_transform_example : exists s1 s2, split yes 0 2 3 (nest [0; 1] spmv) = Some s1 /\
  fuse yes 3 1 4 s1 = Some s2 /\ s2 = SSuchThat (nest [2; 4] spmv) [Rel false [0] [2; 3]; Rel false [3; 1] [4]] /\
  in_order [] (relations s1) /\ new_relation (Rel false [3; 1] [4]) s1.
Proof.
  eexists _, _. split; [reflexivity|]. split; [reflexivity|]. split; [reflexivity|]. split.
  - cbn. repeat split; try discriminate; intros; intuition (subst; try discriminate; try lia).
  - unfold new_relation. cbn. split; [discriminate|]. split; [discriminate|]. intros c [<-|[]]. split; intuition discriminate.
Qed.
(** Loops that are not directly nested cannot be fused. *)
Example C60_fuse_example : fuse yes 0 1 4 (SForall 0 (SForall 5 (SForall 1 (SAssign spmv)))) = None.
Proof. reflexivity. Qed.

(** The recursions of the graph's queries end: the bound in the model is not reached. *)
Theorem C60_recursion : forall rels, in_order [] rels ->
  (forall v, getUnderivedAncestors rels v =
     match getParents rels v with [] => [v] | ps => flat_map (getUnderivedAncestors rels) ps end) /\
  (forall defined producers consumers v, let R := recoverable (S (length rels)) rels defined producers consumers in
     R v = if mem v consumers then true
           else if negb (is_nil producers) && is_precompute (child_rel rels v) then
             match getChildren rels v with [] => false | c :: _ => if mem c producers then true else R c end
           else forallb (fun c => mem c defined || (negb (isFullyDerived rels c) && R c)) (getChildren rels v)).
Proof.
  intros rels O. split; intros.
  - now apply (getUnderivedAncestors_eq rels []).
  - exact (rec_all_eq rels [] defined producers consumers v O).
Qed.
Print Assumptions C60_recursion.
