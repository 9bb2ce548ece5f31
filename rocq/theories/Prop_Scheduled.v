(** C82: making a statement concrete with a schedule. *)
From Coq Require Import List Arith Lia Bool Ring_theory Permutation ZArith.
Import ListNotations.
From Verif Require Accept AcceptSpec.
From Verif Require Import IndexExpr Eval Notation NotationSpec NotationProofs NotationRun NotationConv NotationConc.
From Verif Require Import Scheduled ScheduledSpec ScheduledProofs.
Local Open Scope nat_scope.

Definition Zops : ring_ops Z := mkOps Z 0%Z 1%Z Z.add Z.mul Z.sub Z.opp.

(** An Einsum assignment whose variables no relation of the graph is about, with the loops in
    any order (or in no given order), computes what it means. *)
Theorem C82_value : forall (V : Type) (R : ring_ops V) fn dv dim, is_ring R ->
  forall rels loops fresh t vs (e : nexpr V),
  is_einsum false e = true -> fun_terms e = true -> operands_uniform vs e ->
  t < fresh -> (forall u, In u (reads e) -> u < fresh /\ u <> t) ->
  underived rels (vs ++ access_vars e) -> untouched rels vs ->
  let all := vs ++ covering (makeReductionNotation vs e) in
  NoDup all -> (loops = [] \/ Permutation all loops) ->
  exists s, concretizeScheduled rels loops fresh t vs None e = Some s /\
    (exists b, s = foralls (match loops with [] => all | _ => loops end) b) /\
    forall r T x, (forall x, T t x = r0 R) -> in_dims dim vs x ->
      run R fn dv dim s r T t x = einsum_value R fn dv dim vs T (bind vs x) e.
Proof.
  intros V R fn dv dim RT rels loops fresh t vs e E FT U LT RD UN UT all ND L.
  assert (U1 : underived rels vs) by (intros v I; apply UN; apply in_app_iff; auto).
  assert (U2 : underived rels (access_vars e)) by (intros v I; apply UN; apply in_app_iff; auto).
  destruct (reduction_facts fn dv dim vs e E) as (A & B & C & D). rewrite <- D in RD.
  unfold concretizeScheduled. rewrite make_same by auto. set (e1 := makeReductionNotation vs e) in *.
  assert (VB : vars_bound vs e1 = true) by (apply bound_iff; exact C). rewrite VB.
  destruct (concrete_parts fresh t vs None e1 A) as (b & nx & RR & H0 & H1). rewrite H1.
  assert (VAL : forall r T x, (forall x, T t x = r0 R) -> in_dims dim vs x ->
     run R fn dv dim (foralls vs (foralls (covering e1) b)) r T t x = einsum_value R fn dv dim vs T (bind vs x) e).
  { intros r T x Z ID.
    destruct (concrete_ok R RT fn dv dim fresh t vs None e1 _ H0 A (or_introl eq_refl) LT RD) with (r := r) (T := T) as (G & _); auto.
    { apply nodup_left in ND. auto. }
    rewrite G, Z by auto. unfold e1. rewrite einsum_ok by auto. apply RT. }
  destruct loops as [|l ls].
  - rewrite free_loops_same by auto. cbn [option_map]. eexists. split; [reflexivity|]. split; [|exact VAL].
    exists b. unfold all. rewrite foralls_app. reflexivity.
  - destruct L as [|L]; [discriminate|]. rewrite listed_same.
    + cbn [option_map]. eexists. split; [reflexivity|]. split; [eauto|]. intros r T x Z ID. rewrite <- (VAL r T x Z ID).
      refine (permuted R RT fn dv dim fresh t vs None e1 b nx (l :: ls) A LT RD ND C L RR r T t x).
    + intros i I. apply (Permutation_in i (Permutation_sym L)) in I. unfold all in I. rewrite in_app_iff in *. tauto.
Qed.
Print Assumptions C82_value.

(** y(i) = B(i,j)*x(j) with the loops j, i, in a graph that splits another variable. *)
Example C82_example :
  let e : nexpr Z := NMul (NAcc 1 [0; 1]) (NAcc 2 [1]) in
  let rels := [Accept.Rel false [7] [8; 9]] in
  is_einsum false e = true /\ fun_terms e = true /\ operands_uniform [0] e /\
  underived rels ([0] ++ access_vars e) /\ untouched rels [0] /\
  NoDup ([0] ++ covering (makeReductionNotation [0] e)) /\
  Permutation ([0] ++ covering (makeReductionNotation [0] e)) [1; 0] /\
  concretizeScheduled rels [1; 0] 5 0 [0] None e =
    Some (NForall no_annot 1 (NForall no_annot 0 (NAssign 0 [0] (Some RSum) e))).
Proof.
  cbn. repeat split; auto.
  - intros v H (r & [<-|[]] & I). cbn in *. lia.
  - intros v r [<-|[]] [<-|[]] I. cbn in *. lia.
  - repeat constructor; cbn; lia.
  - apply perm_swap.
Qed.

(** With variables that were made by splitting, dividing and bounding (each from one variable),
    the loops are those of the list, each once and in order, around what is in the loops
    without a schedule. *)
Theorem C82_loops : forall (V : Type) rels loops fresh t vs op (e : nexpr V),
  AcceptSpec.in_order [] rels -> one_parent rels ->
  underived rels (vs ++ access_vars e) ->
  let e' := makeReductionNotation vs e in
  sum_only e' -> (forall v, In v (vars e') -> In v vs) ->
  loops <> [] ->
  (forall i, In i loops -> exists u, AcceptSpec.origin rels i u /\ In u (vs ++ covering e')) ->
  exists b, concretizeScheduled rels loops fresh t vs op e = Some (foralls loops b) /\
            makeConcreteNotation fresh t vs op e' = Some (foralls vs (foralls (covering e') b)).
Proof.
  intros V rels loops fresh t vs op e IO OP UN e' SO' VS NE H.
  assert (U1 : underived rels vs) by (intros v I; apply UN; apply in_app_iff; auto).
  assert (U2 : underived rels (access_vars e)) by (intros v I; apply UN; apply in_app_iff; auto).
  unfold concretizeScheduled. rewrite make_same by auto. fold e'.
  assert (VB : vars_bound vs e' = true) by (apply bound_iff; exact VS). rewrite VB.
  destruct (concrete_parts fresh t vs op e' SO') as (b & nx & RR & H0 & H1). exists b. split; auto. rewrite H1.
  destruct loops as [|l ls]; [congruence|]. rewrite listed_derived; auto.
  intros i I. right. destruct (H i I) as (u & A & B). exists u. split; auto. rewrite in_app_iff in *. tauto.
Qed.
Print Assumptions C82_loops.

(** y(i) = B(i,j)*x(j): i is split into 3 and 4 and j divided into 5 and 6. *)
Example C82_loops_example :
  let e : nexpr Z := NMul (NAcc 1 [0; 1]) (NAcc 2 [1]) in
  let rels := [Accept.Rel false [0] [3; 4]; Accept.Rel false [1] [5; 6]] in
  AcceptSpec.in_order [] rels /\ one_parent rels /\ underived rels ([0] ++ access_vars e) /\
  (sum_only (makeReductionNotation [0] e) /\ (forall v, In v (vars (makeReductionNotation [0] e)) -> In v [0])) /\
  (forall i, In i [3; 5; 4; 6] -> exists u, AcceptSpec.origin rels i u /\ In u ([0] ++ covering (makeReductionNotation [0] e))) /\
  concretizeScheduled rels [3; 5; 4; 6] 5 0 [0] None e = Some (foralls [3; 5; 4; 6] (NAssign 0 [0] (Some RSum) e)).
Proof.
  cbn [app access_vars]. split; [|split; [|split; [|split; [|split]]]].
  - cbn. intuition (try discriminate; subst; lia).
  - intros r [<-|[<-|[]]]; eexists; reflexivity.
  - intros v H (r & [<-|[<-|[]]] & I); cbn in *; lia.
  - split; [cbn; auto|]. cbn. tauto.
  - assert (D : forall v, v < 2 -> ~ AcceptSpec.derived [Accept.Rel false [0] [3; 4]; Accept.Rel false [1] [5; 6]] v)
      by (intros v H (r & [<-|[<-|[]]] & I); cbn in *; lia).
    intros i [<-|[<-|[<-|[<-|[]]]]].
    + exists 0. split; [|cbn; auto]. apply (AcceptSpec.Or_parent _ _ (Accept.Rel false [0] [3; 4]) 0); [left; reflexivity|cbn; auto|cbn; auto|]. apply AcceptSpec.Or_self. auto.
    + exists 1. split; [|cbn; auto]. apply (AcceptSpec.Or_parent _ _ (Accept.Rel false [1] [5; 6]) 1); [right; left; reflexivity|cbn; auto|cbn; auto|]. apply AcceptSpec.Or_self. auto.
    + exists 0. split; [|cbn; auto]. apply (AcceptSpec.Or_parent _ _ (Accept.Rel false [0] [3; 4]) 0); [left; reflexivity|cbn; auto|cbn; auto|]. apply AcceptSpec.Or_self. auto.
    + exists 1. split; [|cbn; auto]. apply (AcceptSpec.Or_parent _ _ (Accept.Rel false [1] [5; 6]) 1); [right; left; reflexivity|cbn; auto|cbn; auto|]. apply AcceptSpec.Or_self. auto.
  - reflexivity.
Qed.

(** Fused variables are not made from one variable: the loop over f, fused from i and j, is
    there twice in y(i,j) = B(i,j). *)
Theorem C82_fused_refuted : exists rels f (e : nexpr Z) s,
  AcceptSpec.in_order [] rels /\ underived rels ([0; 1] ++ access_vars e) /\ is_einsum false e = true /\
  AcceptSpec.origin rels f 0 /\ AcceptSpec.origin rels f 1 /\
  concretizeScheduled rels [f] 5 0 [0; 1] None e = Some s /\ outer_loops s = [f; f].
Proof.
  exists [Accept.Rel false [0; 1] [2]], 2, (NAcc 1 [0; 1]). eexists.
  assert (D : forall v, v < 2 -> ~ AcceptSpec.derived [Accept.Rel false [0; 1] [2]] v)
    by (intros v H (r & [<-|[]] & I); cbn in *; lia).
  split; [|split; [|split; [|split; [|split; [|split]]]]]; try reflexivity.
  - cbn. intuition (try discriminate; subst; lia).
  - intros v H. apply D. cbn in H. lia.
  - apply (AcceptSpec.Or_parent _ _ (Accept.Rel false [0; 1] [2]) 0); [left; reflexivity|cbn; auto|cbn; auto|]. apply AcceptSpec.Or_self. auto.
  - apply (AcceptSpec.Or_parent _ _ (Accept.Rel false [0; 1] [2]) 1); [left; reflexivity|cbn; auto|cbn; auto|]. apply AcceptSpec.Or_self. auto.
Qed.
Print Assumptions C82_fused_refuted.

(** Without a list of loops, a variable of the left-hand side that was split gets a loop over
    another variable: in y(i,j) = B(i,j), where j was split, i has two loops and j none. *)
Theorem C82_split_refuted : exists rels (e : nexpr Z) s,
  AcceptSpec.in_order [] rels /\ one_parent rels /\ underived rels ([0; 1] ++ access_vars e) /\ is_einsum false e = true /\
  concretizeScheduled rels [] 5 0 [0; 1] None e = Some s /\ outer_loops s = [0; 0] /\ body s = NAssign 0 [0; 1] None (NAcc 1 [0; 1]).
Proof.
  exists [Accept.Rel false [1] [2; 3]], (NAcc 1 [0; 1]). eexists.
  split; [|split; [|split; [|split; [|split; [|split]]]]]; try reflexivity.
  - cbn. intuition (try discriminate; subst; lia).
  - intros r [<-|[]]. eexists. reflexivity.
  - intros v H (r & [<-|[]] & I); cbn in *; lia.
Qed.
Print Assumptions C82_split_refuted.

(** A product over j becomes a sum: y(i) = product(j, B(i,j)). *)
Theorem C82_product_refuted : exists (e : nexpr Z) s T dim x,
  (forall v, In v (vars e) -> In v [0]) /\ in_dims dim [0] x /\ (forall x, T 0 x = 0%Z) /\
  concretizeScheduled [] [] 5 0 [0] None e = Some s /\
  run Zops (fun _ v => v) Z.add dim s (fun _ => 0) T 0 x <> neval Zops (fun _ v => v) Z.add dim T (bind [0] x) e.
Proof.
  exists (NRed RProd 1 (NAcc 1 [0; 1])). eexists. exists (fun t _ => if t =? 0 then 0%Z else 3%Z), (fun _ => 2), [0].
  split; [cbn; tauto|]. split; [repeat constructor|]. split; [reflexivity|]. split; [reflexivity|]. vm_compute. discriminate.
Qed.
Print Assumptions C82_product_refuted.

(** A statement with a variable that was made from one of the left-hand side is left as it
    is, without loops, although reductions are left out for such variables: y(i) = b(i0). *)
Theorem C82_derived_refuted : exists rels (e : nexpr Z),
  AcceptSpec.in_order [] rels /\ is_einsum false e = true /\ access_vars e = [2] /\ AcceptSpec.origin rels 2 0 /\
  (forall loops, concretizeScheduled rels loops 5 0 [0] None e = Some (NAssign 0 [0] None e)).
Proof.
  exists [Accept.Rel false [0] [2; 3]], (NAcc 1 [2]).
  split; [cbn; intuition (try discriminate; subst; lia)|]. split; [reflexivity|]. split; [reflexivity|]. split; [|reflexivity].
  apply (AcceptSpec.Or_parent _ _ (Accept.Rel false [0] [2; 3]) 0); [left; reflexivity|cbn; auto|cbn; auto|]. apply AcceptSpec.Or_self.
  intros (r & [<-|[]] & I); cbn in *; lia.
Qed.
Print Assumptions C82_derived_refuted.
