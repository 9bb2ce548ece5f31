(** C20, C21, C23: from Einsum notation to loops, and reordering loops. *)
From Coq Require Import List Arith Lia Bool Ring_theory Permutation ZArith.
Import ListNotations.
From Verif Require Import IndexExpr Eval Notation NotationSpec NotationProofs NotationRun NotationConv NotationConc.
Local Open Scope nat_scope.

Definition Zops : ring_ops Z := mkOps Z 0%Z 1%Z Z.add Z.mul Z.sub Z.opp.

(** ** C20 *)
(** Every term of the Einsum expression is summed over its own bound variables,
    when each operand of the outermost addition has terms with the same bound
    variables, for instance when there are at most two terms. *)
Theorem C20_einsum : forall (V : Type) (R : ring_ops V) fn dv dim, is_ring R ->
  forall free (e : nexpr V), is_einsum false e = true -> fun_terms e = true -> operands_uniform free e ->
  forall T r, neval R fn dv dim T r (makeReductionNotation free e) = einsum_value R fn dv dim free T r e.
Proof. intros. apply einsum_ok; auto. Qed.
Print Assumptions C20_einsum.

(** All variables of the left-hand side are left free, all others are bound. *)
Theorem C20_bound : forall (V : Type) free (e : nexpr V), is_einsum false e = true ->
  let e' := makeReductionNotation free e in
  (forall v, In v (vars e') -> In v free) /\ (forall i, In i (red_vars e') -> ~ In i free) /\ sum_only e' /\ reads e' = reads e.
Proof.
  intros V free e H. destruct (reduction_facts (fun _ v => v) (fun a _ => a) (fun _ => 0) free e H) as (A & B & C & D). cbn. auto.
Qed.
Print Assumptions C20_bound.

(** y(i) = B(i,j)*x(j) - z(i): the two terms have different bound variables. *)
Example C20_example :
  let e : nexpr Z := NSub (NMul (NAcc 1 [0; 1]) (NAcc 2 [1])) (NAcc 3 [0]) in
  is_einsum false e = true /\ fun_terms e = true /\ operands_uniform [0] e /\
  neval Zops (fun _ v => v) Z.add (fun _ => 3) (fun t _ => Z.of_nat t) (fun _ => 1) (makeReductionNotation [0] e) = 3%Z.
Proof.
  cbn. repeat split; auto; unfold uniform; cbn.
  - intros p [<-|[]] i I. exact I.
  - intros p [<-|[]] i I. exact I.
Qed.

(** With three terms the claim fails: in y(i) = B(i,j) + c(i) + d(i) the term
    c(i) is summed over j as well. *)
Theorem C20_three_terms_refuted : exists (free : list ivar) (e : nexpr Z) dim T r,
  is_einsum false e = true /\ fun_terms e = true /\
  neval Zops (fun _ v => v) Z.add dim T r (makeReductionNotation free e) <>
  einsum_value Zops (fun _ v => v) Z.add dim free T r e.
Proof.
  exists [0], (NAdd (NAdd (NAcc 1 [0; 1]) (NAcc 2 [0])) (NAcc 3 [0])), (fun _ => 5), (fun _ _ => 1%Z), (fun _ => 0).
  split; [reflexivity|]. split; [reflexivity|]. vm_compute. discriminate.
Qed.
Print Assumptions C20_three_terms_refuted.

(** ** C21 *)
(** The loops and where statements compute the reduction's value at every
    coordinate of the result, leave the rest of the result alone and touch no
    other tensor; accumulating statements add it to the old value.  (Results of
    plain assignments start as zero, as reductions accumulate into them.) *)
Theorem C21_concrete : forall (V : Type) (R : ring_ops V) fn dv dim, is_ring R ->
  forall fresh t vs op (e : nexpr V) s,
  makeConcreteNotation fresh t vs op e = Some s ->
  sum_only e -> (op = None \/ op = Some RSum) ->
  t < fresh -> (forall u, In u (reads e) -> u < fresh /\ u <> t) ->
  NoDup vs -> (forall i, In i (red_vars e) -> ~ In i vs) -> (forall v, In v (vars e) -> In v vs) ->
  forall r T, (op = None -> forall x, T t x = r0 R) ->
  (forall x, in_dims dim vs x ->
     run R fn dv dim s r T t x = radd R (T t x) (neval R fn dv dim T (bind vs x) e)) /\
  (forall x, ~ in_dims dim vs x -> run R fn dv dim s r T t x = T t x) /\
  (forall t' x, t' <> t -> run R fn dv dim s r T t' x = T t' x).
Proof.
  intros V R fn dv dim RT fresh t vs op e s H SO OP L RD ND RV VS r T Z.
  destruct (concrete_ok R RT fn dv dim fresh t vs op e s H SO OP L RD ND RV VS r T) as (A & B & C). auto.
Qed.
Print Assumptions C21_concrete.

Theorem C21_total : forall (V : Type) fresh t vs op (e : nexpr V), sum_only e ->
  exists s, makeConcreteNotation fresh t vs op e = Some s.
Proof.
  intros V fresh t vs op e SO. unfold makeConcreteNotation. destruct (peel e) as [[is rop] e'] eqn:P.
  assert (SO' : sum_only e').
  { revert is rop e' P SO. induction e; cbn; intros is0 rop0 e0 P SO; try (injection P as <- <- <-; auto; fail).
    destruct (peel e) as [[is1 [op1|]] e1]; injection P as <- <- <-; destruct SO as [_ SO]; eapply IHe; eauto. }
  destruct (rr_total (fun _ v => v) (fun _ => 0) (nreds e') fresh t vs (match rop with None => op | Some _ => rop end) e') as (s & nx & ->); auto. cbn. eauto.
Qed.
Print Assumptions C21_total.

(** Together: an Einsum assignment, made concrete, computes what it means. *)
Theorem C21_einsum : forall (V : Type) (R : ring_ops V) fn dv dim, is_ring R ->
  forall fresh t vs (e : nexpr V),
  is_einsum false e = true -> fun_terms e = true -> operands_uniform vs e ->
  t < fresh -> (forall u, In u (reads e) -> u < fresh /\ u <> t) -> NoDup vs ->
  exists s, makeConcreteNotation fresh t vs None (makeReductionNotation vs e) = Some s /\
  forall r T x, (forall x, T t x = r0 R) -> in_dims dim vs x ->
    run R fn dv dim s r T t x = einsum_value R fn dv dim vs T (bind vs x) e.
Proof.
  intros V R fn dv dim RT fresh t vs e E FT U L RD ND.
  destruct (reduction_facts fn dv dim vs e E) as (A & B & C & D).
  destruct (C21_total V fresh t vs None _ A) as (s & S0). exists s. split; auto. intros r T x Z ID.
  destruct (C21_concrete V R fn dv dim RT fresh t vs None _ s S0 A) with (r := r) (T := T) as (G & _); auto.
  { rewrite D. auto. }
  rewrite G, Z by auto. rewrite einsum_ok by auto. apply RT.
Qed.
Print Assumptions C21_einsum.

(** y(i) = 2 * sum(j, B(i,j)) + sum(k, sum(j, C(i,k,j)*x(j))): temporaries and
    nested loops. *)
Example C21_example :
  let e : nexpr Z := NAdd (NMul (NLit 2%Z) (NRed RSum 1 (NAcc 1 [0; 1])))
                          (NRed RSum 2 (NMul (NLit 1%Z) (NRed RSum 1 (NMul (NAcc 2 [0; 2; 1]) (NAcc 3 [1]))))) in
  makeConcreteNotation 10 0 [0] None e =
    Some (NForall no_annot 0
      (NWhere (NWhere (NAssign 0 [0] None (NAdd (NMul (NLit 2%Z) (NAcc 10 [])) (NAcc 11 [])))
                      (NForall no_annot 2 (NWhere (NAssign 11 [] (Some RSum) (NMul (NLit 1%Z) (NAcc 12 [])))
                                                  (NForall no_annot 1 (NAssign 12 [] (Some RSum) (NMul (NAcc 2 [0; 2; 1]) (NAcc 3 [1])))))))
              (NForall no_annot 1 (NAssign 10 [] (Some RSum) (NAcc 1 [0; 1]))))) /\
  sum_only e /\ (forall u, In u (reads e) -> u < 10 /\ u <> 0) /\ NoDup [0] /\
  (forall i, In i (red_vars e) -> ~ In i [0]) /\ (forall v, In v (vars e) -> In v [0]).
Proof.
  cbn zeta. split; [reflexivity|]. split; [cbn; tauto|]. split.
  { cbn. intuition lia. }
  split. { repeat constructor. intros []. } split; cbn; intuition lia.
Qed.

(** Nested reductions with different operators: all loops accumulate with the
    operator of the innermost reduction. *)
Theorem C21_mixed_operators_refuted : exists (e : nexpr Z) s, makeConcreteNotation 10 0 [] None e = Some s /\
  forall r, run Zops (fun _ v => v) Z.add (fun _ => 2) s r (fun t _ => if Nat.eqb t 0 then 1%Z else 2%Z) 0 [] <>
            neval Zops (fun _ v => v) Z.add (fun _ => 2) (fun t _ => if Nat.eqb t 0 then 1%Z else 2%Z) r e.
Proof.
  exists (NRed RProd 0 (NRed RSum 1 (NAcc 1 [0; 1]))).
  exists (NForall no_annot 0 (NForall no_annot 1 (NAssign 0 [] (Some RSum) (NAcc 1 [0; 1])))).
  split; [reflexivity|]. intros r. vm_compute. discriminate.
Qed.
Print Assumptions C21_mixed_operators_refuted.
(** A product reduction inside an expression accumulates into a temporary that
    starts as zero. *)
Theorem C21_product_refuted : exists (e : nexpr Z) s, makeConcreteNotation 10 0 [] None e = Some s /\
  forall r, run Zops (fun _ v => v) Z.add (fun _ => 2) s r (fun _ _ => 2%Z) 0 [] <>
            neval Zops (fun _ v => v) Z.add (fun _ => 2) (fun _ _ => 2%Z) r e.
Proof.
  exists (NAdd (NLit 1%Z) (NRed RProd 0 (NAcc 1 [0]))).
  exists (NWhere (NAssign 0 [] None (NAdd (NLit 1%Z) (NAcc 10 []))) (NForall no_annot 0 (NAssign 10 [] (Some RProd) (NAcc 1 [0])))).
  split; [reflexivity|]. intros r. vm_compute. discriminate.
Qed.
Print Assumptions C21_product_refuted.
(** The operator of a compound assignment is lost when the right-hand side is a
    reduction with another operator. *)
Theorem C21_compound_refuted : exists (e : nexpr Z) s, makeConcreteNotation 10 0 [] (Some RProd) e = Some s /\ sum_only e /\
  forall r, run Zops (fun _ v => v) Z.add (fun _ => 2) s r (fun _ _ => 3%Z) 0 [] <>
            Z.mul 3 (neval Zops (fun _ v => v) Z.add (fun _ => 2) (fun _ _ => 3%Z) r e).
Proof.
  exists (NRed RSum 0 (NAcc 1 [0])). exists (NForall no_annot 0 (NAssign 0 [] (Some RSum) (NAcc 1 [0]))).
  split; [reflexivity|]. split; [cbn; auto|]. intros r. vm_compute. discriminate.
Qed.
Print Assumptions C21_compound_refuted.

(** ** C23 *)
(** A successful reordering computes the same tensors, wherever in the statement
    the loops are (also in producers of temporaries). *)
Theorem C23_reorder : forall (V : Type) (R : ring_ops V) fn dv dim, is_ring R ->
  forall ordered pattern (s s' : nstmt V), order_free s -> reorder ordered pattern s = ROk s' ->
  forall r T t x, run R fn dv dim s' r T t x = run R fn dv dim s r T t x.
Proof. intros V R fn dv dim RT o pat s s' O H r T t x. exact (reorder_ok R RT fn dv dim o pat s s' O H r T t x). Qed.
Print Assumptions C23_reorder.

(** Every permutation of a perfect nest is carried out as requested. *)
Theorem C23_accepted : forall (V : Type) is pattern (s b : nstmt V), nest_of is s b -> Permutation is pattern -> is <> [] ->
  (forall i, In i (loops b) -> ~ In i pattern) -> reorder true pattern s = ROk (foralls pattern b).
Proof. intros. eapply reorder_accepts; eauto. Qed.
Print Assumptions C23_accepted.
(** reorder(i,j) and reorder(j,i) exchange two nested loops. *)
Theorem C23_exchange : forall (V : Type) i j (s b : nstmt V), i <> j -> nest_of [i; j] s b ->
  (forall k, In k (loops b) -> k <> i /\ k <> j) ->
  reorder false [i; j] s = ROk (foralls [j; i] b) /\ reorder false [j; i] s = ROk (foralls [j; i] b).
Proof. intros. apply (reorder_swaps (fun _ v => v) (fun _ => 0)); auto. Qed.
Print Assumptions C23_exchange.

(** forall i where(forall l A(i,l) = w(l), forall j forall k w(k) += B(i,j) * C(j,k)):
    the loops of the producer are exchanged. *)
Example C23_example :
  let prod is : nstmt Z := foralls is (NAssign 3 [2] (Some RSum) (NMul (NAcc 1 [0; 1]) (NAcc 2 [1; 2]))) in
  let s is := NForall no_annot 0 (NWhere (NForall no_annot 4 (NAssign 0 [0; 4] None (NAcc 3 [4]))) (prod is)) in
  order_free (s [1; 2]) /\ reorder true [2; 1] (s [1; 2]) = ROk (s [2; 1]).
Proof.
  cbn zeta. split; [|reflexivity]. unfold order_free, order_free1; cbn. split; [|split].
  - repeat split; try (intuition lia).
  - intros p [<-|[]]; cbn; repeat split; try (intuition lia); discriminate.
  - intuition lia.
Qed.

(** When three or more loops are to be reordered and the inner ones are not
    directly nested, the operation does not report an error but returns a
    statement with an undefined body. *)
Theorem C23_undefined_refuted : exists pattern (s : nstmt Z), order_free s /\ reorder true pattern s = RBroken.
Proof.
  exists [2; 1; 0], (NForall no_annot 0 (NForall no_annot 1 (NWhere (NForall no_annot 2 (NAssign 0 [0; 1; 2] None (NAcc 3 []))) (NAssign 3 [] None (NAcc 1 [0; 1]))))).
  split; [|reflexivity]. unfold order_free, order_free1. cbn. split; [|split].
  - repeat split; try (intuition lia).
  - intros p [<-|[]]; cbn; repeat split; try (intuition lia); discriminate.
  - intuition lia.
Qed.
Print Assumptions C23_undefined_refuted.
