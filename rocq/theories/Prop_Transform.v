(** C26, C27, C36: the transformations applied to every statement that is
    compiled. *)
From Coq Require Import List Arith Lia Bool Ring_theory Permutation ZArith.
Import ListNotations.
From Verif Require Import IndexExpr Eval Notation NotationSpec NotationProofs NotationRun Transform TransformSpec TransformProofs TopoProofs PromoteProofs PromoteSem.
Local Open Scope nat_scope.

Definition Zops : ring_ops Z := mkOps Z 0%Z 1%Z Z.add Z.mul Z.sub Z.opp.

(** ** C26 *)
(** Reordering a loop nest permutes its loops, keeps its body, and leaves the
    variables of every tensor in storage order. *)
Theorem C26_storage_order : forall (V : Type) mo srt uses is (s b s' : nstmt V), admissible_level_sort srt ->
  nest_of is s b -> is <> [] -> is_forall b = false -> NoDup is ->
  reorderLoopsTopologically mo srt uses s = Some s' ->
  exists is', Permutation is' is /\ nest_of is' s' b /\ storage_order uses is is'.
Proof. intros. eapply topo_ok; eauto. Qed.
Print Assumptions C26_storage_order.

(** If some order of the loops has the variables of every tensor in storage
    order, and no tensor is accessed with two lists of variables, reordering
    succeeds. *)
Theorem C26_succeeds : forall (V : Type) mo srt uses is (s b : nstmt V) q, admissible_level_sort srt ->
  nest_of is s b -> is <> [] -> is_forall b = false -> NoDup is -> one_access uses is ->
  Permutation q is -> storage_order uses is q ->
  exists s', reorderLoopsTopologically mo srt uses s = Some s'.
Proof. intros. eapply topo_total; eauto. Qed.
Print Assumptions C26_succeeds.

(** Reordering a nest does not change what it computes. *)
Theorem C26_same_result : forall (V : Type) (R : ring_ops V) fn dv dim, is_ring R ->
  forall mo srt uses is (s b s' : nstmt V), admissible_level_sort srt ->
  nest_of is s b -> is <> [] -> is_forall b = false -> order_free s ->
  reorderLoopsTopologically mo srt uses s = Some s' ->
  forall r T t x, run R fn dv dim s' r T t x = run R fn dv dim s r T t x.
Proof. intros V R fn dv dim RT mo srt uses is s b s' A H N F O Q r T t x. exact (topo_run R RT fn dv dim mo srt uses is s b s' A H N F O Q r T t x). Qed.
Print Assumptions C26_same_result.

(** A sort by level. *)
Fixpoint lv_insert (e : entry) (l : list entry) : list entry :=
  match l with [] => [e] | x :: r => if fst (snd e) <=? fst (snd x) then e :: l else x :: lv_insert e r end.
Definition lv_sort (l : list entry) : list entry := fold_right lv_insert [] l.
Lemma lv_sort_admissible : admissible_level_sort lv_sort.
Proof.
  assert (I : forall e l, Permutation (lv_insert e l) (e :: l) /\ (by_level l -> by_level (lv_insert e l))).
  { intros e. induction l as [|x l [P S]]; cbn [lv_insert]; [split; cbn; auto; intros; tauto|].
    destruct (Nat.leb_spec (fst (snd e)) (fst (snd x))) as [L|L].
    - split; auto. intros B. cbn [by_level]. split; auto. cbn in B. destruct B as [B _]. intros e' [<-|I]; auto. specialize (B e' I). lia.
    - split. { eapply perm_trans; [apply perm_skip, P|]. apply perm_swap. }
      intros [B1 B2]. split; auto. intros e' J. eapply Permutation_in in J; [|exact P]. destruct J as [<-|J]; [lia|auto]. }
  intros l. induction l as [|e l [P S]]; cbn; [split; cbn; auto|]. destruct (I e (lv_sort l)) as [P' S']. split; auto.
  eapply perm_trans; [exact P'|]. apply perm_skip. auto.
Qed.

(** A(i,j) += B(i,k)*C(k,j) with B and C compressed rows: the loops i, j, k
    become i, k, j. *)
Definition mm (op : option redop) : nstmt Z := NAssign 0 [0; 1] op (NMul (NAcc 1 [0; 2]) (NAcc 2 [2; 1])).
Definition mm_uses (v : ivar) : list use :=
  match v with
  | 0 => [Build_use 1 1 false; Build_use 0 1 false]
  | 1 => [Build_use 2 2 true; Build_use 0 2 false]
  | _ => [Build_use 1 2 true; Build_use 2 1 false]
  end.
Example C26_example :
  let s := foralls [0; 1; 2] (mm (Some RSum)) in
  reorderLoopsTopologically (fun _ => [0; 1]) lv_sort mm_uses s = Some (foralls [0; 2; 1] (mm (Some RSum))) /\
  nest_of [0; 1; 2] s (mm (Some RSum)) /\ order_free s /\ one_access mm_uses [0; 1; 2] /\ storage_order mm_uses [0; 1; 2] [0; 2; 1].
Proof.
  cbn zeta. split; [vm_compute; reflexivity|]. split; [repeat constructor|]. split; [|split].
  - unfold order_free, order_free1; cbn. repeat split; try (intuition lia); try discriminate; try (intros p []); intuition lia.
  - unfold one_access. intros i j u u' Ii Ij Iu Iu' ET EL. cbn in Ii, Ij. 
    destruct Ii as [<-|[<-|[<-|[]]]], Ij as [<-|[<-|[<-|[]]]]; cbn in Iu, Iu';
      destruct Iu as [<-|[<-|[]]], Iu' as [<-|[<-|[]]]; cbn in *; auto; try lia; discriminate.
  - unfold storage_order. intros i j u u' Ii Ij Iu Iu' ET EL EH. cbn in Ii, Ij. 
    destruct Ii as [<-|[<-|[<-|[]]]], Ij as [<-|[<-|[<-|[]]]]; cbn in Iu, Iu';
      destruct Iu as [<-|[<-|[]]], Iu' as [<-|[<-|[]]]; cbn in *; try lia; try discriminate;
      [apply (before_head [2; 1] 0 2); cbn; auto|apply before_cons; apply (before_head [1] 2 1); cbn; auto].
Qed.

(** Finding: levels are collected by tensor name.  Squaring a matrix with
    compressed rows, A(i,k) += B(i,j)*B(j,k), fails with the assertion about
    cycles, although the loops are in the storage order of every access. *)
Theorem C26_same_operand_refuted : exists (s b : nstmt Z) (uses : ivar -> list use),
  nest_of [0; 1; 2] s b /\ b = NAssign 0 [0; 2] (Some RSum) (NMul (NAcc 1 [0; 1]) (NAcc 1 [1; 2])) /\
  before [0; 1; 2] 0 1 /\ before [0; 1; 2] 1 2 /\ before [0; 1; 2] 0 2 /\
  (forall v u, In u (uses v) <-> In (v, u) [(0, Build_use 1 1 false); (1, Build_use 1 2 true); (1, Build_use 1 1 false); (2, Build_use 1 2 true)]) /\
  forall mo srt, admissible_level_sort srt -> reorderLoopsTopologically mo srt uses s = None.
Proof.
  set (b := NAssign 0 [0; 2] (Some RSum) (NMul (NAcc 1 [0; 1]) (NAcc 1 [1; 2])) : nstmt Z).
  set (uses := fun v => match v with 0 => [Build_use 1 1 false] | 1 => [Build_use 1 2 true; Build_use 1 1 false] | 2 => [Build_use 1 2 true] | _ => [] end).
  exists (foralls [0; 1; 2] b), b, uses. split; [repeat constructor|]. split; auto.
  split; [apply before_head; cbn; auto|]. split; [apply before_cons, before_head; cbn; auto|]. split; [apply before_head; cbn; auto|]. split.
  - intros [|[|[|v]]] u; cbn; split; intros H; repeat destruct H as [H|H]; try contradiction; inversion H; subst; auto 10.
  - intros mo srt A. unfold reorderLoopsTopologically. 
    destruct (dag_nest [0; 1; 2] (foralls [0; 1; 2] b) b) as [D1 D2]; [repeat constructor|discriminate|auto|].
    destruct (dag (foralls [0; 1; 2] b)) as [l0 ib]. cbn [fst snd] in D1, D2. rewrite D1.
    match goal with |- context [topologicallySort ?h ?s ?o] => destruct (topologicallySort h s o) as [l|] eqn:E; auto end. exfalso.
    unfold topologicallySort in E.
    assert (ND : NoDup [0; 1; 2]) by (repeat constructor; cbn; intuition lia).
    apply topo_sound in E as [P B]; auto.
    assert (K : before l 1 1). { apply B; [|cbn; auto]. apply (hard_fwd srt uses [0; 1; 2] 1 1 (Build_use 1 1 false) (Build_use 1 2 true)); cbn; auto. }
    destruct K as (l1 & l2 & l3 & ->). assert (N : NoDup (l1 ++ 1 :: l2 ++ 1 :: l3)) by (eapply Permutation_NoDup; [symmetry; exact P|auto]).
    apply NoDup_remove_2 in N. apply N. rewrite !in_app_iff. cbn. auto.
Qed.
Print Assumptions C26_same_operand_refuted.

(** Finding: when the statement starts with where statements (a scalar result
    with a reduction inside an addition), every loop nest is replaced by the
    sorted loops of all nests around the last body.  For
    alpha = sum(i, b(i)) + sum(j, c(j)) the first sum is lost. *)
Theorem C26_where_refuted : exists (s s' : nstmt Z) (uses : ivar -> list use) T,
  makeConcreteNotation 10 0 [] None (NAdd (NRed RSum 0 (NAcc 1 [0])) (NRed RSum 1 (NAcc 2 [1]))) = Some s /\
  reorderLoopsTopologically (fun _ => [0]) lv_sort uses s = Some s' /\
  run Zops (fun _ v => v) Z.add (fun _ => 3) s (fun _ => 0) T 0 [] = 33%Z /\
  run Zops (fun _ v => v) Z.add (fun _ => 3) s' (fun _ => 0) T 0 [] <> 33%Z.
Proof.
  exists (NWhere (NWhere (NAssign 0 [] None (NAdd (NAcc 10 []) (NAcc 11 []))) (NForall no_annot 1 (NAssign 11 [] (Some RSum) (NAcc 2 [1]))))
                 (NForall no_annot 0 (NAssign 10 [] (Some RSum) (NAcc 1 [0])))).
  exists (NWhere (NWhere (NAssign 0 [] None (NAdd (NAcc 10 []) (NAcc 11 [])))
                         (NForall no_annot 0 (NForall no_annot 1 (NAssign 11 [] (Some RSum) (NAcc 2 [1])))))
                 (NForall no_annot 0 (NForall no_annot 1 (NAssign 11 [] (Some RSum) (NAcc 2 [1]))))).
  exists (fun v => match v with 0 => [Build_use 1 1 true] | 1 => [Build_use 2 1 true] | _ => [] end).
  exists (fun t _ => match t with 1 => 1%Z | 2 => 10%Z | _ => 0%Z end).
  vm_compute. repeat split; discriminate.
Qed.
Print Assumptions C26_where_refuted.

(** ** C27 *)
(** Promotion applied to a whole statement keeps all tensors, if the result
    starts from zero. *)
Theorem C27_promote : forall (V : Type) (R : ring_ops V) fn dv dim, is_ring R ->
  forall tmp (s : nstmt V), distinct_results s -> no_shadow [] s -> fresh_for tmp s ->
  every (fun q => sums_or_assigns q /\ not_own_operand q) s ->
  forall r T, (forall x, T (res s) x = r0 R) ->
  forall t x, run R fn dv dim (scalarPromote tmp true false s) r T t x = run R fn dv dim s r T t x.
Proof.
  intros V R fn dv dim RT tmp s ND NS [TI TF] E r T Z t x. rewrite promote_prom by auto.
  apply (prom_ok tmp R RT fn dv dim true false TI s false []); auto; [split; auto|]. intros _ _ _ x' _. auto.
Qed.
Print Assumptions C27_promote.

(** Promotion inside a parallel loop (isWholeStmt false) keeps all tensors
    whatever the result contains, also when scalars are promoted. *)
Theorem C27_promote_inner : forall (V : Type) (R : ring_ops V) fn dv dim, is_ring R ->
  forall tmp scalars (s : nstmt V), distinct_results s -> no_shadow [] s -> fresh_for tmp s ->
  every (fun q => sums_or_assigns q /\ not_own_operand q) s ->
  forall r T t x, run R fn dv dim (scalarPromote tmp false scalars s) r T t x = run R fn dv dim s r T t x.
Proof.
  intros V R fn dv dim RT tmp scalars s ND NS [TI TF] E r T t x. rewrite promote_prom by auto.
  apply (prom_ok tmp R RT fn dv dim false scalars TI s false []); auto; [split; auto|]. intros _ Q. discriminate.
Qed.
Print Assumptions C27_promote_inner.

(** y(i) += (B(i,j)*w(j))*x(j) where w(j) += C(j,k), in a loop nest. *)
Definition promo : nstmt Z :=
  NWhere (foralls [0; 1] (NAssign 0 [0] (Some RSum) (NMul (NMul (NAcc 1 [0; 1]) (NAcc 3 [1])) (NAcc 2 [1]))))
         (foralls [1; 2] (NAssign 3 [1] (Some RSum) (NAcc 4 [1; 2]))).
Example C27_example :
  scalarPromote (fun A => 10 + A) true false promo =
    NWhere (NForall no_annot 0 (NWhere (NAssign 0 [0] None (NAcc 10 []))
                                       (NForall no_annot 1 (NAssign 10 [] (Some RSum) (NMul (NMul (NAcc 1 [0; 1]) (NAcc 3 [1])) (NAcc 2 [1]))))))
           (NForall no_annot 1 (NWhere (NAssign 3 [1] None (NAcc 13 []))
                                       (NForall no_annot 2 (NAssign 13 [] (Some RSum) (NAcc 4 [1; 2]))))) /\
  distinct_results promo /\ no_shadow [] promo /\ fresh_for (fun A => 10 + A) promo /\
  every (fun q => sums_or_assigns q /\ not_own_operand q) promo.
Proof.
  split; [vm_compute; reflexivity|]. unfold distinct_results, fresh_for, every, sums_or_assigns, not_own_operand. cbn -[Nat.add].
  split; [repeat constructor; cbn; intuition lia|]. split; [intuition lia|]. split; [split; [intros; lia|intros; intuition lia]|].
  split; [split; [auto|intuition lia]|]. intros p [<-|[]]. cbn. split; [auto|intuition lia].
Qed.

(** The hypothesis about the result is needed: promotion of the whole statement
    replaces y(i) += B(i,j) by y(i) = t. *)
Theorem C27_initial_value_refuted : exists (s : nstmt Z) T,
  distinct_results s /\ no_shadow [] s /\ fresh_for (fun A => 10 + A) s /\ every (fun q => sums_or_assigns q /\ not_own_operand q) s /\
  run Zops (fun _ v => v) Z.add (fun _ => 2) (scalarPromote (fun A => 10 + A) true false s) (fun _ => 0) T 0 [1] <>
  run Zops (fun _ v => v) Z.add (fun _ => 2) s (fun _ => 0) T 0 [1].
Proof.
  exists (foralls [0; 1] (NAssign 0 [0] (Some RSum) (NAcc 1 [0; 1]))), (fun _ _ => 1%Z).
  unfold distinct_results, fresh_for, every, sums_or_assigns, not_own_operand. cbn -[Nat.add scalarPromote run].
  split; [repeat constructor; cbn; intuition lia|]. split; [intuition lia|]. split; [split; [intros; lia|intros; intuition lia]|].
  split; [split; [split; [auto|intuition lia]|intros p []]|]. vm_compute. discriminate.
Qed.
Print Assumptions C27_initial_value_refuted.

(** ** C36 *)
(** The rewriting of sparse matrix products keeps all tensors when the reduction
    is a sum and the result starts from zero. *)
Theorem C36_spmm : forall (V : Type) (R : ring_ops V) fn dv dim, is_ring R ->
  forall fmt w (s : nstmt V), op_of s = Some RSum -> ~ In (res s) (rhs_reads s) -> no_shadow [] s ->
  w <> res s -> ~ In w (rhs_reads s) ->
  forall r T, (forall x, T (res s) x = r0 R) ->
  forall t x, run R fn dv dim (optimizeSpMM fmt w s) r T t x = run R fn dv dim s r T t x.
Proof. intros V R fn dv dim RT fmt w s O N S W1 W2 r T Z t x. exact (spmm_ok R RT fn dv dim fmt w s r T O N S W1 W2 Z t x). Qed.
Print Assumptions C36_spmm.

Definition csr : format := ([Build_lformat 0 true; Build_lformat 1 true], [0; 1]).
Example C36_example :
  let s := foralls [0; 2; 1] (mm (Some RSum)) in
  optimizeSpMM (fun _ => csr) 9 s <> s /\ op_of s = Some RSum /\ ~ In (res s) (rhs_reads s) /\ no_shadow [] s /\ 9 <> res s /\ ~ In 9 (rhs_reads s).
Proof. cbn zeta. split; [vm_compute; discriminate|]. cbn. intuition lia. Qed.

(** Finding: the operator of the assignment is not looked at, so that another
    reduction is replaced by a sum. *)
Theorem C36_product_refuted : exists (s : nstmt Z) T,
  op_of s = Some RProd /\ ~ In (res s) (rhs_reads s) /\ no_shadow [] s /\
  run Zops (fun _ v => v) Z.add (fun _ => 2) (optimizeSpMM (fun _ => csr) 9 s) (fun _ => 0) T 0 [0; 0] <>
  run Zops (fun _ v => v) Z.add (fun _ => 2) s (fun _ => 0) T 0 [0; 0].
Proof.
  exists (foralls [0; 2; 1] (mm (Some RProd))), (fun _ _ => 1%Z). split; auto. split; [cbn; intuition lia|]. split; [cbn; intuition lia|].
  vm_compute. discriminate.
Qed.
Print Assumptions C36_product_refuted.
