(** C38: simplification of generated statements. *)
From Coq Require Import List ZArith Lia Bool Relations SpecFloat.
From Verif Require Import Outcome Types Simplify SimplifySpec SimplifyStmt SimplifyStmtSpec SimplifyStmtProofs
  SimplifyStmtTotal SimplifyStmtRun Prop_Simplify.
Import ListNotations.
Local Open Scope nat_scope.

(** Wherever the program runs, the simplified program runs and ends in the same way, with
    the same memory and the same values of the variables that outlive it. *)
Theorem C38_preserves : forall F (call : nat -> bool) (FL : flits F) (FO : fops F) M op1 op2 cast eff ty G,
  (forall m : M, typed_operations (op1 m) (op2 m) cast FL) -> float_laws FO FL -> compares F M op2 ->
  forall s s' st g st', simplifiable ty FL G s -> simplify_stmt call FL s = Val s' ->
  (forall x, has_kind (ty x) (fst st x)) -> exec F FO M op1 op2 cast eff (Code s) st g st' ->
  exists st'', exec F FO M op1 op2 cast eff (Code s') st g st'' /\
    (forall g2 st2, exec F FO M op1 op2 cast eff (Code s') st g2 st2 -> g2 = g /\ st2 = st'') /\
    snd st'' = snd st' /\ forall x, In x G -> fst st'' x = fst st' x.
Proof.
  intros F call FL FO M op1 op2 cast eff ty G TO LAW LT s s' st g st' Sm E K X.
  destruct (simplify_stmt_ok F call FL FO M op1 op2 cast eff TO LAW LT ty G s s' st g st' Sm E K X) as (st'' & X' & _ & Em & Ev).
  exists st''. split; auto. split; auto. intros g2 st2 X2. eapply exec_det; eauto.
Qed.
Print Assumptions C38_preserves.

(** The printer simplifies until nothing changes: so do any number of rounds. *)
Theorem C38_rounds : forall F (call : nat -> bool) (FL : flits F) (FO : fops F) M op1 op2 cast eff ty G,
  (forall m : M, typed_operations (op1 m) (op2 m) cast FL) -> float_laws FO FL -> compares F M op2 ->
  forall n s s' st g st', (forall i si, i < n -> simplify_n call FL i s = Val si -> simplifiable ty FL G si) ->
  simplify_n call FL n s = Val s' ->
  (forall x, has_kind (ty x) (fst st x)) -> exec F FO M op1 op2 cast eff (Code s) st g st' ->
  exists st'', exec F FO M op1 op2 cast eff (Code s') st g st'' /\ snd st'' = snd st' /\
    forall x, In x G -> fst st'' x = fst st' x.
Proof. intros. eapply simplify_n_ok; eauto. Qed.
Print Assumptions C38_rounds.

(** Simplification terminates: the queue of invalidated copies empties. *)
Theorem C38_terminates : forall F (call : nat -> bool) (FL : flits F) ty G s,
  simplifiable ty FL G s -> simplify_stmt call FL s <> NoFuel.
Proof. intros. eapply simplify_stmt_total; eauto. Qed.
Print Assumptions C38_terminates.

(** A program has one result. *)
Theorem C38_deterministic : forall F (FO : fops F) M op1 op2 cast eff c st g st', exec F FO M op1 op2 cast eff c st g st' ->
  forall g2 st2, exec F FO M op1 op2 cast eff c st g2 st2 -> g2 = g /\ st2 = st'.
Proof. intros. eapply exec_det; eauto. Qed.
Print Assumptions C38_deterministic.

(** *** A concrete instance.  Memory is the list of the values stored. *)
Definition mem_ := list (value Z).
Definition stores (o : nat) (vs : list (value Z)) (m : mem_) : option mem_ := Some (m ++ vs).
Notation exec_ := (exec Z ZF mem_ (fun _ => ex_op1) (fun _ => ex_op2) ex_cast stores).
Notation run_ := (run ZF mem_ (fun _ => ex_op1) (fun _ => ex_op2) ex_cast stores).
Notation simplify_ := (simplify_stmt (fun _ => false) ZL).
Notation int_ x := (EVar (KInt I32) x).
Notation lit z := (ELit (LInt I32 z)).
Notation "a ;; b" := (SCons a b) (at level 62, right associativity).
Definition zero : state Z mem_ := (fun _ => VInt 0, []).
Definition init (n : Z) : state Z mem_ := set_var 0 (VInt n) zero.
Definition ty_ (x : nat) : kind := KInt I32.

(** int n (0): int b = n; int c = b; int p = 0; int q = 0; int e = b;
    for (int i = 0; i < c; i += 1) { p = p + 2; }
    while (q < e) { p = p + 3; q = q + 1; }
    if (n < p) { n = n + 1; store(b); }   -- b's copy is dropped
    store(p); store(q) *)
Definition ex_prog : stmt Z :=
  SDecl 1 (KInt I32) 1 (int_ 0) ;; SDecl 2 (KInt I32) 2 (int_ 1) ;; SDecl 3 (KInt I32) 3 (lit 0) ;;
  SDecl 4 (KInt I32) 4 (lit 0) ;; SDecl 5 (KInt I32) 5 (int_ 1) ;;
  SFor (KInt I32) 6 (lit 0) (int_ 2) (lit 1) (SAssign (KInt I32) 3 (EAdd (int_ 3) (lit 2)) ;; SNil) ;;
  SWhile (lt_ (int_ 4) (int_ 5)) (SAssign (KInt I32) 3 (EAdd (int_ 3) (lit 3)) ;; SAssign (KInt I32) 4 (EAdd (int_ 4) (lit 1)) ;; SNil) ;;
  SIf (lt_ (int_ 0) (int_ 3)) (SAssign (KInt I32) 0 (EAdd (int_ 0) (lit 1)) ;; SEff 0 [int_ 1] [] ;; SNil) SNil ;;
  SEff 0 [int_ 3] [] ;; SEff 0 [int_ 4] [int_ 3] ;; SNil.
Definition ex_simpl : stmt Z := match simplify_ ex_prog with Val s => s | _ => SNil end.
Lemma ex_copy x z : copy ZL ex_prog x z -> (x = 1 \/ x = 2 \/ x = 5) /\ (z = 0 \/ z = 1).
Proof.
  intros (id & e & k & Hd & E). cbn in Hd.
  repeat match goal with H : _ \/ _ |- _ => destruct H as [H|H] end; try contradiction; injection Hd as <- <- <-;
    cbn in E; try discriminate; injection E as <- <-; auto.
Qed.
Lemma ex_copies x z : copies ZL ex_prog x z -> z = 0 \/ z = 1.
Proof. induction 1 as [x z H|]; auto. apply ex_copy in H. tauto. Qed.
Example C38_operations : forall m : mem_, typed_operations ((fun _ => ex_op1) m) ((fun _ => ex_op2) m) ex_cast ZL.
Proof. intros. exact C37_operations. Qed.
Example C38_compares : compares Z mem_ (fun _ => ex_op2).
Proof. intros m x y. reflexivity. Qed.
Ltac ranges := repeat match goal with
  | |- _ /\ _ => split | |- Forall _ _ => constructor | |- True => exact I | |- _ = _ => reflexivity
  | |- _ <> _ => discriminate | |- _ -> _ => intro
  end; try (unfold in_range; cbn; lia); try discriminate; eauto.
Example C38_hypotheses : simplifiable ty_ ZL [0] ex_prog.
Proof.
  constructor.
  - cbn. ranges; reflexivity.
  - split; [|split].
    + cbn. unfold within, incl. repeat match goal with |- _ /\ _ => split | |- Forall _ _ => constructor end; auto;
        cbn; intuition (subst; auto 10).
    + cbn. repeat (constructor; [cbn; intuition discriminate|]). constructor.
    + cbn. intuition (subst; discriminate).
  - intros l x z Hl Hr Hb Hc Ha. apply ex_copies in Hc. cbn in Hl. destruct Hl as [<-|[<-|[]]]; cbn in Ha; lia.
  - intros e x z He Hx Hc. apply ex_copy in Hc. cbn in He. destruct He as [<-|[]]. cbn in Hx. lia.
  - intros l Hl. cbn in Hl. destruct Hl as [<-|[<-|[]]]; cbn; intros _; split.
    + repeat constructor; auto.
    + split; [lia|]. split; [lia|]. split; [left; eauto|]. auto.
    + repeat (constructor; [cbn; intuition discriminate|]). constructor.
    + exists I32. auto.
Qed.
(** With n = 4: 4 * 2 + 4 * 3 = 20. *)
Example C38_example : exists st,
  run_ 30 (Code ex_prog) (init 4) = Some (Go, st) /\
  fst st 0 = VInt 5 /\ snd st = [VInt 4; VInt 20; VInt 4; VInt 20] /\
  exists st', run_ 30 (Code ex_simpl) (init 4) = Some (Go, st') /\ fst st' 0 = VInt 5 /\ snd st' = snd st /\
  ex_simpl =
    SDecl 1 (KInt I32) 1 (int_ 0) ;; SDecl 3 (KInt I32) 3 (lit 0) ;; SDecl 4 (KInt I32) 4 (lit 0) ;;
    SIf (lt_ (lit 0) (int_ 0)) (SAssign (KInt I32) 3 (EAdd (int_ 3) (EMul (int_ 0) (lit 2))) ;; SNil) SNil ;;
    SIf (lt_ (int_ 4) (int_ 0))
      ((SAssign (KInt I32) 3 (EAdd (int_ 3) (EMul (ESub (int_ 0) (int_ 4)) (lit 3))) ;; SNil) ;;
       SAssign (KInt I32) 4 (int_ 0) ;; SNil) SNil ;;
    SIf (lt_ (int_ 0) (int_ 3)) (SAssign (KInt I32) 0 (EAdd (int_ 0) (lit 1)) ;; SEff 0 [int_ 1] [] ;; SNil) SNil ;;
    SEff 0 [int_ 3] [] ;; SEff 0 [int_ 4] [int_ 3] ;; SNil.
Proof.
  eexists. split; [vm_compute; reflexivity|]. split; [reflexivity|]. split; [reflexivity|].
  eexists. split; [vm_compute; reflexivity|]. split; [reflexivity|]. split; reflexivity.
Qed.

(** *** Findings: programs outside of the conditions, whose meaning changes. *)
(** The program and its simplification store different values. *)
Definition changes (s : stmt Z) (st : state Z mem_) (was is : mem_) : Prop :=
  exists s' st1 st2, simplify_ s = Val s' /\ exec_ (Code s) st Go st1 /\ exec_ (Code s') st Go st2 /\
    snd st1 = was /\ snd st2 = is /\ was <> is.
Ltac changed s' := exists s'; eexists; eexists; split; [vm_compute; reflexivity|];
  split; [apply (run_exec ZF mem_ (fun _ => ex_op1) (fun _ => ex_op2) ex_cast stores 30); vm_compute; reflexivity|];
  split; [apply (run_exec ZF mem_ (fun _ => ex_op1) (fun _ => ex_op2) ex_cast stores 30); vm_compute; reflexivity|];
  split; [reflexivity|split; [reflexivity|discriminate]].
Ltac changed_ s := let s' := eval vm_compute in (match simplify_ s with Val s' => s' | _ => SNil end) in changed s'.

(** for (int i = 0; i < 5; i += 2) p = p + 1;  runs three times but counts as 5 / 2 = 2. *)
Definition odd_range : stmt Z :=
  SDecl 1 (KInt I32) 1 (lit 0) ;;
  SFor (KInt I32) 2 (lit 0) (lit 5) (lit 2) (SAssign (KInt I32) 1 (EAdd (int_ 1) (lit 1)) ;; SNil) ;;
  SEff 0 [int_ 1] [] ;; SNil.
Theorem C38_increment_refuted : changes odd_range (init 0) [VInt 3] [VInt 2].
Proof. changed_ odd_range. Qed.
Print Assumptions C38_increment_refuted.

(** int b = n; while (n < 2) { store(b); n = n + 1; }  reads n instead of the copy. *)
Definition stale : stmt Z :=
  SDecl 1 (KInt I32) 1 (int_ 0) ;;
  SWhile (lt_ (int_ 0) (lit 2)) (SEff 0 [int_ 1] [] ;; SAssign (KInt I32) 0 (EAdd (int_ 0) (lit 1)) ;; SNil) ;; SNil.
Theorem C38_stale_copy_refuted : changes stale (init 0) [VInt 0; VInt 0] [VInt 0; VInt 1].
Proof. changed_ stale. Qed.
Print Assumptions C38_stale_copy_refuted.

(** for (i = 0; i < 3; i += 1) { p = 1; p = p + 1; }  is duplicated as p = 1; p = p + 3. *)
Definition reset : stmt Z :=
  SDecl 1 (KInt I32) 1 (lit 0) ;;
  SFor (KInt I32) 2 (lit 0) (lit 3) (lit 1)
    (SAssign (KInt I32) 1 (lit 1) ;; SAssign (KInt I32) 1 (EAdd (int_ 1) (lit 1)) ;; SNil) ;;
  SEff 0 [int_ 1] [] ;; SNil.
Theorem C38_assigned_twice_refuted : changes reset (init 0) [VInt 2] [VInt 4].
Proof. changed_ reset. Qed.
Print Assumptions C38_assigned_twice_refuted.

(** for (i = 0; i < n; i += 1) n = 0;  the bound changes in the loop. *)
Definition moving : stmt Z :=
  SDecl 1 (KInt I32) 1 (lit 0) ;;
  SFor (KInt I32) 2 (lit 0) (int_ 0) (lit 1)
    (SAssign (KInt I32) 1 (EAdd (int_ 1) (lit 1)) ;; SAssign (KInt I32) 0 (lit 0) ;; SNil) ;;
  SEff 0 [int_ 1] [] ;; SNil.
Theorem C38_moving_bound_refuted : changes moving (init 4) [VInt 1] [VInt 4].
Proof. changed_ moving. Qed.
Print Assumptions C38_moving_bound_refuted.

(** while (q < n) { q = q + 1; p = p + 1; q = q + 1; }  the counter is also advanced
    before the last statement. *)
Definition twice : stmt Z :=
  SDecl 1 (KInt I32) 1 (lit 0) ;; SDecl 2 (KInt I32) 2 (lit 0) ;;
  SWhile (lt_ (int_ 2) (int_ 0)) (SAssign (KInt I32) 2 (EAdd (int_ 2) (lit 1)) ;;
    SAssign (KInt I32) 1 (EAdd (int_ 1) (lit 1)) ;; SAssign (KInt I32) 2 (EAdd (int_ 2) (lit 1)) ;; SNil) ;;
  SEff 0 [int_ 1] [] ;; SNil.
Theorem C38_counter_advanced_twice_refuted : changes twice (init 4) [VInt 2] [VInt 0].
Proof. changed_ twice. Qed.
Print Assumptions C38_counter_advanced_twice_refuted.

(** unsigned u = 7; int b = u; u = 8; store(b)  an assignment to an unsigned variable
    does not invalidate its copies. *)
Definition unsigned : stmt Z :=
  SDecl 1 (KInt U32) 1 (ELit (LInt U32 7)) ;; SDecl 2 (KInt I32) 2 (EVar (KInt U32) 1) ;;
  SAssign (KInt U32) 1 (ELit (LInt U32 8)) ;; SEff 0 [int_ 2] [] ;; SNil.
Theorem C38_unsigned_source_refuted : changes unsigned (init 0) [VInt 7] [VInt 8].
Proof. changed_ unsigned. Qed.
Print Assumptions C38_unsigned_source_refuted.

(** int b = n; yield({b}, 1)  the coordinates are emitted unchanged, and the declaration
    is removed: the emitted code reads a variable without a value (here 0). *)
Definition yields : stmt Z := SDecl 1 (KInt I32) 1 (int_ 0) ;; SEff 0 [lit 1] [int_ 1] ;; SNil.
Theorem C38_yield_refuted : changes yields (init 5) [VInt 1; VInt 5] [VInt 1; VInt 0] /\
  simplify_ yields = Val (SEff 0 [lit 1] [int_ 1] ;; SNil).
Proof. split; [changed_ yields|vm_compute; reflexivity]. Qed.
Print Assumptions C38_yield_refuted.

(** An empty while body (i < e): back() of an empty vector, undefined behaviour. *)
Theorem C38_empty_while_refuted : simplify_ (SWhile (lt_ (int_ 0) (int_ 1)) SNil) = Oob.
Proof. reflexivity. Qed.
Print Assumptions C38_empty_while_refuted.

(** double p = 0; for (int i = 0; i < 10; i += 1) p = p + 0.1;  adding 0.1 ten times is not
    10 * 0.1 in IEEE 754 binary64 (0.9999999999999999 and 1.0). *)
Definition tenth : spec_float := S754_finite false 7205759403792794 (-56).
Definition floats : stmt spec_float :=
  SDecl 1 KFlt 1 (ELit (LFlt (S754_zero false))) ;;
  SFor (KInt I32) 2 (ELit (LInt I32 0)) (ELit (LInt I32 10)) (ELit (LInt I32 1))
    (SAssign KFlt 1 (EAdd (EVar KFlt 1) (ELit (LFlt tenth))) ;; SNil) ;;
  SEff 0 [EVar KFlt 1] [] ;; SNil.
Definition less (m : list (value spec_float)) (k : kind) (op : nat) (v w : value spec_float) : option (value spec_float) :=
  match k, v, w with KBool, VInt x, VInt y => Some (VBool (x <? y)%Z) | _, _, _ => None end.
Definition keeps (o : nat) (vs : list (value spec_float)) (m : list (value spec_float)) := Some (m ++ vs).
Notation none1 := (fun (_ : list (value spec_float)) (_ : kind) (_ : nat) (_ : value spec_float) => None).
Notation none2 := (fun (_ : kind) (_ : value spec_float) => None).
Theorem C38_float_sum_refuted :
  let st0 := (fun _ => VInt 0, []) in
  exists s' st1 st2 x y, simplify_stmt (fun _ => false) F64L floats = Val s' /\
    exec spec_float F64 (list (value spec_float)) none1 less none2 keeps (Code floats) st0 Go st1 /\
    exec spec_float F64 (list (value spec_float)) none1 less none2 keeps (Code s') st0 Go st2 /\
    snd st1 = [VFlt x] /\ snd st2 = [VFlt y] /\ y = fl1 F64L /\ SFltb x y = true.
Proof.
  intro st0.
  let s := eval vm_compute in (match simplify_stmt (fun _ => false) F64L floats with Val s' => s' | _ => SNil end) in
  exists s. do 4 eexists. split; [vm_compute; reflexivity|].
  split; [apply (run_exec F64 (list (value spec_float)) none1 less none2 keeps 30); vm_compute; reflexivity|].
  split; [apply (run_exec F64 (list (value spec_float)) none1 less none2 keeps 30); vm_compute; reflexivity|].
  split; [reflexivity|]. split; [reflexivity|]. split; vm_compute; reflexivity.
Qed.
Print Assumptions C38_float_sum_refuted.
