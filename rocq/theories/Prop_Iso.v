(** C30 and C50: reuse of kernels, and the order of their arguments. *)
From Coq Require Import List Arith Lia Bool Permutation ZArith.
Import ListNotations.
From Verif Require Import IndexExpr Eval Notation NotationSpec Transform TransformSpec TopoProofs PromoteProofs Iso IsoSpec IsoProofs ArgOrder.
From Verif Require Prop_Transform.
Local Open Scope nat_scope.

Definition Zops : ring_ops Z := mkOps Z 0%Z 1%Z Z.add Z.mul Z.sub Z.opp.

(** ** C30 *)
(** Kernels of isomorphic statements, called with the same arguments, compute the
    same result, if the fill values of the operands (and of the result) agree.
    The operands agree in type and format. *)
Theorem C30_isomorphic : forall (V : Type) (R : ring_ops V) fn dv TY (ty : tensor -> TY) ty_eqb lit_eqb fill,
  (forall a b, ty_eqb a b = true -> a = b) -> (forall a b, lit_eqb a b = true -> a = b) ->
  forall a b : nstmt V, isomorphic TY ty ty_eqb lit_eqb a b = true ->
  ty (res a) = ty (res b) /\ Forall2 (fun t u => ty t = ty u) (getArguments a) (getArguments b) /\
  (fill (res a) = fill (res b) -> Forall2 (fun t u => fill t = fill u) (getArguments a) (getArguments b) ->
   forall result args x, call R fn dv fill a result args x = call R fn dv fill b result args x).
Proof. intros V R fn dv TY ty ty_eqb lit_eqb fill H1 H2 a b H. exact (iso_call R fn dv TY ty ty_eqb lit_eqb H1 H2 fill a b H). Qed.
Print Assumptions C30_isomorphic.

(** Statements that differ in the names of tensors and variables only are
    isomorphic. *)
Theorem C30_renamed : forall (V : Type) TY (ty : tensor -> TY) ty_eqb (lit_eqb : V -> V -> bool),
  (forall a, ty_eqb a a = true) -> (forall a, lit_eqb a a = true) ->
  forall f g, (forall a b, f a = f b -> a = b) -> (forall a b, g a = g b -> a = b) -> (forall t, ty (f t) = ty t) ->
  forall s : nstmt V, isomorphic TY ty ty_eqb lit_eqb s (rename f g s) = true.
Proof. intros. apply iso_complete; auto. Qed.
Print Assumptions C30_renamed.

(** Whatever was compiled before, the kernel used for a statement computes what
    the statement's own kernel computes, if tensors of the same type and format
    have the same fill value. *)
Theorem C30_cache : forall (V : Type) (R : ring_ops V) fn dv TY (ty : tensor -> TY) ty_eqb lit_eqb fill,
  (forall a b, ty_eqb a b = true -> a = b) -> (forall a b, lit_eqb a b = true -> a = b) ->
  (forall t u, ty t = ty u -> fill t = fill u) ->
  forall (history : list (nstmt V * bool)) s flag result args x,
  let k := fst (compile TY ty ty_eqb lit_eqb (compile_all TY ty ty_eqb lit_eqb history) (s, flag)) in
  call R fn dv fill (fst k) result args x = call R fn dv fill s result args x.
Proof.
  intros V R fn dv TY ty ty_eqb lit_eqb fill H1 H2 HF h s flag result args x k.
  destruct (compile_kernel TY ty ty_eqb lit_eqb h (s, flag)) as [[E|E] _]; fold k in E; [rewrite E; auto|]. cbn [fst] in E.
  destruct (iso_call R fn dv TY ty ty_eqb lit_eqb H1 H2 fill s (fst k) E) as (TR & A & B). symmetry. apply B; auto.
  clear - A HF. induction A; constructor; auto.
Qed.
Print Assumptions C30_cache.

(** a(i) = b(i)*c(i) and d(j) = e(j)*f(j): the second uses the first kernel; with
    operands exchanged, or a repeated operand, they are not isomorphic. *)
Definition vec3 (x y z : tensor) (i : ivar) : nstmt Z := NForall no_annot i (NAssign x [i] None (NMul (NAcc y [i]) (NAcc z [i]))).
Example C30_example :
  let iso := isomorphic (V := Z) nat (fun t => t / 10) Nat.eqb Z.eqb in
  iso (vec3 1 11 21 0) (vec3 2 12 22 5) = true /\ iso (vec3 1 11 21 0) (vec3 2 22 12 5) = false /\
  iso (vec3 1 11 12 0) (vec3 2 12 12 5) = false /\
  compile nat (fun t => t / 10) Nat.eqb Z.eqb (compile_all nat (fun t => t / 10) Nat.eqb Z.eqb [(vec3 1 11 21 0, false)]) (vec3 2 12 22 5, false)
    = ((vec3 1 11 21 0, false), [(vec3 1 11 21 0, (vec3 1 11 21 0, false))]).
Proof. vm_compute. auto. Qed.

(** Finding: fill values are not compared. *)
Theorem C30_fill_refuted : exists (a b : nstmt Z) (fill : tensor -> Z) result args,
  isomorphic nat (fun _ => 0) Nat.eqb Z.eqb b a = true /\
  call Zops (fun _ v => v) Z.add fill a result args [0] <> call Zops (fun _ v => v) Z.add fill b result args [0].
Proof.
  exists (vec3 1 11 21 0), (vec3 2 12 22 5), (fun t => if Nat.eqb t 12 then 7%Z else 0%Z).
  exists (Build_tensor_arg [1] (fun _ => None)), [Build_tensor_arg [1] (fun _ => None); Build_tensor_arg [1] (fun _ => Some 1%Z)].
  vm_compute. split; [auto|discriminate].
Qed.
Print Assumptions C30_fill_refuted.

(** Finding: the flag assembleWhileCompute is not part of the key, so that a
    kernel compiled with the other value is returned. *)
Theorem C30_flag_refuted : exists (s : nstmt Z) history flag,
  fst (compile nat (fun _ => 0) Nat.eqb Z.eqb (compile_all nat (fun _ => 0) Nat.eqb Z.eqb history) (s, flag)) = (s, negb flag).
Proof. exists (vec3 1 11 21 0), [(vec3 1 11 21 0, true)], false. reflexivity. Qed.
Print Assumptions C30_flag_refuted.

(** Finding: the merge strategy of a loop is not compared either, so that a loop
    scheduled with galloping may get the kernel without it. *)
Theorem C30_merge_strategy_refuted : exists (a b : nstmt Z) an,
  a = NForall an 0 (NAssign 1 [0] None (NMul (NAcc 11 [0]) (NAcc 21 [0]))) /\ b = vec3 1 11 21 0 /\ an_merge an <> an_merge no_annot /\
  isomorphic nat (fun _ => 0) Nat.eqb Z.eqb a b = true.
Proof. exists (NForall (Build_annot 1 0 0 0) 0 (NAssign 1 [0] None (NMul (NAcc 11 [0]) (NAcc 21 [0])))), (vec3 1 11 21 0), (Build_annot 1 0 0 0). vm_compute. repeat split; discriminate. Qed.
Print Assumptions C30_merge_strategy_refuted.

(** ** C50 *)
(** compute() passes the operands of the concrete notation of the assignment
    (packArguments, tensor.cpp 779-805); the kernel is compiled from the statement
    after reordering and promotion.  For a nest of loops, every operand of the
    kernel is bound to its own tensor. *)
Theorem C50_operands : forall (V : Type) mo srt uses tmp is (s b s' : nstmt V), admissible_level_sort srt ->
  nest_of is s b -> is <> [] -> is_forall b = false -> NoDup is ->
  reorderLoopsTopologically mo srt uses s = Some s' ->
  distinct_results s' -> no_shadow [] s' -> fresh_for tmp s' ->
  let k := scalarPromote tmp true false s' in
  getArguments k = getArguments s /\
  forall (storage : tensor -> tensor_arg) result t, In t (getArguments k) -> t <> res k ->
    bound_arg k result (map storage (getArguments s)) t = storage t.
Proof.
  intros V mo srt uses tmp is s b s' A H N F ND Q D NS FR k.
  destruct (topo_ok mo srt uses is s b s' A H N F ND Q) as (is' & P & H' & _).
  assert (E : getArguments k = getArguments s).
  { unfold k. rewrite promote_args by auto. apply nest_same in H as [E1 E2]. apply nest_same in H' as [E3 E4].
    apply args_of; congruence. }
  split; auto. intros storage result t I NE. rewrite <- E. apply bound_nth; auto.
Qed.
Print Assumptions C50_operands.

(** Promotion alone keeps the order for every statement. *)
Theorem C50_promotion : forall (V : Type) tmp whole scalars (s : nstmt V), distinct_results s -> no_shadow [] s -> fresh_for tmp s ->
  getArguments (scalarPromote tmp whole scalars s) = getArguments s.
Proof. intros. apply promote_args; auto. Qed.
Print Assumptions C50_promotion.

Definition mv : nstmt Z := NAssign 0 [0] (Some RSum) (NMul (NAcc 1 [0; 1]) (NAcc 2 [1])).
Example C50_example :
  let s := foralls [1; 0] mv in let s' := foralls [0; 1] mv in
  let uses := fun v => match v with 0 => [Build_use 1 1 false] | _ => [Build_use 1 2 true] end in
  reorderLoopsTopologically (fun _ => [0; 1]) Prop_Transform.lv_sort uses s = Some s' /\
  distinct_results s' /\ no_shadow [] s' /\ fresh_for (fun A => 10 + A) s' /\
  getArguments (scalarPromote (fun A => 10 + A) true false s') = [1; 2] /\ scalarPromote (fun A => 10 + A) true false s' <> s'.
Proof.
  cbn zeta. split; [reflexivity|]. unfold distinct_results, fresh_for. cbn -[Nat.add scalarPromote].
  split; [repeat constructor; cbn; intuition lia|]. split; [intuition lia|]. split; [split; [intros; lia|intros; intuition lia]|].
  split; [reflexivity|]. vm_compute. discriminate.
Qed.

(** Finding: a statement with a where in which the producer uses an operand that
    comes later in the assignment (as precompute of c(i) in a(i) = b(i) - c(i)
    yields) takes its operands in another order than compute() passes them, and
    computes c - b. *)
Theorem C50_where_refuted : exists (s k : nstmt Z) (storage : tensor -> tensor_arg) result,
  s = NForall no_annot 0 (NAssign 0 [0] None (NSub (NAcc 1 [0]) (NAcc 2 [0]))) /\
  k = NWhere (NForall no_annot 0 (NAssign 0 [0] None (NSub (NAcc 1 [0]) (NAcc 3 [0])))) (NForall no_annot 0 (NAssign 3 [0] None (NAcc 2 [0]))) /\
  (forall T t x, In t [0; 1; 2] -> run Zops (fun _ v => v) Z.add (fun _ => 1) k (fun _ => 0) T t x = run Zops (fun _ v => v) Z.add (fun _ => 1) s (fun _ => 0) T t x) /\
  call Zops (fun _ v => v) Z.add (fun _ => 0%Z) s result (map storage (getArguments s)) [0] = 4%Z /\
  call Zops (fun _ v => v) Z.add (fun _ => 0%Z) k result (map storage (getArguments s)) [0] = (-4)%Z.
Proof.
  exists (NForall no_annot 0 (NAssign 0 [0] None (NSub (NAcc 1 [0]) (NAcc 2 [0])))).
  exists (NWhere (NForall no_annot 0 (NAssign 0 [0] None (NSub (NAcc 1 [0]) (NAcc 3 [0])))) (NForall no_annot 0 (NAssign 3 [0] None (NAcc 2 [0])))).
  exists (fun t => Build_tensor_arg [1] (fun _ => Some (if Nat.eqb t 1 then 5%Z else 1%Z))), (Build_tensor_arg [1] (fun _ => None)).
  split; auto. split; auto. split; [|vm_compute; auto].
  intros T t x [<-|[<-|[<-|[]]]]; cbn; unfold upd, clear, set_tensor; cbn; auto.
Qed.
Print Assumptions C50_where_refuted.
