(** C64: Replacing index variables, tensors or parts of a statement. *)
From Coq Require Import ZArith List Bool Lia.
From Verif Require Import Replace ReplaceSpec ReplaceProofs.
Import ListNotations.
Local Open Scope Z_scope.

(** Variables: if no two variables of the statement become one, the new statement does the
    same to every tensor, for any operators.  Not replaced may be variables of
    reductions or of scheduling relations, nor those of an access to what is stored. *)
Theorem C64_variables : forall O m st dim dim' s s' M,
  (forall v w, In v (variables st) -> In w (variables st) -> subst_of m v = subst_of m w -> v = w) ->
  (forall v, In v (reduced st ++ related st) -> subst_of m v = v) ->
  (forall a v, In a (accesses st) -> a_structure a = true -> In v (a_vars a) -> lookup m v = None) ->
  (forall v, In v (variables st) -> dim' (subst_of m v) = dim v /\ s' (subst_of m v) = s v) ->
  exec O dim' [] (replace_vars_stmt m st) s' M = exec O dim [] st s M.
Proof. exact replace_vars_means. Qed.
Print Assumptions C64_variables.

(** Tensors: if no two tensors become one and no replaced access has a window or an
    index set, the new statement does to the new tensors what the old one does to the
    old ones. *)
Theorem C64_tensors : forall O m st dim s M M',
  (forall t u, In t (tensors st) -> In u (tensors st) -> subst_of m t = subst_of m u -> t = u) ->
  (forall a, In a (accesses st) -> lookup m (a_tensor a) <> None ->
     a_structure a = false /\ forall x, In x (a_mods a) -> x = Plain) ->
  (forall t p, In t (tensors st) -> M' (subst_of m t) p = M t p) ->
  forall t p, In t (tensors st) ->
  exec O dim [] (replace_tensors m st) s M' (subst_of m t) p = exec O dim [] st s M t p.
Proof. exact replace_tensors_means. Qed.
Print Assumptions C64_tensors.

(** Expressions and statements: replacing nodes by others of the same meaning keeps the
    meaning; an expression with no node to be replaced stays what it is, and a node that is
    replaced becomes the new one as it is. *)
Theorem C64_expressions : forall O dim m st,
  (forall x x', In x (exprs st) -> look_expr m x = Some x' -> forall M s, eval O dim M s x' = eval O dim M s x) ->
  forall rels s M, exec O dim rels (replace_nodes_stmt m st) s M = exec O dim rels st s M.
Proof. exact exec_nodes. Qed.
Print Assumptions C64_expressions.
Theorem C64_statements : forall O dim m st,
  (forall x x', In x (substmts st) -> lookup m (stmt_id x) = Some x' ->
     results x' = results x /\ forall rels s M, exec O dim rels x' s M = exec O dim rels x s M) ->
  results (replace_stmts m st) = results st /\
  forall rels s M, exec O dim rels (replace_stmts m st) s M = exec O dim rels st s M.
Proof. exact exec_stmts. Qed.
Print Assumptions C64_statements.
Theorem C64_only_those : forall m e,
  ((forall x, In x (subexprs e) -> look_expr m x = None) -> replace_nodes m e = e) /\
  (forall e', is_cast e = false -> lookup m (expr_id e) = Some e' -> replace_nodes m e = e').
Proof.
  intros m e. split; [apply nodes_same|]. intros e' C L. unfold replace_nodes.
  destruct e; cbn [rewrite_expr]; unfold look_expr; rewrite C, L; reflexivity.
Qed.
Print Assumptions C64_only_those.

Arguments Forall _%nat _%nat _.
Arguments Assign _%nat _ _ _.
Arguments SuchThat _%nat _ _.
Arguments Read _%nat _.
Arguments Bin _%nat _%nat _ _.
Arguments Lit _%nat _%Z.
Arguments Cast _%nat _%nat _.
Arguments Red _%nat _%nat _%nat _.
Arguments Acc _%nat _ _ _.
Arguments Split _%nat _%nat _%nat _%Z.
(** Integers. *)
Definition ints : operators :=
  Ops Z 0 (fun z => z) (fun _ x => - x) (fun o x y => if (o =? 0)%nat then x + y else x * y) (fun _ x => x)
      (fun _ l => fold_right Z.add 0 l) (fun _ l => fold_right Z.add 0 l) (fun x => if x =? 0 then 0 else 1).
Definition plain (t : tensor) (vs : list var) : access := Acc t vs [] false.
Arguments plain _%nat _.

(** y(i) += A(i,j) * x(j), with i and j exchanged: i is 0, j is 1; A, x, y are 0, 1, 2. *)
Definition spmv : stmt :=
  Forall 10 0 (Forall 11 1 (Assign 12 (plain 2 [0]%nat)
    (Bin 1 1 (Read 2 (plain 0 [0; 1]%nat)) (Read 3 (plain 1 [1]%nat))) (Some O))).
Definition exchange : list (nat * nat) := [(0, 1); (1, 0)]%nat.
Example C64_variables_example :
  replace_vars_stmt exchange spmv =
    Forall 10 1 (Forall 11 0 (Assign 12 (plain 2 [1]%nat)
      (Bin 1 1 (Read 2 (plain 0 [1; 0]%nat)) (Read 3 (plain 1 [0]%nat))) (Some O))) /\
  (forall s M, exec ints (fun v => match v with O => 3%nat | _ => 2%nat end) [] (replace_vars_stmt exchange spmv) s M =
             exec ints (fun v => match v with O => 2%nat | _ => 3%nat end) [] spmv (fun v => s (subst_of exchange v)) M).
Proof.
  split; [reflexivity|]. intros s M. apply C64_variables.
  - intros v w Hv Hw. cbn in Hv, Hw.
    repeat (destruct Hv as [<-|Hv]; [repeat (destruct Hw as [<-|Hw]; [cbn; intros; (reflexivity || discriminate)|]); destruct Hw|]).
    destruct Hv.
  - intros v [].
  - intros a v Ha. cbn in Ha. repeat (destruct Ha as [<-|Ha]; [discriminate|]). destruct Ha.
  - intros v Hv. cbn in Hv. repeat (destruct Hv as [<-|Hv]; [split; reflexivity|]). destruct Hv.
Qed.
Example C64_tensors_example :
  let m := [(0, 5); (2, 6)]%nat in
  (forall t u, In t (tensors spmv) -> In u (tensors spmv) -> subst_of m t = subst_of m u -> t = u) /\
  replace_tensors m spmv =
    Forall 10 0 (Forall 11 1 (Assign 12 (plain 6 [0]%nat)
      (Bin 1 1 (Read 2 (plain 5 [0; 1]%nat)) (Read 3 (plain 1 [1]%nat))) (Some O))).
Proof.
  split; [|reflexivity]. intros t u Ht Hu. cbn in Ht, Hu.
  repeat (destruct Ht as [<-|Ht]; [repeat (destruct Hu as [<-|Hu]; [cbn; intros; (reflexivity || discriminate)|]); destruct Hu|]).
  destruct Ht.
Qed.
Example C64_expressions_example :
  let m := [(2, Bin 7 0 (Read 8 (plain 0 [0; 1]%nat)) (Lit 9 0))]%nat in
  (forall x x', In x (exprs spmv) -> look_expr m x = Some x' ->
     forall M s, eval ints (fun _ => 2%nat) M s x' = eval ints (fun _ => 2%nat) M s x) /\
  replace_nodes_stmt m spmv <> spmv.
Proof.
  split; [|discriminate]. intros x x' Hx E M s. cbn in Hx.
  repeat (destruct Hx as [<-|Hx]; [cbn in E; first [discriminate|inversion E; subst; cbn; lia]|]). destruct Hx.
Qed.

(** What is lost (findings).  The variable of a reduction is not replaced, only its uses
    are: y = sum(i, x(i)) with i replaced by k becomes y = sum(i, x(k)). *)
Theorem C64_reduction_refuted :
  exists st M, variables st = [0; 0]%nat /\ (forall v, subst_of [(0, 1)]%nat v = 1%nat -> v = O \/ v = 1%nat) /\
    exec ints (fun _ => 2%nat) [] st (fun _ => 0) M 2%nat [] = 7 /\
    exec ints (fun _ => 2%nat) [] (replace_vars_stmt [(0, 1)]%nat st) (fun _ => 0) M 2%nat [] = 6.
Proof.
  exists (Assign 5 (plain 2 []) (Red 1 0 0 (Read 2 (plain 1 [0]%nat))) None),
    (fun t p => match t, p with 1%nat, [0] => 3 | 1%nat, [1] => 4 | _, _ => 0 end).
  split; [reflexivity|]. split; [|split; vm_compute; reflexivity].
  intros v. unfold subst_of. cbn [lookup]. destruct (Nat.eqb_spec 0 v); intros; subst; auto.
Qed.
Print Assumptions C64_reduction_refuted.

(** The relations of a schedule are not replaced: after split(i, i0, i1, 2), replacing
    i by k leaves the accesses with a variable that nothing defines. *)
Theorem C64_schedule_refuted :
  exists st M, 
    (forall x, (x < 4)%nat -> exec ints (fun v => match v with O | 3%nat => 4%nat | _ => 2%nat end) [] st (fun _ => 0) M 2%nat [Z.of_nat x] = 5) /\
    exec ints (fun v => match v with O | 3%nat => 4%nat | _ => 2%nat end) [] (replace_vars_stmt [(0, 3)]%nat st) (fun _ => 0) M 2%nat [1] = 0.
Proof.
  exists (SuchThat 1 (Forall 2 1 (Forall 3 2 (Assign 4 (plain 2 [0]%nat) (Read 5 (plain 1 [0]%nat)) None))) [Split 0 1 2 2]),
    (fun t p => match t with 1%nat => 5 | _ => 0 end).
  split; [|vm_compute; reflexivity].
  intros [|[|[|[|x]]]] H; try (vm_compute; reflexivity). lia.
Qed.
Print Assumptions C64_schedule_refuted.

(** An access that asks whether a component is stored asks for its value afterwards. *)
Theorem C64_structure_refuted :
  exists st M, exec ints (fun _ => 1%nat) [] st (fun _ => 0) M 2%nat [0] = 1 /\
    exec ints (fun _ => 1%nat) [] (replace_vars_stmt [(0, 1)]%nat st) (fun _ => 0) M 2%nat [0] = 5.
Proof.
  exists (Forall 1 0 (Assign 2 (plain 2 [0]%nat) (Read 3 (Acc 1 [0]%nat [] true)) None)),
    (fun t p => match t with 1%nat => 5 | _ => 0 end).
  split; vm_compute; reflexivity.
Qed.
Print Assumptions C64_structure_refuted.

(** Replacing a tensor drops the windows and index sets of its accesses. *)
Theorem C64_window_refuted :
  exists st M, (forall p, M 1%nat p = M 3%nat p) /\
    exec ints (fun _ => 1%nat) [] st (fun _ => 0) M 2%nat [0] = 4 /\
    exec ints (fun _ => 1%nat) [] (replace_tensors [(1, 3)]%nat st) (fun _ => 0) M 2%nat [0] = 3.
Proof.
  exists (Forall 1 0 (Assign 2 (plain 2 [0]%nat) (Read 3 (Acc 1 [0]%nat [Window 1 1] false)) None)),
    (fun t p => match t, p with 2%nat, _ => 0 | _, [0] => 3 | _, [1] => 4 | _, _ => 0 end).
  split; [reflexivity|]. split; vm_compute; reflexivity.
Qed.
Print Assumptions C64_window_refuted.

(** A cast is not replaced. *)
Theorem C64_cast_refuted : exists m e e', lookup m (expr_id e) = Some e' /\ replace_nodes m e = e /\ e <> e'.
Proof. exists [(7%nat, Lit 8 1)], (Cast 7 0 (Lit 9 2)), (Lit 8 1). split; [reflexivity|]. split; [reflexivity|discriminate]. Qed.
Print Assumptions C64_cast_refuted.
