(** C24: hoisting a sub-expression into a workspace. *)
From Coq Require Import List Arith Lia Bool Ring_theory Permutation ZArith.
Import ListNotations.
From Verif Require Import IndexExpr Eval Notation NotationSpec NotationProofs NotationRun Transform Precompute PrecomputeSpec PrecomputeProofs PrecomputeSem.
Local Open Scope nat_scope.

Definition Zops : ring_ops Z := mkOps Z 0%Z 1%Z Z.add Z.mul Z.sub Z.opp.

(** The statement is a nest of the loops [Lo ++ Li] around one assignment
    [A(vs) op x]; the sub-expression [e] sits at the marked places of [x].  [Lo]
    are the outer variables: the loops down to the innermost one whose variable
    is used both by [e] and by the rest of the assignment and is not chosen to
    index the workspace.  [ivs] are the chosen variables, [iws] the variables of
    the loops that fill the workspace.  If every variable of [e] is chosen or
    outer, or [e] is a factor of a sum of products, the statement that results
    computes what the given one does. *)
Theorem C24_precompute : forall (V : Type) (R : ring_ops V) fn dv dim, is_ring R ->
  forall same (e : nexpr V) ivs iws ws A vs op x Lo Li s,
  (* the statement *)
  nest_of (Lo ++ Li) s (NAssign A vs op x) -> Lo ++ Li <> [] -> NoDup (Lo ++ Li) -> red_vars x = [] ->
  (forall i, In i (Lo ++ Li) -> In i vs \/ In i (vars x)) ->
  (op = Some RSum \/ (op = None /\ incl (Lo ++ Li) vs)) ->
  (* the workspace is new, and the result is not an operand *)
  ~ In A (reads x) -> ws <> A -> ~ In ws (reads x) ->
  (* the places of the sub-expression *)
  let q := rhs_path (length (Lo ++ Li)) in
  let rest := rest_vars same q x in
  let shared i := In i (vars e) /\ (In i vs \/ In i rest) in
  marks same e q x -> marked same q x ->
  (* the chosen variables, and the variables that fill the workspace: the chosen
     ones or new ones of the same dimension *)
  NoDup ivs -> NoDup iws -> incl ivs (vars e) -> incl ivs (Lo ++ Li) ->
  Forall2 (fun i w => dim w = dim i /\ (w = i \/ (In i Li /\ ~ In w (Lo ++ Li) /\ ~ In w (vars x)))) ivs iws ->
  (* outer loops *)
  (forall i, In i Li -> In i ivs \/ ~ shared i) ->
  (Lo = [] \/ exists Lo' i, Lo = Lo' ++ [i] /\ ~ In i ivs /\ shared i) ->
  (* chosen or outer variables only, or a factor *)
  ((forall v, In v (vars e) -> In v Li -> In v ivs) \/ (op = Some RSum /\ factor same q x)) ->
  (* what is left of the assignment shows the reduction *)
  (forall k, In k Lo -> In k vs \/ In k ivs \/ In k rest) ->
  let used i := In i vs \/ In i ivs \/ In i rest in
  (vs = [] \/ (exists v, In v vs /\ (In v ivs \/ In v rest)) \/ incl (Lo ++ Li) vs \/
   exists L1 k L2, Lo ++ Li = L1 ++ k :: L2 /\ used k /\ (forall i, In i L2 -> ~ used i) /\ (forall i v, In i L1 -> used i -> In v vs -> i = v)) ->
  forall r T, (forall y, T A y = r0 R) ->
  forall t y, run R fn dv dim (precompute same e ivs iws ws s) r T t y = run R fn dv dim s r T t y.
Proof.
  intros V R fn dv dim RT same e ivs iws ws A vs op x Lo Li s H1 H2 H3 H4 H5 H6 H7 H8 H9 q rest shared H10 H11 H12 H13 H14 H15 H16 H17 H18 H19 H20 used H21 r T Z t y.
  exact (precompute_ok R RT fn dv dim same e ivs iws ws A vs op x Lo Li s H1 H2 H3 H4 H5 H7 H8 H9 H6 H10 H11 H12 H13 H14 H15 H16 H17 H18 H19 H20 H21 r T Z t y).
Qed.
Print Assumptions C24_precompute.

(** *** The hypotheses are met *)
(** Sparse matrix product with a row workspace: forall i, k, j
    A(i,j) += B(i,k) * C(k,j), the product hoisted into w(j).  The variable k is
    neither chosen nor outer. *)
Definition at_path (p q : list nat) : bool := list_eqb q p.
Definition mm : nexpr Z := NMul (NAcc 1 [0; 2]) (NAcc 2 [2; 1]).
Definition spmm : nstmt Z := foralls [0; 2; 1] (NAssign 0 [0; 1] (Some RSum) mm).
Example C24_example_result :
  precompute (at_path (rhs_path 3)) mm [1] [1] 9 spmm =
  foralls [0] (NWhere (foralls [1] (NAssign 0 [0; 1] None (NAcc 9 [1])))
                      (foralls [2; 1] (NAssign 9 [1] (Some RSum) mm))).
Proof. reflexivity. Qed.
Ltac lists := cbn; unfold incl; cbn; intuition (subst; auto; try lia; try congruence).
Example C24_example : forall r T, (forall y, T 0 y = 0%Z) -> forall t y,
  run Zops (fun _ v => v) Z.add (fun _ => 5) (precompute (at_path (rhs_path 3)) mm [1] [1] 9 spmm) r T t y =
  run Zops (fun _ v => v) Z.add (fun _ => 5) spmm r T t y.
Proof.
  intros r T T0 t y.
  apply (C24_precompute Z Zops (fun _ v => v) Z.add (fun _ => 5) InitialRing.Zth (at_path (rhs_path 3)) mm [1] [1] 9 0 [0; 1] (Some RSum) mm [0] [2; 1]); auto.
  - repeat constructor.
  - discriminate.
  - repeat constructor; lists.
  - intros i. lists.
  - lists.
  - lists.
  - reflexivity.
  - left. reflexivity.
  - repeat constructor; lists.
  - repeat constructor; lists.
  - lists.
  - lists.
  - intros i. lists.
  - right. exists [], 0. lists.
  - right. split; auto. left. reflexivity.
  - intros k. lists.
  - right. left. exists 1. lists.
Qed.
(** forall i, j A(i) += (B(i,j) + C(j)) * D(j), the sum hoisted into w(j), filled
    by a loop over the new variable 7. *)
Definition bc : nexpr Z := NAdd (NAcc 1 [0; 1]) (NAcc 2 [1]).
Definition mvx : nexpr Z := NMul bc (NAcc 3 [1]).
Definition mv : nstmt Z := foralls [0; 1] (NAssign 0 [0] (Some RSum) mvx).
Example C24_example_2_result :
  precompute (at_path (0 :: rhs_path 2)) bc [1] [7] 9 mv =
  foralls [0] (NWhere (foralls [1] (NAssign 0 [0] (Some RSum) (NMul (NAcc 9 [1]) (NAcc 3 [1]))))
                      (foralls [7] (NAssign 9 [7] (Some RSum) (NAdd (NAcc 1 [0; 7]) (NAcc 2 [7]))))).
Proof. reflexivity. Qed.
Example C24_example_2 : forall r T, (forall y, T 0 y = 0%Z) -> forall t y,
  run Zops (fun _ v => v) Z.add (fun _ => 5) (precompute (at_path (0 :: rhs_path 2)) bc [1] [7] 9 mv) r T t y =
  run Zops (fun _ v => v) Z.add (fun _ => 5) mv r T t y.
Proof.
  intros r T T0 t y.
  apply (C24_precompute Z Zops (fun _ v => v) Z.add (fun _ => 5) InitialRing.Zth (at_path (0 :: rhs_path 2)) bc [1] [7] 9 0 [0] (Some RSum) mvx [0] [1]); auto.
  - repeat constructor.
  - discriminate.
  - repeat constructor; lists.
  - intros i. lists.
  - lists.
  - lists.
  - cbn. auto.
  - cbn. auto.
  - repeat constructor; lists.
  - repeat constructor; lists.
  - lists.
  - lists.
  - constructor; [|constructor]. split; auto. right. lists.
  - right. exists [], 0. lists.
  - right. right. right. exists [0], 1, []. lists.
Qed.

(** *** Findings *)
Notation runz := (run Zops (fun _ v => v) Z.add (fun _ => 2)).
Definition ones : store := fun t _ => if Nat.eqb t 0 then 0%Z else 1%Z.

(** The operator of the assignment is recomputed from the index variables:
    another reduction becomes a sum, although the sub-expression uses only the
    chosen variable and the outer one. *)
Theorem C24_product_refuted : exists (s : nstmt Z) same e T,
  s = foralls [0; 1] (NAssign 0 [0] (Some RProd) e) /\ e = NAcc 1 [0; 1] /\ marks same e (rhs_path 2) e /\ marked same (rhs_path 2) e /\
  runz (precompute same e [1] [1] 9 s) (fun _ => 0) T 0 [0] <> runz s (fun _ => 0) T 0 [0].
Proof.
  exists (foralls [0; 1] (NAssign 0 [0] (Some RProd) (NAcc 1 [0; 1]))), (at_path (rhs_path 2)), (NAcc 1 [0; 1]), ones.
  repeat split; auto. { left. reflexivity. } vm_compute. discriminate.
Qed.
Print Assumptions C24_product_refuted.

(** A reduction loop that is left around the where statement while its variable
    is hoisted away is no longer recognised as one: forall j, i
    y(i) += A(i,j) * x(j), the product hoisted into a scalar, becomes forall j, i
    (y(i) = w where w += A(i,j) * x(j)), which keeps the last product only. *)
Theorem C24_outer_reduction_refuted : exists (s : nstmt Z) same e T,
  s = foralls [1; 0] (NAssign 0 [0] (Some RSum) e) /\ e = NMul (NAcc 1 [0; 1]) (NAcc 2 [1]) /\
  marks same e (rhs_path 2) e /\ marked same (rhs_path 2) e /\ (forall y, T 0 y = 0%Z) /\
  precompute same e [] [] 9 s = foralls [1; 0] (NWhere (NAssign 0 [0] None (NAcc 9 [])) (NAssign 9 [] (Some RSum) e)) /\
  runz s (fun _ => 0) T 0 [0] = 2%Z /\ runz (precompute same e [] [] 9 s) (fun _ => 0) T 0 [0] = 1%Z.
Proof.
  exists (foralls [1; 0] (NAssign 0 [0] (Some RSum) (NMul (NAcc 1 [0; 1]) (NAcc 2 [1])))), (at_path (rhs_path 2)), (NMul (NAcc 1 [0; 1]) (NAcc 2 [1])), ones.
  repeat split; auto. left. reflexivity.
Qed.
Print Assumptions C24_outer_reduction_refuted.

(** A reduction whose operands do not use the result's variables is lost when
    the result's loop is not outermost: forall k, i A(i) += B(k), with B(k) hoisted
    into w(k), becomes (forall k, i A(i) = w(k)) where (forall k w(k) = B(k)). *)
Theorem C24_broadcast_refuted : exists (s : nstmt Z) same e T,
  s = foralls [1; 0] (NAssign 0 [0] (Some RSum) e) /\ e = NAcc 1 [1] /\
  marks same e (rhs_path 2) e /\ marked same (rhs_path 2) e /\ (forall y, T 0 y = 0%Z) /\
  runz s (fun _ => 0) T 0 [0] = 2%Z /\ runz (precompute same e [1] [1] 9 s) (fun _ => 0) T 0 [0] = 1%Z.
Proof.
  exists (foralls [1; 0] (NAssign 0 [0] (Some RSum) (NAcc 1 [1]))), (at_path (rhs_path 2)), (NAcc 1 [1]), ones.
  repeat split; auto. left. reflexivity.
Qed.
Print Assumptions C24_broadcast_refuted.

(** A sub-expression that uses an inner variable that is not chosen must be a
    factor: forall i, k A(i) += D(i) + B(i,k), with B(i,k) hoisted into w(i). *)
Theorem C24_term_refuted : exists (s : nstmt Z) same e x T,
  s = foralls [0; 1] (NAssign 0 [0] (Some RSum) x) /\ x = NAdd (NAcc 2 [0]) e /\ e = NAcc 1 [0; 1] /\
  marks same e (rhs_path 2) x /\ marked same (rhs_path 2) x /\ (forall y, T 0 y = 0%Z) /\
  runz s (fun _ => 0) T 0 [0] = 4%Z /\ runz (precompute same e [0] [0] 9 s) (fun _ => 0) T 0 [0] = 3%Z.
Proof.
  exists (foralls [0; 1] (NAssign 0 [0] (Some RSum) (NAdd (NAcc 2 [0]) (NAcc 1 [0; 1])))), (at_path (1 :: rhs_path 2)), (NAcc 1 [0; 1]), (NAdd (NAcc 2 [0]) (NAcc 1 [0; 1])), ones.
  repeat split; auto. right. right. left. reflexivity.
Qed.
Print Assumptions C24_term_refuted.
