(** Properties of the checks made on index expressions: C31-C35. *)
From Coq Require Import List Arith Bool ZArith Reals Lia Lra.
From Verif Require Import Types Checks ChecksSpec ChecksProofs Intrinsics IntrinsicsProofs.
Import ListNotations.
Local Open Scope nat_scope.

(** ** C31: accesses as keys *)
(** Two accesses compare equal exactly when they are of the same tensor, with the
    same variables, windows and index sets.  The hypothesis says that a node has one
    content: the same address is the same node. *)
Theorem C31_equality : forall a b, (ac_node a = ac_node b -> a = b) ->
  (access_eq a b = true <->
   ac_tensor a = ac_tensor b /\ ac_vars a = ac_vars b /\ ac_windows a = ac_windows b /\ ac_sets a = ac_sets b).
Proof. exact access_eq_spec. Qed.
Print Assumptions C31_equality.

(** On accesses without index sets, windowed or not, [<] is a strict order, total up
    to [==]. *)
Theorem C31_order : forall dom : access -> Prop,
  (forall a b, dom a -> dom b -> ac_node a = ac_node b -> a = b) ->
  (forall a, dom a -> ac_sets a = []) -> strict_order dom access_eq access_lt.
Proof. exact access_strict_order. Qed.
Print Assumptions C31_order.

(** Finding: with index sets it is not even asymmetric, because the sets are compared
    only one way before the tensors that hold them are. *)
Theorem C31_index_sets_refuted : exists a b, ac_windows a = [] /\ ac_windows b = [] /\
  access_lt a b = true /\ access_lt b a = true.
Proof.
  exists {| ac_node := 1; ac_tensor := 1; ac_vars := [1]; ac_windows := [];
            ac_sets := [(0, {| is_set := [2%Z]; is_tensor := 10 |})]; ac_structure := false |},
         {| ac_node := 2; ac_tensor := 1; ac_vars := [1]; ac_windows := [];
            ac_sets := [(0, {| is_set := [1%Z]; is_tensor := 11 |})]; ac_structure := false |}.
  vm_compute. auto.
Qed.
Print Assumptions C31_index_sets_refuted.

(** Finding: the same happens when windows and index sets are combined, even if the
    index sets themselves are ordered consistently. *)
Theorem C31_windows_and_index_sets_refuted : exists a b,
  access_lt a b = true /\ access_lt b a = true /\
  (forall p q, In p (ac_sets a) -> In q (ac_sets b) -> indexset_lt (snd p) (snd q) = true /\ indexset_lt (snd q) (snd p) = false).
Proof.
  exists {| ac_node := 1; ac_tensor := 1; ac_vars := [1; 2]; ac_windows := [(0, {| w_lo := 5; w_hi := 9; w_stride := 1 |})];
            ac_sets := [(1, {| is_set := [1%Z]; is_tensor := 10 |})]; ac_structure := false |},
         {| ac_node := 2; ac_tensor := 1; ac_vars := [1; 2]; ac_windows := [(0, {| w_lo := 1; w_hi := 5; w_stride := 1 |})];
            ac_sets := [(1, {| is_set := [2%Z]; is_tensor := 10 |})]; ac_structure := false |}.
  split; [reflexivity|]. split; [reflexivity|]. intros p q [<-|[]] [<-|[]]. split; reflexivity.
Qed.
Print Assumptions C31_windows_and_index_sets_refuted.

(** Finding: equality ignores whether the access reads the values or only the
    structure of the tensor. *)
Theorem C31_structure_ignored_refuted : exists a b, ac_structure a <> ac_structure b /\ ac_node a <> ac_node b /\ access_eq a b = true.
Proof.
  exists {| ac_node := 1; ac_tensor := 1; ac_vars := [1]; ac_windows := []; ac_sets := []; ac_structure := false |},
         {| ac_node := 2; ac_tensor := 1; ac_vars := [1]; ac_windows := []; ac_sets := []; ac_structure := true |}.
  vm_compute. repeat split; discriminate || auto.
Qed.
Print Assumptions C31_structure_ignored_refuted.

Example C31_example :
  let w lo hi := [(0, {| w_lo := lo; w_hi := hi; w_stride := 1 |})] in
  let a := {| ac_node := 1; ac_tensor := 1; ac_vars := [1; 2]; ac_windows := w 0%Z 4%Z; ac_sets := []; ac_structure := false |} in
  let b := {| ac_node := 2; ac_tensor := 1; ac_vars := [1; 2]; ac_windows := w 0%Z 5%Z; ac_sets := []; ac_structure := false |} in
  strict_order (fun x => x = a \/ x = b) access_eq access_lt /\ access_lt a b = true /\ access_eq a b = false.
Proof.
  split; [|split; reflexivity]. apply C31_order.
  - intros x y [-> | ->] [-> | ->] H; auto; discriminate.
  - intros x [-> | ->]; auto.
Qed.

(** ** C32: zero-preserving arguments *)
(** Integer types: whenever all arguments in one of the declared sets are zero, the
    value is zero.  Division by zero is undefined, so mod needs its divisor not to
    be zero.  The arguments may be literals (then the declaration may depend on
    them) or not. *)
Theorem C32_integers : forall f k args vals sets S, k <> KFloat ->
  zeroPreservingArgs Zsign f k args = Some sets -> In S sets -> values_of args vals ->
  (forall n, In n S -> nth n vals 0%Z = 0%Z) -> (k = KUInt -> Forall (fun v => 0 <= v)%Z vals) ->
  for_integers f = true -> (f = IMod -> nth 1 vals 0%Z <> 0%Z) ->
  int_value f k vals = Some 0%Z.
Proof. exact int_zero_preserving. Qed.
Print Assumptions C32_integers.

(** Real numbers: the same for every intrinsic but pow. *)
Theorem C32_reals : forall f args vals sets S,
  zeroPreservingArgs Rsign f KFloat args = Some sets -> In S sets -> values_of args vals ->
  (forall n, In n S -> nth n vals 0%R = 0%R) -> f <> IPow -> (f = IMod -> nth 1 vals 0%R <> 0%R) ->
  real_value f vals = Some 0%R.
Proof. exact real_zero_preserving. Qed.
Print Assumptions C32_reals.

(** The consequence for sparse iteration: when the rewriter that specialises an
    expression to a region where some operands are zero drops a call, the call's
    value there is zero.  [None] is an operand that is zero there, [Some None] any
    other expression, [Some (Some l)] a literal. *)
Theorem C32_dropped_calls_integers : forall f k args vals, k <> KFloat ->
  zero_call Zsign 0%Z f k args = Some true ->
  Forall2 (fun a v => match a with None => v = 0%Z | Some None => True | Some (Some l) => v = l end) args vals ->
  (k = KUInt -> Forall (fun v => 0 <= v)%Z vals) ->
  for_integers f = true -> (f = IMod -> nth 1 vals 0%Z <> 0%Z) ->
  int_value f k vals = Some 0%Z.
Proof.
  intros f k args vals NF H V U FI M. apply zero_call_sets in H. destruct H as [sets [S [E [I N]]]].
  eapply int_zero_preserving; eauto.
  - clear - V. induction V as [|a v args vals H V IH]; constructor; auto. destruct a as [[l|]|]; auto.
  - intros n In'. specialize (N n In'). clear - V N. revert n N.
    induction V as [|a v args vals H V IH]; intros [|n] N; simpl in *; try discriminate; auto.
    injection N as ->. auto.
Qed.
Print Assumptions C32_dropped_calls_integers.

Theorem C32_dropped_calls_reals : forall f args vals,
  zero_call Rsign 0%R f KFloat args = Some true ->
  Forall2 (fun a v => match a with None => v = 0%R | Some None => True | Some (Some l) => v = l end) args vals ->
  f <> IPow -> (f = IMod -> nth 1 vals 0%R <> 0%R) ->
  real_value f vals = Some 0%R.
Proof.
  intros f args vals H V NP M. apply zero_call_sets in H. destruct H as [sets [S [E [I N]]]].
  eapply real_zero_preserving; eauto.
  - clear - V. induction V as [|a v args vals H V IH]; constructor; auto. destruct a as [[l|]|]; auto.
  - intros n In'. specialize (N n In'). clear - V N. revert n N.
    induction V as [|a v args vals H V IH]; intros [|n] N; simpl in *; try discriminate; auto.
    injection N as ->. auto.
Qed.
Print Assumptions C32_dropped_calls_reals.

(** Finding: pow is declared zero-preserving in its base, but pow(0,0) is 1. *)
Theorem C32_pow_refuted : exists args vals sets S,
  zeroPreservingArgs Rsign IPow KFloat args = Some sets /\ In S sets /\ values_of args vals /\
  (forall n, In n S -> nth n vals 0%R = 0%R) /\ real_value IPow vals = Some 1%R.
Proof.
  exists [None; None], [0%R; 0%R], [[0]], [0]. split; [reflexivity|]. split; [simpl; auto|].
  split; [repeat constructor|]. split.
  - intros [|[|n]] _; simpl; auto. destruct n; auto.
  - simpl. unfold cpow. rewrite (proj2 (req_spec 0 0) eq_refl). auto.
Qed.
Print Assumptions C32_pow_refuted.

(** Finding: mod is declared zero-preserving in its divisor, where it is undefined. *)
Theorem C32_mod_refuted : exists args vals sets S,
  zeroPreservingArgs Zsign IMod KInt args = Some sets /\ In S sets /\ values_of args vals /\
  (forall n, In n S -> nth n vals 0%Z = 0%Z) /\ int_value IMod KInt vals = None.
Proof.
  exists [None; None], [7%Z; 0%Z], [[0]; [1]], [1]. split; [reflexivity|]. split; [simpl; auto|].
  split; [repeat constructor|]. split; [|reflexivity]. intros n [<-|[]]. auto.
Qed.
Print Assumptions C32_mod_refuted.

(** gt(x, 3) is zero where x is; gt(x, -3) is not dropped there. *)
Example C32_example : zero_call Zsign 0%Z IGt KInt [None; Some (Some 3%Z)] = Some true /\
  zero_call Zsign 0%Z IGt KInt [None; Some (Some (-3)%Z)] = Some false /\
  int_value IGt KInt [0; 3]%Z = Some 0%Z /\ int_value IGt KInt [0; -3]%Z = Some 1%Z.
Proof. repeat split; reflexivity. Qed.

(** ** C33: dimensions *)
(** The uses of index variables in an assignment: result modes, then the modes of
    each operand, with the extent of the window or index set if there is one.  An
    assignment is accepted exactly when there is one extent per variable (a size, or
    dynamic) with which all uses agree. *)
Theorem C33_accepted_iff_consistent : forall result reads,
  let uses := result ++ map (fun m => (m_var m, mode_dimension m)) (concat reads) in
  (forall v d w, In (v, d) uses -> d <> DIndexVar w) ->
  (dimensionsTypecheck result reads = true <-> exists ext, forall v d, In (v, d) uses -> extent d = ext v).
Proof. exact dimensions_consistent. Qed.
Print Assumptions C33_accepted_iff_consistent.

(** The extent a use is checked with is the number of coordinates it ranges over, for
    whole modes, for windows whose stride divides their length, and for index sets. *)
Theorem C33_extent_of_use : forall v d m,
  match m with
  | MWindow lo hi stride => lo <= hi /\ hi <= d /\ 0 < stride /\ (hi - lo) mod stride = 0
  | _ => True
  end ->
  mode_dimension {| m_var := v; m_dim := DFixed d; m_mod := m |} = DFixed (length (used_coordinates d m)).
Proof. exact mode_extent. Qed.
Print Assumptions C33_extent_of_use.

(** Finding: a variable whose first use has a dimension named by the variable itself
    may then be used with different sizes. *)
Theorem C33_named_dimension_refuted : exists v a b, a <> b /\
  dimensionsTypecheck [(v, DIndexVar v)]
    [[{| m_var := v; m_dim := DFixed a; m_mod := MNone |}]; [{| m_var := v; m_dim := DFixed b; m_mod := MNone |}]] = true.
Proof. exists 1, 2, 3. split; [lia|reflexivity]. Qed.
Print Assumptions C33_named_dimension_refuted.

(** Finding: a window whose length is not a multiple of its stride reaches more
    coordinates than the extent it is checked with. *)
Theorem C33_window_extent_refuted : exists lo hi stride,
  mode_dimension {| m_var := 1; m_dim := DFixed 10; m_mod := MWindow lo hi stride |} = DFixed 2 /\
  length (filter (fun c => (lo <=? c) && (c <? hi) && ((c - lo) mod stride =? 0)) (seq 0 10)) = 3.
Proof. exists 0, 5, 2. split; reflexivity. Qed.
Print Assumptions C33_window_extent_refuted.

Example C33_example :
  let m v d := {| m_var := v; m_dim := DFixed d; m_mod := MNone |} in
  dimensionsTypecheck [(1, DFixed 4); (2, DFixed 5)]
    [[m 1 4; m 3 7]; [{| m_var := 3; m_dim := DFixed 20; m_mod := MWindow 3 10 1 |}; m 2 5]] = true /\
  dimensionsTypecheck [(1, DFixed 4); (2, DFixed 5)] [[m 1 4; m 3 7]; [m 3 6; m 2 5]] = false.
Proof. split; reflexivity. Qed.

(** ** C34: transposition *)
(** The check always answers, and it answers "no transposition" exactly when there is
    an order of the index variables in which every operand, and the result, can be
    traversed in the order of its storage. *)
Theorem C34_exact : forall result operands, Forall proper_access (result :: operands) ->
  exists b, containsTranspose result operands = Some b /\
    (b = false <-> exists order, compatible order (result :: operands)).
Proof. exact containsTranspose_spec. Qed.
Print Assumptions C34_exact.

(** A(i,j) = B(i,k) * C(k,j), all row-major, is fine; A(i,j) = B(i,j) + C(j,i) is not. *)
Example C34_example : Forall proper_access [([1; 2], [0; 1]); ([1; 3], [0; 1]); ([3; 2], [0; 1])] /\
  containsTranspose ([1; 2], [0; 1]) [([1; 3], [0; 1]); ([3; 2], [0; 1])] = Some false /\
  containsTranspose ([1; 2], [0; 1]) [([1; 2], [0; 1]); ([2; 1], [0; 1])] = Some true /\
  containsTranspose ([1; 2], [0; 1]) [([1; 2], [0; 1]); ([2; 1], [1; 0])] = Some false.
Proof.
  split; [|repeat split; reflexivity].
  repeat (apply Forall_cons || apply Forall_nil); (split; [reflexivity|]); simpl; intros m H; lia.
Qed.

(** ** C35: iteration algebra *)
(** The rewritten term describes the same points. *)
Theorem C35_same_points : forall (R : Type) (m : R -> Prop), (forall r, m r \/ ~ m r) ->
  forall a, inside m (applyDemorgan a) <-> inside m a.
Proof. intros R m D a. exact (proj1 (demorgan_inside m D a)). Qed.
Print Assumptions C35_same_points.

(** Only regions are complemented in it, it has the same regions in the same order,
    and rewriting it again changes nothing. *)
Theorem C35_normal_form : forall (R : Type) (a : alg R),
  complements_at_regions (applyDemorgan a) /\ regions (applyDemorgan a) = regions a /\
  applyDemorgan (applyDemorgan a) = applyDemorgan a.
Proof.
  intros R a. pose proof (proj1 (demorgan_nnf a)) as N.
  exact (conj N (conj (proj1 (demorgan_regions a)) (nnf_fixed _ N))).
Qed.
Print Assumptions C35_normal_form.

(** Comparing terms decides equality when comparing regions does. *)
Theorem C35_equality : forall (R : Type) (req : R -> R -> bool), (forall r s, req r s = true <-> r = s) ->
  forall a b, algEqual req a b = true <-> a = b.
Proof. intros R. exact (@algEqual_spec R). Qed.
Print Assumptions C35_equality.

(** Replacing operands replaces exactly the regions: the new term describes the
    points the old one describes with the regions exchanged. *)
Theorem C35_replace : forall (R : Type) (m : R -> Prop) (subst : R -> option R) a,
  (inside m (replaceAlgIndexExprs subst a) <->
   inside (fun r => m (match subst r with Some r' => r' | None => r end)) a) /\
  regions (replaceAlgIndexExprs subst a) = map (fun r => match subst r with Some r' => r' | None => r end) (regions a).
Proof.
  intros R m subst. induction a as [r|a [IH IH']|a [IHa IHa'] b [IHb IHb']|a [IHa IHa'] b [IHb IHb']]; cbn.
  - destruct (subst r); cbn; tauto.
  - rewrite IH, IH'. tauto.
  - rewrite IHa, IHb, IHa', IHb', map_app. tauto.
  - rewrite IHa, IHb, IHa', IHb', map_app. tauto.
Qed.
Print Assumptions C35_replace.

Example C35_example :
  applyDemorgan (Complement (Intersect (Region 1) (Complement (Union (Region 2) (Region 3))))) =
  Union (Complement (Region 1)) (Union (Region 2) (Region 3)).
Proof. reflexivity. Qed.
