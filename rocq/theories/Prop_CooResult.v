(** C67: a result stored in coordinate format, or with compressed levels below
    the coordinates, holds exactly the components the kernel visited. *)

From Coq Require Import List Arith Bool Lia.
From Verif Require Import CooResult CooResultSpec CooResultProofs.
Import ListNotations.

(** Assembling and computing at once; slices in which nothing was visited are
    not stored. *)
Theorem C67_fused : forall V (zero : V) K alloc t,
  coo_then_compressed K -> 0 < alloc ->
  exists st, kernel zero K alloc true t = Ok st /\
             components K st (vals st) = Some (visited zero (length K) t) /\
             no_empty K 0 st 0.
Proof.
  intros V zero K alloc t HK Ha.
  destruct (kernel_ok zero true K alloc t HK Ha) as (st & E & S1 & _ & S4 & S3).
  exists st. split; [exact E|]. split; [|exact S4]. unfold components. rewrite S1.
  apply all_some_values. intros i x Hi. now apply S3.
Qed.
Print Assumptions C67_fused.

(** Assembling first, and computing later, any number of times, with operands
    that visit the same coordinates. *)
Theorem C67_assemble_then_compute : forall V (zero : V) K alloc t,
  coo_then_compressed K -> 0 < alloc ->
  exists st, kernel zero K alloc false t = Ok st /\
    forall t', map fst (visited zero (length K) t') = map fst (visited zero (length K) t) ->
    exists vs, compute_kernel zero K st t' = Ok vs /\
               components K st vs = Some (visited zero (length K) t').
Proof.
  intros V zero K alloc t HK Ha.
  destruct (kernel_ok zero false K alloc t HK Ha) as (st & E & S1 & S2 & _ & _).
  exists st. split; [exact E|]. intros t' Ht.
  assert (HL : length (visited zero (length K) t') = length (visited zero (length K) t)).
  { rewrite <- (map_length fst), Ht. apply map_length. }
  unfold compute_kernel. cbv zeta in S2. rewrite S2.
  destruct (compute_level_ok zero (length K) t' 0
              (repeat None (length (visited zero (length K) t)))) as (a & E2 & _ & _ & N).
  { rewrite repeat_length. lia. }
  unfold arr in *. rewrite E2. cbn [bind snd]. exists a. split; [reflexivity|].
  unfold components. rewrite S1, <- Ht, <- HL.
  apply all_some_values. exact N.
Qed.
Print Assumptions C67_assemble_then_compute.

(** Every coordinate format is among the formats above. *)
Theorem C67_coo : forall n unique, coo_then_compressed (coo n unique).
Proof.
  intros [|n] unique; cbn [coo].
  - exists unique, [], []. split; [reflexivity|exact I].
  - exists false, (repeat false n ++ [unique]), []. split.
    + rewrite map_app. cbn [map]. rewrite app_nil_r. do 2 f_equal.
      induction n as [|n IH]; [reflexivity|]. cbn [repeat map]. now rewrite IH.
    + assert (H : forall x, In x (removelast (repeat false n ++ [unique])) -> x = false).
      { intros x Hx. rewrite removelast_last in Hx. now apply repeat_spec in Hx. }
      destruct n; cbn [repeat app] in *; auto.
Qed.
Print Assumptions C67_coo.

(** Which formats of compressed and singleton levels can be results: a
    singleton level below a unique level is refused; a compressed level above
    a singleton level and below another level makes a kernel that is not C;
    all others hold what was visited. *)
Theorem C67_every_format : forall V (zero : V) u ks alloc t, 0 < alloc ->
  let K := Comp u :: ks in
  let refused := exists l k b, nth_error K l = Some k /\ is_unique k = true /\
                               nth_error K (S l) = Some (Sing b) in
  let undeclared := exists l b c, nth_error K (S l) = Some (Comp b) /\
                                  nth_error K (S (S l)) = Some (Sing c) in
  (refused /\ forall compute, kernel zero K alloc compute t = Refused) \/
  (~ refused /\ undeclared /\ forall compute, kernel zero K alloc compute t = Undeclared) \/
  (~ refused /\ ~ undeclared /\
   exists st, kernel zero K alloc true t = Ok st /\
              components K st (vals st) = Some (visited zero (length K) t) /\
              no_empty K 0 st 0).
Proof.
  intros V zero u ks alloc t Ha K refused undeclared.
  assert (HR : all_levels K (parent_accepted K) = false <-> refused).
  { split.
    - intros H. unfold all_levels in H.
      assert (HX : existsb (fun l => negb (parent_accepted K l)) (seq 0 (length K)) = true).
      { destruct (existsb _ _) eqn:E; auto. exfalso.
        enough (forallb (parent_accepted K) (seq 0 (length K)) = true) by congruence.
        apply forallb_forall. intros x Hx. destruct (parent_accepted K x) eqn:Ex; auto.
        enough (existsb (fun l => negb (parent_accepted K l)) (seq 0 (length K)) = true) by congruence.
        apply existsb_exists. exists x. split; auto. now rewrite Ex. }
      apply existsb_exists in HX as (x & _ & Hx). destruct x as [|l]; [discriminate|].
      cbn [parent_accepted] in Hx. unfold branchless_at, unique_at in Hx.
      destruct (nth_error K (S l)) as [[b|b]|] eqn:E1; try discriminate.
      cbn [branchless] in Hx. destruct (nth_error K l) as [k|] eqn:E2; [|discriminate].
      exists l, k, b. split; [auto|]. split; [|auto]. now destruct (is_unique k).
    - intros (l & k & b & H1 & H2 & H3).
      destruct (all_levels K (parent_accepted K)) eqn:E; auto. exfalso.
      unfold all_levels in E. rewrite forallb_forall in E.
      assert (Hl : S l < length K) by (apply nth_error_Some; congruence).
      specialize (E (S l)). rewrite in_seq in E. specialize (E ltac:(lia)).
      cbn [parent_accepted] in E. unfold branchless_at, unique_at in E.
      rewrite H3, H1 in E. cbn in E. rewrite H2 in E. discriminate. }
  assert (HU : all_levels K (guard_declared K) = false <-> undeclared).
  { split.
    - intros H. unfold all_levels in H.
      assert (HX : existsb (fun l => negb (guard_declared K l)) (seq 0 (length K)) = true).
      { destruct (existsb _ _) eqn:E; auto. exfalso.
        enough (forallb (guard_declared K) (seq 0 (length K)) = true) by congruence.
        apply forallb_forall. intros x Hx. destruct (guard_declared K x) eqn:Ex; auto.
        enough (existsb (fun l => negb (guard_declared K l)) (seq 0 (length K)) = true) by congruence.
        apply existsb_exists. exists x. split; auto. now rewrite Ex. }
      apply existsb_exists in HX as (l & _ & Hx).
      unfold guard_declared, declared in Hx.
      destruct (branchless_at K (S l)) eqn:E1; [discriminate|].
      destruct (Nat.ltb_spec (S l) (length K)) as [Hlt|]; [|discriminate]. cbn [andb] in Hx.
      unfold branchless_at in E1, Hx.
      destruct (nth_error K (S l)) as [[b|b]|] eqn:E2;
        [|discriminate|apply nth_error_None in E2; lia].
      destruct (nth_error K (S (S l))) as [[c|c]|] eqn:E3; try discriminate.
      exists l, b, c. auto.
    - intros (l & b & c & H1 & H2).
      destruct (all_levels K (guard_declared K)) eqn:E; auto. exfalso.
      unfold all_levels in E. rewrite forallb_forall in E.
      assert (Hl : S l < length K) by (apply nth_error_Some; congruence).
      specialize (E l). rewrite in_seq in E. specialize (E ltac:(lia)).
      unfold guard_declared, declared, branchless_at in E. rewrite H1, H2 in E.
      cbn [branchless negb] in E. rewrite andb_false_r in E.
      destruct (Nat.ltb_spec (S l) (length K)); [discriminate|lia]. }
  destruct (all_levels K (parent_accepted K)) eqn:EP.
  - assert (NR : ~ refused) by (intros H; apply HR in H; discriminate). right.
    destruct (all_levels K (guard_declared K)) eqn:EG.
    + assert (NU : ~ undeclared) by (intros H; apply HU in H; discriminate).
      right. split; [auto|]. split; [auto|]. apply C67_fused; auto.
      apply classify.
      * intros l. destruct (Nat.lt_ge_cases l (length K)) as [Hlt|Hge].
        -- unfold all_levels in EP. rewrite forallb_forall in EP. apply EP. apply in_seq. lia.
        -- destruct l as [|l]; [reflexivity|]. cbn [parent_accepted]. fold K.
           assert (branchless_at K (S l) = false) as ->; [|reflexivity].
           unfold branchless_at. now rewrite (proj2 (nth_error_None K (S l))) by lia.
      * intros l Hl Hb. fold K in Hl, Hb |- *.
        unfold all_levels in EG. rewrite forallb_forall in EG.
        specialize (EG l). rewrite in_seq in EG. specialize (EG ltac:(lia)).
        unfold guard_declared in EG. rewrite Hb in EG.
        destruct (Nat.ltb_spec (S l) (length K)); [|lia].
        unfold declared in EG. apply andb_true_iff in EG as [_ EG]. now apply negb_true_iff in EG.
    + left. split; [auto|]. split; [now apply HU|]. intros compute. unfold kernel. now rewrite EP, EG.
  - left. split; [now apply HR|]. intros compute. unfold kernel. now rewrite EP.
Qed.
Print Assumptions C67_every_format.

(** A coordinate group below a compressed level: every level is declared as it
    should be, and yet no kernel can be made, because the guard against empty
    slices reads a position variable that is not declared. *)
Theorem C67_nested_coo_refuted :
  ~ forall alloc (t : tree nat), 0 < alloc ->
      exists st, kernel 0 [Comp true; Comp false; Sing true] alloc true t = Ok st.
Proof.
  intros H. destruct (H 1 (Node []) ltac:(lia)) as [st E]. discriminate.
Qed.
Print Assumptions C67_nested_coo_refuted.

(** A matrix in coordinate format with arrays that start with one cell, so all
    of them grow; row 1 is visited and empty. *)
Definition example_tree : tree nat :=
  Node [(0, Node [(1, Leaf 5); (3, Leaf 6)]); (1, Node []); (4, Node [(0, Leaf 7); (2, Leaf 8)])].

Example C67_coo_example :
  match kernel 0 (coo 1 true) 1 true example_tree with
  | Ok st => components (coo 1 true) st (vals st)
  | _ => None
  end = Some [([0; 1], 5); ([0; 3], 6); ([4; 0], 7); ([4; 2], 8)].
Proof. vm_compute. reflexivity. Qed.

(** Coordinates with a compressed level below; one slice is empty. *)
Definition example_tree3 : tree nat :=
  Node [(0, Node [(1, Node [(2, Leaf 5); (3, Leaf 6)]); (3, Node [])]);
        (4, Node [(0, Node [(7, Leaf 8)])])].

Example C67_mixed_example :
  let K := [Comp false; Sing false; Comp true] in
  coo_then_compressed K /\
  match kernel 0 K 1 true example_tree3 with
  | Ok st => components K st (vals st) = Some [([0; 1; 2], 5); ([0; 1; 3], 6); ([4; 0; 7], 8)]
  | _ => False
  end.
Proof.
  split; [|vm_compute; reflexivity]. exists false, [false], [true]. split; [reflexivity|].
  split; [reflexivity|]. intros x [].
Qed.
