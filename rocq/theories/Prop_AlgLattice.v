(** C57: functions with an iteration algebra. *)
From Coq Require Import List Arith Bool Lia.
Import ListNotations.
From Verif Require Import Checks ChecksSpec.
From Verif Require Import Storage IndexExpr Lattice AlgLattice AlgLatticeSpec AlgLatticeTop.
Local Open Scope nat_scope.

(** [x] is the algebra of [f(args)], [live] are the arguments that are not
    exhausted, so that [lp] is the loop that runs, and [here] those stored at
    the coordinate.  Whether the loop compares values with zero: *)
Definition compares srt i keep x lp : bool := existsb o_omit (osubLattice (callLattice srt i keep x) lp).

(** The function is computed at coordinates of the iteration space only: for
    every algebra with every argument once and every way to sort. *)
Theorem C57_only_inside : forall srt i keep x args live here lp V (v0 : V) nonzero f cur fullResult v,
  admissible_osort srt -> situation i x args live here ->
  runningLoop live (callLattice srt i keep x) = Some lp -> visits here lp ->
  visit v0 nonzero f here cur fullResult (callLattice srt i keep x) args lp = Computed v ->
  in_space (present nonzero here cur (compares srt i keep x lp)) x.
Proof. intros. eapply top_sound; eauto. Qed.
Print Assumptions C57_only_inside.

(** The compiler does not fail, and no case is left without its guard. *)
Theorem C57_no_failure : forall srt i keep x args live here lp V (v0 : V) nonzero f cur fullResult,
  admissible_osort srt -> situation i x args live here ->
  runningLoop live (callLattice srt i keep x) = Some lp -> visits here lp ->
  let o := visit v0 nonzero f here cur fullResult (callLattice srt i keep x) args lp in
  (exists v, o = Computed v) \/ o = Nothing \/ (o = Background /\ fullResult = true).
Proof. intros. eapply top_outcomes; eauto. Qed.
Print Assumptions C57_no_failure.

(** For clean algebras the function of the values at the coordinate is computed
    exactly at the coordinates of the iteration space. *)
Theorem C57_exactly_inside : forall srt i keep x args live here lp V (v0 : V) nonzero f cur fullResult,
  admissible_osort srt -> situation i x args live here -> clean (applyDemorgan x) = true ->
  (forall v, nonzero v = false -> v = v0) -> f_defs f = [] ->
  runningLoop live (callLattice srt i keep x) = Some lp -> visits here lp ->
  let o := visit v0 nonzero f here cur fullResult (callLattice srt i keep x) args lp in
  let m := present nonzero here cur (compares srt i keep x lp) in
  (in_space m x -> o = Computed (f_default f (map (value v0 here cur) args))) /\
  (~ in_space m x -> o = Nothing \/ (o = Background /\ fullResult = true)).
Proof.
  intros. split; intros IN.
  - eapply top_inside; eauto.
  - eapply top_outside; eauto.
Qed.
Print Assumptions C57_exactly_inside.

(** Nothing is missed: coordinates that the running loop does not visit and
    those left when no loop runs any more are outside of the space. *)
Theorem C57_nothing_missed : forall srt i keep x args live here V (nonzero : V -> bool) cur b,
  admissible_osort srt -> situation i x args live here ->
  match runningLoop live (callLattice srt i keep x) with
  | Some lp => ~ visits here lp -> ~ in_space (present nonzero here cur b) x
  | None => forall m, (forall a, In a (regions x) -> m a = true -> live a = true) -> ~ in_space m x
  end.
Proof.
  intros. destruct (runningLoop live (callLattice srt i keep x)) as [lp|] eqn:R.
  - intros NV. eapply top_not_visited; eauto.
  - eapply top_no_loop; eauto.
Qed.
Print Assumptions C57_nothing_missed.

(** While no argument is exhausted the definition for the arguments that are
    present is used, where there is one. *)
Theorem C57_definitions : forall srt i keep x args live here lp V (v0 : V) nonzero f cur fullResult,
  admissible_osort srt -> situation i x args live here -> clean (applyDemorgan x) = true ->
  (forall v, nonzero v = false -> v = v0) ->
  (forall a, In a (regions x) -> live a = true) ->
  runningLoop live (callLattice srt i keep x) = Some lp -> visits here lp ->
  let m := present nonzero here cur (compares srt i keep x lp) in
  in_space m x ->
  visit v0 nonzero f here cur fullResult (callLattice srt i keep x) args lp = Computed (applied v0 here cur f m args).
Proof. intros. eapply top_definitions; eauto. Qed.
Print Assumptions C57_definitions.

(** Values are compared with zero only for algebras with complements, and then
    they are as long as no argument is exhausted. *)
Theorem C57_when_values_are_compared : forall srt i keep x args live here lp,
  admissible_osort srt -> situation i x args live here ->
  runningLoop live (callLattice srt i keep x) = Some lp ->
  (compares srt i keep x lp = true -> has_complement (applyDemorgan x) = true) /\
  (NoDup (regions x) -> (forall a, In a (regions x) -> live a = true) -> has_complement (applyDemorgan x) = true ->
   compares srt i keep x lp = true).
Proof. intros. eapply top_compares; eauto. Qed.
Print Assumptions C57_when_values_are_compared.

(** A function that is given neither an algebra nor properties is computed at
    every coordinate of the dimension, whatever is stored there. *)
Theorem C57_default : forall srt i keep a l live here V (v0 : V) nonzero f cur fullResult,
  admissible_osort srt -> NoDup (a :: l) ->
  (forall b, In b (a :: l) -> innermost i b /\ (dense_at i b = true -> here b = true) /\ (here b = true -> live b = true)) ->
  (forall v, nonzero v = false -> v = v0) -> f_defs f = [] ->
  let x := constructDefaultAlgebra a l in
  exists lp, runningLoop live (callLattice srt i keep x) = Some lp /\ visits here lp /\
    visit v0 nonzero f here cur fullResult (callLattice srt i keep x) (a :: l) lp =
    Computed (f_default f (map (value v0 here cur) (a :: l))).
Proof.
  intros srt i keep a l live here V v0 nonzero f cur fullResult SRT ND H Z NODEF x.
  assert (SIT : situation i x (a :: l) live here).
  { constructor; try (intros b Hb; apply default_regions, H in Hb; tauto).
    - right. exists a, l. auto.
    - intros b Hb. apply default_regions. auto. }
  assert (NM := C57_nothing_missed srt i keep x (a :: l) live here V nonzero cur false SRT SIT).
  destruct (runningLoop live (callLattice srt i keep x)) as [lp|] eqn:RUN.
  - exists lp. assert (VIS : visits here lp).
    { unfold visits. destruct (existsb (fun it => match it with Dim => true | Lev a _ => here a end) (p_iters (o_pt lp))) eqn:E.
      - apply existsb_exists in E. destruct E as (it & H1 & H2). exists it. split; auto. destruct it; auto.
      - destruct NM; [|apply default_inside]. intros (it & H1 & H2).
        rewrite (proj2 (existsb_exists _ _)) in E; [discriminate|]. exists it. split; auto. destruct it; auto. }
    split; auto. split; auto.
    destruct (C57_exactly_inside srt i keep x (a :: l) live here lp V v0 nonzero f cur fullResult
                SRT SIT (default_clean a l) Z NODEF RUN VIS) as [IN _]. apply IN, default_inside.
  - exfalso. apply (NM (fun _ => false)); [discriminate | apply default_inside].
Qed.
Print Assumptions C57_default.

(* ------------------------------------------------------------ examples *)
Definition va := Acc 0 [(0, KComp)].
Definition vb := Acc 1 [(0, KComp)].
Definition vc := Acc 2 [(0, KComp)].
Definition vd := Acc 3 [(0, KDense)].
Definition nz (v : nat) : bool := negb (v =? 0).
Definition cur1 (a : access) : nat := 10 + a_tensor a.
Definition all_live (a : access) : bool := true.
Definition among (l : list access) (a : access) : bool := existsb (access_eqb a) l.

(** [a xor b], written with complements that are not at the arguments. *)
Definition xor : alg access :=
  Intersect (Union (Region va) (Region vb)) (Complement (Intersect (Region va) (Region vb))).
Definition sum_f : @func nat := Func (fold_right plus 1) [].
(** [a & ~b] with a dense [b]; [~(a & b)]. *)
Definition andnot : alg access := Intersect (Region va) (Complement (Region vd)).
Definition nand : alg access := Complement (Intersect (Region va) (Region vb)).

Example C57_situation : situation 0 andnot [va; vd] all_live (among [va; vd]) /\
  clean (applyDemorgan andnot) = true /\ clean (applyDemorgan nand) = true /\
  (forall v, nz v = false -> v = 0) /\ admissible_osort oisort.
Proof.
  split; [|split; [|split; [|split]]]; auto using oisort_admissible.
  - constructor; simpl.
    + left. repeat constructor; simpl; intuition discriminate.
    + apply incl_refl.
    + intros a [<-|[<-|[]]]; exists 0; auto.
    + intros a [<-|[<-|[]]]; auto; discriminate.
    + auto.
  - intros v H. unfold nz in H. apply negb_false_iff, Nat.eqb_eq in H. auto.
Qed.
Example C57_runs : exists lp,
  runningLoop all_live (callLattice oisort 0 false andnot) = Some lp /\ visits (among [va; vd]) lp /\
  visit 0 nz sum_f (among [va; vd]) cur1 false (callLattice oisort 0 false andnot) [va; vd] lp = Nothing /\
  visit 0 nz sum_f (among [va; vd]) (fun a => if access_eqb a vd then 0 else 10) false
        (callLattice oisort 0 false andnot) [va; vd] lp = Computed 11.
Proof.
  eexists. split; [|split; [|split]].
  - vm_compute. reflexivity.
  - exists (Lev va 0). split; [vm_compute; auto|reflexivity].
  - vm_compute. reflexivity.
  - vm_compute. reflexivity.
Qed.

(** ... and of a function of a compressed and a dense argument without algebra. *)
Example C57_default_situation :
  NoDup [va; vd] /\
  (forall b, In b [va; vd] -> innermost 0 b /\ (dense_at 0 b = true -> among [vd] b = true) /\ (among [vd] b = true -> all_live b = true)) /\
  exists lp, runningLoop all_live (callLattice oisort 0 false (constructDefaultAlgebra va [vd])) = Some lp /\
    visit 0 nz sum_f (among [vd]) cur1 false (callLattice oisort 0 false (constructDefaultAlgebra va [vd])) [va; vd] lp = Computed 14.
Proof.
  split; [repeat constructor; simpl; intuition discriminate|]. split.
  - intros b [<-|[<-|[]]]; (split; [exists 0; auto|]); split; auto; discriminate.
  - eexists. split; vm_compute; reflexivity.
Qed.

(** [a xor b] has its arguments twice and is not covered by the theorems above.
    It is computed correctly, with a stable sort, in all loops. *)
Theorem C57_xor : forall live here lp V (v0 : V) nonzero f cur,
  (forall a, here a = true -> live a = true) -> (forall v, nonzero v = false -> v = v0) -> f_defs f = [] ->
  runningLoop live (callLattice oisort 0 false xor) = Some lp -> visits here lp ->
  let o := visit v0 nonzero f here cur false (callLattice oisort 0 false xor) [va; vb] lp in
  let m := present nonzero here cur (compares oisort 0 false xor lp) in
  (in_space m xor -> o = Computed (f_default f (map (value v0 here cur) [va; vb]))) /\
  (~ in_space m xor -> o = Nothing).
Proof.
  intros live here lp V v0 nonzero f cur LV ZERO NODEF RUN VIS.
  set (p1 := OPt (Pt [Lev va 0; Lev vb 0] []) true). set (p2 := OPt (Pt [Lev va 0] []) false).
  set (p3 := OPt (Pt [Lev vb 0] []) false).
  assert (CL : callLattice oisort 0 false xor = [p1; p2; p3]) by (vm_compute; reflexivity).
  assert (R : runningLoop live [p1; p2; p3] =
              if live va then if live vb then Some p1 else Some p2 else if live vb then Some p3 else None).
  { unfold runningLoop. replace (ogetLoopLattice [p1; p2; p3]) with [p1; p2; p3] by (vm_compute; reflexivity).
    simpl. destruct (live va), (live vb); reflexivity. }
  assert (S1 : osubLattice [p1; p2; p3] p1 = [p1; p2; p3]) by (vm_compute; reflexivity).
  assert (S2 : osubLattice [p1; p2; p3] p2 = [p2]) by (vm_compute; reflexivity).
  assert (S3 : osubLattice [p1; p2; p3] p3 = [p3]) by (vm_compute; reflexivity).
  unfold compares. rewrite CL in *. rewrite R in RUN. clear R.
  assert (LA := LV va). assert (LB := LV vb). unfold in_space, value, present.
  destruct f as [g defs]. simpl in NODEF. subst defs.
  destruct VIS as (it & H1 & H2).
  destruct (live va), (live vb); inversion RUN; subst lp; clear RUN;
    [rewrite S1|rewrite S2|rewrite S3]; cbn [existsb o_omit p1 p2 p3 orb inside xor f_default map].
  - assert (W : visit v0 nonzero (Func g []) here cur false [p1; p2; p3] [va; vb] p1 =
       if here va && nonzero (cur va) && (negb (here vb && nonzero (cur vb))) then Computed (g [cur va; v0])
       else if here vb && nonzero (cur vb) && negb (here va && nonzero (cur va)) then Computed (g [v0; cur vb])
       else Nothing).
    { destruct (here va) eqn:A, (nonzero (cur va)) eqn:B, (here vb) eqn:C, (nonzero (cur vb)) eqn:D; vm_compute;
        vm_compute in A, B, C, D; rewrite ?A, ?B, ?C, ?D; reflexivity. }
    rewrite W. clear W. destruct (here va), (here vb), (nonzero (cur va)) eqn:B, (nonzero (cur vb)) eqn:D; simpl;
      split; intros X; try tauto; try reflexivity;
      try (rewrite (ZERO _ B)); try (rewrite (ZERO _ D)); try reflexivity; exfalso; intuition congruence.
  - assert (here vb = false) as HB by (destruct (here vb); auto; discriminate LB; auto).
    assert (here va = true) as HA by (destruct H1 as [<-|[]]; auto).
    assert (W : visit v0 nonzero (Func g []) here cur false [p1; p2; p3] [va; vb] p2 = Computed (g [cur va; v0]))
      by (vm_compute; reflexivity).
    rewrite HA, HB, W. split; auto. intros X. exfalso. apply X. simpl. split; auto. intros []; discriminate.
  - assert (here va = false) as HB by (destruct (here va); auto; discriminate LA; auto).
    assert (here vb = true) as HA by (destruct H1 as [<-|[]]; auto).
    assert (W : visit v0 nonzero (Func g []) here cur false [p1; p2; p3] [va; vb] p3 = Computed (g [v0; cur vb]))
      by (vm_compute; reflexivity).
    rewrite HA, HB, W. split; auto. intros X. exfalso. apply X. simpl. split; auto. intros []; discriminate.
Qed.
Print Assumptions C57_xor.

(** Algebras that are not clean: at coordinates where [a] and [c] are stored,
    [a | (b & ~c)] computes nothing. *)
Definition unclean : alg access := Union (Region va) (Intersect (Region vb) (Complement (Region vc))).
Theorem C57_unclean_refuted : exists lp,
  situation 0 unclean [va; vb; vc] all_live (among [va; vc]) /\
  clean (applyDemorgan unclean) = false /\
  runningLoop all_live (callLattice oisort 0 false unclean) = Some lp /\ visits (among [va; vc]) lp /\
  in_space (present nz (among [va; vc]) cur1 true) unclean /\
  visit 0 nz sum_f (among [va; vc]) cur1 false (callLattice oisort 0 false unclean) [va; vb; vc] lp = Nothing.
Proof.
  eexists. split; [|split; [|split; [|split; [|split]]]].
  - constructor; simpl.
    + left. repeat constructor; simpl; intuition discriminate.
    + apply incl_refl.
    + intros a [<-|[<-|[<-|[]]]]; exists 0; auto.
    + intros a [<-|[<-|[<-|[]]]]; auto; discriminate.
    + auto.
  - reflexivity.
  - vm_compute. reflexivity.
  - exists (Lev va 0). split; [vm_compute; auto|reflexivity].
  - left. reflexivity.
  - vm_compute. reflexivity.
Qed.
Print Assumptions C57_unclean_refuted.

(** ... and [a | (b & c)] calls the function with zero for an argument that is
    stored. *)
Definition unclean2 : alg access := Union (Region va) (Intersect (Region vb) (Region vc)).
Theorem C57_unclean_value_refuted : exists lp,
  runningLoop all_live (callLattice oisort 0 false unclean2) = Some lp /\ visits (among [va; vb]) lp /\
  map (value 0 (among [va; vb]) cur1) [va; vb; vc] = [10; 11; 0] /\
  visit 0 nz (Func (fun l => nth 1 l 0) []) (among [va; vb]) cur1 false (callLattice oisort 0 false unclean2) [va; vb; vc] lp
  = Computed 0.
Proof.
  eexists. split; [|split; [|split]].
  - vm_compute. reflexivity.
  - exists (Lev va 0). split; [vm_compute; auto|reflexivity].
  - reflexivity.
  - vm_compute. reflexivity.
Qed.
Print Assumptions C57_unclean_value_refuted.

(** An argument that occurs twice: [(~a | (b & a)) & b] is [b], but at
    coordinates where only [b] is stored nothing is computed. *)
Definition twice : alg access :=
  Intersect (Union (Complement (Region va)) (Intersect (Region vb) (Region va))) (Region vb).
Theorem C57_repeated_argument_refuted : exists lp,
  runningLoop all_live (callLattice oisort 0 false twice) = Some lp /\ visits (among [vb]) lp /\
  in_space (present nz (among [vb]) cur1 true) twice /\
  visit 0 nz sum_f (among [vb]) cur1 false (callLattice oisort 0 false twice) [va; vb] lp = Nothing.
Proof.
  eexists. split; [|split; [|split]].
  - vm_compute. reflexivity.
  - exists (Lev vb 0). split; [vm_compute; auto|reflexivity].
  - simpl. split; [left; intros X; discriminate | reflexivity].
  - vm_compute. reflexivity.
Qed.
Print Assumptions C57_repeated_argument_refuted.

(** A zero that is stored explicitly counts as absent as long as [b] is not
    exhausted, and as present afterwards: the same values give different
    results at two coordinates. *)
Definition andnot2 : alg access := Intersect (Region va) (Complement (Region vb)).
Theorem C57_stored_zero_refuted : exists lp lp',
  runningLoop all_live (callLattice oisort 0 false andnot2) = Some lp /\ visits (among [va]) lp /\
  runningLoop (among [va]) (callLattice oisort 0 false andnot2) = Some lp' /\ visits (among [va]) lp' /\
  visit 0 nz sum_f (among [va]) (fun _ => 0) false (callLattice oisort 0 false andnot2) [va; vb] lp = Nothing /\
  visit 0 nz sum_f (among [va]) (fun _ => 0) false (callLattice oisort 0 false andnot2) [va; vb] lp' = Computed 1.
Proof.
  eexists. eexists. split; [|split; [|split; [|split; [|split]]]].
  - vm_compute. reflexivity.
  - exists (Lev va 0). split; [vm_compute; auto|reflexivity].
  - vm_compute. reflexivity.
  - exists (Lev va 0). split; [vm_compute; auto|reflexivity].
  - vm_compute. reflexivity.
  - vm_compute. reflexivity.
Qed.
Print Assumptions C57_stored_zero_refuted.

(** Once an argument is exhausted the definition for the arguments that are
    present may not be the one that is used: [a | b | c] with a definition for
    where only [a] is present; [c] is exhausted. *)
Definition three : alg access := Union (Union (Region va) (Region vb)) (Region vc).
Definition only_a : @func nat := Func (fold_right plus 1) [([0], fun l => 100)].
Theorem C57_definitions_refuted : exists lp,
  runningLoop (among [va; vb]) (callLattice oisort 0 true three) = Some lp /\ visits (among [va]) lp /\
  applied 0 (among [va]) cur1 only_a (present nz (among [va]) cur1 false) [va; vb; vc] = 100 /\
  visit 0 nz only_a (among [va]) cur1 false (callLattice oisort 0 true three) [va; vb; vc] lp = Computed 11.
Proof.
  eexists. split; [|split; [|split]].
  - vm_compute. reflexivity.
  - exists (Lev va 0). split; [vm_compute; auto|reflexivity].
  - vm_compute. reflexivity.
  - vm_compute. reflexivity.
Qed.
Print Assumptions C57_definitions_refuted.
