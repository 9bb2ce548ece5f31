(** Properties C13 and C15: the galloping strategy and levels with duplicates. *)
From Coq Require Import ZArith List Lia Bool Sorting.Sorted Ring InitialRing.
From Verif Require Import Outcome CSearch CSearchProofs Eval MergeLoop MergeSpec MergeProofs GallopProofs UnionProofs CooProofs.
Import ListNotations.
Local Open Scope Z_scope.

Definition Zops : ring_ops Z := mkOps Z 0 1 Z.add Z.mul Z.sub Z.opp.
Lemma Zring : is_ring Zops. Proof. exact Zth. Qed.

(** C13.  Two or more sorted segments without duplicates, each in an array with
    one more entry that can be read.  Both strategies terminate without leaving
    the arrays and run the body for the same coordinates, in the same order and
    seeing the same: the coordinates, in increasing order, that every segment
    stores, and for each of them what each operand stores there. *)
Theorem C13_same_visits : forall (V : Type) (R : ring_ops V) (ks : list (@cursor V)),
  is_ring R -> (1 < length ks)%nat ->
  (forall k, In k ks -> stored_segment k /\ gallops k) ->
  exists n cs k1 k2,
    (forall fuel, (n < fuel)%nat ->
       merge_point R fuel TwoFinger all_seen ks = Val (visits_of R all_seen ks cs, k1) /\
       merge_point R fuel Gallop all_seen ks = Val (visits_of R all_seen ks cs, k2)) /\
    StronglySorted Z.lt cs /\
    (forall c, In c cs <-> forall k, In k ks -> has c k).
Proof.
  intros V R ks RT N S. destruct (same_visits R RT ks N S) as (cs & k1 & k2 & H).
  exists (dist ks), cs, k1, k2. exact H.
Qed.
Print Assumptions C13_same_visits.

(** Finding: packed arrays have no further entry.  If the last coordinates are
    equal, taco_gallop is called with a position one past the array and reads it. *)
Theorem C13_past_the_end_refuted :
  exists ks : list (@cursor Z), (1 < length ks)%nat /\
    (forall k, In k ks -> stored_segment k /\ it_unique (fst k) = true /\ it_bound (fst k) = it_end (fst k)) /\
    forall fuel,
      merge_point Zops (3 + fuel) Gallop all_seen ks = Oob /\
      exists r, merge_point Zops (3 + fuel) TwoFinger all_seen ks = Val r.
Proof.
  exists [(It true true [1; 5] [10; 20] 2 2, 0); (It true true [5] [7] 1 1, 0)].
  split; [cbn; lia|]. split.
  - intros k [<-|[<-|[]]]; repeat split; cbn; try lia; intros i j; intros;
      [assert (i = 0 /\ j = 1) as (-> & ->) by lia; vm_compute; reflexivity|lia].
  - intros fuel. split; [vm_compute; reflexivity|]. eexists. vm_compute. reflexivity.
Qed.
Print Assumptions C13_past_the_end_refuted.

(** If nothing changes, the loop goes on for ever. *)
Lemma stuck : forall (ks ks1 : list (@cursor Z)) st, none_exhausted ks = true -> none_exhausted ks1 = true ->
  iteration Zops st all_seen ks = Val ([], ks1) -> iteration Zops st all_seen ks1 = Val ([], ks1) ->
  forall fuel, merge_point Zops fuel st all_seen ks = NoFuel.
Proof.
  intros ks ks1 st X X1 E E1.
  assert (H : forall fuel, merge_point Zops fuel st all_seen ks1 = NoFuel).
  { induction fuel as [|fuel IH]; [reflexivity|]. cbn [merge_point]. rewrite X1, E1. cbn [obind]. rewrite IH. reflexivity. }
  intros [|fuel]; [reflexivity|]. cbn [merge_point]. rewrite X, E. cbn [obind]. rewrite H. reflexivity.
Qed.

(** Finding: a singleton level below a level with duplicates (the second level of
    a COO matrix) gives taco_gallop the end of its parent's position rather than
    that of its parent's run.  The kernel does not terminate although the
    two-finger kernel does; mergeby accepts the level. *)
Theorem C13_singleton_refuted :
  exists ks : list (@cursor Z), (1 < length ks)%nat /\
    (forall k, In k ks -> stored_segment k /\ it_unique (fst k) = true /\
       it_end (fst k) < Z.of_nat (length (it_crd (fst k)))) /\
    it_bound (fst (nth 0 ks nowhere)) = snd (nth 0 ks nowhere) + 1 /\
    (forall fuel, merge_point Zops fuel Gallop all_seen ks = NoFuel) /\
    exists r, forall fuel, merge_point Zops (6 + fuel) TwoFinger all_seen ks = Val r.
Proof.
  exists [(It true true [1; 2; 3; 0] [4; 5; 6; 0] 3 1, 0); (It true true [3; 0] [7; 0] 1 1, 0)].
  split; [cbn; lia|]. split.
  - intros k [<-|[<-|[]]]; repeat split; cbn; try lia; intros i j; intros; [|lia].
    assert ((i = 0 \/ i = 1) /\ (j = 1 \/ j = 2)) as ([-> | ->] & [-> | ->]) by lia; try lia; vm_compute; reflexivity.
  - split; [reflexivity|]. split.
    + apply (stuck _ [(It true true [1; 2; 3; 0] [4; 5; 6; 0] 3 1, 1); (It true true [3; 0] [7; 0] 1 1, 0)]); vm_compute; reflexivity.
    + eexists. intros fuel. vm_compute. reflexivity.
Qed.
Print Assumptions C13_singleton_refuted.

(** Finding: so does a level with duplicates, whose loop variable is set to the
    end of the run of the greatest coordinate, which is where it already is. *)
Theorem C13_duplicates_refuted :
  exists ks : list (@cursor Z), (1 < length ks)%nat /\
    (forall k, In k ks -> stored_segment k /\ it_bound (fst k) = it_end (fst k) /\
       it_end (fst k) < Z.of_nat (length (it_crd (fst k)))) /\
    (forall fuel, merge_point Zops fuel Gallop all_seen ks = NoFuel) /\
    exists r, forall fuel, merge_point Zops (6 + fuel) TwoFinger all_seen ks = Val r.
Proof.
  exists [(It false false [1; 1; 3; 0] [] 3 3, 0); (It true true [3; 0] [7; 0] 1 1, 0)].
  split; [cbn; lia|]. split.
  - intros k [<-|[<-|[]]]; repeat split; cbn; try lia; try discriminate; intros i j; intros; [|lia].
    assert ((i = 0 \/ i = 1) /\ (j = 1 \/ j = 2)) as ([-> | ->] & [-> | ->]) by lia; try lia; vm_compute; congruence.
  - split.
    + apply (stuck _ [(It false false [1; 1; 3; 0] [] 3 3, 0); (It true true [3; 0] [7; 0] 1 1, 0)]); vm_compute; reflexivity.
    + eexists. intros fuel. vm_compute. reflexivity.
Qed.
Print Assumptions C13_duplicates_refuted.

(** C15, one loop.  Any number of sorted segments, with or without duplicates.
    The loop terminates without leaving the arrays and makes one visit for each
    distinct coordinate up to the first segment's end, in increasing order; a
    visit sees, for every operand that stores the coordinate, the sum of all
    values it stores there (or the range of all positions that store it), and
    nothing for the others.  [cases] is whatever condition the body is under. *)
Theorem C15_one_loop : forall (V : Type) (R : ring_ops V) cases (ks : list (@cursor V)),
  is_ring R -> ks <> [] -> (forall k, In k ks -> stored_segment k) ->
  exists n cs ks',
    (forall fuel, (n < fuel)%nat ->
       merge_point R fuel TwoFinger cases ks = Val (visits_of R cases ks cs, ks')) /\
    StronglySorted Z.lt cs /\
    (forall c, In c cs <-> (exists k, In k ks /\ has c k) /\
                           (forall k, In k ks -> exists c', c <= c' /\ has c' k)).
Proof.
  intros V R cases ks RT NE S.
  destruct (merge_ok R RT (dist ks) cases ks (le_n _) NE S) as (cs & ks' & E & SO & CH & _).
  exists (dist ks), cs, ks'. auto.
Qed.
Print Assumptions C15_one_loop.

(** C15, all loops of a disjunction (a sum): every coordinate that any operand
    stores is visited once, in increasing order, and the visit sees all operands
    that store it. *)
Theorem C15_disjunction : forall (V : Type) (R : ring_ops V) pts (ks : list (@cursor V)),
  is_ring R -> disjunction (length ks) pts -> (forall k, In k ks -> stored_segment k) ->
  exists n vs,
    (forall fuel, (n < fuel)%nat -> merge_lattice R fuel pts ks = Val vs) /\
    StronglySorted Z.lt (map (fun v => fst (snd v)) vs) /\
    (forall c, In c (map (fun v => fst (snd v)) vs) <-> exists k, In k ks /\ has c k) /\
    (forall pt c l, In (pt, (c, l)) vs ->
       l = map (at_coord R c) (pick ks pt) /\
       forall k, (k < length ks)%nat -> ~ In k pt -> ~ has c (nth k ks nowhere)).
Proof.
  intros V R pts ks RT DJ S.
  destruct (lattice_ok R RT ks S pts [] ks []) as (n & vs & E & SO & AL & VS); auto.
  - constructor.
  - intros k K. apply passed_refl; [apply S, nth_In, K|]. intros ? ? ? [].
  - intros q [].
  - exists n, vs. split; [auto|]. split; [auto|]. split.
    + intros c. split.
      * intros I. apply in_map_iff in I. destruct I as ((pt, (c', l)) & <- & I). cbn [fst snd].
        destruct (VS pt c' l I) as ((k & Ik & H) & _ & Ip & _). exists (nth k ks nowhere). split; auto.
        apply nth_In. destruct DJ as (D & _). destruct (D pt Ip) as (_ & _ & L). auto.
      * intros (k & I & H). apply In_nth with (d := nowhere) in I. destruct I as (j & J & <-). apply (AL c j J H).
    + intros pt c l I. destruct (VS pt c l I) as (_ & A & _ & B). auto.
Qed.
Print Assumptions C15_disjunction.

(** C15, coordinate tensors of any order: iterating over one with duplicates
    visits every stored coordinate tuple once, in lexicographic order, with the
    sum of all values stored for it. *)
Theorem C15_coordinate_tensor : forall (V : Type) (R : ring_ops V) uniq crds (vals : list V) lo hi,
  is_ring R -> crds <> [] -> 0 <= lo <= hi ->
  (forall crd, In crd crds -> hi <= Z.of_nat (length crd)) -> hi <= Z.of_nat (length vals) ->
  lex_sorted uniq crds lo hi ->
  exists n vs,
    (forall fuel, (n < fuel)%nat -> coo_walk R fuel uniq crds vals lo hi = Val vs) /\
    StronglySorted lexlt (map fst vs) /\
    (forall t, In t (map fst vs) <-> exists i, lo <= i < hi /\ tuple crds i = t) /\
    (forall t v, In (t, v) vs ->
       v = total R vals (filter (fun i => tuple_eqb (tuple crds i) t) (positions lo hi))).
Proof.
  intros V R uniq crds vals lo hi RT NE B LC LV SO. exact (walk_ok R RT uniq crds vals NE lo hi B LC LV SO).
Qed.
Print Assumptions C15_coordinate_tensor.

(** Cases that meet the hypotheses. *)
Example C13_example :
  let ks := [(It true true [1; 4; 6; 9; 12; 99] [1; 2; 3; 4; 5; 0] 5 5, 0);
             (It true true [0; 4; 9; 10; 11; 12; 99] [1; 2; 3; 4; 5; 6; 0] 6 6, 0)] in
  (forall k, In k ks -> stored_segment k /\ gallops k) /\
  option_map (map fst) (match merge_point Zops 20 Gallop all_seen ks with Val r => Some (fst r) | _ => None end)
    = Some [4; 9; 12].
Proof.
  split; [|vm_compute; reflexivity]. intros k [<-|[<-|[]]]; repeat split; cbn; try lia; intros i j; intros.
  - assert (i = 0 \/ i = 1 \/ i = 2 \/ i = 3) as [->|[->|[->| ->]]] by lia;
    assert (j = 1 \/ j = 2 \/ j = 3 \/ j = 4) as [->|[->|[->| ->]]] by lia; try lia; vm_compute; reflexivity.
  - assert (i = 0 \/ i = 1 \/ i = 2 \/ i = 3 \/ i = 4) as [->|[->|[->|[->| ->]]]] by lia;
    assert (j = 1 \/ j = 2 \/ j = 3 \/ j = 4 \/ j = 5) as [->|[->|[->|[->| ->]]]] by lia; try lia; vm_compute; reflexivity.
Qed.

Example C15_example :
  let ks := [(It false true [1; 1; 4; 4; 4] [1; 2; 3; 4; 5] 5 5, 0); (It false true [1; 2; 2] [10; 20; 30] 3 3, 0)] in
  let pts := [[0; 1]; [0]; [1]]%nat in
  (forall k, In k ks -> stored_segment k) /\ disjunction (length ks) pts /\
  merge_lattice Zops 20 pts ks =
    Val [([0; 1]%nat, (1, [Some (Value 3); Some (Value 10)])); ([0; 1]%nat, (2, [None; Some (Value 50)]));
         ([0]%nat, (4, [Some (Value 12)]))].
Proof.
  split; [|split; [|vm_compute; reflexivity]].
  - intros k [<-|[<-|[]]]; repeat split; cbn; try lia; intros i j; intros.
    + assert (i = 0 \/ i = 1 \/ i = 2 \/ i = 3) as [->|[->|[->| ->]]] by lia;
      assert (j = 1 \/ j = 2 \/ j = 3 \/ j = 4) as [->|[->|[->| ->]]] by lia; try lia; vm_compute; congruence.
    + assert (i = 0 \/ i = 1) as [->| ->] by lia; assert (j = 1 \/ j = 2) as [->| ->] by lia; try lia; vm_compute; congruence.
  - repeat split.
    + destruct H as [<-|[<-|[<-|[]]]]; discriminate.
    + destruct H as [<-|[<-|[<-|[]]]]; repeat constructor; cbn; lia.
    + intros k. destruct H as [<-|[<-|[<-|[]]]]; cbn; lia.
    + intros k K. cbn in K. assert (k = 0 \/ k = 1)%nat as [->| ->] by lia; cbn; auto.
    + intros before pt after k E K NI. cbn in K. exists [0; 1]%nat.
      assert (KK : (k = 0 \/ k = 1)%nat) by lia.
      destruct before as [|b0 before].
      * cbn in E. injection E as <- _. exfalso. apply NI. cbn. lia.
      * cbn in E. injection E as <- E. split; [left; auto|]. split; [cbn; lia|].
        destruct before as [|b1 [|b2 [|]]]; cbn in E; try discriminate.
        -- injection E as <- _. cbn in *. intros j; lia.
        -- injection E as _ <- _. cbn in *. intros j; lia.
Qed.

Example C15_coordinate_example :
  let crds := [[0; 0; 0; 2; 2]; [1; 1; 3; 0; 0]] in
  lex_sorted false crds 0 5 /\
  coo_walk Zops 20 false crds [1; 2; 3; 4; 5] 0 5 = Val [([0; 1], 3); ([0; 3], 3); ([2; 0], 9)].
Proof.
  split; [|vm_compute; reflexivity]. intros i j I1 I2 I3.
  assert (i = 0 \/ i = 1 \/ i = 2 \/ i = 3) as [->|[->|[->| ->]]] by lia;
  assert (j = 1 \/ j = 2 \/ j = 3 \/ j = 4) as [->|[->|[->| ->]]] by lia; try lia; cbv; auto; left; cbv; auto.
Qed.
