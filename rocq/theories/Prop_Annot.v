(** C66: what becomes of the annotations of loops (parallelize, mergeby, unroll) when the
    statement is scheduled further. *)
From Coq Require Import List Arith Bool Lia Permutation.
From Verif Require Import Annot AnnotSpec AnnotProofs.
Import ListNotations.

(** Commands that do not name a variable keep the annotations of all its loops, in any
    sequence and for any statement. *)
Theorem C66_kept : forall e cs s s' v,
  run e cs s = Some s' -> (forall c, In c cs -> ~ names c v) -> annots v s' = annots v s.
Proof. intros e cs s s' v. apply run_kept. Qed.
Print Assumptions C66_kept.

(** mergeby, unroll and parallelize set their own fields on the loops over the variable and
    keep the others. *)
Theorem C66_annotate : forall e s s' v,
  (forall m, exec e (MergeBy v m) s = Some s' ->
     annots v s' = map (fun x => Annot m (unit x) (race x) (factor x)) (annots v s)) /\
  (forall n, exec e (Unroll v n) s = Some s' ->
     annots v s' = map (fun x => Annot (merge x) (unit x) (race x) n) (annots v s)) /\
  (forall u r, exec e (Parallelize v u r) s = Some s' -> unnested v s -> r <> Temporary ->
     annots v s' = map (fun x => Annot (merge x) u r (factor x)) (annots v s)).
Proof.
  intros e s s' v. unfold exec. repeat split.
  - intros m H. destruct (accepts _ _ _); [|discriminate]. injection H as <-. apply on_loops_same.
  - intros m H. destruct (accepts _ _ _); [|discriminate]. injection H as <-. apply on_loops_same.
  - intros u r H U T. destruct (accepts _ _ _); [|discriminate]. injection H as <-.
    now apply parallelize_same.
Qed.
Print Assumptions C66_annotate.

(** With temporaries a reduced loop becomes two loops: the parallel one, and one that reduces,
    whose unroll factor is gone. *)
Theorem C66_temporary : forall e s s' v u,
  exec e (Parallelize v u Temporary) s = Some s' -> unnested v s ->
  ((forall b, reduced e b = None) -> annots v s' = map (fun x => Annot (merge x) u Temporary (factor x)) (annots v s)) /\
  ((forall b, reduced e b <> None) -> annots v s' =
     flat_map (fun x => [Annot (merge x) u Temporary (factor x); Annot (merge x) (reduced_unit e) ParallelReduction 0]) (annots v s)).
Proof.
  intros e s s' v u. unfold exec. destruct (accepts _ _ _); [|discriminate]. intros H U. injection H as <-. split; intros R.
  - now apply parallelize_same.
  - now apply parallelize_temporary.
Qed.
Print Assumptions C66_temporary.

(** The order of mergeby and unroll does not matter, for the same or for different variables;
    of two annotations with the same command the later one counts. *)
Theorem C66_order : forall v w m m' n n' s,
  mergeby v m (unroll w n s) = unroll w n (mergeby v m s) /\
  (v <> w -> mergeby v m (mergeby w m' s) = mergeby w m' (mergeby v m s) /\ unroll v n (unroll w n' s) = unroll w n' (unroll v n s)) /\
  mergeby v m (mergeby v m' s) = mergeby v m s /\ unroll v n (unroll v n' s) = unroll v n s.
Proof.
  intros v w m m' n n' s.
  assert (I : forall f g, (forall x, f (g x) = f x) -> forall s, on_loops v f (on_loops v g s) = on_loops v f s).
  { intros f g E t. induction t as [a|u x t IH|c IHc q IHq|a IHa b IHb|t IH r]; cbn; try congruence.
    rewrite IH. f_equal. destruct (u =? v); auto. }
  split; [|split; [|split]].
  - apply on_loops_comm. right. reflexivity.
  - intros N. split; apply on_loops_comm; now left.
  - now apply I.
  - now apply I.
Qed.
Print Assumptions C66_order.

(** Annotating a variable that has no loop (any more) changes nothing, without an error. *)
Theorem C66_absent : forall e c s v, accepts e c s = true -> ~ In v (loops s) ->
  match c with MergeBy w _ | Unroll w _ | Parallelize w _ _ => w = v | _ => False end ->
  exec e c s = Some s.
Proof.
  intros e c s v A N C. unfold exec. rewrite A. destruct c; try contradiction; subst; f_equal.
  - now apply on_loops_absent.
  - now apply on_loops_absent.
  - now apply parallelize_absent.
Qed.
Print Assumptions C66_absent.

(** The loops that split, divide, fuse, pos and bound make have no annotations, whatever the
    annotations of the loops they replace. *)
Theorem C66_derived_loops : forall e pattern replacement r s s' v,
  exec e (Replace pattern replacement r) s = Some s' -> In v replacement -> ~ In v (loops s) ->
  annots v s' <> [] /\ forall x, In x (annots v s') -> x = default.
Proof.
  intros e P R r s s' v H I N. unfold exec in H. destruct (accepts _ _ _); [|discriminate].
  destruct P as [|p P]; [rewrite forall_replace_nil in H; discriminate|].
  apply forall_replace_cut in H; [|discriminate].
  destruct (cut_new _ _ _ I _ _ _ H) as [A B].
  - rewrite annots_add. now apply annots_none.
  - split; [now apply B|]. intros x X. rewrite Forall_forall in A. symmetry. auto.
Qed.
Print Assumptions C66_derived_loops.

(** Reordering loops removes all their annotations. *)
Theorem C66_reordered_loops : forall e ordered pattern s s' v,
  exec e (Reorder ordered pattern) s = Some s' -> NoDup pattern -> In v pattern -> In v (loops s) ->
  annots v s' = [default].
Proof.
  intros e o P s s' v H N I L. unfold exec in H. destruct (accepts _ _ _); [|discriminate].
  rewrite (reorder_reset o P v s s' H L I).
  rewrite (proj1 (NoDup_count_occ' Nat.eq_dec P) N v I). reflexivity.
Qed.
Print Assumptions C66_reordered_loops.

(** precompute removes all annotations of the nest of loops around the expression. *)
Theorem C66_precomputed_nest : forall e p predicates v x b s' w y,
  exec e (Precompute p predicates) (SForall v x b) = Some s' ->
  has_where b = false -> (exists a, In a (assigns b) /\ contains p a = true) ->
  In (w, y) (annotated s') -> y = default.
Proof.
  intros e p preds v x b s' w y H W [a [A C]] I. unfold exec in H. destruct (accepts _ _ _); [|discriminate].
  injection H as <-.
  assert (G := precompute_default p preds v x b W (proj2 (existsb_exists _ _) (ex_intro _ a (conj A C)))).
  rewrite Forall_forall in G. exact (G _ I).
Qed.
Print Assumptions C66_precomputed_nest.

(** The topological reordering of a nest keeps the parallel unit and race strategy of every
    loop and gives all loops the merge strategy and unroll factor of the outermost one. *)
Theorem C66_topological : forall e order v x l inner,
  is_forall inner = false -> NoDup (map fst ((v, x) :: l)) -> Permutation order (map fst ((v, x) :: l)) ->
  accepts e (Topological order) (loop_nest ((v, x) :: l) inner) = true ->
  exists l', exec e (Topological order) (loop_nest ((v, x) :: l) inner) = Some (loop_nest l' inner) /\
    map fst l' = order /\
    forall w y, In (w, y) l' -> merge y = merge x /\ factor y = factor x /\
      exists z, In (w, z) ((v, x) :: l) /\ unit y = unit z /\ race y = race z.
Proof.
  intros e order v x l inner F N P A. unfold exec. rewrite A.
  destruct (topo_spec x ((v, x) :: l) inner N order) as [l' [E [M S]]].
  { intros w W. eapply Permutation_in; eauto. }
  exists l'. split; [|split; [exact M|]].
  - unfold reorder_topologically. cbn [loop_nest].
    change (SForall v x (loop_nest l inner)) with (loop_nest ((v, x) :: l) inner).
    rewrite nest_loop_nest by exact F. exact E.
  - intros w y I. destruct (S w y I) as [z [Z ->]]. cbn [merge factor unit race]. split; [reflexivity|split; [reflexivity|]]. exists z. auto.
Qed.
Print Assumptions C66_topological.

(** Parallelizing the outer loop: only loops over the first loop's variable change, and they
    keep merge strategy and unroll factor; a refused statement is kept. *)
Theorem C66_outer : forall e s,
  (loops s = [] -> parallelize_outer e s = s) /\
  forall v rest, loops s = v :: rest ->
    (accepts e (Parallelize v CPUThread NoRaces) s = false -> parallelize_outer e s = s) /\
    (forall w, w <> v -> annots w (parallelize_outer e s) = annots w s) /\
    (accepts e (Parallelize v CPUThread NoRaces) s = true -> unnested v s ->
       annots v (parallelize_outer e s) = map (fun x => Annot (merge x) CPUThread NoRaces (factor x)) (annots v s)).
Proof.
  intros e s. unfold parallelize_outer, exec. split; [now intros ->|].
  intros v rest ->. destruct (accepts _ _ _); repeat split; try discriminate; auto.
  - intros w N. apply parallelize_other; congruence.
  - intros _ U. now apply parallelize_same.
Qed.
Print Assumptions C66_outer.

(** ** Cases that meet the hypotheses *)
Definition i := 0. Definition j := 1. Definition k := 2. Definition i0 := 3. Definition i1 := 4. Definition w := 5.
Definition anything : environment := Environment (fun _ _ => true) (fun _ _ _ => []) (fun _ => None) CPUThreadGroupReduction.
Definition plain_nest : stmt := SForall i default (SForall j default (SForall k default (SAssign 7))).
Definition hoisting : environment :=
  Environment (fun _ _ => true) (fun v _ _ => if v =? k then [(8, fun _ => 9)] else []) (fun _ => Some (8, fun _ => 9)) CPUThreadGroupReduction.
Definition precomputing : precomputation :=
  Precomputation (fun a => a =? 7) (fun _ => 10) (fun _ => 11) (fun v => v =? k) (fun _ => true) (fun v => negb (v =? j)) (fun _ => w) (fun a => a).

Example C66_kept_example : exists s s',
  run anything [Parallelize i CPUThread NoRaces; Unroll i 4] plain_nest = Some s /\
  run hoisting [Replace [j] [i0; i1] 0; Reorder true [i1; i0]; MergeBy k Gallop; Hoist] s = Some s' /\
  annots i s' = [Annot TwoFinger CPUThread NoRaces 4] /\ annots k s' = [Annot Gallop NotParallel IgnoreRaces 0] /\ s' <> s.
Proof. do 2 eexists. repeat split. discriminate. Qed.
Example C66_annotate_example : exists s, run anything [MergeBy j Gallop; Unroll j 8; Parallelize j CPUVector Atomics] plain_nest = Some s /\
  annots j s = [Annot Gallop CPUVector Atomics 8] /\ unnested j s.
Proof. eexists. repeat split; reflexivity || discriminate. Qed.
Example C66_temporary_example : exists s, run hoisting [Unroll j 8; Parallelize j CPUThread Temporary] plain_nest = Some s /\
  annots j s = [Annot TwoFinger CPUThread Temporary 8; Annot TwoFinger CPUThreadGroupReduction ParallelReduction 0].
Proof. eexists. repeat split. Qed.
Example C66_absent_example : exec anything (Unroll w 4) plain_nest = Some plain_nest.
Proof. reflexivity. Qed.
Example C66_derived_example : exists s, run anything [Parallelize i CPUThread NoRaces; Replace [i] [i0; i1] 0] plain_nest = Some s /\
  annots i0 s = [default] /\ annots i1 s = [default] /\ annots i s = [].
Proof. eexists. repeat split. Qed.
Example C66_precompute_example : exists s, exec anything (Precompute precomputing [0]) plain_nest = Some s /\
  annotated s = [(i, default); (w, default); (j, default); (k, default)].
Proof. eexists. repeat split. Qed.
Example C66_outer_example :
  parallelize_outer anything (SForall i (Annot Gallop NotParallel IgnoreRaces 4) (SForall j default (SAssign 7))) =
  SForall i (Annot Gallop CPUThread NoRaces 4) (SForall j default (SAssign 7)).
Proof. reflexivity. Qed.

(** ** What does not hold *)
(** "A schedule's annotations stay when loops are only reordered": the parallel unit and the
    unroll factor are gone without an error, also for the loop that was parallelized. *)
Theorem C66_reorder_refuted : exists e s s' t,
  run e [Parallelize i CPUThread NoRaces; Unroll k 4; MergeBy j Gallop] plain_nest = Some s /\
  exec e (Reorder false [j; k]) s = Some s' /\ exec e (Reorder true [j; i; k]) s = Some t /\
  annots i s' = [Annot TwoFinger CPUThread NoRaces 0] /\ annots k s' = [default] /\ annots j s' = [default] /\
  annots i t = [default] /\ annots k t = [default] /\ annots j t = [default].
Proof. exists anything. do 3 eexists. repeat split. Qed.
Print Assumptions C66_reorder_refuted.

(** "Naming the variables in their present order changes nothing": the annotations go. *)
Theorem C66_same_order_refuted : exists e s s',
  exec e (Parallelize i CPUThread NoRaces) plain_nest = Some s /\ exec e (Reorder true [i; j]) s = Some s' /\
  s' = plain_nest /\ s <> s'.
Proof. exists anything. do 2 eexists. repeat split. discriminate. Qed.
Print Assumptions C66_same_order_refuted.

(** "precompute changes only loops over the variables it is given": the loop around, too. *)
Theorem C66_precompute_refuted : exists e s s',
  run e [Parallelize i CPUThread NoRaces; Unroll j 4] plain_nest = Some s /\
  exec e (Precompute precomputing [0]) s = Some s' /\
  in_ivars precomputing i = false /\ in_ivars precomputing j = false /\ annots i s' = [default] /\ annots j s' = [default].
Proof. exists anything. do 2 eexists. repeat split. Qed.
Print Assumptions C66_precompute_refuted.

(** "Every loop keeps its annotations when loops are sorted": galloping, which mergeby accepts
    only for loops it has checked, and unroll factors spread from the outermost loop to all
    loops, and other loops lose theirs. *)
Theorem C66_topological_refuted : exists e s s',
  run e [MergeBy i Gallop; Unroll j 4] plain_nest = Some s /\ exec e (Topological [j; i; k]) s = Some s' /\
  annots j s = [Annot TwoFinger NotParallel IgnoreRaces 4] /\
  annots j s' = [Annot Gallop NotParallel IgnoreRaces 0] /\ annots k s' = [Annot Gallop NotParallel IgnoreRaces 0].
Proof. exists anything. do 2 eexists. repeat split. Qed.
Print Assumptions C66_topological_refuted.
