(** C71: formats have the properties that were asked for, equal formats store
    data in the same way, and helper functions are shared only between those. *)
From Coq Require Import List Arith Bool Lia Sorting.Permutation.
Import ListNotations.
From Verif Require Import Formats FormatsSpec FormatsProofs.

(** A variant has what was last requested of each attribute that its class lets
    one choose, and keeps all other attributes and its class. *)
Theorem C71_requested : forall i ps a b, made i -> configurable (class i) a ->
  last_request a b ps -> is (variant (Some i) ps) a = Some b.
Proof. intros i ps a b M C L. now apply requested. Qed.
Print Assumptions C71_requested.
Theorem C71_kept : forall i ps a, made i ->
  (forall b, In (a, b) ps -> ~ configurable (class i) a) ->
  is (variant (Some i) ps) a = is (Some i) a /\ class (copy i ps) = class i.
Proof. intros i ps a M N. split; [now apply kept|apply copy_class]. Qed.
Print Assumptions C71_kept.

(** hasProperties answers exactly whether all properties hold. *)
Theorem C71_has : forall i ps,
  (has_properties (Some i) ps = Some true <->
   forall a b, In (a, b) ps -> is (Some i) a = Some b) /\
  has_properties (Some i) ps <> None.
Proof. intros i ps. split; [apply has_spec|apply has_defined]. Qed.
Print Assumptions C71_has.

(** So a variant has the properties it was made with, if they do not contradict
    each other and can be chosen. *)
Theorem C71_variant_has : forall i ps, made i ->
  (forall a b, In (a, b) ps -> configurable (class i) a) ->
  (forall a b c, In (a, b) ps -> In (a, c) ps -> b = c) ->
  has_properties (variant (Some i) ps) ps = Some true.
Proof.
  intros i ps M C K. apply has_spec. intros a b I.
  destruct (last_exists ps a b I) as (c & I' & L). rewrite (K a b c I I').
  apply requested; [exact M|exact (C a b I)|exact L].
Qed.
Print Assumptions C71_variant_has.
Example C71_variant_has_example :
  has_properties (variant (Some Singleton) [(Padded, true); (Unique, false)])
                 [(Padded, true); (Unique, false); (Branchless, true)] = Some true /\
  is (variant (Some Compressed) [(Unique, false); (Full, true); (Unique, true)]) Unique = Some true.
Proof. split; reflexivity. Qed.

(** Finding: other requests are dropped without an error. *)
Theorem C71_ignored_refuted : forall a b i, made i -> ~ configurable (class i) a ->
  is (Some i) a = Some (negb b) ->
  has_properties (variant (Some i) [(a, b)]) [(a, b)] = Some false.
Proof.
  intros a b i M N E. cbn [has_properties variant].
  change (Some (copy i [(a, b)])) with (variant (Some i) [(a, b)]).
  rewrite (proj1 (C71_kept i [(a, b)] a M (fun _ _ => N))). rewrite E. now destruct b.
Qed.
Print Assumptions C71_ignored_refuted.
Example C71_ignored_example :
  has_properties (variant (Some Compressed) [(Padded, true)]) [(Padded, true)] = Some false /\
  has_properties (variant (Some Dense) [(Full, false)]) [(Full, false)] = Some false.
Proof.
  split; apply C71_ignored_refuted; try constructor; try reflexivity; intros [].
Qed.

(** Comparing formats: equal exactly if the modes are alike (all but padding),
    grouped in the same way and stored in the same order; this is an
    equivalence. *)
Theorem C71_equal : forall f g, format_eqb f g = true <-> same_layout f g.
Proof. exact format_eqb_spec. Qed.
Print Assumptions C71_equal.
Theorem C71_equivalence :
  (forall f, format_eqb f f = true) /\
  (forall f g, format_eqb f g = true -> format_eqb g f = true) /\
  (forall f g h, format_eqb f g = true -> format_eqb g h = true -> format_eqb f h = true).
Proof.
  split; [|split].
  - intros f. apply format_eqb_spec, layout_refl.
  - intros f g H. apply format_eqb_spec, layout_sym, format_eqb_spec, H.
  - intros f g h H K. apply format_eqb_spec. eapply layout_trans; apply format_eqb_spec; eassumption.
Qed.
Print Assumptions C71_equivalence.
Definition csr : format := {| packs := [[Dense]; [Compressed]]; ordering := [0; 1]; level_types := [] |}.
Definition csc : format := {| packs := [[Dense]; [Compressed]]; ordering := [1; 0]; level_types := [] |}.
Example C71_equal_example :
  make_format [[Some Dense]; [Some Compressed]] None = Some csr /\
  format_eqb csr csc = false /\
  format_eqb csr {| packs := [[copy Dense [(Ordered, true)]]; [Compressed]]; ordering := [0; 1];
                    level_types := [] |} = true.
Proof. repeat split; reflexivity. Qed.

(** isDense: every level is dense, with the default properties. *)
Theorem C71_is_dense : forall f, is_dense f = true <-> forall m, In m (mode_formats f) -> alike m Dense.
Proof.
  intros f. unfold is_dense. rewrite forallb_forall. split; intros H m I.
  - apply impl_eqb_spec. now apply H.
  - apply impl_eqb_spec. now apply H.
Qed.
Print Assumptions C71_is_dense.

(** COO: a compressed level and then singletons, all ordered as requested; only
    the last is unique, and only if requested; the modes in the given order. *)
Theorem C71_coo : forall n u o l, n <> 0 -> (l = [] \/ length l = n) ->
  exists f, coo n u o false l = Some f /\ order f = n /\
    ordering f = match l with [] => seq 0 n | _ => l end /\
    forall k, k < n -> exists m, nth_error (mode_formats f) k = Some m /\
      class m = (if k =? 0 then CompressedK else SingletonK) /\
      has_properties (Some m) [(Ordered, o); (Unique, u && (S k =? n)); (Branchless, negb (k =? 0));
                               (Full, false); (Zeroless, false)] = Some true.
Proof.
  intros n u o l N L. exists {| packs := map (fun i => [i]) (coo_levels n u o);
          ordering := match l with [] => seq 0 n | _ => l end; level_types := [] |}.
  split; [now apply coo_make|]. unfold order, mode_formats; cbn [packs ordering].
  rewrite concat_single. split; [now apply coo_levels_length|]. split; [reflexivity|].
  intros k K. exists (nth k (coo_levels n u o) Dense).
  split; [apply nth_error_nth'; now rewrite coo_levels_length|].
  rewrite coo_nth by exact K. destruct (Nat.eqb_spec k 0) as [->|E].
  - split; [apply copy_class|]. destruct n as [|[|n]]; [lia| |]; destruct u, o; reflexivity.
  - split; [apply copy_class|]. destruct u, o, (S k =? n); reflexivity.
Qed.
Print Assumptions C71_coo.
Theorem C71_coo_refused : forall n u o s l,
  n = 0 \/ (l <> [] /\ length l <> n) \/ s = true -> coo n u o s l = None.
Proof.
  intros n u o s l H. unfold coo. destruct (Nat.eqb_spec n 0) as [_|E]; [reflexivity|].
  destruct l as [|x l]; cbn [negb].
  - destruct H as [H|[[H _]|H]]; [lia|congruence|now rewrite H].
  - destruct (Nat.eqb_spec (length (x :: l)) n) as [F|F]; [|reflexivity]. cbn [negb].
    destruct H as [H|[[_ H]|H]]; [lia|contradiction|now rewrite H].
Qed.
Print Assumptions C71_coo_refused.

(** Any history of requests: if the generated code depends on the layout only,
    a request is answered with the code for the format asked for. *)
Theorem C71_helpers : forall module (generate : format -> nat -> list nat -> module),
  (forall f g t ds, same_layout f g -> generate f t ds = generate g t ds) ->
  forall history f t ds,
    fst (helpers module generate (serve module generate [] history) f t ds) = generate f t ds.
Proof.
  intros module generate H history f t ds. apply helpers_sound; [exact H|].
  apply serve_sound; [exact H|]. intros f0 t0 d0 m0 [].
Qed.
Print Assumptions C71_helpers.
(** Code that is the same for formats of the same layout: the number of its
    levels. *)
Example C71_helpers_example :
  let generate := fun (f : format) (t : nat) (ds : list nat) => (order f, ordering f, t, ds) in
  fst (helpers _ generate (serve _ generate [] [(csr, 1, [2; 3]); (csc, 1, [2; 3])]) csc 1 [2; 3]) =
  generate csc 1 [2; 3].
Proof. reflexivity. Qed.

(** Finding: formats that differ in the padding of a singleton level are equal,
    and padding decides whether the level's array is cleared
    (mode_format_singleton.cpp 138): the second of two such formats is given
    the code of the first. *)
Definition cleared (f : format) (t : nat) (ds : list nat) : list bool := map padded (mode_formats f).
Theorem C71_padded_refuted : exists m m', made m /\ made m' /\
  mode_format_eqb (Some m) (Some m') = true /\
  has_properties (Some m) [(Padded, true)] <> has_properties (Some m') [(Padded, true)] /\
  let f := {| packs := [[Dense]; [m]]; ordering := [0; 1]; level_types := [] |} in
  let g := {| packs := [[Dense]; [m']]; ordering := [0; 1]; level_types := [] |} in
  fst (helpers _ cleared (serve _ cleared [] [(f, 0, [2; 2])]) g 0 [2; 2]) <> cleared g 0 [2; 2].
Proof.
  exists Singleton, (copy Singleton [(Padded, true)]).
  split; [constructor|]. split; [repeat constructor|]. split; [reflexivity|].
  split; [discriminate|]. vm_compute. discriminate.
Qed.
Print Assumptions C71_padded_refuted.

(** Finding: the types of the index arrays are not compared. *)
Theorem C71_level_types_refuted : forall f ts ts',
  format_eqb (set_level_types f ts) (set_level_types f ts') = true.
Proof. intros f ts ts'. apply format_eqb_spec. apply (layout_refl f). Qed.
Print Assumptions C71_level_types_refuted.
Example C71_level_types_example :
  pos_type (set_level_types csr [[0]; [0; 0]]) 1 <> pos_type (set_level_types csr [[0]; [7; 7]]) 1.
Proof. discriminate. Qed.

(** Finding: a mode ordering need not be one. *)
Theorem C71_ordering_refuted : exists f,
  make_format [[Some Dense]; [Some Dense]] (Some [0; 0]) = Some f /\
  ~ Permutation (ordering f) (seq 0 (order f)).
Proof.
  eexists. split; [reflexivity|]. cbn. intros P. apply Permutation_sym in P.
  assert (N : NoDup [0; 1]) by (repeat constructor; cbn; intuition discriminate).
  apply (Permutation_NoDup P) in N. inversion N as [|x l H]; subst. apply H. now left.
Qed.
Print Assumptions C71_ordering_refuted.
