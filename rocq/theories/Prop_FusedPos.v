(** C61: a loop over the positions of fused loops visits exactly the stored components, with
    their coordinates, in storage order. *)
From Coq Require Import ZArith List Bool Lia Permutation.
From Verif Require Import Outcome CSearch FusedPos FusedPosSpec FusedPosProofs.
Import ListNotations.
Local Open Scope Z_scope.

(** A matrix with four rows, of which rows 0 and 2 hold nothing, as CSR and as DCSR, and a
    tensor of order three with one empty row in CSF below a dense mode. *)
Definition csr_rows : level := Dense 4.
Definition csr_cols : level := Compressed [0; 0; 2; 2; 5] [1; 3; 0; 1; 2].
Definition dcsr_rows : level := Compressed [0; 2] [1; 3].
Definition dcsr_cols : level := Compressed [0; 2; 5] [1; 3; 0; 1; 2].
Definition dcsr0_rows : level := Compressed [0; 2] [0; 3].
Definition csf : list level := [Compressed [0; 2; 3; 4] [0; 2; 1; 0]; Dense 3].
Definition csf_last : level := Compressed [0; 1; 3; 4; 6] [4; 0; 2; 1; 3; 5].

Ltac upto p :=
  match goal with
  | h : 0 <= p < ?b |- _ =>
      let b' := eval vm_compute in b in
      change (0 <= p < b') in h;
      first [ lia
            | assert (p = 0 \/ p = 1 \/ p = 2 \/ p = 3 \/ p = 4) as [-> | [-> | [-> | [-> | ->]]]] by lia;
              first [ lia | vm_compute; (reflexivity || discriminate) ] ]
  end.
Ltac array_facts :=
  cbv [levels rev app operand fusible well_formed nowhere_empty no_empty_rows level_ok count forallb is_dense
       csr_rows csr_cols dcsr_rows dcsr_cols dcsr0_rows csf csf_last negb andb searchable is_compressed rows_of tl];
  repeat match goal with
         | |- _ /\ _ => split
         | |- True => exact I
         | |- _ = _ => reflexivity
         | |- forall p : Z, _ => let p := fresh "p" in let h := fresh "h" in intros p h; upto p
         | |- _ <= _ => vm_compute; discriminate
         end.
Example csr_operand : operand (levels [csr_rows] csr_cols).
Proof. array_facts. Qed.
Example dcsr_operand : operand (levels [dcsr_rows] dcsr_cols).
Proof. array_facts. Qed.
Example dcsr0_operand : operand (levels [dcsr0_rows] dcsr_cols).
Proof. array_facts. Qed.
Example csf_operand : operand (levels csf csf_last).
Proof. array_facts. Qed.
Example csr_searchable : searchable (levels [csr_rows] csr_cols).
Proof. split; [reflexivity|left; reflexivity]. Qed.
Example dcsr_searchable : searchable (levels [dcsr_rows] dcsr_cols).
Proof. split; [reflexivity|right; array_facts]. Qed.
Example csf_searchable : searchable (levels csf csf_last).
Proof. split; [reflexivity|right; array_facts]. Qed.

(** Outside parallel loops, for any nested splits of the position variable, the loop visits
    exactly the stored components, with their coordinates and in storage order, if and only if
    the operand is one dense level over one sparse level (CSR), or its first stored component
    has coordinates 0 in all fused variables but the last. *)
Theorem C61_serial :
  forall up child factors, operand (levels up child) -> nested factors ->
  ((exists st, serial up child factors = Val (st, stored (levels up child) 0)) <->
   (rows_of (levels up child) = true \/
    forall v, hd_error (stored (levels up child) 0) = Some v -> outer_zero v)).
Proof. exact serial_iff. Qed.
Print Assumptions C61_serial.

Example C61_serial_example :
  operand (levels [csr_rows] csr_cols) /\ operand (levels [dcsr0_rows] dcsr_cols) /\ nested [4; 2] /\
  (exists st, serial [csr_rows] csr_cols [4; 2] =
     Val (st, [([1; 1], 0); ([1; 3], 1); ([3; 0], 2); ([3; 1], 3); ([3; 2], 4)])) /\
  (exists st, serial [dcsr0_rows] dcsr_cols [4; 2] =
     Val (st, [([0; 1], 0); ([0; 3], 1); ([3; 0], 2); ([3; 1], 3); ([3; 2], 4)])).
Proof.
  split; [exact csr_operand|]. split; [exact dcsr0_operand|].
  split; [cbn; repeat split; try lia; exists 2; reflexivity|].
  split; eexists; vm_compute; reflexivity.
Qed.

(** A chunk of a parallel loop visits exactly the stored components at its positions. *)
Theorem C61_chunk :
  forall up child chunk, operand (levels up child) -> searchable (levels up child) ->
  0 <= fst chunk -> 0 <= snd chunk ->
  rows_of (levels up child) = true \/ fst chunk < Z.of_nat (length (stored (levels up child) 0)) ->
  chunk_loop [] up child chunk = Val (slice chunk (stored (levels up child) 0)).
Proof. exact chunk_exact. Qed.
Print Assumptions C61_chunk.

Example C61_chunk_example :
  operand (levels csf csf_last) /\ searchable (levels csf csf_last) /\
  chunk_loop [] csf csf_last (2, 3) = Val [([0; 2; 2], 2); ([1; 1; 1], 3); ([2; 0; 3], 4)].
Proof. split; [exact csf_operand|]. split; [exact csf_searchable|]. vm_compute. reflexivity. Qed.

(** The chunks of a parallel loop, in whatever order they run, visit each stored component
    exactly once; the condition on their starts holds for one split. *)
Theorem C61_chunks :
  forall up child factors order, operand (levels up child) -> searchable (levels up child) ->
  nested factors ->
  let n := Z.of_nat (length (stored (levels up child) 0)) in
  rows_of (levels up child) = true \/ (forall c, In c (chunks n factors) -> fst c < n) ->
  Permutation order (chunks n factors) ->
  exists vs, all_chunks [] up child order = Val vs /\ Permutation vs (stored (levels up child) 0).
Proof. exact chunks_exact. Qed.
Print Assumptions C61_chunks.

Theorem C61_one_split :
  forall up child s, operand (levels up child) -> searchable (levels up child) -> 0 < s ->
  in_chunks up child [s] = Val (stored (levels up child) 0).
Proof.
  intros up child s O S Hs. apply in_chunks_exact; auto.
  - cbn. auto.
  - right. intros c. apply one_split_inside. exact Hs.
Qed.
Print Assumptions C61_one_split.

Example C61_chunks_example :
  searchable (levels [dcsr_rows] dcsr_cols) /\
  chunks 5 [2] = [(0, 2); (2, 2); (4, 2)] /\
  all_chunks [] [dcsr_rows] dcsr_cols [(4, 2); (0, 2); (2, 2)] =
    Val [([3; 2], 4); ([1; 1], 0); ([1; 3], 1); ([3; 0], 2); ([3; 1], 3)].
Proof. split; [exact dcsr_searchable|]. split; vm_compute; reflexivity. Qed.

(** A reduction of a chunk into a scalar temporary gives the consumer, if it adds, the same as
    each component on its own: nothing is lost or attributed to another row where a chunk ends
    or begins within a row. *)
Theorem C61_reduced :
  forall Y (ok : Y -> Prop) value consume up child chunk y,
  operand (levels up child) -> searchable (levels up child) ->
  0 <= fst chunk < Z.of_nat (length (stored (levels up child) 0)) -> 0 < snd chunk ->
  adds ok consume (stored (levels up child) 0) -> ok y ->
  reduce_chunk Y value consume up child chunk y =
  one_by_one value consume (slice chunk (stored (levels up child) 0)) y.
Proof. exact reduce_exact. Qed.
Print Assumptions C61_reduced.

(** y[i] += t, for the first coordinate i. *)
Definition add_to (cs : list Z) (t : Z) (y : list Z) : outcome (list Z) :=
  do old <- rd y (hd 0 cs); wr y (hd 0 cs) (old + t).

Example C61_reduced_example :
  operand (levels [csr_rows] csr_cols) /\ searchable (levels [csr_rows] csr_cols) /\
  adds (fun y => length y = 4%nat) add_to (stored (levels [csr_rows] csr_cols) 0) /\
  reduce_chunk (list Z) (fun v => 10 + snd v) add_to [csr_rows] csr_cols (1, 3) [0; 0; 0; 0] =
    Val [0; 11; 0; 25].
Proof.
  split; [exact csr_operand|]. split; [exact csr_searchable|]. split.
  - intros v y I H. destruct y as [|y0 [|y1 [|y2 [|y3 [|]]]]]; try discriminate. clear H.
    assert (E : forall cs, cs = [1] \/ cs = [3] ->
      add_to cs 0 [y0; y1; y2; y3] = Val [y0; y1; y2; y3] /\
      forall a, exists y, add_to cs a [y0; y1; y2; y3] = Val y /\ length y = 4%nat /\
        forall b, add_to cs b y = add_to cs (a + b) [y0; y1; y2; y3]).
    { assert (E1 : forall t x0 x1 x2 x3, add_to [1] t [x0; x1; x2; x3] = Val [x0; x1 + t; x2; x3]) by reflexivity.
      assert (E3 : forall t x0 x1 x2 x3, add_to [3] t [x0; x1; x2; x3] = Val [x0; x1; x2; x3 + t]) by reflexivity.
      intros cs [-> | ->]; rewrite ?E1, ?E3, Z.add_0_r; (split; [reflexivity|]); intros a;
        rewrite ?E1, ?E3; eexists; (split; [reflexivity|]); (split; [reflexivity|]);
        intros b; rewrite ?E1, ?E3, Z.add_assoc; reflexivity. }
    apply E. vm_compute in I. intuition (subst; cbn; auto).
  - vm_compute. reflexivity.
Qed.

(** Findings.  The variables of a loop that is not parallel start at coordinate 0, not at the
    coordinate of the first stored component. *)
Theorem C61_first_row_refuted :
  exists up child st vs, operand (levels up child) /\ no_empty_rows (levels up child) /\
    serial up child [] = Val (st, vs) /\ vs <> stored (levels up child) 0.
Proof.
  exists [dcsr_rows], dcsr_cols. eexists. eexists. split; [exact dcsr_operand|].
  split; [exact (match proj2 dcsr_searchable with or_introl h => False_ind _ (Bool.diff_false_true h) | or_intror h => h end)|].
  split; [vm_compute; reflexivity|]. vm_compute. discriminate.
Qed.

(** A dense level over two sparse levels: the search of a parallel loop ends in an empty row. *)
Theorem C61_empty_rows_refuted :
  exists up child chunk vs, operand (levels up child) /\ forallb is_compressed (tl (levels up child)) = true /\
    0 <= fst chunk < Z.of_nat (length (stored (levels up child) 0)) /\
    chunk_loop [] up child chunk = Val vs /\ vs <> slice chunk (stored (levels up child) 0).
Proof.
  exists [Compressed [0; 1; 1; 2] [4; 6]; Dense 3], (Compressed [0; 1; 2] [7; 8]), (1, 1). eexists.
  split; [array_facts|]. split; [reflexivity|]. split; [vm_compute; split; [discriminate|reflexivity]|].
  split; [vm_compute; reflexivity|]. vm_compute. discriminate.
Qed.

(** Empty segments below a compressed level, as insertion of unused positions leaves them: one
    step, not a loop, moves to the next segment. *)
Theorem C61_empty_segment_refuted :
  exists up child st vs, fusible (levels up child) /\ well_formed (levels up child) 1 /\
    serial up child [] = Val (st, vs) /\ vs <> stored (levels up child) 0.
Proof.
  exists [Compressed [0; 3] [0; 1; 2]], (Compressed [0; 0; 0; 1] [7]). eexists. eexists.
  split; [reflexivity|]. split; [array_facts|]. split; [vm_compute; reflexivity|]. vm_compute. discriminate.
Qed.

(** After two splits a chunk can start after the last position: its search reads beyond the
    coordinates of DCSR, and its consumer writes beyond the rows of CSR. *)
Theorem C61_overrun_refuted :
  exists up child factors, operand (levels up child) /\ searchable (levels up child) /\ nested factors /\
    in_chunks up child factors = Oob.
Proof.
  exists [Compressed [0; 1] [0]], (Compressed [0; 1] [7]), [4; 2].
  split; [array_facts|]. split; [split; [reflexivity|right; array_facts]|].
  split; [cbn; repeat split; try lia; exists 2; reflexivity|]. vm_compute. reflexivity.
Qed.
Theorem C61_overrun_reduced_refuted :
  exists w child factors chunk y, operand [Dense w; child] /\ searchable [Dense w; child] /\ nested factors /\
    In chunk (chunks (Z.of_nat (length (stored [Dense w; child] 0))) factors) /\ length y = Z.to_nat w /\
    reduce_chunk (list Z) (fun _ => 1) add_to [Dense w] child chunk y = Oob.
Proof.
  exists 2, (Compressed [0; 1; 1] [7]), [4; 2], (2, 2), [0; 0].
  split; [array_facts|]. split; [split; [reflexivity|left; reflexivity]|].
  split; [cbn; repeat split; try lia; exists 2; reflexivity|].
  split; [vm_compute; auto|]. split; vm_compute; reflexivity.
Qed.

(** A loop that is not parallel and runs again, inside another loop, goes on from the variables
    that the first run left. *)
Theorem C61_again_refuted :
  exists up child st vs n, operand (levels up child) /\
    serial up child [] = Val (st, stored (levels up child) 0) /\ size_of (levels up child) 1 = Val n /\
    (exists st', loop up child n st (range 0 n) = Val (st', vs)) /\ vs <> stored (levels up child) 0.
Proof.
  exists [Dense 2], (Compressed [0; 1; 2] [0; 1]). do 3 eexists.
  split; [array_facts|]. split; [vm_compute; reflexivity|]. split; [vm_compute; reflexivity|].
  split; [eexists; vm_compute; reflexivity|]. vm_compute. discriminate.
Qed.

(** Fused loops below a loop that is not fused: each iteration of that loop runs over the
    components of all its iterations. *)
Theorem C61_above_refuted :
  exists above up child n vs, well_formed (above ++ levels up child) 1 /\ fusible (levels up child) /\
    no_empty_rows (above ++ levels up child) /\
    size_of (above ++ levels up child) 1 = Val n /\
    chunk_loop above up child (0, n) = Val vs /\
    Z.of_nat (length vs) = 2 /\ Z.of_nat (length (stored (levels up child) 0)) = 1 /\
    Z.of_nat (length (stored (levels up child) 1)) = 1.
Proof.
  exists [Dense 2], [Compressed [0; 1; 2] [0; 1]], (Compressed [0; 1; 2] [5; 6]). do 2 eexists.
  split; [array_facts|]. split; [reflexivity|]. split; [array_facts|]. split; [vm_compute; reflexivity|].
  split; [vm_compute; reflexivity|]. vm_compute. auto.
Qed.

(** Running the position loop itself in another order (in parallel) with the variables that
    are declared outside it. *)
Theorem C61_order_refuted :
  exists up child n order st vs, operand (levels up child) /\ rows_of (levels up child) = true /\
    size_of (levels up child) 1 = Val n /\
    Permutation order (range 0 n) /\ loop up child n (initial up) order = Val (st, vs) /\
    ~ Permutation vs (stored (levels up child) 0).
Proof.
  exists [Dense 2], (Compressed [0; 1; 2] [0; 1]), 2, [1; 0]. do 2 eexists.
  split; [array_facts|]. split; [reflexivity|]. split; [vm_compute; reflexivity|].
  split; [apply perm_swap|]. split; [vm_compute; reflexivity|].
  intros P. assert (In ([0; 0], 0) [([1; 1], 1); ([1; 0], 0)]) as H.
  { eapply Permutation_in; [symmetry; exact P|]. vm_compute. auto. }
  cbn in H. destruct H as [H|[H|[]]]; discriminate.
Qed.
