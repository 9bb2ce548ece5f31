(** Property C09: appending to compressed levels. *)
From Coq Require Import List Arith Lia Bool Sorted.
Import ListNotations.
From Verif Require Import Outcome Storage StorageProofs IndexExpr Eval LoopIR SparseKernel AppendRows AppendSpec AppendRowsProofs.
Local Open Scope nat_scope.

(** Below a dense level, for every initial capacity, every number [w] of rows and
    every sequence of increasing rows: the code runs, that is, no store is outside
    the arrays as they are allocated then, and the arrays it leaves are the
    compressed level of the sequence.  If the columns of every row increase and
    are below [d], the index is well formed. *)
Theorem C09_below_dense :
  forall V (R : ring_ops V) fn T junkV junkI alloc w d rows (st : state V),
  1 <= alloc -> StronglySorted lt (map fst rows) -> (forall r, In r (map fst rows) -> r < w) ->
  exists st' pos crd,
    exec R fn T junkV junkI (rows_below_dense alloc w rows) st st' /\
    fst (unpack_levels 0 1 [(KDense, w); (KComp, d)] (ibuf st')) = [LDense w; LComp pos crd] /\
    compressed_level w (row_of rows) pos crd /\
    (increasing rows -> (forall r, Forall (fun c => c < d) (row_of rows r)) ->
     wf_levels 1 [LDense w; LComp pos crd] [w; d] (length crd)).
Proof.
  intros V R fn T junkV junkI alloc w d rows st AL SR B.
  destruct (below_dense_ok R fn T junkV junkI alloc w rows st AL SR B) as (st' & X & H).
  destruct (H d) as (pos & crd & U & C). exists st', pos, crd. split; [exact X|]. split; [exact U|]. split; [exact C|].
  intros [_ I] F. cbn [wf_levels]. split; auto. rewrite Nat.mul_1_l.
  apply (level_wf w (row_of rows) pos crd d [] []); simpl; auto. intros r _. split; auto.
  clear - I. induction rows as [|[r' c'] rows IH]; simpl; [constructor|]. inversion I; subst.
  destruct (r' =? r); auto.
Qed.
Print Assumptions C09_below_dense.

(** Below a compressed level: the rows without coordinates are not stored, in
    either of the two levels, and the positions of the others are those of the
    level above. *)
Theorem C09_below_compressed :
  forall V (R : ring_ops V) fn T junkV junkI alloc d0 d1 rows (st : state V),
  1 <= alloc ->
  exists st' pos0 crd0 pos1 crd1,
    exec R fn T junkV junkI (rows_below_compressed alloc rows) st st' /\
    fst (unpack_levels 0 1 [(KComp, d0); (KComp, d1)] (ibuf st')) = [LComp pos0 crd0; LComp pos1 crd1] /\
    compressed_level 1 (fun _ => map fst (kept rows)) pos0 crd0 /\
    compressed_level (length crd0) (fun r => nth r (map snd (kept rows)) []) pos1 crd1 /\
    (increasing rows -> Forall (fun row => fst row < d0 /\ Forall (fun c => c < d1) (snd row)) rows ->
     wf_levels 1 [LComp pos0 crd0; LComp pos1 crd1] [d0; d1] (length crd1)).
Proof.
  intros V R fn T junkV junkI alloc d0 d1 rows st AL.
  destruct (below_compressed_ok R fn T junkV junkI alloc rows st AL) as (st' & X & H).
  destruct (H d0 d1) as (pos0 & crd0 & pos1 & crd1 & U & C0 & C1).
  assert (L : length crd0 = length (kept rows)).
  { destruct C0 as (_ & P0 & P1 & P2). destruct (P2 0) as [_ E]; [lia|]. rewrite P0, P1, Nat.sub_0_r in E.
    simpl skipn in E. rewrite firstn_all in E. rewrite E, map_length. auto. }
  exists st', pos0, crd0, pos1, crd1. rewrite L. split; [exact X|]. split; [exact U|]. split; [exact C0|]. split; [exact C1|].
  intros [I0 I1] F. assert (K : forall x, In x (kept rows) -> In x rows) by (intros x HX; apply filter_In in HX; tauto).
  rewrite Forall_forall in I1, F.
  refine (level_wf 1 _ pos0 crd0 d0 _ _ _ C0 _ _).
  - intros _ _. split.
    + clear - I0. induction rows as [|[r c] rows IH]; simpl; [constructor|]. simpl in I0. inversion I0; subst.
      destruct c; simpl; auto. constructor; auto. rewrite Forall_forall in *. intros x HX. apply H2.
      apply in_map_iff in HX. destruct HX as (y & <- & HY). apply in_map. apply filter_In in HY. tauto.
    + apply Forall_forall. intros x HX. apply in_map_iff in HX. destruct HX as (y & <- & HY). apply F. auto.
  - rewrite L. refine (level_wf (length (kept rows)) _ pos1 crd1 d1 [] [] _ C1 _ _); [|simpl; auto].
    intros r HR. assert (Y : In (nth r (map snd (kept rows)) []) (map snd (kept rows))).
    { apply nth_In. rewrite map_length. auto. }
    apply in_map_iff in Y. destruct Y as (y & <- & HY). split; [apply I1|apply F]; auto.
Qed.
Print Assumptions C09_below_compressed.

(** ** A case that meets the hypotheses *)
Definition ex_rows : list (nat * list nat) := [(0, [1; 4]); (2, []); (3, [0; 2; 5])].
Example C09_example : StronglySorted lt (map fst ex_rows) /\ (forall r, In r (map fst ex_rows) -> r < 5) /\ increasing ex_rows /\
  (forall r, Forall (fun c => c < 6) (row_of ex_rows r)).
Proof.
  assert (A : StronglySorted lt (map fst ex_rows)) by (repeat constructor; simpl; lia).
  split; auto. split; [simpl; intros; lia|]. split.
  - split; auto. unfold ex_rows. repeat constructor; simpl; lia.
  - intros [|[|[|[|r]]]]; simpl; repeat constructor.
Qed.
