(** Properties C17 and C19: kernels whose result has compressed levels. *)
From Coq Require Import List Arith Lia Bool Ring_theory.
From Coq Require Import ZArith ZArithRing.
Import ListNotations.
From Verif Require Import Outcome Storage StorageProofs IndexExpr Eval Lattice LatticeSpec LatticeProofs LatticeIsort
  LoopIR LoopRun Lower Walk LowerBase LoopRule Visits KernelSpec WfCheck DenseKernelProofs DenseValue SparseKernel SparseRun SparseProofs
  SparseFused SparseStore SparseSpec SparseTop.
Local Open Scope nat_scope.

(** ** C17 *)
(** The kernel that assembles and computes terminates with every access in
    bounds.  The arrays it leaves describe a well-formed result in the requested
    formats, with the values of the expression, which stores exactly the
    coordinates that the appending loops visit. *)
Theorem C17_appended_result :
  forall V (R : ring_ops V) fn (T : nat -> storage V) junkV junkI dim srt n tres outer i inner loops reduce alloc allocv
    (e : expr V) (st : state V),
  is_ring R -> (forall f, fn f (r0 R) = r0 R) -> admissible_sort srt -> 1 <= alloc -> 1 <= allocv ->
  supported T dim (map fst outer ++ i :: loops) e -> appended T dim tres outer i inner loops reduce ->
  exists st',
    exec R fn T junkV junkI
      (sparse_kernel R srt dim n tres (outer ++ (i, KComp) :: inner) alloc allocv reduce (map fst outer ++ i :: loops) e) st st' /\
    computes R fn T dim outer i inner loops e (unpack_result (formats dim (outer ++ (i, KComp) :: inner)) n st').
Proof.
  intros V R fn T junkV junkI dim srt n tres outer i inner loops reduce alloc allocv e st HR F0 SRT AL ALV SUP APP.
  destruct (fused_top R fn T junkV junkI dim srt SRT n tres outer i inner loops reduce alloc allocv AL ALV e SUP APP st)
    as (st' & X & _ & _ & U).
  exists st'. split; [exact X|]. unfold vs in U. rewrite U. eapply result_computes; eauto.
Qed.
Print Assumptions C17_appended_result.

(** If there are no loops inside that of the last compressed level, the stored
    coordinates are those at which the expression may be nonzero. *)
Theorem C17_stored_coordinates :
  forall V (R : ring_ops V) fn (T : nat -> storage V) junkV junkI dim srt n tres outer i alloc allocv (e : expr V) (st : state V),
  is_ring R -> (forall f, fn f (r0 R) = r0 R) -> admissible_sort srt -> 1 <= alloc -> 1 <= allocv ->
  supported T dim (map fst outer ++ [i]) e -> appended T dim tres outer i [] [] false ->
  exists st',
    exec R fn T junkV junkI
      (sparse_kernel R srt dim n tres (outer ++ [(i, KComp)]) alloc allocv false (map fst outer ++ [i]) e) st st' /\
    let r := unpack_result (formats dim (outer ++ [(i, KComp)])) n st' in
    wf_storage (map dim (map fst outer ++ [i])) r /\
    forall xs, in_bounds dim (map fst outer ++ [i]) xs ->
      (locate (st_levels r) 0 xs <> None <-> may_be_nonzero (stores T (point_of (map fst outer ++ [i]) xs)) e = true).
Proof.
  intros V R fn T junkV junkI dim srt n tres outer i alloc allocv e st HR F0 SRT AL ALV SUP APP.
  destruct (C17_appended_result V R fn T junkV junkI dim srt n tres outer i [] [] false alloc allocv e st HR F0 SRT AL ALV SUP APP)
    as (st' & X & [C1 C2 C3 C4]).
  exists st'. split; [exact X|]. split; [exact C2|]. intros xs IB. rewrite (C4 xs IB). clear - SUP IB APP.
  assert (E : forall a, In a (accesses e) -> present T (map fst outer ++ [i]) (point_of (map fst outer ++ [i]) xs) a =
    stores T (point_of (map fst outer ++ [i]) xs) a).
  { intros a Ha. destruct (sup_operands _ _ _ _ SUP a Ha) as [W [O _]]. apply (present_stores V T dim); auto.
    intros v Hv. apply In_nth with (d := 0) in Hv. destruct Hv as (k & K & <-). destruct IB as [L B].
    rewrite point_at; auto. apply (app_vars _ _ _ _ _ _ _ _ APP). }
  assert (M : forall e0 : expr V, (forall a, In a (accesses e0) -> In a (accesses e)) ->
    may_be_nonzero (present T (map fst outer ++ [i]) (point_of (map fst outer ++ [i]) xs)) e0 =
    may_be_nonzero (stores T (point_of (map fst outer ++ [i]) xs)) e0).
  { induction e0; simpl; intros H; auto.
    - rewrite IHe0_1, IHe0_2; auto; intros; apply H; apply in_app_iff; auto.
    - rewrite IHe0_1, IHe0_2; auto; intros; apply H; apply in_app_iff; auto.
    - rewrite IHe0_1, IHe0_2; auto; intros; apply H; apply in_app_iff; auto. }
  rewrite M by auto. reflexivity.
Qed.
Print Assumptions C17_stored_coordinates.

(** ** C19 *)
(** The assemble kernel runs from any state.  From the state it leaves, and with
    operands of the same index and any values, the compute kernel runs and the
    result is the one of the kernel that does both at once, whatever state that
    one started from.  Computing once more changes nothing. *)
Theorem C19_assemble_then_compute :
  forall V (R : ring_ops V) fn (T T' : nat -> storage V) junkV junkI dim srt n tres outer i inner loops reduce alloc allocv
    (e : expr V) (st0 st : state V),
  admissible_sort srt -> 1 <= alloc -> 1 <= allocv ->
  supported T dim (map fst outer ++ i :: loops) e -> supported T' dim (map fst outer ++ i :: loops) e ->
  appended T dim tres outer i inner loops reduce ->
  (forall t, st_levels (T' t) = st_levels (T t)) ->
  let result := unpack_result (formats dim (outer ++ (i, KComp) :: inner)) n in
  let compute := sparse_compute R srt dim n tres (outer ++ (i, KComp) :: inner) alloc allocv reduce (map fst outer ++ i :: loops) e in
  exists st1 st2 st3 st4,
    exec R fn T junkV junkI
      (sparse_assemble R srt dim n tres (outer ++ (i, KComp) :: inner) alloc allocv reduce (map fst outer ++ [i]) e) st st1 /\
    exec R fn T' junkV junkI compute st1 st2 /\
    exec R fn T' junkV junkI compute st2 st3 /\
    exec R fn T' junkV junkI
      (sparse_kernel R srt dim n tres (outer ++ (i, KComp) :: inner) alloc allocv reduce (map fst outer ++ i :: loops) e) st0 st4 /\
    result st2 = result st4 /\ result st3 = result st4.
Proof.
  intros V R fn T T' junkV junkI dim srt n tres outer i inner loops reduce alloc allocv e st0 st SRT AL ALV SUP SUP' APP SAME result compute.
  assert (APP' : appended T' dim tres outer i inner loops reduce).
  { destruct APP. constructor; auto. intros l v H. rewrite SAME. auto. }
  destruct (assemble_top R fn T junkV junkI dim srt SRT n tres outer i inner loops reduce alloc allocv AL ALV e SUP APP st)
    as (st1 & X1 & F1 & L1).
  assert (VS : vis T dim (vs outer i inner) (m outer) origin e = vis T' dim (vs outer i inner) (m outer) origin e).
  { unfold vis. symmetry. apply visits_levels. auto. }
  assert (FS : final (vs outer i inner) (m outer) (gT T' dim (vs outer i inner) (m outer) origin e) st1).
  { intros l L C. specialize (F1 l L C). unfold gT in *. cbn [LN CR] in *. unfold tr in *.
    rewrite (build_levels T T' SAME). exact F1. }
  destruct (compute_top R fn T' junkV junkI dim srt SRT n tres outer i inner loops reduce alloc allocv AL ALV e SUP' APP' st1)
    as (st2 & X2 & F2 & L2 & U2); auto.
  { rewrite <- VS, L1. auto. }
  destruct (compute_top R fn T' junkV junkI dim srt SRT n tres outer i inner loops reduce alloc allocv AL ALV e SUP' APP' st2 F2 L2)
    as (st3 & X3 & _ & _ & U3).
  destruct (fused_top R fn T' junkV junkI dim srt SRT n tres outer i inner loops reduce alloc allocv AL ALV e SUP' APP' st0)
    as (st4 & X4 & _ & _ & U4).
  exists st1, st2, st3, st4. unfold vs in *. repeat (split; [solve [auto]|]).
  split; unfold result; congruence.
Qed.
Print Assumptions C19_assemble_then_compute.

(** ** The hypotheses hold *)
Definition Zops : ring_ops Z := mkOps Z 0%Z 1%Z Z.add Z.mul Z.sub Z.opp.
Definition ex_T (t : nat) : storage Z :=
  match t with
  | 0 => mkStorage [LDense 2; LComp [0; 0; 0] []] []
  | 1 => mkStorage [LDense 2; LComp [0; 2; 3] [0; 2; 1]] [2; 3; 5]%Z
  | 2 => mkStorage [LDense 2; LComp [0; 1; 2] [2; 0]] [7; 11]%Z
  | 3 => mkStorage [LDense 3] [10; 20; 30]%Z
  | _ => mkStorage [LComp [0; 0] []; LDense 3] []
  end.
Definition ex_dim (i : ivar) : nat := match i with 0 => 2 | _ => 3 end.
(** A(i,j) = B(i,j) + C(i,j), all in CSR. *)
Definition ex_add : expr Z := EAdd (EAcc (Acc 1 [(0, KDense); (1, KComp)])) (EAcc (Acc 2 [(0, KDense); (1, KComp)])).
Example C17_example_add :
  supported ex_T ex_dim [0; 1] ex_add /\ appended ex_T ex_dim 0 [(0, KDense)] 1 [] [] false /\ is_ring Zops /\
  admissible_sort isort.
Proof.
  split; [|split; [|split]].
  - apply supportedb_ok. vm_compute. auto.
  - constructor; simpl; auto.
    + repeat constructor; simpl; lia.
    + intros v [].
    + intros [|[|[|l]]] v H; simpl in H; inversion H; subst; auto; destruct l; discriminate.
  - exact InitialRing.Zth.
  - apply isort_admissible.
Qed.
(** A(i,j) += B(i,j) * x(k), A with a compressed and a dense level, and
    a loop over k innermost. *)
Definition ex_mul : expr Z := EMul (EAcc (Acc 1 [(0, KDense); (1, KComp)])) (EAcc (Acc 3 [(2, KDense)])).
Example C17_example_blocks :
  supported ex_T ex_dim [0; 1; 2] ex_mul /\ appended ex_T ex_dim 4 [] 0 [(1, KDense)] [1; 2] true.
Proof.
  split.
  - apply supportedb_ok. vm_compute. auto.
  - constructor; simpl; auto.
    + repeat constructor; simpl; lia.
    + intros v [<-|[]]. auto.
    + intros [|[|[|l]]] v H; simpl in H; inversion H; subst; auto; destruct l; discriminate.
    + eauto.
    + discriminate.
Qed.

(** ** A loop order the kernel gets wrong *)
(** With a reduction loop between the last compressed level and the dense levels
    below it, the values of the block are cleared again in every iteration of
    that loop (initResultArrays 3195-3280 is called for the loop of the dense
    level).  A(i,j) += B(i,k) * C(k,j), A with a compressed and a dense level,
    B in CSR, loops i, k, j: the sum over k is lost. *)
Definition bad_T (t : nat) : storage Z :=
  match t with
  | 0 => mkStorage [LComp [0; 0] []; LDense 2] []
  | 1 => mkStorage [LDense 1; LComp [0; 2] [0; 1]] [1; 1]%Z
  | _ => mkStorage [LDense 2; LDense 2] [1; 2; 3; 4]%Z
  end.
Definition bad_dim (i : ivar) : nat := match i with 0 => 1 | _ => 2 end.
Definition bad_e : expr Z := EMul (EAcc (Acc 1 [(0, KDense); (1, KComp)])) (EAcc (Acc 2 [(1, KDense); (2, KDense)])).
Definition start : state Z := St (fun _ => None) (fun _ => []) (fun _ => []).
Theorem C17_reduction_before_dense_level_refuted :
  supported bad_T bad_dim [0; 1; 2] bad_e /\
  exists st',
    exec Zops (fun _ x => x) bad_T (fun _ => 0%Z) (fun _ => 0)
      (sparse_kernel Zops isort bad_dim 9 0 [(0, KComp); (2, KDense)] 1 1 true [0; 1; 2] bad_e) start st' /\
    (let r := unpack_result (formats bad_dim [(0, KComp); (2, KDense)]) 9 st' in
     [value_at 0%Z r [0; 0]; value_at 0%Z r [0; 1]] = [3; 4]%Z) /\
    [reduction Zops (fun _ x => x) bad_T bad_dim [0; 1; 2] [0; 2] bad_e [0; 0];
     reduction Zops (fun _ x => x) bad_T bad_dim [0; 1; 2] [0; 2] bad_e [0; 1]] = [4; 6]%Z.
Proof.
  split; [apply supportedb_ok; vm_compute; auto|].
  destruct (run_obs Zops (fun _ x => x) bad_T (fun _ => 0%Z) (fun _ => 0) _ 200
    (sparse_kernel Zops isort bad_dim 9 0 [(0, KComp); (2, KDense)] 1 1 true [0; 1; 2] bad_e) start
    (fun st' => let r := unpack_result (formats bad_dim [(0, KComp); (2, KDense)]) 9 st' in
       [value_at 0%Z r [0; 0]; value_at 0%Z r [0; 1]]) [3; 4]%Z) as (st' & X & E); [vm_compute; reflexivity|].
  exists st'. split; [exact X|]. split; [exact E|]. vm_compute. reflexivity.
Qed.
Print Assumptions C17_reduction_before_dense_level_refuted.
