(** Properties C12 and C16: what lowered loop nests visit and compute. *)
From Coq Require Import List Arith Lia Bool Ring_theory.
From Coq Require Import ZArith ZArithRing.
Import ListNotations.
From Verif Require Import Outcome Storage StorageProofs IndexExpr Eval EvalProofs Lattice LatticeSpec LatticeProofs LatticeLoop LatticeIsort
  LoopIR Lower Walk LowerBase LoopRule Nest Visits KernelSpec WfCheck DenseKernel DenseKernelProofs DenseValue.
Local Open Scope nat_scope.

(** ** C12 *)
(** A body that records the loop variables: it appends the value of every
    variable of [order] to an array and counts the visits in a local. *)
Definition record_body {V} (order : list ivar) : stmt V :=
  Seq (Block (map (fun i => Seq (RszI (RBuf i) (IAdd (IVar (VLoc 0)) (ICst 1)))
                                (StI (RBuf i) (IVar (VLoc 0)) (IVar (VIdx i)))) order))
      (Asg (VLoc 0) (IAdd (IVar (VLoc 0)) (ICst 1))).
Definition record_hooks {V} (order : list ivar) : @hooks V :=
  Hooks (fun _ _ => Skip) (fun _ _ => Skip) (fun _ _ => Skip) (fun _ _ => Skip) (fun _ => record_body order).

Lemma setI_eq : forall V (st : state V) n a, ibuf (setI st n a) n = a.
Proof. intros. unfold setI. cbn [ibuf]. destruct (iname_eq_dec n n); congruence. Qed.
Lemma setI_neq : forall V (st : state V) n m a, m <> n -> ibuf (setI st n a) m = ibuf st m.
Proof. intros. unfold setI. cbn [ibuf]. destruct (iname_eq_dec m n); congruence. Qed.

Lemma record_block : forall V (R : ring_ops V) fn T junkV junkI rho k l (st : state V),
  NoDup l -> env st (VLoc 0) = Some k ->
  (forall i, In i l -> env st (VIdx i) = Some (rho i)) -> (forall i, In i l -> length (ibuf st (RBuf i)) = k) ->
  exists st', exec R fn T junkV junkI (Block (map (fun i => Seq (RszI (RBuf i) (IAdd (IVar (VLoc 0)) (ICst 1)))
                                (StI (RBuf i) (IVar (VLoc 0)) (IVar (VIdx i)))) l)) st st' /\
    env st' = env st /\ vbuf st' = vbuf st /\
    (forall i, In i l -> ibuf st' (RBuf i) = ibuf st (RBuf i) ++ [rho i : nat]) /\
    (forall i, ~ In i l -> ibuf st' (RBuf i) = ibuf st (RBuf i)).
Proof.
  induction l as [|i l IH]; intros st ND K E LEN.
  - exists st. split; [constructor|]. repeat split; auto. intros i [].
  - inversion ND; subst.
    set (st1 := setI st (RBuf i) (ibuf st (RBuf i) ++ [junkI k])).
    set (st2 := setI st1 (RBuf i) (upd_nth (ibuf st1 (RBuf i)) k (rho i))).
    assert (B1 : ibuf st1 (RBuf i) = ibuf st (RBuf i) ++ [junkI k]).
    { apply setI_eq. }
    assert (LI : length (ibuf st (RBuf i)) = k) by (apply LEN; simpl; auto).
    assert (B2 : ibuf st2 (RBuf i) = ibuf st (RBuf i) ++ [rho i]).
    { unfold st2. rewrite setI_eq, B1. generalize (junkI k). intros x. rewrite <- LI.
      generalize (ibuf st (RBuf i)). clear. intros b. induction b as [|y b IHb]; simpl; [auto|]. f_equal. auto. }
    assert (B3 : forall j, j <> i -> ibuf st2 (RBuf j) = ibuf st (RBuf j)).
    { intros j J. unfold st2, st1. rewrite !setI_neq by congruence. auto. }
    destruct (IH st2) as (st' & X & E1 & E2 & E3 & E4); auto.
    + intros j Hj. apply E. simpl; auto.
    + intros j Hj. rewrite B3; [apply LEN; simpl; auto|]. intros ->. contradiction.
    + exists st'. split; [|split; [|split; [|split]]]; auto.
      * simpl map. cbn [Block]. econstructor; [|exact X]. econstructor.
        -- assert (Y := X_rszi R fn T junkV junkI (RBuf i) (IAdd (IVar (VLoc 0)) (ICst 1)) st (S k)).
           unfold resize in Y. rewrite LI in Y. replace (S k - k) with 1 in Y by lia.
           rewrite firstn_all2 in Y by lia. apply Y. simpl. rewrite K. f_equal. lia.
        -- apply X_sti with (p := k) (u := rho i).
           ++ simpl. auto.
           ++ simpl. apply E. simpl; auto.
           ++ fold st1. rewrite B1, app_length. simpl. lia.
      * intros j [<-|Hj].
        -- rewrite E4 by auto. auto.
        -- rewrite E3 by auto. rewrite B3; auto. intros ->. contradiction.
      * intros j Hj. rewrite E4 by (simpl in Hj; tauto). apply B3. intros ->. apply Hj. simpl; auto.
Qed.

Lemma support_nonzero : forall V (T : nat -> storage V) (e : expr V) rho,
  support T e rho = match zero (missing T rho) e with Some e' => [(rho, e')] | None => [] end /\
  (zero (missing T rho) e = None <-> may_be_nonzero (stores T rho) e = false).
Proof.
  intros V T e rho. split; auto. 
  assert (M : forall a, missing T rho a = negb (stores T rho a)).
  { intros a. unfold missing, stores, coords_of. destruct (locate _ _ _); auto. }
  induction e; simpl.
  - split; discriminate.
  - rewrite M. destruct (stores T rho a); simpl; split; congruence.
  - rewrite <- IHe. destruct (zero _ e); simpl; split; congruence.
  - rewrite <- IHe. destruct (zero _ e); simpl; split; congruence.
  - rewrite orb_false_iff, <- IHe1, <- IHe2. destruct (zero _ e1), (zero _ e2); split; intuition congruence.
  - rewrite orb_false_iff, <- IHe1, <- IHe2. destruct (zero _ e1), (zero _ e2); split; intuition congruence.
  - rewrite andb_false_iff, <- IHe1, <- IHe2. destruct (zero _ e1), (zero _ e2); split; intuition congruence.
Qed.

(** The assignments at which the expression may be nonzero, in order. *)
Definition visited {V} (T : nat -> storage V) (dim : ivar -> nat) (vars : list ivar) (e : expr V) :=
  filter (fun rho => may_be_nonzero (stores T rho) e) (assignments dim vars origin).

Lemma sup_acc : forall V (T : nat -> storage V) dim vars (e : expr V), supported T dim vars e ->
  forall a, In a (accesses e) -> wf_access T dim (a_tensor a) (a_vars a) /\
     (forall pre post, vars = pre ++ post -> legal (rev pre) (a_vars a)) /\ covers vars (a_vars a).
Proof.
  intros V T dim vars e [S1 S2 S3] a Ha. apply (acc' T dim vars e S1); auto.
Qed.

(** C12: the nest of merge loops for an expression runs to completion without
    an out-of-bounds access, and its body is executed exactly once for every
    coordinate at which the expression may be nonzero, in lexicographic order. *)
Theorem C12_loops_visit_stored_coordinates :
  forall V (R : ring_ops V) fn (T : nat -> storage V) junkV junkI dim srt vars (e : expr V) (st : state V),
  admissible_sort srt -> supported T dim vars e ->
  env st (VLoc 0) = Some 0 -> (forall i, In i vars -> ibuf st (RBuf i) = []) ->
  exists st',
    exec R fn T junkV junkI (lower srt dim (record_hooks vars) vars [] e) st st' /\
    env st' (VLoc 0) = Some (length (visited T dim vars e)) /\
    forall i, In i vars -> ibuf st' (RBuf i) = map (fun rho => rho i) (visited T dim vars e).
Proof.
  intros V R fn T junkV junkI dim srt vars e st SRT SUP L0 B0.
  set (Log := fun (l : list ((ivar -> nat) * expr V)) (s : state V) =>
    env s (VLoc 0) = Some (length l) /\ forall i, In i vars -> ibuf s (RBuf i) = map (fun v => fst v i) l).
  destruct (trace_ok R fn T junkV junkI dim srt SRT (fun _ => record_body vars) Log vars)
    with (e := e) (rho0 := zeros) (st := st) as (st' & X & LG1 & LG2).
  - intros l s s' (C1 & _ & C3) [H1 H2]. split; [rewrite C3; auto|]. intros. rewrite C1. auto.
  - intros l rho e0 s [H1 H2] [AV _].
    destruct (record_block V R fn T junkV junkI rho (length l) vars s) as (s1 & X & E1 & E2 & E3 & _); auto.
    + apply SUP.
    + intros i Hi. apply AV; auto.
    + intros i Hi. rewrite H2, map_length; auto.
    + exists (setv s1 (VLoc 0) (length l + 1)). split; [|split].
      * econstructor; [exact X|]. constructor. simpl. rewrite E1, H1. auto.
      * intros v Hv. rewrite setv_neq by (intros ->; discriminate). rewrite E1. auto.
      * split; [rewrite setv_eq, app_length; auto|]. intros i Hi. simpl. rewrite E3, H2, map_app by auto. auto.
  - apply SUP.
  - apply SUP.
  - apply sup_acc; auto.
  - split; auto.
  - assert (VE : map fst (visits T dim vars zeros e) = visited T dim vars e).
    { rewrite (visits_assigns T dim vars e (sup_vars _ _ _ _ SUP)) by (apply (sup_operands _ _ _ _ SUP)).
      unfold visited. change (assignments dim vars origin) with (assigns dim vars zeros).
      induction (assigns dim vars zeros) as [|rho l IH]; auto. simpl. rewrite map_app, IH.
      destruct (support_nonzero V T e rho) as [-> NZ].
      destruct (zero (missing T rho) e) as [e'|]; destruct (may_be_nonzero (stores T rho) e); simpl; auto.
      - exfalso. destruct NZ as [_ NZ]. discriminate NZ. auto.
      - exfalso. destruct NZ as [NZ _]. discriminate NZ. auto. }
    exists st'. split; [exact X|]. rewrite <- VE. split; [rewrite map_length; auto|].
    intros i Hi. rewrite LG2, map_map; auto.
Qed.
Print Assumptions C12_loops_visit_stored_coordinates.

(** Merge loops over sparse vectors.  [crd t] is the coordinate segment of
    vector [t]: strictly increasing and below the dimension. *)
Definition sparse_vector {V} (T : nat -> storage V) (dim : nat) (crd : nat -> list nat) (t : nat) : Prop :=
  st_levels (T t) = [LComp [0; length (crd t)] (crd t)] /\
  length (st_vals (T t)) = length (crd t) /\
  (forall i j, i < j -> j < length (crd t) -> nth i (crd t) 0 < nth j (crd t) 0) /\
  (forall c, In c (crd t) -> c < dim).

Definition vec_acc (t : nat) : access := Acc t [(0, KComp)].
Fixpoint sum_of_vectors {V} (t : nat) (ts : list nat) : expr V :=
  match ts with [] => EAcc (vec_acc t) | u :: ts => EAdd (EAcc (vec_acc t)) (sum_of_vectors u ts) end.
Fixpoint product_of_vectors {V} (t : nat) (ts : list nat) : expr V :=
  match ts with [] => EAcc (vec_acc t) | u :: ts => EMul (EAcc (vec_acc t)) (product_of_vectors u ts) end.
Definition member (c : nat) (l : list nat) : bool := existsb (Nat.eqb c) l.

Lemma member_In : forall c l, member c l = true <-> In c l.
Proof.
  intros. unfold member. rewrite existsb_exists. split.
  - intros (x & H & E). apply Nat.eqb_eq in E. congruence.
  - intros H. exists c. split; auto. apply Nat.eqb_refl.
Qed.

Lemma vec_stores : forall V (T : nat -> storage V) dim crd t rho, sparse_vector T dim crd t ->
  stores T rho (vec_acc t) = member (rho 0) (crd t).
Proof.
  intros V T dim crd t rho (E & _ & S & _). unfold stores, coords_of, vec_acc. simpl. rewrite E. simpl.
  rewrite Nat.sub_0_r.
  destruct (member (rho 0) (crd t)) eqn:M.
  - apply member_In in M. apply (In_nth _ _ 0) in M. destruct M as (q & Q & EQ).
    assert (F := find_crd_sorted (crd t) 0 (length (crd t)) (rho 0) q). rewrite Nat.sub_0_r in F.
    rewrite F; auto; lia.
  - assert (F := find_crd_none (crd t) 0 (length (crd t)) (rho 0)). rewrite Nat.sub_0_r in F.
    rewrite F; auto; try lia. intros i Hi EQ. rewrite <- not_true_iff_false in M. apply M, member_In.
    rewrite <- EQ. apply nth_In. lia.
Qed.

Lemma vec_stored_as : forall V (T : nat -> storage V) dim crd t, sparse_vector T (dim 0) crd t ->
  stored_as T dim t [(0, KComp)] /\ order_fits [0] [(0, KComp)].
Proof.
  intros V T dim crd t (E & L & S & B). split.
  - split; [rewrite E; auto|]. split; [|repeat constructor; auto].
    unfold wf_storage. rewrite E. simpl. repeat split; auto.
    + intros [|p] P; [|lia]. simpl. lia.
    + intros [|p] i j P; [|lia]. simpl. auto.
    + intros i Hi. apply B, nth_In. auto.
  - split.
    + intros [|l] H; simpl in *; [auto|lia].
    + intros l1 l2 H1 H2. simpl in H2. lia.
Qed.

Lemma vectors_accesses : forall V ts t,
  accesses (@sum_of_vectors V t ts) = map vec_acc (t :: ts) /\
  accesses (@product_of_vectors V t ts) = map vec_acc (t :: ts).
Proof. induction ts; intros t; simpl; auto. destruct (IHts a) as [-> ->]. auto. Qed.

Lemma vectors_supported : forall V (T : nat -> storage V) dim crd t ts (e : expr V), NoDup (t :: ts) ->
  (forall u, In u (t :: ts) -> sparse_vector T (dim 0) crd u) -> accesses e = map vec_acc (t :: ts) ->
  supported T dim [0] e.
Proof.
  intros V T dim crd t ts e ND S E. constructor.
  - repeat constructor; auto.
  - rewrite E. apply FinFun.Injective_map_NoDup; auto. intros x y H. inversion H; auto.
  - intros a Ha. rewrite E in Ha. apply in_map_iff in Ha. destruct Ha as (u & <- & Hu).
    simpl a_tensor. simpl a_vars. eapply vec_stored_as; eauto.
Qed.

Lemma union_nonzero : forall V (st : access -> bool) ts t,
  may_be_nonzero st (@sum_of_vectors V t ts) = existsb (fun u => st (vec_acc u)) (t :: ts).
Proof. induction ts; intros t; simpl; [rewrite orb_false_r; auto|]. rewrite IHts. auto. Qed.
Lemma inter_nonzero : forall V (st : access -> bool) ts t,
  may_be_nonzero st (@product_of_vectors V t ts) = forallb (fun u => st (vec_acc u)) (t :: ts).
Proof. induction ts; intros t; simpl; [rewrite andb_true_r; auto|]. rewrite IHts. auto. Qed.

Lemma visited_vectors : forall V (T : nat -> storage V) dim (e : expr V) f,
  (forall rho, may_be_nonzero (stores T rho) e = f (rho 0)) ->
  map (fun rho => rho 0) (visited T dim [0] e) = filter f (seq 0 (dim 0)).
Proof.
  intros V T dim e f H. unfold visited. simpl assignments.
  induction (seq 0 (dim 0)) as [|c l IH]; auto. simpl. rewrite H. simpl.
  change (assign_var origin 0 c 0) with c. destruct (f c); [simpl; f_equal|]; exact IH.
Qed.

(** C12 for unions: a merge loop over any number of sparse vectors visits
    exactly the coordinates stored in one of them, increasing, each once. *)
Theorem C12_union : forall V (R : ring_ops V) fn (T : nat -> storage V) junkV junkI dim srt crd t ts (st : state V),
  admissible_sort srt -> NoDup (t :: ts) -> (forall u, In u (t :: ts) -> sparse_vector T (dim 0) crd u) ->
  env st (VLoc 0) = Some 0 -> ibuf st (RBuf 0) = [] ->
  exists st',
    exec R fn T junkV junkI (lower srt dim (record_hooks [0]) [0] [] (sum_of_vectors t ts)) st st' /\
    ibuf st' (RBuf 0) = filter (fun c => existsb (fun u => member c (crd u)) (t :: ts)) (seq 0 (dim 0)).
Proof.
  intros V R fn T junkV junkI dim srt crd t ts st SRT ND S E B.
  destruct (C12_loops_visit_stored_coordinates V R fn T junkV junkI dim srt [0] (sum_of_vectors t ts) st SRT)
    as (st' & X & _ & L); auto.
  - eapply vectors_supported; eauto. apply vectors_accesses.
  - intros i [<-|[]]. auto.
  - exists st'. split; auto. rewrite L by (simpl; auto). apply visited_vectors. intros rho.
    rewrite union_nonzero. revert S. generalize (t :: ts). induction l; simpl; intros S; auto.
    rewrite IHl by auto. f_equal. eapply vec_stores; eauto.
Qed.
Print Assumptions C12_union.

(** C12 for intersections. *)
Theorem C12_intersection : forall V (R : ring_ops V) fn (T : nat -> storage V) junkV junkI dim srt crd t ts (st : state V),
  admissible_sort srt -> NoDup (t :: ts) -> (forall u, In u (t :: ts) -> sparse_vector T (dim 0) crd u) ->
  env st (VLoc 0) = Some 0 -> ibuf st (RBuf 0) = [] ->
  exists st',
    exec R fn T junkV junkI (lower srt dim (record_hooks [0]) [0] [] (product_of_vectors t ts)) st st' /\
    ibuf st' (RBuf 0) = filter (fun c => forallb (fun u => member c (crd u)) (t :: ts)) (seq 0 (dim 0)).
Proof.
  intros V R fn T junkV junkI dim srt crd t ts st SRT ND S E B.
  destruct (C12_loops_visit_stored_coordinates V R fn T junkV junkI dim srt [0] (product_of_vectors t ts) st SRT)
    as (st' & X & _ & L); auto.
  - eapply vectors_supported; eauto. apply vectors_accesses.
  - intros i [<-|[]]. auto.
  - exists st'. split; auto. rewrite L by (simpl; auto). apply visited_vectors. intros rho.
    rewrite inter_nonzero. revert S. generalize (t :: ts). induction l; simpl; intros S; auto.
    rewrite IHl by auto. f_equal. eapply vec_stores; eauto.
Qed.
Print Assumptions C12_intersection.

Definition ex_crd (t : nat) : list nat := match t with 1 => [0; 3; 5] | 2 => [3; 4] | _ => [1; 5] end.
Definition ex_vecs (t : nat) : storage nat :=
  mkStorage [LComp [0; length (ex_crd t)] (ex_crd t)] (map S (ex_crd t)).
Example C12_example :
  (forall u, In u [1; 2; 3] -> sparse_vector ex_vecs 6 ex_crd u) /\
  admissible_sort isort /\ NoDup [1; 2; 3] /\
  filter (fun c => existsb (fun u => member c (ex_crd u)) [1; 2; 3]) (seq 0 6) = [0; 1; 3; 4; 5] /\
  filter (fun c => forallb (fun u => member c (ex_crd u)) [1; 2]) (seq 0 6) = [3].
Proof.
  split; [|split; [apply isort_admissible|split]].
  - intros u [<-|[<-|[<-|[]]]]; (split; [reflexivity|split; [reflexivity|split]]);
      try (intros c H; simpl in H; lia);
      intros [|[|[|i]]] [|[|[|j]]] H1 H2; simpl in *; lia.
  - repeat constructor; simpl; lia.
  - vm_compute. auto.
Qed.

(** ** C16 *)
(** The storage of the result after the kernel: its index is fixed, its values
    are the array the kernel filled. *)
Definition result_of {V} (T : nat -> storage V) (tres n : nat) (st : state V) : storage V :=
  mkStorage (st_levels (T tres)) (vbuf st n).

(** The kernel touches no other array. *)
Definition only_writes {V} (n : nat) (st st' : state V) : Prop :=
  ibuf st' = ibuf st /\ forall m, m <> n -> vbuf st' m = vbuf st m.

Definition all_dense (vs : list (ivar * kind)) : Prop := forall v, In v vs -> snd v = KDense.

Lemma dense_kinds : forall vs, all_dense vs -> forall l, l < length vs -> kind_at vs l = KDense.
Proof. intros vs H l L. apply H, nth_In. auto. Qed.

(** C16 for [y(lhs) += e]: the kernel that allocates and computes terminates
    with every access in bounds, and the result is the sum of [e] over the
    reduction variables at every coordinate. *)
Theorem C16_reduction_kernel :
  forall V (R : ring_ops V) fn (T : nat -> storage V) junkV junkI dim srt n tres vs vars (e : expr V) (st : state V),
  is_ring R -> (forall f, fn f (r0 R) = r0 R) -> admissible_sort srt ->
  supported T dim vars e -> stored_as T dim tres vs -> all_dense vs ->
  (forall x, In x (map fst vs) -> In x vars) ->
  exists st',
    exec R fn T junkV junkI (dense_kernel R srt dim n tres vs true vars e) st st' /\
    only_writes n st st' /\
    length (vbuf st' n) = length (st_vals (T tres)) /\
    forall xs, in_bounds dim (map fst vs) xs ->
      value_at (r0 R) (result_of T tres n st') xs = reduction R fn T dim vars (map fst vs) e xs.
Proof.
  intros V R fn T junkV junkI dim srt n tres vs vars e st HR F0 SRT SUP W D RES.
  destruct (reduce_ok R HR fn F0 T junkV junkI dim srt SRT n tres vs W (dense_kinds vs D) vars e
    (sup_vars _ _ _ _ SUP) (sup_linear _ _ _ _ SUP) (sup_operands _ _ _ _ SUP) RES st) as (st' & X & F & L & VA).
  exists st'. repeat split; auto; try apply F. intros xs [L1 B]. rewrite map_length in *.
  apply VA. split; auto. intros l Hl. specialize (B l Hl). rewrite (nth_indep (map fst vs) 0 (fst (0, KDense))) in B by (rewrite map_length; auto).
  rewrite map_nth in B. exact B.
Qed.
Print Assumptions C16_reduction_kernel.

(** The compute kernel alone, given a result of the right size. *)
Theorem C16_reduction_compute_kernel :
  forall V (R : ring_ops V) fn (T : nat -> storage V) junkV junkI dim srt n tres vs vars (e : expr V) (st : state V),
  is_ring R -> (forall f, fn f (r0 R) = r0 R) -> admissible_sort srt ->
  supported T dim vars e -> stored_as T dim tres vs -> all_dense vs ->
  (forall x, In x (map fst vs) -> In x vars) ->
  length (vbuf st n) = length (st_vals (T tres)) ->
  exists st',
    exec R fn T junkV junkI (dense_compute R srt dim n tres vs true vars e) st st' /\
    only_writes n st st' /\
    length (vbuf st' n) = length (st_vals (T tres)) /\
    forall xs, in_bounds dim (map fst vs) xs ->
      value_at (r0 R) (result_of T tres n st') xs = reduction R fn T dim vars (map fst vs) e xs.
Proof.
  intros V R fn T junkV junkI dim srt n tres vs vars e st HR F0 SRT SUP W D RES L0.
  destruct (reduce_compute_ok R HR fn F0 T junkV junkI dim srt SRT n tres vs W (dense_kinds vs D) vars e
    (sup_vars _ _ _ _ SUP) (sup_linear _ _ _ _ SUP) (sup_operands _ _ _ _ SUP) RES st L0) as (st' & X & F & L & VA).
  exists st'. repeat split; auto; try apply F. intros xs [L1 B]. rewrite map_length in *.
  apply VA. split; auto. intros l Hl. specialize (B l Hl). rewrite (nth_indep (map fst vs) 0 (fst (0, KDense))) in B by (rewrite map_length; auto).
  rewrite map_nth in B. exact B.
Qed.
Print Assumptions C16_reduction_compute_kernel.

(** C16 for [y(lhs) = e], where every loop variable occurs on the left: the
    result holds the value of [e] at every coordinate. *)
Theorem C16_assignment_kernel :
  forall V (R : ring_ops V) fn (T : nat -> storage V) junkV junkI dim srt n tres vs vars (e : expr V) (st : state V),
  is_ring R -> (forall f, fn f (r0 R) = r0 R) -> admissible_sort srt ->
  supported T dim vars e -> stored_as T dim tres vs -> all_dense vs ->
  (forall x, In x (map fst vs) <-> In x vars) ->
  exists st',
    exec R fn T junkV junkI (dense_kernel R srt dim n tres vs false vars e) st st' /\
    only_writes n st st' /\
    length (vbuf st' n) = length (st_vals (T tres)) /\
    forall rho, (forall v, In v (map fst vs) -> rho v < dim v) ->
      value_at (r0 R) (result_of T tres n st') (coords_of rho vs) = eval R fn (operand_value R T rho) e.
Proof.
  intros V R fn T junkV junkI dim srt n tres vs vars e st HR F0 SRT SUP W D RES.
  destruct (assign_ok R HR fn F0 T junkV junkI dim srt SRT n tres vs W (dense_kinds vs D) vars e
    (sup_vars _ _ _ _ SUP) (sup_linear _ _ _ _ SUP) (sup_operands _ _ _ _ SUP)
    (fun x => proj1 (RES x)) (fun x => proj2 (RES x)) st) as (st' & X & F & L & VA).
  exists st'. repeat split; auto; try apply F.
Qed.
Print Assumptions C16_assignment_kernel.

Theorem C16_assignment_compute_kernel :
  forall V (R : ring_ops V) fn (T : nat -> storage V) junkV junkI dim srt n tres vs vars (e : expr V) (st : state V),
  is_ring R -> (forall f, fn f (r0 R) = r0 R) -> admissible_sort srt ->
  supported T dim vars e -> stored_as T dim tres vs -> all_dense vs ->
  (forall x, In x (map fst vs) <-> In x vars) ->
  length (vbuf st n) = length (st_vals (T tres)) ->
  exists st',
    exec R fn T junkV junkI (dense_compute R srt dim n tres vs false vars e) st st' /\
    only_writes n st st' /\
    length (vbuf st' n) = length (st_vals (T tres)) /\
    forall rho, (forall v, In v (map fst vs) -> rho v < dim v) ->
      value_at (r0 R) (result_of T tres n st') (coords_of rho vs) = eval R fn (operand_value R T rho) e.
Proof.
  intros V R fn T junkV junkI dim srt n tres vs vars e st HR F0 SRT SUP W D RES L0.
  destruct (assign_compute_ok R HR fn F0 T junkV junkI dim srt SRT n tres vs W (dense_kinds vs D) vars e
    (sup_vars _ _ _ _ SUP) (sup_linear _ _ _ _ SUP) (sup_operands _ _ _ _ SUP)
    (fun x => proj1 (RES x)) (fun x => proj2 (RES x)) st L0) as (st' & X & F & L & VA).
  exists st'. repeat split; auto; try apply F.
Qed.
Print Assumptions C16_assignment_compute_kernel.

(** An execution determines its final state, so these are the only results. *)
Theorem C16_kernel_deterministic :
  forall V (R : ring_ops V) fn (T : nat -> storage V) junkV junkI (s : stmt V) st st1 st2,
  exec R fn T junkV junkI s st st1 -> exec R fn T junkV junkI s st st2 -> st1 = st2.
Proof. intros. eapply exec_det; eauto. Qed.
Print Assumptions C16_kernel_deterministic.

(** The hypotheses hold for y(i) += A(i,j) * x(j) with A in CSR. *)
Definition spmv_T (t : nat) : storage Z :=
  match t with
  | 0 => mkStorage [LDense 2] [0; 0]%Z
  | 1 => mkStorage [LDense 2; LComp [0; 2; 3] [0; 2; 1]] [2; 3; 5]%Z
  | _ => mkStorage [LDense 3] [10; 20; 30]%Z
  end.
Definition spmv_dim (i : ivar) : nat := match i with 0 => 2 | _ => 3 end.
Definition spmv_e : expr Z := EMul (EAcc (Acc 1 [(0, KDense); (1, KComp)])) (EAcc (Acc 2 [(1, KDense)])).
Definition Zops : ring_ops Z := mkOps Z 0%Z 1%Z Z.add Z.mul Z.sub Z.opp.
Example C16_example :
  supported spmv_T spmv_dim [0; 1] spmv_e /\ stored_as spmv_T spmv_dim 0 [(0, KDense)] /\
  all_dense [(0, KDense)] /\ is_ring Zops /\
  map (fun i => reduction Zops (fun _ x => x) spmv_T spmv_dim [0; 1] [0] spmv_e [i]) [0; 1] = [110; 100]%Z.
Proof.
  split; [|split; [|split; [|split]]].
  - apply supportedb_ok. vm_compute. auto.
  - apply stored_asb_ok. vm_compute. auto.
  - intros v [<-|[]]. auto.
  - exact InitialRing.Zth.
  - vm_compute. auto.
Qed.
