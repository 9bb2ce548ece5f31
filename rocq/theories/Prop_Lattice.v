(** C14 (merge lattices) and the expression part of C22 (zeroing). *)
From Coq Require Import List Arith Bool ZArith Permutation Sorted InitialRing.
Import ListNotations.
From Verif Require Import Storage IndexExpr Lattice LatticeSpec LatticeProofs LatticeLoop LatticeIsort Eval EvalProofs.

(** The first merge point that applies at a coordinate computes the expression
    with exactly the absent operands removed, and no point applies exactly when
    nothing is left of the expression. *)
Theorem C14_case_exact : forall V srt i (e : expr V) here,
  admissible_sort srt -> NoDup (accesses e) ->
  match find (applies here) (makeLattice srt i e) with
  | Some p => zero (exhaustedAccess (makeLattice srt i e) p) e = restrict i here e
              /\ restrict i here e <> None
  | None => restrict i here e = None
  end.
Proof.
  intros. apply case_exact; auto. apply loopsem_of_sem, sem_build; auto.
Qed.
Print Assumptions C14_case_exact.

(** [live] are the operands that still have coordinates left, [here] those
    stored at the coordinate being visited.  The loop generated for the first
    point that applies to [live] has, among the cases of its sub-lattice, the
    right one for [here]: it applies to [here] iff something has to be
    computed, and the twice zeroed statement is the restricted expression. *)
Theorem C14_loop_cases : forall V srt i (e : expr V) live here lp,
  admissible_sort srt -> NoDup (accesses e) ->
  let L := makeLattice srt i e in
  find (applies live) L = Some lp ->
  (forall a, here a = true -> live a = true) ->
  match find (applies here) (subLattice L lp) with
  | Some p => match zero (exhaustedAccess L lp) e with
              | Some e' => zero (exhaustedAccess (subLattice L lp) p) e'
              | None => None
              end = restrict i here e
              /\ restrict i here e <> None
  | None => restrict i here e = None
  end.
Proof.
  intros V srt i e live here lp HS ND L F I.
  assert (LS : loopsem i e L) by (apply loopsem_of_sem, sem_build; auto).
  assert (C := case_exact i e L LS ND here).
  assert (E := sub_cases i e L LS live here lp F I). rewrite E.
  destruct (find (applies here) L) as [p|] eqn:Fp; [|exact C].
  split; [|apply C]. apply (sub_zero i e L LS ND live here lp p F I). congruence.
Qed.
Print Assumptions C14_loop_cases.

(** If the lattice of a loop is exact then a case applies at every coordinate
    the loop visits (one that some iterator of the loop has), so the last case
    needs no test. *)
Theorem C14_exact : forall V srt i (e : expr V) lp here,
  admissible_sort srt -> NoDup (accesses e) ->
  In lp (makeLattice srt i e) ->
  let S := subLattice (makeLattice srt i e) lp in
  exact S = true ->
  (exists it, In it (p_iters lp) /\ match it with Dim => True | Lev a _ => here a = true end) ->
  find (applies here) S <> None.
Proof.
  intros V srt i e lp here HS ND Hlp S HE X.
  assert (LS : loopsem i e (makeLattice srt i e)) by (apply loopsem_of_sem, sem_build; auto).
  apply exact_covers with (i := i) (acs := accesses e); auto.
  - intros p Hp. apply (ls_wf _ _ _ LS). apply filter_In in Hp. apply Hp.
  - unfold lat_iters, S. rewrite (sub_first i e _ LS); auto.
Qed.
Print Assumptions C14_exact.

(** Finding: operands are identified by their content, so an expression that
    uses an operand twice loses merge points: in [x(i) + (x(i)*b(i) + c(i))]
    with sparse vectors, where x and c are stored but b is not, the selected
    case computes something else than x + c (the sort below is the stable
    insertion sort std::sort performs on fewer than 16 points). *)
Definition vec (t : nat) : access := Acc t [(0, KComp)].
Theorem C14_repeated_operand_refuted :
  exists (e : expr Z) srt here p env,
    admissible_sort srt /\
    (forall a, absent 0 here a = true -> env a = 0%Z) /\
    find (applies here) (makeLattice srt 0 e) = Some p /\
    oeval (mkOps Z 0 1 Z.add Z.mul Z.sub Z.opp)%Z (fun _ v => v) env
          (zero (exhaustedAccess (makeLattice srt 0 e) p) e) <>
    eval (mkOps Z 0 1 Z.add Z.mul Z.sub Z.opp)%Z (fun _ v => v) env e.
Proof.
  exists (EAdd (EAcc (vec 1)) (EAdd (EMul (EAcc (vec 1)) (EAcc (vec 2))) (EAcc (vec 3)))).
  exists isort.
  exists (fun a => negb (a_tensor a =? 2)).
  eexists. exists (fun a => if a_tensor a =? 2 then 0%Z else if negb (compressed 0 a) then 0%Z else 5%Z).
  split; [apply isort_admissible|]. split; [|split].
  - intros [t vs]. unfold absent. simpl. destruct (t =? 2); simpl; auto.
    rewrite andb_false_r. discriminate.
  - vm_compute. reflexivity.
  - vm_compute. discriminate.
Qed.
Print Assumptions C14_repeated_operand_refuted.

(** C22, expressions: zeroing operands that are zero keeps the value. *)
Theorem C22_zero_expr : forall V (R : ring_ops V) fn (e : expr V) z env,
  is_ring R -> (forall f, fn f (r0 R) = r0 R) ->
  (forall a, In a (accesses e) -> z a = true -> env a = r0 R) ->
  oeval R fn env (zero z e) = eval R fn env e.
Proof. intros. apply zero_eval; auto. Qed.
Print Assumptions C22_zero_expr.

(** C14 in terms of values: at every coordinate the case that is selected
    computes the value of the whole expression. *)
Theorem C14_case_value : forall V (R : ring_ops V) fn srt i (e : expr V) here env,
  is_ring R -> (forall f, fn f (r0 R) = r0 R) ->
  admissible_sort srt -> NoDup (accesses e) ->
  (forall a, In a (accesses e) -> absent i here a = true -> env a = r0 R) ->
  match find (applies here) (makeLattice srt i e) with
  | Some p => oeval R fn env (zero (exhaustedAccess (makeLattice srt i e) p) e)
  | None => r0 R
  end = eval R fn env e.
Proof.
  intros V R fn srt i e here env HR F0 HS ND HZ.
  assert (C := C14_case_exact V srt i e here HS ND).
  rewrite <- (zero_eval R HR fn F0 e (absent i here) env HZ).
  destruct (find (applies here) (makeLattice srt i e)); [destruct C as [-> _] | unfold restrict in C; rewrite C];
    reflexivity.
Qed.
Print Assumptions C14_case_value.

(** The hypotheses are met by a non-trivial case: b(i)*c(i) + d(i) with b, d
    sparse and c dense has the points {b,d | c}, {b | c}, {d}; with b and d
    stored the first is chosen. *)
Example C14_example :
  let b := vec 1 in let c := Acc 2 [(0, KDense)] in let d := vec 3 in
  let e := EAdd (EMul (EAcc b) (EAcc c)) (EAcc d) : expr Z in
  admissible_sort isort /\ NoDup (accesses e) /\
  makeLattice isort 0 e =
    [Pt [Lev b 0; Lev d 0] [Lev c 0]; Pt [Lev b 0] [Lev c 0]; Pt [Lev d 0] []] /\
  find (applies (fun _ => true)) (makeLattice isort 0 e) = Some (Pt [Lev b 0; Lev d 0] [Lev c 0]) /\
  zero (exhaustedAccess (makeLattice isort 0 e) (Pt [Lev d 0] [])) e = Some (EAcc d).
Proof.
  split; [apply isort_admissible|]. split.
  - simpl. repeat constructor; simpl; intuition discriminate.
  - vm_compute. auto.
Qed.
