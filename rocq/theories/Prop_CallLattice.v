(** C74: loops over the operands of calls. *)
From Coq Require Import List Arith Bool ZArith Permutation Sorted Lia InitialRing.
Import ListNotations.
From Verif Require Import Storage IndexExpr Lattice LatticeSpec LatticeIsort Eval.
From Verif Require Import Intrinsics IntrinsicsProofs CallLattice CallLatticeSpec CallLatticeProofs.

(** The loop has a case for a coordinate exactly when the operands that are absent
    there do not show that the expression is zero: for a call, unless all arguments
    of one of its declared sets are. *)
Theorem C74_visited : forall F V declared srt i (e : cexpr F V) here, inhabited V ->
  tidy_declarations declared -> admissible_sort srt -> NoDup (operands e) ->
  find (applies here) (cmake declared srt i e) <> None <-> needed declared i here e = true.
Proof.
  intros F V declared srt i e here [v] T HS ND.
  pose (R := mkOps V v v (fun _ _ => v) (fun _ _ => v) (fun _ _ => v) (fun _ => v)).
  exact (visited R declared T i srt HS e ND here).
Qed.
Print Assumptions C74_visited.

(** The case of a coordinate computes the value of the whole expression there, and
    the expression is zero where there is no case. *)
Theorem C74_value : forall F V (R : ring_ops V) value declared srt i (e : cexpr F V) here env,
  is_ring R -> true_declarations R value declared -> tidy_declarations declared ->
  admissible_sort srt -> NoDup (operands e) ->
  (forall a, In a (operands e) -> absent i here a = true -> env a = r0 R) ->
  let L := cmake declared srt i e in
  match find (applies here) L with
  | Some p => oceval R value env (czero (r0 R) declared (exhaustedAccess L p) e)
  | None => r0 R
  end = ceval R value env e.
Proof. intros F V R value declared srt i e here env HR TR TI HS ND Z. apply case_value; auto. Qed.
Print Assumptions C74_value.

(** The same for the loops the code runs: [live] are the operands that have
    coordinates left; the loop for them is over the points below the first that
    applies, and its cases are made of what is left of the expression there. *)
Theorem C74_loops : forall F V (R : ring_ops V) value declared srt i (e : cexpr F V) live here env lp,
  is_ring R -> true_declarations R value declared -> tidy_declarations declared ->
  admissible_sort srt -> NoDup (operands e) ->
  let L := cmake declared srt i e in
  find (applies live) L = Some lp -> (forall a, here a = true -> live a = true) ->
  (forall a, In a (operands e) -> absent i here a = true -> env a = r0 R) ->
  match find (applies here) (subLattice L lp) with
  | Some p =>
      match czero (r0 R) declared (exhaustedAccess L lp) e with
      | Some e' => oceval R value env (czero (r0 R) declared (exhaustedAccess (subLattice L lp) p) e')
      | None => r0 R
      end
  | None => r0 R
  end = ceval R value env e.
Proof. intros. eapply loop_value; eauto. Qed.
Print Assumptions C74_loops.

(** Removing operands that are zero from an expression with calls keeps its value,
    also when operands of several calls are removed and whatever is repeated. *)
Theorem C74_zeroing : forall F V (R : ring_ops V) value declared (e : cexpr F V) z env,
  is_ring R -> true_declarations R value declared -> tidy_declarations declared ->
  (forall a, In a (operands e) -> z a = true -> env a = r0 R) ->
  oceval R value env (czero (r0 R) declared z e) = ceval R value env e.
Proof.
  intros F V R value declared e z env HR TR TI Z. rewrite czero_eval by auto.
  apply ceval_ext. intros a Ha. unfold mask. destruct (z a) eqn:E; auto. symmetry; auto.
Qed.
Print Assumptions C74_zeroing.

(** ** The functions of the library, on signed integers *)
Definition Zops := mkOps Z 0%Z 1%Z Z.add Z.mul Z.sub Z.opp.
Definition library_sets (f : intrinsic) (lits : list (option Z)) : list (list nat) :=
  match zeroPreservingArgs Zsign f KInt lits with Some s => s | None => [] end.
(** A call without a value counts as zero: mod by zero (C32_mod_refuted) and the
    functions that are not for integers. *)
Definition library_value (f : intrinsic) (vals : list Z) : Z :=
  match int_value f KInt vals with Some v => v | None => 0%Z end.

Lemma library_true : true_declarations Zops library_value library_sets.
Proof.
  intros f lits vals S HS FT Z. unfold library_sets in HS. unfold library_value.
  destruct (zeroPreservingArgs Zsign f KInt lits) as [sets|] eqn:E; [|destruct HS].
  destruct (for_integers f) eqn:FI.
  - destruct f; try discriminate;
      try (rewrite (int_zero_preserving _ KInt _ _ _ _ ltac:(discriminate) E HS FT Z ltac:(discriminate) FI ltac:(discriminate)); reflexivity).
    destruct vals as [|a [|b [|c t]]]; try reflexivity. simpl.
    destruct (b =? 0)%Z eqn:B; [reflexivity|]. apply Z.eqb_neq in B.
    assert (X := int_zero_preserving IMod KInt _ _ _ _ ltac:(discriminate) E HS FT Z ltac:(discriminate) FI (fun _ => B)).
    simpl in X. apply Z.eqb_neq in B. rewrite B in X. congruence.
  - destruct f; try discriminate; reflexivity.
Qed.

Lemma library_tidy : tidy_declarations library_sets.
Proof.
  assert (G0 : forall n, NoDup (concat (@nil (list nat))) /\
     (forall S, In S (@nil (list nat)) -> S <> [] /\ forall k, In k S -> k < n))
    by (intros; split; [constructor | intros S []]).
  assert (G1 : forall n m, n < m -> NoDup (concat [[n]]) /\
     (forall S, In S [[n]] -> S <> [] /\ forall k, In k S -> k < m)).
  { intros n m H. split; [repeat constructor; simpl; tauto|]. intros S [<-|[]]. split; [discriminate|]. intros k [<-|[]]; auto. }
  assert (G2 : NoDup (concat [[0; 1]]) /\ (forall S, In S [[0; 1]] -> S <> [] /\ forall k, In k S -> k < 2)).
  { split; [repeat constructor; simpl; intuition lia|]. intros S [<-|[]]. split; [discriminate|]. intros k [<-|[<-|[]]]; lia. }
  assert (G3 : NoDup (concat [[0]; [1]]) /\ (forall S, In S [[0]; [1]] -> S <> [] /\ forall k, In k S -> k < 2)).
  { split; [repeat constructor; simpl; intuition lia|].
    intros S [<-|[<-|[]]]; (split; [discriminate|]); intros k [<-|[]]; lia. }
  intros f lits. unfold library_sets.
  destruct f, lits as [|a [|b [|c t]]]; cbn [zeroPreservingArgs length]; auto;
    repeat match goal with |- context [if ?b then _ else _] => destruct b end; auto; apply G1; lia.
Qed.

Theorem C74_library : forall srt i (e : cexpr intrinsic Z) here env,
  admissible_sort srt -> NoDup (operands e) ->
  (forall a, In a (operands e) -> absent i here a = true -> env a = 0%Z) ->
  let L := cmake library_sets srt i e in
  match find (applies here) L with
  | Some p => oceval Zops library_value env (czero 0%Z library_sets (exhaustedAccess L p) e)
  | None => 0%Z
  end = ceval Zops library_value env e.
Proof.
  intros srt i e here env HS ND Z.
  apply (C74_value _ _ Zops library_value library_sets srt i e here env); auto.
  - exact Zth.
  - exact library_true.
  - exact library_tidy.
Qed.
Print Assumptions C74_library.

(** Finding: what pow declares is not true of zero to the power of zero (C32), so a
    loop over the operands of pow(A, B) does not visit the coordinates where both are
    absent, although the value there is one. *)
Theorem C74_pow_refuted : exists (e : cexpr intrinsic Z) here env,
  (forall a, In a (operands e) -> absent 0 here a = true -> env a = 0%Z) /\
  NoDup (operands e) /\
  find (applies here) (cmake library_sets isort 0 e) = None /\
  ceval Zops (fun _ vals => (nth 0 vals 0 ^ nth 1 vals 0)%Z) env e = 1%Z.
Proof.
  exists (CCall IPow [CAcc (Acc 1 [(0, KComp)]); CAcc (Acc 2 [(0, KComp)])]), (fun _ => false), (fun _ => 0%Z).
  split; [auto|]. split; [repeat constructor; simpl; intuition discriminate|]. split; vm_compute; reflexivity.
Qed.
Print Assumptions C74_pow_refuted.

(** max(A, B) + (C < 3): where only A is stored the case keeps the call of max with
    a zero and the comparison with a zero. *)
Example C74_example :
  let A := Acc 1 [(0, KComp)] in let B := Acc 2 [(0, KComp)] in let C := Acc 3 [(0, KComp)] in
  let e := CAdd (CCall IMax [CAcc A; CAcc B]) (CCall ILt [CAcc C; CLit 3%Z]) in
  let L := cmake library_sets isort 0 e in
  let here a := a_tensor a =? 1 in
  NoDup (operands e) /\
  match find (applies here) L with
  | Some p => czero 0%Z library_sets (exhaustedAccess L p) e =
                Some (CAdd (CCall IMax [CAcc A; CLit 0%Z]) (CCall ILt [CLit 0%Z; CLit 3%Z]))
  | None => False
  end.
Proof.
  cbv zeta. split; [repeat constructor; simpl; intuition discriminate|]. vm_compute. reflexivity.
Qed.

(** max(A, B) alone is not visited where neither is stored, and with only B stored
    it is still a call. *)
Example C74_example_max :
  let A := Acc 1 [(0, KComp)] in let B := Acc 2 [(0, KComp)] in
  let e := CCall IMax [CAcc A; CAcc B] in
  let L := cmake library_sets isort 0 e in
  find (applies (fun _ => false)) L = None /\
  match find (applies (fun a => a_tensor a =? 2)) L with
  | Some p => czero 0%Z library_sets (exhaustedAccess L p) e = Some (CCall IMax [CLit 0%Z; CAcc B])
  | None => False
  end.
Proof. cbv zeta. split; vm_compute; reflexivity. Qed.
