From Coq Require Import List Arith Bool Permutation Sorted Lia Setoid Ring Ring_theory InitialRing.
Import ListNotations.
From Verif Require Import Storage IndexExpr Lattice LatticeSpec LatticeProofs LatticeLoop Eval EvalProofs CallLattice CallLatticeSpec.

Section Ind.
Context {F V : Type}.
Variable P : cexpr F V -> Prop.
Hypothesis HL : forall v, P (CLit v).
Hypothesis HA : forall a, P (CAcc a).
Hypothesis HN : forall e, P e -> P (CNeg e).
Hypothesis HAdd : forall e1 e2, P e1 -> P e2 -> P (CAdd e1 e2).
Hypothesis HSub : forall e1 e2, P e1 -> P e2 -> P (CSub e1 e2).
Hypothesis HMul : forall e1 e2, P e1 -> P e2 -> P (CMul e1 e2).
Hypothesis HC : forall f args, Forall P args -> P (CCall f args).
Fixpoint cexpr_ind' (e : cexpr F V) : P e :=
  match e with
  | CLit v => HL v
  | CAcc a => HA a
  | CNeg e => HN e (cexpr_ind' e)
  | CAdd a b => HAdd a b (cexpr_ind' a) (cexpr_ind' b)
  | CSub a b => HSub a b (cexpr_ind' a) (cexpr_ind' b)
  | CMul a b => HMul a b (cexpr_ind' a) (cexpr_ind' b)
  | CCall f args => HC f args ((fix go l : Forall P l := match l with
      | [] => Forall_nil _ | x :: t => Forall_cons _ (cexpr_ind' x) (go t) end) args)
  end.
End Ind.

Lemma among_In : forall k l, among k l = true <-> In k l.
Proof.
  intros. unfold among. rewrite existsb_exists. split.
  - intros (x & H & E). apply Nat.eqb_eq in E. subst. auto.
  - intros. exists k. split; auto. apply Nat.eqb_refl.
Qed.

Lemma fold_if : forall (A : Type) (g : A -> nat -> A) (b : nat -> bool) (ks : list nat) (a : A),
  fold_left (fun l k => if b k then l else g l k) ks a = fold_left g (filter (fun k => negb (b k)) ks) a.
Proof. induction ks; simpl; intros; auto. rewrite IHks. destruct (b a); reflexivity. Qed.

Lemma map_nth_seq : forall A (l : list A) d, map (fun k => nth k l d) (seq 0 (length l)) = l.
Proof.
  intros A l d. induction l; simpl; auto. f_equal. rewrite <- seq_shift, map_map. exact IHl.
Qed.

Lemma flat_map_nth_seq : forall A B (g : A -> list B) (l : list A) d,
  flat_map (fun k => g (nth k l d)) (seq 0 (length l)) = flat_map g l.
Proof.
  intros. rewrite <- (map_nth_seq A l d) at 2. rewrite !flat_map_concat_map, map_map. reflexivity.
Qed.

Lemma Perm_flat_map : forall A B (g : A -> list B) l l', Permutation l l' -> Permutation (flat_map g l) (flat_map g l').
Proof.
  intros A B g l l' H. induction H; simpl; auto.
  - apply Permutation_app_head; auto.
  - rewrite !app_assoc. apply Permutation_app_tail, Permutation_app_comm.
  - eapply Permutation_trans; eauto.
Qed.

Section Proofs.
Context {F V : Type}.
Variable R : ring_ops V.
Variable value : F -> list V -> V.
Variable declared : F -> list (option V) -> list (list nat).
Hypothesis HR : is_ring R.
Hypothesis TRUE : true_declarations R value declared.
Hypothesis TIDY : tidy_declarations declared.
Let RT : ring_theory (r0 R) (r1 R) (radd R) (rmul R) (rsub R) (ropp R) eq := HR.
Add Ring Rr : RT.

Notation z0 := (ELit (r0 R)).

(* ------------------------------------------------------------ the expression
   of additions and multiplications with the lattice of an expression with calls *)
Definition shU (shs : list (expr V)) (S : list nat) : expr V :=
  match S with
  | [] => z0
  | k :: t => fold_left (fun l k => EAdd l (nth k shs z0)) t (nth k shs z0)
  end.
Definition others (m : list nat) n := filter (fun k => negb (among k m)) (seq 0 n).
Definition shO (m : list nat) (shs : list (expr V)) : expr V :=
  fold_left (fun l k => EAdd l (nth k shs z0)) (others m (length shs)) z0.
Definition shcall (sets : list (list nat)) (shs : list (expr V)) : expr V :=
  fold_left (fun l S => EMul l (shU shs S)) sets (shO (concat sets) shs).
Fixpoint sh (e : cexpr F V) : expr V :=
  match e with
  | CLit v => ELit v
  | CAcc a => EAcc a
  | CNeg e => ENeg (sh e)
  | CAdd a b => EAdd (sh a) (sh b)
  | CSub a b => ESub (sh a) (sh b)
  | CMul a b => EMul (sh a) (sh b)
  | CCall f args => shcall (declared f (map literal args)) (map sh args)
  end.

Definition tidy (sets : list (list nat)) n :=
  NoDup (concat sets) /\ (forall S, In S sets -> S <> [] /\ forall k, In k S -> k < n).

Lemma acc_addf : forall shs ks l,
  accesses (fold_left (fun l k => EAdd l (nth k shs z0)) ks l) =
  accesses l ++ flat_map (fun k => accesses (nth k shs z0)) ks.
Proof.
  induction ks; simpl; intros l; [rewrite app_nil_r; auto|].
  rewrite IHks. simpl. rewrite app_assoc. auto.
Qed.
Lemma acc_shU : forall shs S, accesses (shU shs S) = flat_map (fun k => accesses (nth k shs z0)) S.
Proof. intros shs [|k t]; simpl; auto. apply acc_addf. Qed.
Lemma acc_mulf : forall shs sets l,
  accesses (fold_left (fun l S => EMul l (shU shs S)) sets l) =
  accesses l ++ flat_map (fun k => accesses (nth k shs z0)) (concat sets).
Proof.
  induction sets as [|S sets IH]; simpl; intros l; [rewrite app_nil_r; auto|].
  rewrite IH. simpl. rewrite acc_shU, flat_map_app, app_assoc. auto.
Qed.
Lemma acc_shcall : forall sets shs,
  accesses (shcall sets shs) =
  flat_map (fun k => accesses (nth k shs z0)) (others (concat sets) (length shs) ++ concat sets).
Proof. intros. unfold shcall. rewrite acc_mulf. unfold shO. rewrite acc_addf, flat_map_app. reflexivity. Qed.

Lemma others_perm : forall sets n, tidy sets n ->
  Permutation (others (concat sets) n ++ concat sets) (seq 0 n).
Proof.
  intros sets n [ND T]. apply NoDup_Permutation.
  - apply NoDup_app_intro; auto.
    + apply NoDup_filter, seq_NoDup.
    + intros k H. unfold others in H. rewrite filter_In, negb_true_iff in H. destruct H as [_ H].
      intros X. apply among_In in X. congruence.
  - apply seq_NoDup.
  - intros k. rewrite in_app_iff. unfold others. rewrite filter_In, negb_true_iff, in_seq.
    split.
    + intros [[H _]|H]; auto. apply in_concat in H. destruct H as (S & HS & Hk).
      destruct (T S HS) as [_ B]. specialize (B k Hk). lia.
    + intros H. destruct (among k (concat sets)) eqn:A; [right; apply among_In; auto | left; split; auto].
Qed.

Lemma tidy_of : forall f args, tidy (declared f (map literal args)) (length (map sh args)).
Proof.
  intros. destruct (TIDY f (map literal args)) as [A B]. rewrite map_length in *. split; auto.
Qed.

Lemma sh_operands : forall e, Permutation (accesses (sh e)) (operands e).
Proof.
  induction e using cexpr_ind'; simpl; auto using Permutation_app.
  rewrite acc_shcall.
  eapply Permutation_trans; [apply Perm_flat_map, others_perm, tidy_of|].
  rewrite flat_map_nth_seq.
  induction H; simpl; auto. apply Permutation_app; auto.
Qed.

(* ------------------------------------------------------------ lattices *)
Section Lat.
Variable i : ivar.
Variable srt : list point -> list point.
Hypothesis Hsrt : admissible_sort srt.

Lemma unionNode_ne : forall e1 e2 L1 L2, @sem V i e1 L1 -> @sem V i e2 L2 -> unionLattices srt L1 L2 = unionNode srt L1 L2.
Proof.
  intros e1 e2 L1 L2 S1 S2. assert (N1 := sem_nonempty _ _ _ S1). assert (N2 := sem_nonempty _ _ _ S2).
  destruct L1, L2; simpl; congruence.
Qed.
Lemma intersectNode_ne : forall e1 e2 L1 L2, @sem V i e1 L1 -> @sem V i e2 L2 -> intersectLattices srt L1 L2 = intersectNode srt L1 L2.
Proof.
  intros e1 e2 L1 L2 S1 S2. assert (N1 := sem_nonempty _ _ _ S1). assert (N2 := sem_nonempty _ _ _ S2).
  destruct L1, L2; simpl; congruence.
Qed.

Lemma union_nil : forall e L, @sem V i e L -> sem i e (unionLattices srt [] L).
Proof.
  intros e L S.
  assert (E : srt [] = []). { destruct (Hsrt []) as [P _]. apply Permutation_nil in P. auto. }
  unfold unionLattices. rewrite E. simpl.
  assert (X : sem i e (removeDuplicatedTensorRegions (srt L))).
  { apply sem_dedup; auto. destruct S. constructor; auto. }
  rewrite (moveLocateSubset_id i e _ X). auto.
Qed.

Lemma sem_addf : forall shs Ls ks l L, sem i l L ->
  (forall k, In k ks -> sem i (nth k shs z0) (nth k Ls [])) ->
  NoDup (accesses l ++ flat_map (fun k => accesses (nth k shs z0)) ks) ->
  sem i (fold_left (fun l k => EAdd l (nth k shs z0)) ks l)
        (fold_left (fun l k => unionLattices srt l (nth k Ls [])) ks L).
Proof.
  induction ks as [|k ks IH]; simpl; intros l L S H ND; auto.
  apply IH; auto.
  - rewrite (unionNode_ne l (nth k shs z0)); auto.
    eapply sem_union; try reflexivity; auto.
    rewrite app_assoc in ND. apply NoDup_app_inv in ND. destruct ND as (ND & _).
    apply NoDup_app_inv in ND. apply ND.
  - simpl. rewrite <- app_assoc. auto.
Qed.

Lemma sem_shU : forall shs Ls S, S <> [] ->
  (forall k, In k S -> sem i (nth k shs z0) (nth k Ls [])) ->
  NoDup (flat_map (fun k => accesses (nth k shs z0)) S) ->
  sem i (shU shs S) (unionArgs srt Ls S).
Proof.
  intros shs Ls [|k t] N H ND; [congruence|]. unfold shU, unionArgs. simpl.
  apply sem_addf; auto.
  - apply union_nil. apply H. left; auto.
  - intros; apply H; right; auto.
Qed.

Lemma sem_mulf : forall shs Ls sets l L, sem i l L ->
  (forall S, In S sets -> S <> []) ->
  (forall k, In k (concat sets) -> sem i (nth k shs z0) (nth k Ls [])) ->
  NoDup (accesses l ++ flat_map (fun k => accesses (nth k shs z0)) (concat sets)) ->
  sem i (fold_left (fun l S => EMul l (shU shs S)) sets l)
        (fold_left (fun l S => intersectLattices srt l (unionArgs srt Ls S)) sets L).
Proof.
  induction sets as [|S sets IH]; simpl; intros l L S0 NE H ND; auto.
  rewrite flat_map_app, app_assoc in ND.
  assert (ND' := ND). apply NoDup_app_inv in ND'. destruct ND' as (N1 & _).
  apply NoDup_app_inv in N1. destruct N1 as (Nl & NS & DJ).
  assert (SU : sem i (shU shs S) (unionArgs srt Ls S)).
  { apply sem_shU; auto. intros; apply H, in_app_iff; auto. }
  apply IH; auto.
  - rewrite (intersectNode_ne l (shU shs S)); auto.
    eapply sem_intersect; try reflexivity; auto. intros a Ha. rewrite acc_shU. auto.
  - intros; apply H, in_app_iff; auto.
  - simpl. rewrite acc_shU. auto.
Qed.

Lemma sem_call : forall sets shs Ls, length Ls = length shs -> tidy sets (length shs) ->
  (forall k, k < length shs -> sem i (nth k shs z0) (nth k Ls [])) ->
  NoDup (accesses (shcall sets shs)) ->
  sem i (shcall sets shs) (callLattice srt sets Ls).
Proof.
  intros sets shs Ls EL T H ND. rewrite acc_shcall, flat_map_app in ND.
  unfold shcall, callLattice. apply sem_mulf.
  - unfold shO, otherArgs. rewrite (fold_if _ (fun l k => unionLattices srt l (nth k Ls []))), EL.
    apply sem_addf.
    + apply sem_mode; reflexivity.
    + intros k Hk. apply H. unfold others in Hk. apply filter_In in Hk. destruct Hk as [Hk _].
      apply in_seq in Hk. lia.
    + simpl. apply NoDup_app_inv in ND. apply ND.
  - intros S HS. apply T; auto.
  - intros k Hk. apply H. apply in_concat in Hk. destruct Hk as (S & HS & Hk). destruct T as [_ T]. apply (T S); auto.
  - unfold shO. rewrite acc_addf. simpl. auto.
Qed.

Lemma NoDup_flat_map_nth : forall (l : list (cexpr F V)) x, NoDup (flat_map operands l) -> In x l -> NoDup (operands x).
Proof.
  induction l; simpl; intros x ND H; [destruct H|]. apply NoDup_app_inv in ND.
  destruct H as [<-|H]; [apply ND | apply IHl; auto; apply ND].
Qed.

Lemma sem_cbuild : forall e, NoDup (operands e) -> sem i (sh e) (cbuild declared srt i e).
Proof.
  induction e using cexpr_ind'; cbn [operands cbuild sh]; intros ND;
    try (apply NoDup_app_inv in ND; destruct ND as (N1 & N2 & DJ)).
  - apply sem_mode; reflexivity.
  - apply sem_access.
  - destruct (IHe ND). constructor; auto.
  - eapply sem_union; try reflexivity; auto. intros a Ha Hb.
    apply (DJ a); eapply Permutation_in; try apply sh_operands; auto.
  - eapply sem_union; try reflexivity; auto. intros a Ha Hb.
    apply (DJ a); eapply Permutation_in; try apply sh_operands; auto.
  - eapply sem_intersect; try reflexivity; auto. intros a Ha Hb.
    apply (DJ a); eapply Permutation_in; try apply sh_operands; auto.
  - apply sem_call.
    + rewrite !map_length; auto.
    + apply tidy_of.
    + intros k Hk. rewrite map_length in Hk.
      rewrite (nth_indep _ z0 (sh (CLit (r0 R)))) by (rewrite map_length; auto).
      rewrite (nth_indep _ [] (cbuild declared srt i (CLit (r0 R)))) by (rewrite map_length; auto).
      rewrite !map_nth. rewrite Forall_forall in H. apply H; [apply nth_In; auto|].
      eapply NoDup_flat_map_nth; eauto. apply nth_In; auto.
    + eapply Permutation_NoDup; [apply Permutation_sym, (sh_operands (CCall f args))|]. simpl. auto.
Qed.

Lemma loopsem_cmake : forall e, NoDup (operands e) -> loopsem i (sh e) (cmake declared srt i e).
Proof. intros. apply loopsem_of_sem, sem_cbuild; auto. Qed.
End Lat.

(* ------------------------------------------------------------ what is needed *)
Section Need.
Variable i : ivar.
Variable here : access -> bool.

Lemma supp_addf : forall shs ks l,
  supp i here (fold_left (fun l k => EAdd l (nth k shs z0)) ks l) =
  supp i here l || existsb (fun k => supp i here (nth k shs z0)) ks.
Proof.
  induction ks; simpl; intros l; [rewrite orb_false_r; auto|]. rewrite IHks. simpl. rewrite orb_assoc. auto.
Qed.
Lemma supp_mulf : forall shs sets l, (forall S, In S sets -> S <> []) ->
  supp i here (fold_left (fun l S => EMul l (shU shs S)) sets l) =
  supp i here l && forallb (fun S => existsb (fun k => supp i here (nth k shs z0)) S) sets.
Proof.
  induction sets as [|S sets IH]; simpl; intros l N; [rewrite andb_true_r; auto|].
  rewrite IH by auto. simpl. rewrite andb_assoc. f_equal. f_equal.
  assert (S <> []) by auto. destruct S; [congruence|]. simpl. apply supp_addf.
Qed.

Lemma existsb_eq : forall A (f g : A -> bool) l, (forall x, In x l -> f x = g x) -> existsb f l = existsb g l.
Proof. induction l; simpl; intros H; auto. rewrite H by auto. rewrite IHl; auto. Qed.
Lemma forallb_eq : forall A (f g : A -> bool) l, (forall x, In x l -> f x = g x) -> forallb f l = forallb g l.
Proof. induction l; simpl; intros H; auto. rewrite H by auto. rewrite IHl; auto. Qed.

Lemma supp_sh : forall e, supp i here (sh e) = needed declared i here e.
Proof.
  induction e using cexpr_ind'; cbn [sh supp needed]; auto; try congruence.
  assert (T := tidy_of f args). rewrite map_length in T. destruct T as [_ T].
  unfold shcall. rewrite supp_mulf by (intros S HS; apply T; auto).
  unfold shO. rewrite supp_addf. cbn [supp orb andb].
  apply forallb_eq. intros S HS. apply existsb_eq. intros k Hk.
  assert (B : k < length args) by (apply (T S); auto).
  rewrite (nth_indep _ z0 (sh (CLit (r0 R)))) by (rewrite map_length; auto).
  rewrite (nth_indep _ false (needed declared i here (CLit (r0 R)))) by (rewrite map_length; auto).
  rewrite !map_nth. rewrite Forall_forall in H. apply H. apply nth_In; auto.
Qed.

Definition regS (e : expr V) : list iter := if supp i here e then reg i here e else [].

Lemma regS_add : forall a b, regS (EAdd a b) = regS a ++ regS b.
Proof. intros. unfold regS. simpl. destruct (supp i here a), (supp i here b); auto. Qed.
Lemma regS_sub : forall a b, regS (ESub a b) = regS a ++ regS b.
Proof. intros. unfold regS. simpl. destruct (supp i here a), (supp i here b); auto. Qed.
Lemma regS_mul : forall a b, supp i here (EMul a b) = true -> regS (EMul a b) = regS a ++ regS b.
Proof. intros a b. unfold regS. simpl. destruct (supp i here a), (supp i here b); simpl; auto; discriminate. Qed.

Lemma regS_addf : forall shs ks l,
  regS (fold_left (fun l k => EAdd l (nth k shs z0)) ks l) = regS l ++ flat_map (fun k => regS (nth k shs z0)) ks.
Proof. induction ks; simpl; intros l; [rewrite app_nil_r; auto|]. rewrite IHks, regS_add, app_assoc. auto. Qed.
Lemma regS_shU : forall shs S, regS (shU shs S) = flat_map (fun k => regS (nth k shs z0)) S.
Proof. intros shs [|k t]; simpl; [reflexivity | apply regS_addf]. Qed.
Lemma supp_mulf_l : forall shs sets l,
  supp i here (fold_left (fun l S => EMul l (shU shs S)) sets l) = true -> supp i here l = true.
Proof. induction sets; simpl; intros l H; auto. apply IHsets in H. simpl in H. apply andb_true_iff in H. tauto. Qed.
Lemma regS_mulf : forall shs sets l,
  supp i here (fold_left (fun l S => EMul l (shU shs S)) sets l) = true ->
  regS (fold_left (fun l S => EMul l (shU shs S)) sets l) = regS l ++ flat_map (fun k => regS (nth k shs z0)) (concat sets).
Proof.
  induction sets as [|S sets IH]; simpl; intros l H; [rewrite app_nil_r; auto|].
  rewrite IH by auto. apply supp_mulf_l in H.
  rewrite regS_mul, regS_shU, flat_map_app, app_assoc by auto. auto.
Qed.
Lemma regS_call : forall f args it, supp i here (sh (CCall f args)) = true ->
  (In it (regS (sh (CCall f args))) <-> exists e, In e args /\ In it (regS (sh e))).
Proof.
  intros f args it H. cbn [sh] in *. unfold shcall in *. rewrite regS_mulf by auto.
  unfold shO. rewrite regS_addf. cbn [regS supp reg app]. rewrite <- flat_map_app.
  assert (P := others_perm _ _ (tidy_of f args)).
  change (regS (ELit (r0 R))) with (@nil iter). simpl app.
  assert (P2 := Perm_flat_map _ _ (fun k => regS (nth k (map sh args) z0)) _ _ P).
  transitivity (In it (flat_map (fun k => regS (nth k (map sh args) z0)) (seq 0 (length (map sh args))))).
  - split; apply Permutation_in; auto. apply Permutation_sym; auto.
  - rewrite (flat_map_nth_seq _ _ regS (map sh args) z0), in_flat_map. split.
    + intros (x & Hx & Hi). apply in_map_iff in Hx. destruct Hx as (e & <- & He). eauto.
    + intros (e & He & Hi). exists (sh e). split; auto. apply in_map; auto.
Qed.

(** What is not needed is zero. *)
Lemma needed_false : forall env e,
  (forall a, In a (operands e) -> absent i here a = true -> env a = r0 R) ->
  needed declared i here e = false -> ceval R value env e = r0 R.
Proof.
  intros env. induction e using cexpr_ind'; cbn [operands needed ceval]; intros Z N.
  - discriminate.
  - apply Z; [left; auto|]. apply negb_false_iff in N. auto.
  - rewrite IHe; auto. ring.
  - apply orb_false_iff in N. destruct N. rewrite IHe1, IHe2 by (auto; intros; apply Z; auto; apply in_app_iff; auto). ring.
  - apply orb_false_iff in N. destruct N. rewrite IHe1, IHe2 by (auto; intros; apply Z; auto; apply in_app_iff; auto). ring.
  - apply andb_false_iff in N. destruct N as [N|N].
    + rewrite IHe1 by (auto; intros; apply Z; auto; apply in_app_iff; auto). ring.
    + rewrite IHe2 by (auto; intros; apply Z; auto; apply in_app_iff; auto). ring.
  - assert (exists S, In S (declared f (map literal args)) /\
              existsb (fun k => nth k (map (needed declared i here) args) false) S = false) as (S & HS & E).
    { clear -N. induction (declared f (map literal args)); simpl in *; [discriminate|].
      apply andb_false_iff in N. destruct N as [N|N]; [eauto|]. destruct (IHl N) as (S & A & B). eauto. }
    apply TRUE with (lits := map literal args) (S := S); auto.
    + clear. induction args as [|e args IH]; simpl; constructor; auto. destruct e; simpl; auto.
    + intros k Hk. destruct (TIDY f (map literal args)) as [_ T]. destruct (T S HS) as [_ B]. specialize (B k Hk).
      rewrite map_length in B.
      rewrite (nth_indep _ _ (ceval R value env (CLit (r0 R)))) by (rewrite map_length; auto).
      rewrite map_nth. rewrite Forall_forall in H. apply H.
      * apply nth_In; auto.
      * intros a Ha. apply Z. apply in_flat_map. exists (nth k args (CLit (r0 R))). split; auto. apply nth_In; auto.
      * assert (X : nth k (map (needed declared i here) args) false = false).
        { destruct (nth k (map (needed declared i here) args) false) eqn:Y; auto.
          rewrite <- E. symmetry. apply existsb_exists. eauto. }
        rewrite (nth_indep _ _ (needed declared i here (CLit (r0 R)))) in X by (rewrite map_length; auto).
        rewrite map_nth in X. auto.
Qed.

Definition mask (z : access -> bool) (env : access -> V) (a : access) : V := if z a then r0 R else env a.

Lemma ceval_ext : forall env env' e, (forall a, In a (operands e) -> env a = env' a) ->
  ceval R value env e = ceval R value env' e.
Proof.
  intros env env'. induction e using cexpr_ind'; cbn [operands ceval]; intros Z; auto.
  - apply Z. left; auto.
  - rewrite IHe; auto.
  - rewrite IHe1, IHe2 by (intros; apply Z, in_app_iff; auto). auto.
  - rewrite IHe1, IHe2 by (intros; apply Z, in_app_iff; auto). auto.
  - rewrite IHe1, IHe2 by (intros; apply Z, in_app_iff; auto). auto.
  - f_equal. apply map_ext_in. intros x Hx. rewrite Forall_forall in H. apply H; auto.
    intros a Ha. apply Z. apply in_flat_map. eauto.
Qed.

Lemma mask_needed : forall env r e, NoDup (operands e) ->
  (forall a, In a (operands e) -> absent i here a = true -> env a = r0 R) ->
  (forall a l, In a (operands e) -> find_level i a = Some l ->
     (In (Lev a l) r <-> In (Lev a l) (regS (sh e)))) ->
  ceval R value (mask (outside i r) env) e = ceval R value env e.
Proof.
  intros env r.
  assert (OPS : forall e a l, In (Lev a l) (regS (sh e)) -> In a (operands e)).
  { intros e a l H. unfold regS in H. destruct (supp i here (sh e)); [|destruct H].
    destruct (reg_lev _ _ _ _ H) as (a' & l' & E & _ & X & _). inversion E; subst.
    eapply Permutation_in; [apply sh_operands | auto]. }
  assert (NEED : forall e, (forall a, In a (operands e) -> absent i here a = true -> env a = r0 R) ->
            needed declared i here e = false -> ceval R value (mask (outside i r) env) e = ceval R value env e).
  { intros e Z N. rewrite !needed_false; auto. intros a Ha A. unfold mask. destruct (outside i r a); auto. }
  induction e using cexpr_ind'; intros ND Z A; cbn [operands] in *.
  - reflexivity.
  - simpl. unfold mask, outside. destruct (find_level i a) as [l|] eqn:FL; auto.
    destruct (mem (Lev a l) r) eqn:M; simpl; auto.
    apply mem_false in M. rewrite (A a l (or_introl eq_refl) FL) in M. unfold regS in M. simpl in M.
    destruct (absent i here a) eqn:AB; simpl in M.
    + symmetry; apply Z; simpl; auto.
    + exfalso. apply M. unfold acc_reg. rewrite FL. simpl; auto.
  - cbn [ceval]. rewrite IHe; auto.
  - apply NoDup_app_inv in ND. destruct ND as (N1 & N2 & DJ).
    cbn [ceval]. rewrite IHe1, IHe2; auto; try (intros; apply Z; auto; apply in_app_iff; auto).
    + intros a l Ha FL. rewrite A by (auto; apply in_app_iff; auto). cbn [sh]. rewrite regS_add, in_app_iff.
      split; auto. intros [X|X]; auto. exfalso. apply (DJ a); eauto.
    + intros a l Ha FL. rewrite A by (auto; apply in_app_iff; auto). cbn [sh]. rewrite regS_add, in_app_iff.
      split; auto. intros [X|X]; auto. exfalso. apply (DJ a); eauto.
  - apply NoDup_app_inv in ND. destruct ND as (N1 & N2 & DJ).
    cbn [ceval]. rewrite IHe1, IHe2; auto; try (intros; apply Z; auto; apply in_app_iff; auto).
    + intros a l Ha FL. rewrite A by (auto; apply in_app_iff; auto). cbn [sh]. rewrite regS_sub, in_app_iff.
      split; auto. intros [X|X]; auto. exfalso. apply (DJ a); eauto.
    + intros a l Ha FL. rewrite A by (auto; apply in_app_iff; auto). cbn [sh]. rewrite regS_sub, in_app_iff.
      split; auto. intros [X|X]; auto. exfalso. apply (DJ a); eauto.
  - destruct (needed declared i here (CMul e1 e2)) eqn:N; [|apply NEED; auto].
    rewrite <- supp_sh in N. cbn [sh] in N.
    apply NoDup_app_inv in ND. destruct ND as (N1 & N2 & DJ).
    cbn [ceval]. rewrite IHe1, IHe2; auto; try (intros; apply Z; auto; apply in_app_iff; auto).
    + intros a l Ha FL. rewrite A by (auto; apply in_app_iff; auto). cbn [sh]. rewrite regS_mul, in_app_iff by auto.
      split; auto. intros [X|X]; auto. exfalso. apply (DJ a); eauto.
    + intros a l Ha FL. rewrite A by (auto; apply in_app_iff; auto). cbn [sh]. rewrite regS_mul, in_app_iff by auto.
      split; auto. intros [X|X]; auto. exfalso. apply (DJ a); eauto.
  - destruct (needed declared i here (CCall f args)) eqn:N; [|apply NEED; auto].
    rewrite <- supp_sh in N. cbn [ceval]. f_equal. apply map_ext_in. intros x Hx.
    rewrite Forall_forall in H. apply H; auto.
    + eapply NoDup_flat_map_nth; eauto.
    + intros; apply Z; auto. apply in_flat_map. eauto.
    + intros a l Ha FL. rewrite A by (auto; apply in_flat_map; eauto). rewrite regS_call by auto.
      split; [|eauto]. intros (y & Hy & Hi).
      assert (Hay := OPS _ _ _ Hi).
      assert (x = y); [|subst; auto].
      clear -ND Hx Hy Ha Hay. induction args as [|e args IH]; simpl in *; [tauto|].
      apply NoDup_app_inv in ND. destruct ND as (N1 & N2 & DJ).
      destruct Hx as [<-|Hx], Hy as [<-|Hy]; auto; exfalso; apply (DJ a); auto; apply in_flat_map; eauto.
Qed.
End Need.

(* ------------------------------------------------------------ zeroing *)
Lemma undefined_nth : forall A (l : list (option A)) n k, In k (undefined_from n l) ->
  exists j, k = n + j /\ nth j l (None) = None /\ j < length l.
Proof.
  induction l as [|[x|] l IH]; simpl; intros n k H; [tauto| |].
  - apply IH in H. destruct H as (j & -> & B & C). exists (S j). split; [lia|]. split; auto. lia.
  - destruct H as [<-|H]; [exists 0; repeat split; auto; lia|].
    apply IH in H. destruct H as (j & -> & B & C). exists (S j). split; [lia|]. split; auto. lia.
Qed.

Lemma czero_eval : forall z env e,
  oceval R value env (czero (r0 R) declared z e) = ceval R value (mask z env) e.
Proof.
  intros z env. induction e using cexpr_ind'; cbn [czero ceval].
  - reflexivity.
  - unfold mask. destruct (z a); reflexivity.
  - rewrite <- IHe. destruct (czero (r0 R) declared z e); simpl; auto. ring.
  - rewrite <- IHe1, <- IHe2. destruct (czero (r0 R) declared z e1), (czero (r0 R) declared z e2); simpl; auto; ring.
  - rewrite <- IHe1, <- IHe2. destruct (czero (r0 R) declared z e1), (czero (r0 R) declared z e2); simpl; auto; ring.
  - rewrite <- IHe1, <- IHe2. destruct (czero (r0 R) declared z e1), (czero (r0 R) declared z e2); simpl; auto; ring.
  - cbv zeta.
    set (rw := map (czero (r0 R) declared z) args).
    set (args' := map (fun o => match o with Some a => a | None => CLit (r0 R) end) rw).
    assert (E : map (ceval R value env) args' = map (ceval R value (mask z env)) args).
    { unfold args', rw. rewrite !map_map. apply map_ext_in. intros x Hx. rewrite Forall_forall in H.
      rewrite <- (H x Hx). destruct (czero (r0 R) declared z x); reflexivity. }
    destruct (existsb (includes (undefined_from 0 rw)) (declared f (map literal args'))) eqn:D;
      cbn [oceval ceval]; [|rewrite E; reflexivity].
    rewrite <- E. apply existsb_exists in D. destruct D as (S & HS & I).
    symmetry. apply TRUE with (lits := map literal args') (S := S); auto.
    + clear. induction args' as [|e l IH]; simpl; constructor; auto. destruct e; simpl; auto.
    + intros k Hk. unfold includes in I. rewrite forallb_forall in I. specialize (I k Hk).
      apply among_In in I. apply undefined_nth in I. destruct I as (j & E1 & E2 & E3). simpl in E1. subst j.
      rewrite (nth_indep _ _ (ceval R value env (CLit (r0 R)))) by (rewrite map_length; unfold args'; rewrite map_length; auto).
      rewrite map_nth. unfold args'.
      rewrite (map_nth (fun o => match o with Some a => a | None => CLit (r0 R) end) rw None k : nth k (map _ rw) (CLit (r0 R)) = _).
      rewrite E2. reflexivity.
Qed.

(* ------------------------------------------------------------ cases *)
Section Cases.
Variable i : ivar.
Variable srt : list point -> list point.
Hypothesis Hsrt : admissible_sort srt.
Variable e : cexpr F V.
Hypothesis LIN : NoDup (operands e).
Notation L := (cmake declared srt i e).

Let LS : loopsem i (sh e) L := loopsem_cmake i srt Hsrt e LIN.

Lemma in_sh : forall a, In a (operands e) <-> In a (accesses (sh e)).
Proof. intros. split; apply Permutation_in; [apply Permutation_sym|]; apply sh_operands. Qed.

Lemma visited : forall here, find (applies here) L <> None <-> needed declared i here e = true.
Proof.
  intros here. rewrite <- supp_sh. split.
  - intros N. destruct (find (applies here) L) as [p|] eqn:Fp; [|congruence].
    destruct (find_some _ _ Fp) as [Hp Ap]. apply (ls_sound i _ _ LS _ _ Hp Ap).
  - intros S N. apply (find_none_supp i _ _ LS) in N. congruence.
Qed.

Lemma point_value : forall here p z env,
  find (applies here) L = Some p ->
  (forall a, In a (operands e) -> z a = exhaustedAccess L p a) ->
  (forall a, In a (operands e) -> absent i here a = true -> env a = r0 R) ->
  ceval R value (mask z env) e = ceval R value env e.
Proof.
  intros here p z env Fp ZE Z.
  destruct (find_first i _ _ LS _ _ Fp) as (Hp & Ap & Rp).
  destruct (ls_sound i _ _ LS _ _ Hp Ap) as [S _].
  rewrite <- (mask_needed i here env (region p) e LIN Z).
  - apply ceval_ext. intros a Ha. unfold mask. rewrite ZE by auto.
    rewrite (exhausted_outside i _ _ LS p a Hp) by (apply in_sh; auto). reflexivity.
  - intros a l Ha FL. unfold regS. rewrite S. split; apply Rp.
Qed.

Lemma case_value : forall here env,
  (forall a, In a (operands e) -> absent i here a = true -> env a = r0 R) ->
  match find (applies here) L with
  | Some p => oceval R value env (czero (r0 R) declared (exhaustedAccess L p) e)
  | None => r0 R
  end = ceval R value env e.
Proof.
  intros here env Z. destruct (find (applies here) L) as [p|] eqn:Fp.
  - rewrite czero_eval. eapply point_value; eauto.
  - symmetry. apply needed_false with (i := i) (here := here); auto.
    destruct (needed declared i here e) eqn:N; auto. apply visited in N. congruence.
Qed.

Lemma sub_exhausted : forall live here lp p a,
  find (applies live) L = Some lp ->
  (forall a, here a = true -> live a = true) ->
  find (applies here) L = Some p -> In a (operands e) ->
  (exhaustedAccess L lp a || exhaustedAccess (subLattice L lp) p a) = exhaustedAccess L p a.
Proof.
  intros live here lp p a Fl I Fp Ha. rewrite in_sh in Ha.
  destruct (find_first i _ _ LS _ _ Fl) as (Hl & Al & Rl).
  destruct (find_first i _ _ LS _ _ Fp) as (Hp & Ap & Rp).
  rewrite !(exhausted_outside i _ _ LS) by auto.
  assert (A' : applies live p = true).
  { rewrite applies_iff in *. intros b l H. apply I. eapply Ap; eauto. }
  destruct (ls_sound i _ _ LS _ _ Hp A') as [_ Ip].
  assert (Ipl : incl (region p) (region lp)) by (eapply incl_tran; [apply Ip | apply Rl]).
  assert (E2 : exhaustedAccess (subLattice L lp) p a =
               match find_level i a with
               | Some l => mem (Lev a l) (region lp) && negb (mem (Lev a l) (region p)) | None => false end).
  { apply bool_iff. unfold exhaustedAccess. rewrite existsb_exists. split.
    - intros ([|b l] & Hin & E); [discriminate|]. unfold access_eqb in E.
      destruct (access_eq_dec a b); [subst b|discriminate].
      apply exhausted_In in Hin. destruct Hin as (H1 & H2 & H3).
      apply region_hd in H1; auto. rewrite (sub_first i _ _ LS _ Hl) in H1.
      destruct (region_lev _ _ _ _ (ls_wf i _ _ LS _ Hl) H1) as (a' & l' & E' & Fa & _).
      inversion E'; subst. rewrite Fa. apply andb_true_iff. rewrite negb_true_iff, mem_false, mem_In. auto.
    - destruct (find_level i a) as [l|] eqn:Fa; [|discriminate].
      rewrite andb_true_iff, negb_true_iff, mem_false, mem_In. intros [H1 H2].
      exists (Lev a l). split; [|unfold access_eqb; destruct (access_eq_dec a a); congruence].
      apply exhausted_In. split; [|split]; auto; [|congruence].
      apply region_hd; [congruence|]. rewrite (sub_first i _ _ LS _ Hl). auto. }
  rewrite E2. unfold outside. destruct (find_level i a) as [l|]; auto.
  destruct (mem (Lev a l) (region lp)) eqn:M1, (mem (Lev a l) (region p)) eqn:M2; auto.
  apply mem_In in M2. apply Ipl in M2. apply mem_In in M2. congruence.
Qed.

Lemma loop_value : forall live here env lp,
  find (applies live) L = Some lp ->
  (forall a, here a = true -> live a = true) ->
  (forall a, In a (operands e) -> absent i here a = true -> env a = r0 R) ->
  match find (applies here) (subLattice L lp) with
  | Some p =>
      match czero (r0 R) declared (exhaustedAccess L lp) e with
      | Some e' => oceval R value env (czero (r0 R) declared (exhaustedAccess (subLattice L lp) p) e')
      | None => r0 R
      end
  | None => r0 R
  end = ceval R value env e.
Proof.
  intros live here env lp Fl I Z. rewrite (sub_cases i _ _ LS live here lp Fl I).
  destruct (find (applies here) L) as [p|] eqn:Fp.
  - rewrite <- (point_value here p (fun a => exhaustedAccess L lp a || exhaustedAccess (subLattice L lp) p a) env Fp).
    + transitivity (oceval R value (mask (exhaustedAccess (subLattice L lp) p) env) (czero (r0 R) declared (exhaustedAccess L lp) e)).
      * destruct (czero (r0 R) declared (exhaustedAccess L lp) e); simpl; auto. apply czero_eval.
      * rewrite czero_eval. apply ceval_ext. intros a Ha. unfold mask.
        destruct (exhaustedAccess L lp a), (exhaustedAccess (subLattice L lp) p a); auto.
    + intros a Ha. eapply sub_exhausted; eauto.
    + auto.
  - symmetry. apply needed_false with (i := i) (here := here); auto.
    destruct (needed declared i here e) eqn:N; auto. apply visited in N. congruence.
Qed.
End Cases.
End Proofs.
