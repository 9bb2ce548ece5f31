(** C81: tensors of the same name are refused when an assignment is compiled. *)
From Coq Require Import String List Bool Arith Lia.
From Verif Require Import Util UtilProofs NotationEq Clash ClashSpec ClashProofs.
Import ListNotations.
Local Open Scope nat_scope.

(** After any history, compiling an assignment reports a clash exactly if two different tensors
    that it mentions have the same name. *)
Theorem C81_clash : forall es lhs rhs,
  compile_accepts (history es) lhs rhs = false <->
  exists h h' n, in_assignment h lhs rhs /\ in_assignment h' lhs rhs /\ h <> h' /\
    name_of es h = Some n /\ name_of es h' = Some n.
Proof.
  intros es lhs rhs. unfold compile_accepts. unfold name_of.
  assert (V : forall h, In h (lhs :: visited rhs) <-> in_assignment h lhs rhs).
  { intros h. simpl. rewrite visited_mentions. unfold in_assignment. intuition. }
  split.
  - intros F.
    assert (D : forall h h', alike (history es) h h' \/
              exists t t', nth_error (tvars (history es)) h = Some t /\ nth_error (tvars (history es)) h' = Some t' /\
                t_name t = t_name t' /\ t_id t <> t_id t').
    { intros h h'. unfold alike.
      destruct (nth_error (tvars (history es)) h) as [t|]; [|left; intros; discriminate].
      destruct (nth_error (tvars (history es)) h') as [t'|]; [|left; intros; discriminate].
      destruct (string_dec (t_name t) (t_name t')) as [N|N]; [|left; intros ? ? [= <-] [= <-]; congruence].
      destruct (Nat.eq_dec (t_id t) (t_id t')); [left; intros ? ? [= <-] [= <-]; auto|].
      right. exists t, t'. auto. }
    assert (S : forall l1 l2, (forall h h', In h l1 -> In h' l2 -> alike (history es) h h') \/
              exists h h' t t', In h l1 /\ In h' l2 /\ nth_error (tvars (history es)) h = Some t /\
                nth_error (tvars (history es)) h' = Some t' /\ t_name t = t_name t' /\ t_id t <> t_id t').
    { assert (S1 : forall h l2, (forall h', In h' l2 -> alike (history es) h h') \/
              exists h' t t', In h' l2 /\ nth_error (tvars (history es)) h = Some t /\
                nth_error (tvars (history es)) h' = Some t' /\ t_name t = t_name t' /\ t_id t <> t_id t').
      { induction l2 as [|x l2 IH]; [left; intros; contradiction|].
        destruct (D h x) as [A|(t & t' & X)].
        - destruct IH as [IH|(h' & t & t' & I & X)].
          + left. intros h' [<-|I]; auto.
          + right. exists h', t, t'. simpl. tauto.
        - right. exists x, t, t'. simpl. tauto. }
      induction l1 as [|x l1 IH]; intros l2; [left; intros; contradiction|].
      destruct (S1 x l2) as [A|(h' & t & t' & X)].
      - destruct (IH l2) as [B|(h & h' & t & t' & I & X)].
        + left. intros h h' [<-|I]; auto.
        + right. exists h, h', t, t'. simpl. tauto.
      - right. exists x, h', t, t'. simpl. tauto. }
    destruct (S (lhs :: visited rhs) (lhs :: visited rhs)) as [A|(h & h' & t & t' & I & I' & E & E' & N & NE)].
    + exfalso. assert (T : check (history es) [] (lhs :: visited rhs) = true).
      { apply check_spec. split; auto. intros h I t id E X. discriminate. }
      congruence.
    + exists h, h', (t_name t). rewrite E, E'. simpl. rewrite <- !V. repeat split; auto.
      * intros ->. rewrite E in E'. inversion E'; subst. congruence.
      * congruence.
  - intros (h & h' & n & I & I' & NE & N & N'). apply V in I, I'.
    destruct (check (history es) [] (lhs :: visited rhs)) eqn:C; auto. exfalso.
    apply check_spec in C. destruct C as [_ B].
    destruct (nth_error (tvars (history es)) h) as [t|] eqn:E; [|discriminate].
    destruct (nth_error (tvars (history es)) h') as [t'|] eqn:E'; [|discriminate].
    simpl in N, N'. apply NE. apply (same_id es h h' t t' E E'). apply (B h h' I I' t t' E E'). congruence.
Qed.
Print Assumptions C81_clash.

(** The name of a tensor is the one it was last given. *)
Theorem C81_names : forall es es' h n,
  (forall n', ~ In (Rename h n') es') ->
  (h < length (creations es) -> name_of (es ++ Rename h n :: es') h = Some n) /\
  (h = length (creations es) -> name_of (es ++ NewNamed n :: es') h = Some n).
Proof.
  intros es es' h n R. destruct (ids_ok es) as (_ & _ & L). split; intros H.
  - change (Rename h n :: es') with ([Rename h n] ++ es'). rewrite app_assoc. apply names_kept; auto.
    unfold name_of. rewrite history_snoc. simpl. apply rename_at. lia.
  - change (NewNamed n :: es') with ([NewNamed n] ++ es'). rewrite app_assoc. apply names_kept; auto.
    unfold name_of. rewrite history_snoc. simpl. rewrite nth_error_app2, H, L, Nat.sub_diag by lia. reflexivity.
Qed.
Print Assumptions C81_names.

(** Tensors that were created without a name never clash with each other. *)
Theorem C81_unnamed : forall es lhs rhs,
  (forall h, in_assignment h lhs rhs -> unnamed es h) ->
  compile_accepts (history es) lhs rhs = true.
Proof.
  intros es lhs rhs U. destruct (compile_accepts (history es) lhs rhs) eqn:C; auto. exfalso.
  apply C81_clash in C. destruct C as (h & h' & n & I & I' & NE & N & N'). unfold name_of in *.
  destruct (nth_error (tvars (history es)) h) as [t|] eqn:E; [|discriminate].
  destruct (nth_error (tvars (history es)) h') as [t'|] eqn:E'; [|discriminate].
  destruct (unnamed_name _ _ _ E (U _ I)) as (c & A & B). destruct (unnamed_name _ _ _ E' (U _ I')) as (c' & A' & B').
  simpl in N, N'. assert (X : ("A" ++ dec c = "A" ++ dec c')%string) by congruence.
  simpl in X. inversion X as [Y]. apply dec_inj in Y. subst c'. apply NE. eapply same_id; eauto. congruence.
Qed.
Print Assumptions C81_unnamed.

(** The expected "a tensor without a name never clashes with one that the user named" is
    false: the names that are made up are not reserved. *)
Theorem C81_unnamed_refuted : exists es lhs rhs,
  unnamed es lhs /\ (forall h, mentions h rhs -> h <> lhs -> nth_error (creations es) h = Some true) /\
  (forall h n, ~ In (Rename h n) es) /\
  compile_accepts (history es) lhs rhs = false.
Proof.
  exists [NewNamed "A2"; Other; NewUnnamed], 1, (EAcc (Access 0 [0] [] [] false)).
  split; [|split; [|split]].
  - split; [reflexivity|]. simpl. intros n H. repeat destruct H as [H|H]; try discriminate. contradiction.
  - intros h M _. inversion M; subst. reflexivity.
  - simpl. intros h n H. repeat destruct H as [H|H]; try discriminate. contradiction.
  - reflexivity.
Qed.
Print Assumptions C81_unnamed_refuted.

(** Concrete cases: three tensors and a variable, named apart, renamed to clash, and unnamed. *)
Definition sum_of (a b : nat) : expr := EAdd (EAcc (Access a [0] [] [] false)) (EAcc (Access b [0] [] [] false)).
Example C81_accepted :
  compile_accepts (history [NewNamed "a"; Other; NewNamed "b"; NewUnnamed]) 0 (sum_of 1 2) = true.
Proof. reflexivity. Qed.
Example C81_renamed :
  compile_accepts (history [NewNamed "a"; Other; NewNamed "b"; NewUnnamed; Rename 2 "b"]) 0 (sum_of 1 2) = false.
Proof. reflexivity. Qed.
Example C81_same_tensor_twice :
  compile_accepts (history [NewNamed "a"; NewNamed "b"]) 0 (sum_of 1 1) = true.
Proof. reflexivity. Qed.
Example C81_unnamed_example : forall h, in_assignment h 0 (sum_of 1 2) -> unnamed [NewUnnamed; Other; NewUnnamed; NewUnnamed] h.
Proof.
  intros h [->|M]; [|inversion M as [| | | | |? ? [X|X]| | | | |]; inversion X; subst; simpl];
    (split; [reflexivity|]; simpl; intros n H; repeat destruct H as [H|H]; try discriminate; contradiction).
Qed.
