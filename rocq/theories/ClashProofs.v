(** Proofs about names of tensors (C81). *)
From Coq Require Import String List Bool Arith Lia.
From Verif Require Import Util UtilProofs NotationEq NotationEqProofs Clash ClashSpec.
Import ListNotations.
Local Open Scope nat_scope.

Lemma visited_mentions : forall e h, In h (visited e) <-> mentions h e.
Proof.
  induction e using expr_ind'; intros h; simpl;
    try (split; [intros []|intros M; inversion M]; fail);
    try (rewrite in_app_iff, IHe1, IHe2; split; [intros M; constructor; auto|intros M; inversion M; auto]; fail);
    try (rewrite IHe; split; [intros M; constructor; auto|intros M; inversion M; auto]; fail).
  - split; [intros [<-|[]]; constructor; auto|intros M; inversion M; auto].
  - rewrite in_flat_map. rewrite Forall_forall in H. split.
    + intros (x & I & V). econstructor; eauto. apply H; auto.
    + intros M. inversion M; subst. eexists. split; eauto. apply H; auto.
  - rewrite in_flat_map. rewrite Forall_forall in H. split.
    + intros (x & I & V). econstructor; eauto. apply H; auto.
    + intros M. inversion M; subst. eexists. split; eauto. apply H; auto.
  - rewrite IHe2. split; [intros M; constructor; auto|intros M; inversion M; auto].
Qed.

Definition agrees (s : names) (m : list (string * nat)) (h : nat) : Prop :=
  forall t id, nth_error (tvars s) h = Some t -> find_name (t_name t) m = Some id -> t_id t = id.
Definition alike (s : names) (h h' : nat) : Prop :=
  forall t t', nth_error (tvars s) h = Some t -> nth_error (tvars s) h' = Some t' ->
    t_name t = t_name t' -> t_id t = t_id t'.

Lemma check_spec : forall s hs m, check s m hs = true <->
  (forall h, In h hs -> agrees s m h) /\ (forall h h', In h hs -> In h' hs -> alike s h h').
Proof.
  induction hs as [|h hs IH]; intros m.
  - simpl. split; auto. intros _. split; intros; contradiction.
  - simpl check. destruct (nth_error (tvars s) h) as [t|] eqn:E.
    + destruct (find_name (t_name t) m) as [id|] eqn:F.
      * rewrite andb_true_iff, Nat.eqb_eq, IH. split.
        { intros [EQ [A B]]. assert (AH : agrees s m h).
          { intros t' id' E' F'. rewrite E in E'. inversion E'; subst t'. congruence. }
          assert (HB : forall h', In h' hs -> alike s h h').
          { intros h' I t1 t2 E1 E2 N. rewrite E in E1. inversion E1; subst t1. rewrite N in F.
            rewrite (A h' I t2 id E2 F). congruence. }
          split; [intros h' [<-|I]; auto|]. intros h1 h2 [<-|I1] [<-|I2]; auto.
          - intros t1 t2 E1 E2 _. congruence.
          - intros t1 t2 E1 E2 N. symmetry. eapply HB; eauto. }
        { intros [A B]. split; [eapply A; simpl; eauto|]. split; intros; [apply A|apply B]; simpl; auto. }
      * rewrite IH. split.
        { intros [A B].
          assert (HB : forall h', In h' hs -> alike s h h').
          { intros h' I t1 t2 E1 E2 N. rewrite E in E1. inversion E1; subst t1.
            symmetry. apply (A h' I t2); auto. simpl. rewrite N, String.eqb_refl. auto. }
          split.
          - intros h' [<-|I].
            + intros t1 id1 E1 F1. rewrite E in E1. inversion E1; subst. congruence.
            + intros t1 id1 E1 F1. apply (A h' I t1); auto. simpl.
              destruct (String.eqb_spec (t_name t1) (t_name t)); auto. congruence.
          - intros h1 h2 [<-|I1] [<-|I2]; auto.
            + intros t1 t2 E1 E2 _. congruence.
            + intros t1 t2 E1 E2 N. symmetry. eapply HB; eauto. }
        { intros [A B]. split.
          - intros h' I t1 id1 E1 F1. simpl in F1. destruct (String.eqb_spec (t_name t1) (t_name t)) as [N|N].
            + inversion F1; subst. apply (B h' h); simpl; auto.
            + eapply A; simpl; eauto.
          - intros; apply B; simpl; auto. }
    + rewrite IH. split.
      * intros [A B]. split.
        { intros h' [<-|I]; auto. intros t1 id1 E1. congruence. }
        { intros h1 h2 [<-|I1] [<-|I2]; auto; intros t1 t2 E1 E2; congruence. }
      * intros [A B]. split; intros; [apply A|apply B]; simpl; auto.
Qed.

Lemma history_snoc : forall es e, history (es ++ [e]) = step (history es) e.
Proof. intros. unfold history. rewrite fold_left_app. auto. Qed.

Lemma rename_ids : forall l h n, map t_id (rename l h n) = map t_id l.
Proof. induction l; destruct h; simpl; intros; auto. rewrite IHl. auto. Qed.
Lemma rename_length : forall l h n, length (rename l h n) = length l.
Proof. induction l; destruct h; simpl; intros; auto. Qed.
Lemma rename_other : forall l h n k, k <> h -> nth_error (rename l h n) k = nth_error l k.
Proof. induction l; destruct h, k; simpl; intros; auto; congruence. Qed.

Lemma ids_ok : forall es, NoDup (map t_id (tvars (history es))) /\
  (forall i, In i (map t_id (tvars (history es))) -> i < counter (history es)) /\
  length (tvars (history es)) = length (creations es).
Proof.
  induction es as [|e es IH] using rev_ind.
  - simpl. repeat split; [constructor|contradiction].
  - rewrite history_snoc. destruct IH as (A & B & C).
    unfold creations in *. rewrite flat_map_app, app_length. simpl.
    assert (ND : forall n, counter (history es) <= n -> NoDup (map t_id (tvars (history es)) ++ [n])).
    { intros n L. rewrite <- (rev_involutive (_ ++ [n])), rev_app_distr. apply NoDup_rev. simpl. constructor.
      - rewrite <- in_rev. intro I. apply B in I. lia.
      - apply NoDup_rev. auto. }
    destruct e; simpl; rewrite ?map_app, ?app_length; simpl.
    + split; [apply ND; auto|]. split; [|lia]. intros i I. apply in_app_or in I. destruct I as [I|[<-|[]]]; [apply B in I|]; lia.
    + split; [apply ND; auto|]. split; [|lia]. intros i I. apply in_app_or in I. destruct I as [I|[<-|[]]]; [apply B in I|]; lia.
    + rewrite rename_ids, rename_length. repeat split; auto. lia.
    + split; [auto|]. split; [|lia]. intros i I. apply B in I. lia.
Qed.

Lemma same_id : forall es h h' t t', nth_error (tvars (history es)) h = Some t ->
  nth_error (tvars (history es)) h' = Some t' -> t_id t = t_id t' -> h = h'.
Proof.
  intros es h h' t t' E E' I. destruct (ids_ok es) as (ND & _ & _).
  assert (L : h < length (map t_id (tvars (history es)))).
  { rewrite map_length. apply nth_error_Some. congruence. }
  apply (proj1 (NoDup_nth_error _) ND h h' L).
  rewrite (map_nth_error t_id _ _ E), (map_nth_error t_id _ _ E'). congruence.
Qed.

Lemma unnamed_name : forall es h t, nth_error (tvars (history es)) h = Some t -> unnamed es h ->
  exists c, t_name t = ("A" ++ dec c)%string /\ t_id t = S c.
Proof.
  induction es as [|e es IH] using rev_ind; intros h t E [U R].
  - destruct h; discriminate.
  - rewrite history_snoc in E. destruct (ids_ok es) as (_ & _ & L).
    unfold creations in *. rewrite flat_map_app in U. simpl in U. rewrite app_nil_r in U.
    assert (R' : forall n, ~ In (Rename h n) es) by (intros n I; apply (R n), in_or_app; auto).
    assert (OLD : forall t, nth_error (tvars (history es)) h = Some t ->
              nth_error (flat_map (fun e => match e with NewNamed _ => [true] | NewUnnamed => [false] | _ => [] end) es) h = Some false ->
              exists c, t_name t = ("A" ++ dec c)%string /\ t_id t = S c).
    { intros t0 E0 U0. apply (IH h t0 E0). split; auto. }
    destruct e; simpl in E.
    + destruct (lt_dec h (length (tvars (history es)))) as [H|H].
      * rewrite nth_error_app1 in E, U by lia. eauto.
      * rewrite nth_error_app2 in U by lia. destruct (h - _) as [|[|?]] eqn:D in U; discriminate.
    + destruct (lt_dec h (length (tvars (history es)))) as [H|H].
      * rewrite nth_error_app1 in E, U by lia. eauto.
      * rewrite nth_error_app2 in E by lia. destruct (h - length (tvars (history es))) as [|[|?]]; try discriminate.
        inversion E; subst. simpl. eauto.
    + rewrite app_nil_r in U. destruct (Nat.eq_dec h h0) as [->|NE].
      * exfalso. apply (R n), in_or_app. simpl. auto.
      * rewrite rename_other in E by auto. eauto.
    + rewrite app_nil_r in U. eauto.
Qed.

Lemma rename_at : forall l h n, h < length l -> option_map t_name (nth_error (rename l h n) h) = Some n.
Proof. induction l; destruct h; simpl; intros; try lia; auto. apply IHl. lia. Qed.
Lemma names_kept : forall es' es h n, name_of es h = Some n -> (forall n', ~ In (Rename h n') es') ->
  name_of (es ++ es') h = Some n.
Proof.
  induction es' as [|e es' IH] using rev_ind; intros es h n N R.
  - rewrite app_nil_r. auto.
  - rewrite app_assoc. assert (K : name_of (es ++ es') h = Some n).
    { apply IH; auto. intros n' I. apply (R n'), in_or_app. auto. }
    unfold name_of in *. rewrite history_snoc. destruct e; simpl; auto.
    + rewrite nth_error_app1; auto. apply nth_error_Some. intro X. rewrite X in K. discriminate.
    + rewrite nth_error_app1; auto. apply nth_error_Some. intro X. rewrite X in K. discriminate.
    + rewrite rename_other; auto. intros ->. apply (R n0), in_or_app. simpl. auto.
Qed.
