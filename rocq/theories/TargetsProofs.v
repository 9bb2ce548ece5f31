From Coq Require Import String Ascii List Bool Arith Lia.
From Verif Require Import Parser Targets TargetsSpec.
Import ListNotations.
Local Open Scope nat_scope.

Lemma find_char_none c s : find_char c s = None <-> ~ In c s.
Proof.
  induction s as [|d s IH]; cbn; [split; auto|]. destruct (Ascii.eqb_spec d c) as [->|N].
  - split; [discriminate|intros H; exfalso; apply H; auto].
  - destruct (find_char c s).
    + split; [discriminate|]. intros H. exfalso. apply H. right. destruct (in_dec ascii_dec c s); auto. apply IH in n0. discriminate.
    + split; auto. intros _ [E|I]; [auto|]. apply IH in I; auto.
Qed.
Lemma split_at_end pos : forall n rest tokens, List.length rest <= n -> forall steps, S n <= steps -> split_at steps pos rest tokens = inl OutOfRange.
Proof.
  induction n; intros rest tokens L steps G; (destruct steps; [lia|]); cbn [split_at].
  - destruct (Nat.ltb_spec (List.length rest) (pos + 1)); auto; lia.
  - destruct (Nat.ltb_spec (List.length rest) (pos + 1)); auto. apply IHn; [|lia]. rewrite skipn_length. lia.
Qed.
Lemma split_at_never pos : forall steps rest tokens, split_at steps pos rest tokens = inl OutOfRange \/ split_at steps pos rest tokens = inl Forever.
Proof.
  induction steps; intros; cbn [split_at]; auto. destruct (Nat.ltb _ _); auto.
Qed.

Lemma starts_spec : forall k s, starts k s = true <-> exists after, s = k ++ after.
Proof.
  induction k as [|c k IH]; intros s; cbn [starts].
  - split; auto. intros _. exists s. reflexivity.
  - destruct s as [|d s]; [split; [discriminate|intros [a E]; discriminate]|]. rewrite andb_true_iff, Ascii.eqb_eq, IH. split.
    + intros [-> [a ->]]. exists a. reflexivity.
    + intros [a E]. inversion E; subst. eauto.
Qed.
(** find gives the first position at which the string occurs. *)
Lemma find_first_some : forall s k n, find_first k s = Some n ->
  (exists after, skipn n s = k ++ after) /\ n <= List.length s.
Proof.
  induction s as [|d s IH]; intros k n; cbn [find_first]; destruct (starts k _) eqn:E.
  - intros H. inversion H; subst. split; [|lia]. apply starts_spec in E as [a E]. exists a. exact E.
  - discriminate.
  - intros H. inversion H; subst. split; [|lia]. apply starts_spec in E as [a E]. exists a. exact E.
  - destruct (find_first k s) eqn:F; intros H; inversion H; subst. apply IH in F as [A L]. cbn [skipn List.length]. split; auto. lia.
Qed.
Lemma find_first_occurs : forall before k after, exists n, find_first k (before ++ k ++ after) = Some n /\ n <= List.length before.
Proof.
  induction before as [|b l IH]; intros k after; cbn [app].
  - exists 0. destruct (k ++ after) eqn:E; cbn [find_first];
      (replace (starts k _) with true; [auto|symmetry; apply starts_spec; exists after; symmetry; exact E]).
  - cbn [find_first]. destruct (starts k (b :: _)); [exists 0; cbn; split; [auto|lia]|].
    destruct (IH k after) as (n & -> & L). exists (S n). cbn. split; auto. lia.
Qed.
Lemma find_from_some k s p n : find_from k s p = Some n -> p <= n /\ exists after, skipn n s = k ++ after.
Proof.
  unfold find_from. destruct (find_first k (skipn p s)) eqn:F; [|discriminate]. intros H. inversion H; subst.
  apply find_first_some in F as [[a A] L]. split; [lia|]. exists a. rewrite <- A.
  clear. revert s. induction p; intros s; [reflexivity|]. destruct s; cbn; [now destruct n0|apply IHp].
Qed.
Lemma find_from_occurs before k after p : p <= List.length before -> exists n, find_from k (before ++ k ++ after) p = Some n /\ n <= List.length before.
Proof.
  intros L. unfold find_from. rewrite skipn_app. replace (p - List.length before) with 0 by lia.
  destruct (find_first_occurs (skipn p before) k after) as (n & E & N). cbn [skipn]. rewrite E. exists (p + n). split; auto.
  rewrite skipn_length in N. lia.
Qed.
Lemma find_from_none k s : ~ occurs k s -> find_from k s 0 = None.
Proof.
  intros N. destruct (find_from k s 0) eqn:F; auto. exfalso. apply N. apply find_from_some in F as [_ [a A]].
  exists (firstn n s), a. rewrite <- A. symmetry. apply firstn_skipn.
Qed.
(** The loops over the tables *)
Lemma last_found {A} s p (m : list (text * A)) : forall e0 n,
  fold_left (fun e r => match find_from (fst r) s p with Some n => Some n | None => e end) m e0 = Some n ->
  e0 = Some n \/ exists r, In r m /\ find_from (fst r) s p = Some n.
Proof.
  induction m as [|r m IH]; intros e0 n H; cbn [fold_left] in H; [auto|]. apply IH in H as [H|(r' & I & H)].
  - destruct (find_from (fst r) s p) eqn:F; auto. right. exists r. rewrite F. split; [left|]; auto.
  - right. exists r'. split; [right|]; auto.
Qed.
Lemma some_found {A} s p (m : list (text * A)) : forall e0,
  e0 <> None \/ (exists r, In r m /\ find_from (fst r) s p <> None) ->
  fold_left (fun e r => match find_from (fst r) s p with Some n => Some n | None => e end) m e0 <> None.
Proof.
  induction m as [|r m IH]; intros e0 H; cbn [fold_left].
  - destruct H as [H|(r & [] & _)]; auto.
  - apply IH. destruct H as [H|(r' & [->|I] & H)]; [| |right; eauto].
    + left. destruct (find_from (fst r) s p); [discriminate|auto].
    + left. destruct (find_from (fst r') s p); [discriminate|auto].
Qed.
Lemma skipn_prefix : forall n s (l : text) a, skipn n s = l ++ a -> s = firstn n s ++ l ++ a.
Proof. intros n s l a E. rewrite <- E. symmetry. apply firstn_skipn. Qed.
(** A system does not begin inside an architecture. *)
Lemma no_overlap a o n d s x y : In a arch_names -> In o system_names ->
  skipn n s = a ++ x -> 0 < d -> skipn (n + d) s = o ++ y -> List.length a <= d.
Proof.
  intros Ia Io Ea D Eo. destruct (Nat.lt_ge_cases d (List.length a)); auto. exfalso.
  assert (E : skipn d (a ++ x) = o ++ y).
  { rewrite <- Ea, <- Eo. clear. revert s. induction n; intros s; [reflexivity|]. destruct s; cbn; [now destruct d|apply IHn]. }
  unfold arch_names, system_names in *. cbn in Ia, Io.
  destruct Ia as [<-|[<-|[]]]; cbn in *; (destruct d as [|[|[|d]]]; [lia| | |lia]); cbn in E;
    destruct Io as [<-|[<-|[<-|[<-|[]]]]]; discriminate.
Qed.
