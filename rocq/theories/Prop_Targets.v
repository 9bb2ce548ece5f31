(** C77: target strings. *)
From Coq Require Import String Ascii List Bool Arith Lia.
From Verif Require Import Parser Targets TargetsSpec TargetsProofs.
Import ListNotations.
Local Open Scope nat_scope.

(** A string that is declared valid names an architecture and, after it, a system. *)
Theorem C77_valid : forall s, validate s = true ->
  exists a o, In a arch_names /\ In o system_names /\ arch_then_system a o s.
Proof.
  intros s. unfold validate.
  destruct (fold_left _ archMap None) as [n|] eqn:Ea; [|discriminate].
  destruct (fold_left _ osMap None) as [m|] eqn:Eo; [|discriminate]. intros _.
  apply last_found in Ea as [Ea|(ra & Ia & Ea)]; [discriminate|]. apply last_found in Eo as [Eo|(ro & Io & Eo)]; [discriminate|].
  apply find_from_some in Ea as [_ (x & Ea)]. apply find_from_some in Eo as [L (y & Eo)].
  assert (Na : In (fst ra) arch_names) by (cbn in Ia; destruct Ia as [<-|[<-|[]]]; cbn; auto).
  assert (No : In (fst ro) system_names) by (cbn in Io; destruct Io as [<-|[<-|[<-|[<-|[]]]]]; cbn; auto).
  exists (fst ra), (fst ro). split; auto. split; auto.
  assert (Lo : List.length (fst ra) <= m - n).
  { eapply no_overlap with (n := n) (s := s); eauto; [lia|]. replace (n + (m - n)) with m by lia. eauto. }
  exists (firstn n s), (firstn (m - n - List.length (fst ra)) x), y.
  rewrite <- Eo. replace (skipn m s) with (skipn (m - n - List.length (fst ra)) x).
  - rewrite firstn_skipn. apply skipn_prefix. auto.
  - replace m with ((m - n) + n) at 2 by lia.
    assert (X : forall (l : text) i j, skipn (i + j) l = skipn i (skipn j l)).
    { intros l i j. revert l. induction j; intros l; [rewrite Nat.add_0_r; reflexivity|]. rewrite Nat.add_succ_r. destruct l; cbn; [now destruct i|apply IHj]. }
    rewrite X, Ea, skipn_app. rewrite (skipn_all2 (fst ra)) by lia. reflexivity.
Qed.
Print Assumptions C77_valid.

(** A string that names one architecture, and after it a system, is declared valid: so is every
    string of the documented form whose features do not name the other architecture. *)
Theorem C77_accepted : forall s a o, In a arch_names -> In o system_names -> arch_then_system a o s ->
  (forall a', In a' arch_names -> a' <> a -> ~ occurs a' s) -> validate s = true.
Proof.
  intros s a o Ia Io (before & between & after & ->) U. set (s := (before ++ a ++ between ++ o ++ after)%list) in *.
  destruct (find_from_occurs before a (between ++ o ++ after)%list 0) as (n & En & Ln); [lia|]. fold s in En.
  assert (E : fold_left (fun e r => match find_from (fst r) s 0 with Some n => Some n | None => e end) archMap None = Some n).
  { cbn [fold_left archMap fst]. assert (Ia' : a = txt "c99" \/ a = txt "x86") by (cbn in Ia; intuition).
    destruct Ia' as [Ha|Ha]; rewrite Ha in *.
    - rewrite En. rewrite (find_from_none (txt "x86")); auto. apply U; [cbn; auto|discriminate].
    - rewrite En. reflexivity. }
  unfold validate. rewrite E.
  destruct (fold_left (fun e r => match find_from (fst r) s (n + 1) with Some n => Some n | None => e end) osMap None) eqn:F; auto.
  exfalso. revert F. apply some_found. right.
  assert (Len : List.length a = 3) by (cbn in Ia; destruct Ia as [<-|[<-|[]]]; reflexivity).
  assert (R : exists r, In r osMap /\ fst r = o).
  { cbn in Io. destruct Io as [<-|[<-|[<-|[<-|[]]]]];
      [exists (txt "linux", Linux)|exists (txt "macos", MacOS)|exists (txt "unknown", OSUnknown)|exists (txt "windows", Windows)]; (split; [unfold osMap; cbn [In]; tauto|reflexivity]). }
  destruct R as (r & Ir & <-). exists r. split; auto.
  destruct (find_from_occurs (before ++ a ++ between)%list (fst r) after (n + 1)) as (k & Ek & _); [rewrite !app_length; lia|].
  unfold s. rewrite <- !app_assoc in Ek. rewrite Ek. discriminate.
Qed.
Print Assumptions C77_accepted.

(** *** Findings *)
(** No string makes a target.  Without a dash the error is the user's; with one, the loop that
    should find the parts never advances, and ends in an exception of the standard library. *)
Theorem C77_constructor_refuted : forall s,
  (~ In "-"%char s -> forall steps, parse_target steps s = UserError) /\
  (In "-"%char s -> exists n, forall steps, n <= steps -> parse_target steps s = OutOfRange).
Proof.
  intros s. unfold parse_target. split.
  - intros N steps. apply find_char_none in N. rewrite N. reflexivity.
  - intros I. exists (S (List.length s)). intros steps G. destruct (find_char "-" s) eqn:E.
    + rewrite (split_at_end _ (List.length s)); auto.
    + apply find_char_none in E. contradiction.
Qed.
Print Assumptions C77_constructor_refuted.

(** In particular those that are declared valid do not. *)
Theorem C77_valid_refuted : forall s steps a o, parse_target steps s <> Made a o.
Proof.
  intros s steps a o. unfold parse_target. destruct (find_char "-" s) as [p|]; [|discriminate].
  destruct (split_at_never p steps s []) as [-> | ->]; discriminate.
Qed.
Print Assumptions C77_valid_refuted.

(** Strings that are not of the documented form are declared valid, and one that is, is not. *)
Theorem C77_form_refuted :
  validate (txt "nox86atall(windows)") = true /\ validate (txt "c99-linux-x86") = false.
Proof. split; reflexivity. Qed.
Print Assumptions C77_form_refuted.

(** The hypotheses are met. *)
Example C77_case : In (txt "c99") arch_names /\ In (txt "linux") system_names /\ arch_then_system (txt "c99") (txt "linux") (txt "c99-linux-openmp") /\
  (forall a', In a' arch_names -> a' <> txt "c99" -> ~ occurs a' (txt "c99-linux-openmp")) /\ validate (txt "c99-linux-openmp") = true.
Proof.
  split; [cbn; auto|]. split; [cbn; auto|]. split; [exists [], (txt "-"), (txt "-openmp"); reflexivity|]. split; [|reflexivity].
  intros a' [<-|[<-|[]]] N; [exfalso; apply N; reflexivity|]. intros (b & a & E).
  cbn in E. repeat (destruct b as [|? b]; cbn [app] in E; [discriminate E|first [discriminate E|injection E as _ E]]).
Qed.
