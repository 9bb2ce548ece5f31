(** Proofs about reading and writing tensors by file name. *)
From Coq Require Import String List ZArith Lia Bool Ascii.
From Verif Require Import Parser FileIO FileIOSpec FileIOProofs FileIOMore FileIORB FileNames FileNamesSpec.
Import ListNotations.
Local Open Scope nat_scope.
Local Notation chars := list_ascii_of_string.

Lemma text_eqb_eq a b : text_eqb a b = true <-> a = b.
Proof. unfold text_eqb. destruct (list_eq_dec ascii_dec a b); split; congruence. Qed.
Lemma text_eqb_neq a b : text_eqb a b = false <-> a <> b.
Proof. unfold text_eqb. destruct (list_eq_dec ascii_dec a b); split; congruence. Qed.

Lemma after_last_none c s : ~ In c s -> after_last c s = None.
Proof.
  induction s as [|x r IH]; cbn; intros N; auto. rewrite IH by tauto.
  destruct (Ascii.eqb_spec x c); [subst; tauto|auto].
Qed.
Lemma after_last_app c a b : ~ In c b -> after_last c (a ++ c :: b) = Some b.
Proof.
  intros N. induction a as [|x r IH]; cbn.
  - rewrite after_last_none by auto. now rewrite Ascii.eqb_refl.
  - now rewrite IH.
Qed.
Lemma after_last_some c s t : after_last c s = Some t -> exists a, s = a ++ c :: t /\ ~ In c t.
Proof.
  revert t. induction s as [|x r IH]; cbn; intros t E; [discriminate|].
  destruct (after_last c r) as [u|] eqn:A.
  - inversion E; subst u. destruct (IH t eq_refl) as (a & -> & N). exists (x :: a). auto.
  - destruct (Ascii.eqb_spec x c); [|discriminate]. inversion E; subst. exists []. split; auto.
    intros I. clear IH E. induction t as [|y t IH]; [destruct I|]. cbn in A.
    destruct (after_last c t) eqn:B; [discriminate|]. destruct (Ascii.eqb_spec y c); [discriminate|].
    destruct I; [congruence|auto].
Qed.
Lemma from_last_app c a b : ~ In c b -> from_last c (a ++ c :: b) = b.
Proof. intros N. unfold from_last. now rewrite after_last_app. Qed.
Lemma from_last_none c s : ~ In c s -> from_last c s = s.
Proof. intros N. unfold from_last. now rewrite after_last_none. Qed.

Lemma suffix_type stem s k : suffix s k -> type_of (extension (stem ++ s)) = Some k.
Proof. intros H. unfold extension. destruct H; cbn [chars]; rewrite from_last_app by (cbn; intuition discriminate); reflexivity. Qed.

Lemma type_known path k : type_of (extension path) = Some k -> (exists stem s, suffix s k /\ path = stem ++ s) \/ (exists s, suffix s k /\ "."%char :: path = s).
Proof.
  unfold extension, from_last. destruct (after_last "." path) as [e|] eqn:A.
  - apply after_last_some in A as (a & -> & _). intros T. left. exists a, ("."%char :: e). split; auto.
    revert T. unfold type_of.
    destruct (text_eqb e _) eqn:E1; [apply text_eqb_eq in E1; subst; intros T; inversion T; constructor|].
    destruct (text_eqb e ["t"; "n"; "s"]%char) eqn:E2; [apply text_eqb_eq in E2; subst; intros T; inversion T; constructor|].
    destruct (text_eqb e ["m"; "t"; "x"]%char) eqn:E3; [apply text_eqb_eq in E3; subst; intros T; inversion T; constructor|].
    destruct (text_eqb e ["r"; "b"]%char) eqn:E4; [apply text_eqb_eq in E4; subst; intros T; inversion T; constructor|discriminate].
  - intros T. right. exists ("."%char :: path). split; auto. revert T. unfold type_of.
    destruct (text_eqb path _) eqn:E1; [apply text_eqb_eq in E1; subst; intros T; inversion T; constructor|].
    destruct (text_eqb path ["t"; "n"; "s"]%char) eqn:E2; [apply text_eqb_eq in E2; subst; intros T; inversion T; constructor|].
    destruct (text_eqb path ["m"; "t"; "x"]%char) eqn:E3; [apply text_eqb_eq in E3; subst; intros T; inversion T; constructor|].
    destruct (text_eqb path ["r"; "b"]%char) eqn:E4; [apply text_eqb_eq in E4; subst; intros T; inversion T; constructor|discriminate].
Qed.

Lemma span_dot base rest : ~ In "."%char base -> fst (span (fun c => negb (Ascii.eqb c ".")) (base ++ "."%char :: rest)) = base.
Proof.
  induction base as [|x r IH]; cbn; intros N; auto.
  destruct (Ascii.eqb_spec x "."); [subst; tauto|]. cbn. destruct (span _ (r ++ _)) as [u v] eqn:E. cbn in *.
  now rewrite IH by tauto.
Qed.
Lemma underscores_map base name : underscores base name -> map (fun c => if Ascii.eqb c "-" then "_"%char else c) base = name.
Proof.
  induction 1 as [|a b l m H _ IH]; cbn; auto. rewrite IH. destruct H as [[-> ->]|[N ->]]; auto.
  destruct (Ascii.eqb_spec a "-"); congruence.
Qed.
Lemma map_underscores base : underscores base (map (fun c => if Ascii.eqb c "-" then "_"%char else c) base).
Proof.
  induction base as [|a l IH]; cbn; constructor; auto.
  destruct (Ascii.eqb_spec a "-"); auto.
Qed.
Lemma base_name_ok path base : base_name path base -> fst (span (fun c => negb (Ascii.eqb c ".")) (from_last "/" path)) = base.
Proof.
  intros (dir & rest & -> & D & Nb & Nd & Nr).
  assert (N : ~ In "/"%char (base ++ "."%char :: rest)).
  { rewrite in_app_iff. cbn. intuition discriminate. }
  destruct D as [->|[e ->]].
  - cbn [app]. rewrite from_last_none by auto. now apply span_dot.
  - rewrite <- app_assoc. cbn [app]. rewrite from_last_app by auto. now apply span_dot.
Qed.
Lemma names_ok path name : names path name -> tensor_name path = name.
Proof. intros (base & B & U). unfold tensor_name. rewrite (base_name_ok _ _ B). now apply underscores_map. Qed.

Lemma stands_sanitize home path p : stands_for home path p -> sanitize home path = FOk p.
Proof.
  intros [[N ->]|(h & r & -> & -> & ->)]; cbn; auto.
  destruct path as [|c r]; auto. cbn. destruct (Ascii.eqb_spec c "~"); auto. subst. exfalso. apply N. reflexivity.
Qed.
Lemma sanitize_stands home path p : sanitize home path = FOk p -> stands_for home path p.
Proof.
  destruct path as [|c r]; cbn; intros E.
  - inversion E. left. split; auto. discriminate.
  - destruct (Ascii.eqb_spec c "~").
    + subst. destruct home as [h|]; inversion E. right. exists h, r. auto.
    + inversion E. left. split; auto. cbn. congruence.
Qed.
Lemma set_same fs p s : same_but p fs (set_file fs p s).
Proof. split; auto. intros q N. cbn. destruct (text_eqb q p) eqn:E; auto. apply text_eqb_eq in E. congruence. Qed.
Lemma set_holds fs p s : holds (set_file fs p s) p = Some s.
Proof. cbn. destruct (text_eqb p p) eqn:E; auto. apply text_eqb_neq in E. congruence. Qed.

Section Values.
Variable V : Type.
Variable show : V -> text.
Variable scan : text -> V.
Variable show_rb : V -> text.
Variable title key ptrfmt indfmt valfmt : text.
Notation wopen := (write_open V show show_rb title key ptrfmt indfmt valfmt).
Notation was := (write_as V show show_rb title key ptrfmt indfmt valfmt).
Notation wnamed := (write_named V show show_rb title key ptrfmt indfmt valfmt).

Lemma wopen_frame home fs k path t fs' r : wopen home fs k path t = (fs', r) ->
  fs' = fs \/ exists p, stands_for home path p /\ same_but p fs fs'.
Proof.
  unfold write_open. destruct (sanitize home path) as [p| |] eqn:S; try (intros E; inversion E; auto).
  destruct (may_write fs p); [|inversion E; auto].
  apply sanitize_stands in S.
  destruct (stream_text _ _ _ _ _ _ _ _ k t); inversion E; subst; right; exists p; split; auto; apply set_same.
Qed.
Lemma wnamed_frame asserts home fs path t fs' r : wnamed asserts home fs path t = (fs', r) ->
  fs' = fs \/ exists p, stands_for home path p /\ same_but p fs fs'.
Proof.
  unfold write_named, write_as. destruct (type_of (extension path)) as [[]|]; try (intros E; inversion E; auto; fail).
  - apply wopen_frame.
  - apply wopen_frame.
  - destruct (asserts && _); [intros E; inversion E; auto|apply wopen_frame].
  - destruct (asserts && _); [intros E; inversion E; auto|apply wopen_frame].
Qed.

Lemma order_check asserts n (t : source V) : n = 2 -> asserts && negb (n =? 2) = false.
Proof. intros ->. now rewrite andb_false_r. Qed.

Lemma round_trip asserts home fs stem s k p w t c name :
  suffix s k -> stands_for home (stem ++ s) p -> may_write fs p = true -> names (stem ++ s) name ->
  (k = Mtx -> length (dims V t) = 2) ->
  one_line title -> one_line key -> one_line ptrfmt -> one_line indfmt -> one_line valfmt ->
  gives_back show scan show_rb t k w c ->
  exists fs', wnamed asserts home fs (stem ++ s) t = (fs', FOk tt) /\ same_but p fs fs' /\
    read_named V scan home fs' w (stem ++ s) = FOk (name, c).
Proof.
  intros Hs St Mw Na Mt L1 L2 L3 L4 L5 G.
  unfold write_named, read_named. rewrite (suffix_type stem s k Hs), (names_ok _ _ Na).
  assert (X : exists txt, stream_text V show show_rb title key ptrfmt indfmt valfmt k t = FOk txt /\ read_stream V scan k w txt = FOk c).
  { destruct G as [w0 N Va W L S|k w0 K D Sz B Nd Dd N Va S|m C O L].
    - eexists. split; [reflexivity|]. unfold read_stream.
      destruct (tns_ok show scan (length (dims V t)) (comps V t) N Va S) as (d & E & Ld & Wd & Sd).
      rewrite E. cbn. replace d with (dims V t); auto. symmetry. apply (proj2 (dims_tight _ _ _ Ld Wd Sd W)); auto.
    - exists (write_sparse V show (dims V t) (size V t) (comps V t)). split; [destruct K as [-> | ->]; cbn; unfold mtx_text; now rewrite D|].
      assert (E : read_mtx V scan (write_sparse V show (dims V t) (size V t) (comps V t)) = FOk (Some (dims V t, comps V t))).
      { rewrite Sz in *. rewrite write_sparse_file by auto.
        rewrite (mtx_coordinate show scan false [["%"%char]]) by (auto; try discriminate; repeat constructor; exists [], []; cbn; intuition discriminate).
        rewrite mirror_false. reflexivity. }
      destruct K as [-> | ->]; cbn [read_stream]; rewrite E; reflexivity.
    - eexists. split; [cbn; rewrite C; reflexivity|]. cbn. rewrite rb_ok by auto. reflexivity. }
  destruct X as (txt & E1 & E2).
  assert (O : wopen home fs k (stem ++ s) t = (set_file fs p txt, FOk tt)).
  { unfold write_open. now rewrite (stands_sanitize _ _ _ St), Mw, E1. }
  assert (R : read_as V scan home (set_file fs p txt) k w (stem ++ s) = FOk c).
  { unfold read_as. rewrite (stands_sanitize _ _ _ St). cbn [fbind]. rewrite set_holds.
    destruct k; auto. destruct w; auto. }
  exists (set_file fs p txt). rewrite R. split; [|split; [apply set_same|reflexivity]].
  assert (O2 : (k = Rb \/ k = Mtx) -> asserts && negb (length (dims V t) =? 2) = false).
  { intros K. apply order_check; auto. destruct K as [-> | ->]; auto. inversion G; subst; auto. intuition discriminate. }
  destruct k; unfold write_as; auto; now rewrite O2 by auto.
Qed.
End Values.
