(** Proofs about kernels (C80). *)
From Coq Require Import List Arith Bool ZArith Lia.
From Verif Require Import Kernels KernelsSpec.
Import ListNotations.
Local Open Scope nat_scope.

Definition preserves (F : list nat) (m m' : memory) : Prop :=
  forall p b, block m (Some p) = Some b -> ~ In p F -> block m' (Some p) = Some b.

Lemma set_nth_same : forall A (l : list A) n x y, nth_error l n = Some y -> nth_error (set_nth l n x) n = Some x.
Proof. induction l; destruct n; simpl; intros; try discriminate; auto. eauto. Qed.
Lemma set_nth_other : forall A (l : list A) n k x, n <> k -> nth_error (set_nth l n x) k = nth_error l k.
Proof. induction l; destruct n, k; simpl; intros; auto; try congruence. Qed.
Lemma set_nth_length : forall A (l : list A) n x, length (set_nth l n x) = length l.
Proof. induction l; destruct n; simpl; auto. Qed.

Lemma free_length : forall m p, length (free m p) = length m.
Proof. induction m; destruct p; simpl; auto. Qed.
Lemma free_other : forall m p q, p <> q -> nth_error (free m p) q = nth_error m q.
Proof. induction m; destruct p, q; simpl; intros; auto; try congruence. Qed.

Lemma destroy_length : forall m a, length (destroy m a) = length m.
Proof. intros. unfold destroy. destruct (a_free a); auto. destruct (a_data a); auto using free_length. Qed.
Lemma destroy_preserves : forall m a, preserves (owned_by a) m (destroy m a).
Proof.
  intros m a p b H N. unfold destroy, owned_by in *. destruct (a_free a); auto.
  destruct (a_data a); auto. simpl in *. rewrite free_other; auto.
Qed.
Lemma destroys : forall l m, length (fold_left destroy l m) = length m /\
  preserves (flat_map owned_by l) m (fold_left destroy l m).
Proof.
  induction l; simpl; intros.
  - split; auto. intros p b H _. auto.
  - destruct (IHl (destroy m a)) as [L P]. split; [rewrite L; apply destroy_length|].
    intros p b H N. apply P; [apply destroy_preserves; auto|]; intro I; apply N, in_or_app; auto.
Qed.

Lemma block_app : forall m x p b, block m p = Some b -> block (m ++ x) p = Some b.
Proof.
  intros m x [p|] b H; simpl in *; try discriminate.
  destruct (nth_error m p) eqn:E; try discriminate. rewrite nth_error_app1; [rewrite E; auto|].
  apply nth_error_Some. congruence.
Qed.
Lemma block_last : forall m x, block (m ++ [Some x]) (Some (length m)) = Some x.
Proof. intros. simpl. rewrite nth_error_app2, Nat.sub_diag; auto. Qed.

Lemma stored_mono : forall m m' ls ps n cs k, stored_levels m ls ps n cs k ->
  (forall p b, In p (flat_map (fun p => [fst p; snd p]) ps) -> block m p = Some b -> block m' p = Some b) ->
  stored_levels m' ls ps n cs k.
Proof.
  induction 1; intros M; simpl in M.
  - constructor.
  - econstructor; [apply M; eauto|]. apply IHstored_levels. intros q b I. apply M; auto.
  - econstructor; [apply M; eauto|apply M; eauto|auto|auto|]. apply IHstored_levels. intros q b I. apply M; auto.
Qed.

Lemma contents_preserved : forall m m' a xs, array_contents m a = Some xs ->
  (forall p b, a_data a = Some p -> block m (Some p) = Some b -> block m' (Some p) = Some b) ->
  array_contents m' a = Some xs.
Proof.
  unfold array_contents. intros m m' a xs H P. destruct (a_data a) as [p|]; [|discriminate].
  destruct (block m (Some p)) eqn:E; [|discriminate]. rewrite (P p l); auto.
Qed.
Lemma reads_levels_preserved : forall m m' ls index cs, reads_levels m ls index cs ->
  (forall p b, In (Some p) (map a_data (concat index)) -> block m (Some p) = Some b -> block m' (Some p) = Some b) ->
  reads_levels m' ls index cs.
Proof.
  induction ls as [|l ls IH]; intros index cs R P.
  - destruct index, cs; simpl in *; auto.
  - destruct l, index as [|[|a [|b [|? ?]]] index], cs as [|[|] cs]; simpl in R; try contradiction; simpl in P.
    + destruct R as [A R]. split.
      * eapply contents_preserved; [eassumption|]. intros p x E. apply P. auto.
      * apply IH; [assumption|]. intros p x I. apply P. auto.
    + destruct R as (A & B & R). split; [|split].
      * eapply contents_preserved; [eassumption|]. intros p x E. apply P. auto.
      * eapply contents_preserved; [eassumption|]. intros p x E. apply P. auto.
      * apply IH; [assumption|]. intros p x I. apply P. auto.
Qed.

Lemma firstn_prefix : forall (A : Type) (x y : list A), firstn (length x) (x ++ y) = x.
Proof. intros. rewrite firstn_app, Nat.sub_diag, firstn_O, app_nil_r. apply firstn_all. Qed.
Lemma contents_prefix : forall m p xs more free, block m p = Some (xs ++ more) ->
  array_contents m (Arr p (length xs) free) = Some xs.
Proof.
  intros. unfold array_contents. simpl. rewrite H.
  replace (length xs <=? length (xs ++ more)) with true by (symmetry; apply Nat.leb_le; rewrite app_length; lia).
  rewrite firstn_prefix. auto.
Qed.

Lemma unpack_levels_ok : forall ls m ps n cs k, stored_levels m ls ps n cs k ->
  exists x index, unpack_levels m ls ps n = Done (m ++ x, index, k) /\
    reads_levels (m ++ x) ls index cs /\
    (forall p, In (Some p) (map a_data (concat index)) -> In (Some p) (kept_levels ls ps) \/ length m <= p) /\
    (forall old, length old = length ps -> exists ps', pack_levels ls index old = Some ps' /\
       kept_levels ls ps' = kept_levels ls ps).
Proof.
  induction ls as [|l ls IH]; intros m ps n cs k S; inversion S; subst.
  - exists [], []. rewrite app_nil_r. simpl. repeat split; auto; try tauto. intros. eauto.
  - assert (S' : stored_levels (m ++ [Some [Z.of_nat d]]) ls ps0 (n * d) cs0 k).
    { eapply stored_mono; [eassumption|]. intros. apply block_app. auto. }
    destruct (IH _ _ _ _ _ S') as (x & index & U & R & P & K).
    exists ([Some [Z.of_nat d]] ++ x), ([Arr (Some (length m)) 1 true] :: index).
    rewrite app_assoc. simpl unpack_levels.
    match goal with H : block m (fst _) = Some (_ :: _) |- _ => rewrite H end.
    replace (Z.of_nat d <? 0)%Z with false by (symmetry; apply Z.ltb_ge; lia).
    rewrite Nat2Z.id, U. split; [auto|]. split; [|split].
    + simpl. split; auto. unfold array_contents. simpl a_data. rewrite (block_app _ _ _ [Z.of_nat d]); [auto|].
      apply block_last.
    + simpl. intros q [E | I].
      * inversion E; subst. right. lia.
      * destruct (P q I) as [J|J]; auto. right. rewrite app_length in J. simpl in J. lia.
    + intros [|o old] L; simpl in L; [discriminate|]. destruct (K old) as (ps' & E & E'); [lia|].
      simpl. rewrite E. eexists. split; [reflexivity|]. simpl. auto.
  - match goal with H : stored_levels m ls _ _ _ _ |- _ => destruct (IH _ _ _ _ _ H) as (x & index & U & R & P & K) end.
    match goal with H : block m (fst _) = Some _ |- _ => rename H into B1 end.
    match goal with H : block m (snd _) = Some _ |- _ => rename H into B2 end.
    match goal with H : length pos = _ |- _ => rename H into L1 end.
    match goal with H : nth_error pos _ = _ |- _ => rename H into L2 end.
    exists x, ([Arr (fst p) (n + 1) false; Arr (snd p) (length crd) false] :: index).
    simpl unpack_levels. rewrite B1.
    rewrite nth_error_app1 by (apply nth_error_Some; congruence). rewrite L2.
    replace (Z.of_nat (length crd) <? 0)%Z with false by (symmetry; apply Z.ltb_ge; lia).
    rewrite Nat2Z.id, U. split; [auto|]. split; [|split].
    + simpl. split; [|split]; auto.
      * rewrite <- L1. eapply contents_prefix. apply block_app. eauto.
      * eapply contents_prefix. apply block_app. eauto.
    + simpl. intros q [E | [E | I]]; auto. destruct (P q I); auto.
    + intros [|o old] L; simpl in L; [discriminate|]. destruct (K old) as (ps' & E & E'); [lia|].
      simpl. rewrite E. eexists. split; [reflexivity|]. simpl. rewrite E'. auto.
Qed.

Lemma unpack_storage_ok : forall m s cs vs, stored m (k_levels s) (k_raw s) cs vs ->
  (forall p, In p (owned s) -> p < length m) ->
  (forall p, In (Some p) (kept (k_levels s) (k_raw s)) -> ~ In p (owned s)) ->
  exists m' s', unpack_storage m s = Done (m', s') /\ length m <= length m' /\
    preserves (owned s) m m' /\ reads m' s' cs vs /\ k_levels s' = k_levels s /\ k_raw s' = k_raw s /\
    (forall p, In (Some p) (map a_data (concat (k_index s') ++ [k_values s'])) ->
       In (Some p) (kept (k_levels s) (k_raw s)) \/ length m <= p) /\
    (exists s3, pack_storage s' = Some s3 /\ kept (k_levels s) (k_raw s3) = kept (k_levels s) (k_raw s)).
Proof.
  intros m s cs vs [S [more V]] O N.
  destruct (unpack_levels_ok _ _ _ _ _ _ S) as (x & index & U & R & P & K).
  unfold unpack_storage. rewrite U.
  destruct (destroys (concat (k_index s)) (m ++ x)) as [L1 P1].
  set (m1 := fold_left destroy (concat (k_index s)) (m ++ x)) in *.
  set (m2 := destroy m1 (k_values s)).
  assert (P2 : preserves (owned s) (m ++ x) m2).
  { intros p b H I. unfold owned in I. rewrite flat_map_app in I. simpl in I. rewrite app_nil_r in I.
    apply destroy_preserves; [apply P1; auto|]; intro J; apply I, in_or_app; auto. }
  assert (L2 : length m <= length m2).
  { unfold m2. rewrite destroy_length, L1, app_length. lia. }
  exists m2. eexists. split; [reflexivity|]. simpl. split; [auto|].
  assert (SAFE : forall p, In (Some p) (kept (k_levels s) (k_raw s)) \/ length m <= p -> ~ In p (owned s)).
  { intros p [I|I]; auto. intro J. apply O in J. lia. }
  repeat split; auto.
  - intros p b H I. apply P2; auto. apply block_app. auto.
  - simpl. eapply reads_levels_preserved; [eassumption|]. intros p b I H. apply P2; auto. apply SAFE.
    destruct (P p I); auto. left. unfold kept. apply in_or_app. auto.
  - simpl. apply (contents_preserved (m ++ x)).
    + eapply contents_prefix. apply block_app. eauto.
    + cbn [a_data]. intros p b E H. apply P2; auto. apply SAFE. left. unfold kept. rewrite E. apply in_or_app. simpl. auto.
  - intros p I. rewrite map_app in I. simpl in I. apply in_app_or in I. unfold kept. destruct I as [I | [I | []]].
    + destruct (P p I); auto. left. apply in_or_app. auto.
    + left. apply in_or_app. simpl. auto.
  - destruct (K (r_indices (k_raw s)) eq_refl) as (ps' & E & E').
    unfold pack_storage. simpl. rewrite E. eexists. split; [reflexivity|]. unfold kept. simpl. rewrite E'. auto.
Qed.

Lemma stored_storage_mono : forall m m' ls r cs vs, stored m ls r cs vs ->
  (forall p b, In p (pointers r) -> block m p = Some b -> block m' p = Some b) -> stored m' ls r cs vs.
Proof.
  intros m m' ls r cs vs [S [more V]] M. split.
  - eapply stored_mono; [eassumption|]. intros. apply M; auto. apply in_or_app. auto.
  - exists more. apply M; auto. apply in_or_app. simpl. auto.
Qed.

Definition good (m1 m2 : memory) (stos1 stos2 : list sto) (results : list nat) : Prop :=
  (forall h s cs vs, In h results -> nth_error stos1 h = Some s -> stored m1 (k_levels s) (k_raw s) cs vs ->
     exists s2, nth_error stos2 h = Some s2 /\ k_levels s2 = k_levels s /\ reads m2 s2 cs vs /\
       exists s3, pack_storage s2 = Some s3 /\ kept (k_levels s) (k_raw s3) = kept (k_levels s) (k_raw s)) /\
  (forall h, ~ In h results -> nth_error stos2 h = nth_error stos1 h) /\
  (forall p b, block m1 (Some p) = Some b ->
     (forall h s, In h results -> nth_error stos1 h = Some s -> ~ In p (owned s)) -> block m2 (Some p) = Some b).

Lemma unpack_results_ok : forall results m stos, NoDup results ->
  (forall h, In h results -> exists s cs vs, nth_error stos h = Some s /\ stored m (k_levels s) (k_raw s) cs vs) ->
  new_arrays m stos results ->
  exists m2 stos2, unpack_results m stos results = Done (m2, stos2) /\ good m m2 stos stos2 results.
Proof.
  induction results as [|h results IH]; intros m stos ND ST NEW.
  - exists m, stos. split; auto. repeat split; intros; auto. contradiction.
  - inversion ND as [|? ? NI ND']; subst.
    destruct (ST h (or_introl eq_refl)) as (s & cs & vs & E & S).
    destruct (NEW h s (or_introl eq_refl) E) as (N1 & N2 & N3).
    destruct (unpack_storage_ok _ _ _ _ S N1 N2) as (m' & s' & U & L & P & R & KL & KR & D & PK).
    simpl. rewrite E, U.
    assert (OTHER : forall h', In h' results -> nth_error (set_nth stos h s') h' = nth_error stos h').
    { intros h' I. apply set_nth_other. intro; subst; auto. }
    assert (KEEP : forall h' s0 cs0 vs0, In h' results -> nth_error stos h' = Some s0 ->
              stored m (k_levels s0) (k_raw s0) cs0 vs0 -> stored m' (k_levels s0) (k_raw s0) cs0 vs0).
    { intros h' s0 cs0 vs0 I E0 S0. eapply stored_storage_mono; eauto. intros [p|] b J B; [|discriminate].
      apply P; auto. destruct (NEW h' s0 (or_intror I) E0) as (_ & _ & N).
      apply (N p h s J); [simpl; auto | intro; subst; auto | auto]. }
    destruct (IH m' (set_nth stos h s') ND') as (m2 & stos2 & U2 & G1 & G2 & G3).
    { intros h' I. destruct (ST h' (or_intror I)) as (s0 & cs0 & vs0 & E0 & S0).
      exists s0, cs0, vs0. rewrite OTHER by auto. split; auto. eapply KEEP; eauto. }
    { intros h' s0 I E0. rewrite OTHER in E0 by auto.
      destruct (NEW h' s0 (or_intror I) E0) as (A & B & C). split; [|split].
      - intros p J. apply A in J. lia.
      - auto.
      - intros p h2 s2 J I2 NE E2. rewrite OTHER in E2 by auto. apply (C p h2 s2); simpl; auto. }
    exists m2, stos2. split; [auto|]. repeat split.
    + intros h0 s0 cs0 vs0 [I | I] E0 S0.
      * subst h0. rewrite E in E0. inversion E0; subst s0.
        destruct (unpack_storage_ok _ _ _ _ S0 N1 N2) as (m'' & s'' & U' & _ & _ & R' & _ & _ & D' & _).
        rewrite U in U'. inversion U'; subst m'' s''.
        exists s'. rewrite G2 by auto. split; [eapply set_nth_same; eauto|]. split; [auto|]. split; [|auto].
        assert (TO : forall p b, In (Some p) (map a_data (concat (k_index s') ++ [k_values s'])) ->
                  block m' (Some p) = Some b -> block m2 (Some p) = Some b).
        { intros p b I B. apply G3; auto. intros h' s2 I' E'. rewrite OTHER in E' by auto.
          destruct (D p I) as [J | J].
          - apply (N3 p h' s2); [| simpl; auto | intro; subst; auto | auto].
            { unfold kept in J. unfold pointers. apply in_app_or in J. apply in_or_app.
              destruct J as [J | J]; auto. left. clear -J. revert J. generalize (r_indices (k_raw s)).
              induction (k_levels s) as [|l ls IH]; intros ps J; simpl in J; [contradiction|].
              destruct ps as [|q ps]; [destruct l; contradiction|].
              simpl. destruct l; simpl in J; auto; destruct J as [J | [J | J]]; auto. }
          - intro K. destruct (NEW h' s2 (or_intror I') E') as (A & _ & _). apply A in K. lia. }
        destruct R' as [R1 R2]. split.
        { eapply reads_levels_preserved; [eassumption|]. intros p b I. apply TO. rewrite map_app. apply in_or_app. auto. }
        { eapply contents_preserved; [eassumption|]. intros p b I. apply TO. rewrite map_app. apply in_or_app. right. simpl. auto. }
      * destruct (G1 h0 s0 cs0 vs0 I) as (s2 & A & B); [rewrite OTHER; auto | eapply KEEP; eauto |]. eauto.
    + intros h0 NI0. rewrite G2 by (simpl in NI0; auto). apply set_nth_other. simpl in NI0. auto.
    + intros p b B NO. apply G3.
      * apply P; auto. apply (NO h s); simpl; auto.
      * intros h' s0 I E0. rewrite OTHER in E0 by auto. apply (NO h'); simpl; auto.
Qed.

Lemma with_raws_same : forall stos rs h s, nth_error stos h = Some s ->
  exists s', nth_error (with_raws stos rs) h = Some s' /\ same_arrays s s'.
Proof.
  induction stos; destruct rs, h; simpl; intros; try discriminate; eauto.
  - exists s. repeat split; auto.
  - exists s. repeat split; auto.
  - inversion H; subst. eexists. repeat split; eauto.
Qed.
Lemma pack_storage_same : forall s s', pack_storage s = Some s' -> same_arrays s s'.
Proof. unfold pack_storage. intros s s'. destruct (pack_levels _ _ _); [|discriminate]. intros E; inversion E. repeat split. Qed.
Lemma pack_arguments_same : forall args stos stos' h s, pack_arguments stos args = Some stos' ->
  nth_error stos h = Some s -> exists s', nth_error stos' h = Some s' /\ same_arrays s s'.
Proof.
  induction args as [|a args IH]; simpl; intros stos stos' h s P E.
  - inversion P; subst. exists s. repeat split; auto.
  - destruct (nth_error stos a) as [x|] eqn:A; [|discriminate]. destruct (pack_storage x) as [y|] eqn:Y; [|discriminate].
    destruct (Nat.eq_dec a h).
    + subst. rewrite E in A. inversion A; subst x.
      destruct (IH _ _ h y P) as (s' & B & C1 & C2 & C3); [eapply set_nth_same; eauto|].
      exists s'. split; auto. destruct (pack_storage_same _ _ Y) as (D1 & D2 & D3). repeat split; congruence.
    + apply (IH _ _ h s P). rewrite set_nth_other; auto.
Qed.
Lemma run_same : forall f m stos args m1 stos1 r h s, run f m stos args = Some (m1, stos1, r) ->
  nth_error stos h = Some s -> exists s1, nth_error stos1 h = Some s1 /\ same_arrays s s1.
Proof.
  unfold run. intros f m stos args m1 stos1 r h s R E.
  destruct (pack_arguments stos args) as [ps|] eqn:P; [|discriminate].
  destruct (f args m (map k_raw ps)) as [[m' rs] c]. inversion R; subst.
  destruct (pack_arguments_same _ _ _ _ _ P E) as (s' & A & B1 & B2 & B3).
  destruct (with_raws_same ps rs h s' A) as (s1 & C & D1 & D2 & D3). exists s1. split; auto.
  repeat split; congruence.
Qed.

Lemma contents_block : forall m a xs, array_contents m a = Some xs ->
  exists more, block m (a_data a) = Some (xs ++ more).
Proof.
  unfold array_contents. intros m a xs H. destruct (block m (a_data a)) as [b|]; [|discriminate].
  destruct (a_size a <=? length b); [|discriminate]. inversion H; subst.
  exists (skipn (a_size a) b). rewrite firstn_skipn. auto.
Qed.
Lemma pack_levels_ok : forall m ls index cs old n k, reads_levels m ls index cs -> sized cs n k ->
  length old = length ls -> exists ps, pack_levels ls index old = Some ps /\ stored_levels m ls ps n cs k /\
    length ps = length ls.
Proof.
  induction ls as [|l ls IH]; intros index cs old n k R S L.
  - destruct index, cs, old; simpl in *; try contradiction; try discriminate. subst. exists []. repeat split. constructor.
  - destruct old as [|o old]; [discriminate|]. simpl in L.
    destruct l, index as [|[|a [|b [|? ?]]] index], cs as [|[|] cs]; simpl in R; try contradiction; simpl in S.
    + destruct R as [A R]. destruct (IH _ _ old _ _ R S) as (ps & E & T & LL); [lia|].
      simpl. rewrite E. eexists. split; [reflexivity|].
      destruct (contents_block _ _ _ A) as [more B]. split; [econstructor; eauto|simpl; lia].
    + destruct R as (A & A' & R), S as (S1 & S2 & S). destruct (IH _ _ old _ _ R S) as (ps & E & T & LL); [lia|].
      simpl. rewrite E. eexists. split; [reflexivity|].
      destruct (contents_block _ _ _ A) as [more B], (contents_block _ _ _ A') as [more' B'].
      split; [econstructor; eauto|simpl; lia].
Qed.
Lemma pack_storage_ok : forall m s cs vs, has_levels s -> reads m s cs vs -> sized cs 1 (length vs) ->
  exists s', pack_storage s = Some s' /\ stored m (k_levels s) (k_raw s') cs vs /\ has_levels s' /\ same_arrays s s'.
Proof.
  intros m s cs vs H [R V] S. unfold has_levels in H.
  destruct (pack_levels_ok _ _ _ _ _ _ _ R S H) as (ps & E & T & L).
  unfold pack_storage. rewrite E. eexists. split; [reflexivity|]. split; [|split; [exact L|repeat split]].
  destruct (contents_block _ _ _ V) as [more B]. split; simpl; eauto.
Qed.
Definition fit (m : memory) (s : sto) : Prop :=
  has_levels s /\ exists cs vs, reads m s cs vs /\ sized cs 1 (length vs).
Lemma fit_same : forall m s s', fit m s -> same_arrays s s' -> has_levels s' -> fit m s'.
Proof.
  intros m s s' [_ (cs & vs & [R1 R2] & S)] (A & B & C) H. split; auto. exists cs, vs. split; auto. split; congruence.
Qed.
Lemma pack_arguments_ok : forall m args stos,
  (forall h, In h args -> exists s, nth_error stos h = Some s /\ fit m s) ->
  exists stos1, pack_arguments stos args = Some stos1 /\
    (forall h s, nth_error stos h = Some s -> ~ In h args -> nth_error stos1 h = Some s) /\
    (forall h s cs vs, In h args -> nth_error stos h = Some s -> reads m s cs vs -> sized cs 1 (length vs) ->
       exists s1, nth_error stos1 h = Some s1 /\ stored m (k_levels s) (k_raw s1) cs vs).
Proof.
  induction args as [|a args IH]; intros stos F.
  - exists stos. simpl. repeat split; auto. contradiction.
  - destruct (F a (or_introl eq_refl)) as (x & A & FX). destruct FX as [HX (cx & vx & RX & SX)].
    destruct (pack_storage_ok _ _ _ _ HX RX SX) as (y & Y & ST & HY & SA).
    destruct (IH (set_nth stos a y)) as (stos1 & P & G1 & G2).
    { intros h I. destruct (Nat.eq_dec a h).
      - subst. exists y. split; [eapply set_nth_same; eauto|]. eapply fit_same; eauto. split; eauto.
      - destruct (F h (or_intror I)) as (s & E & FS). exists s. rewrite set_nth_other; auto. }
    exists stos1. simpl. rewrite A, Y. split; [auto|]. split.
    + intros h s E N. apply G1; [|tauto]. rewrite set_nth_other; auto.
    + intros h s cs vs I E R S. destruct (Nat.eq_dec a h) as [->|NE].
      * rewrite A in E. inversion E; subst s.
        destruct (pack_storage_ok _ _ _ _ HX R S) as (y' & Y' & ST' & _ & _). rewrite Y in Y'. inversion Y'; subst y'.
        destruct (in_dec Nat.eq_dec h args) as [J|J].
        { destruct SA as (S1 & S2 & S3). destruct (G2 h y cs vs J) as (s1 & B & C); auto.
          - eapply set_nth_same; eauto.
          - destruct R. split; congruence.
          - exists s1. split; auto. congruence. }
        { exists y. split; auto. apply G1; auto. eapply set_nth_same; eauto. }
      * destruct I as [I|I]; [congruence|]. apply G2; auto. rewrite set_nth_other; auto.
Qed.

Lemma unpack_singleton : forall ls m ps n x, In KSingleton ls -> unpack_levels m ls ps n <> Done x.
Proof.
  induction ls as [|l ls IH]; intros m ps n x I; [contradiction|].
  simpl. destruct ps as [|p ps]; [discriminate|].
  destruct (unpack_level m l p n) as [[[m' a] k]| |] eqn:U; try discriminate.
  destruct I as [I|I]; [subst; discriminate|].
  destruct (unpack_levels m' ls ps k) as [[[? ?] ?]| |] eqn:E; try discriminate. exfalso. eapply IH; eauto.
Qed.
Lemma pack_new : forall ls old, In KDense ls -> pack_levels ls (map (fun _ => []) ls) old = None.
Proof.
  induction ls as [|l ls IH]; intros old I; [contradiction|]. simpl. destruct old as [|o old]; auto.
  destruct l; simpl; auto; (destruct I as [I|I]; [discriminate|rewrite IH; auto]).
Qed.
Lemma pack_arguments_new : forall args stos h ls s, In h args -> nth_error stos h = Some s ->
  same_arrays (new_storage ls (k_raw s)) s -> In KDense ls -> pack_arguments stos args = None.
Proof.
  induction args as [|a args IH]; intros stos h ls s I E N D; [contradiction|]. simpl.
  destruct (Nat.eq_dec a h) as [->|NE].
  - rewrite E. destruct N as (A & B & C). simpl in *. unfold pack_storage. rewrite <- A, <- B, pack_new; auto.
  - destruct (nth_error stos a); auto. destruct (pack_storage s0); auto. destruct I as [I|I]; [congruence|].
    eapply IH; eauto. rewrite set_nth_other; auto.
Qed.

Lemma pack_arguments_length : forall args stos stos1, pack_arguments stos args = Some stos1 -> length stos1 = length stos.
Proof.
  induction args as [|a args IH]; simpl; intros stos stos1 P; [congruence|].
  destruct (nth_error stos a); [|discriminate]. destruct (pack_storage s); [|discriminate].
  apply IH in P. rewrite set_nth_length in P. auto.
Qed.
Lemma with_raws_raws : forall stos rs, length rs = length stos -> map k_raw (with_raws stos rs) = rs.
Proof. induction stos; destruct rs; simpl; intros; try discriminate; auto. f_equal; auto. Qed.
