(** Proofs about delayed evaluation. *)
From Coq Require Import List Arith Lia Bool.
Import ListNotations.
From Verif Require Import Outcome DelayedEval DelayedSpec.
Local Open Scope nat_scope.

Lemma replace_first_in : forall t x ds r y, replace_first t x ds = Some r -> y <> t -> In y ds -> In y r.
Proof.
  induction ds as [|d ds IH]; cbn; intros r y H Hy Hin; [discriminate|].
  destruct (Nat.eqb_spec d t).
  - injection H as <-. destruct Hin; [congruence|right; auto].
  - destruct (replace_first t x ds) as [r'|] eqn:E; [|discriminate]. injection H as <-.
    destruct Hin; [left; auto|right; eapply IH; eauto].
Qed.
Lemma replace_first_last : forall t x ds r, replace_first t x ds = Some r -> In x r.
Proof.
  induction ds as [|d ds IH]; cbn; intros r H; [discriminate|]. destruct (Nat.eqb_spec d t).
  - injection H as <-. left. auto.
  - destruct (replace_first t x ds) as [r'|] eqn:E; [|discriminate]. injection H as <-. right. auto.
Qed.
Lemma remove_from_in : forall t ds y, y <> t -> In y ds -> In y (remove_from t ds).
Proof.
  intros t ds y Hy Hin. unfold remove_from. destruct (rev ds) as [|x front] eqn:E; auto.
  assert (Hds : ds = rev front ++ [x]) by (rewrite <- (rev_involutive ds), E; auto).
  rewrite Hds in Hin. apply in_app_or in Hin.
  destruct (Nat.eqb_spec x t) as [->|Hx].
  - destruct Hin as [H|[H|[]]]; [auto|congruence].
  - destruct (replace_first t x (rev front)) as [r|] eqn:Er.
    + destruct Hin as [H|[<-|[]]]; [eapply replace_first_in; eauto|eapply replace_first_last; eauto].
    + rewrite Hds. apply in_or_app. auto.
Qed.

Ltac sp := repeat (match goal with |- _ /\ _ => split; [solve [auto; congruence]|] end).

Section Proofs.
Context {D C : Type}.
Variable empty : D.
Variable add_component : C -> D -> D.
Variable assemble_kernel : nat -> list D -> D.
Variable compute_kernel : nat -> D -> list D -> D.
Variable result : nat -> list D -> D.
Hypothesis Hkernel : forall e ds, compute_kernel e (assemble_kernel e ds) ds = result e ds.
Notation content := (@content D C).
Notation heap := (@heap D C).
Notation sync := (sync empty add_component assemble_kernel compute_kernel).
Notation assemble := (assemble assemble_kernel).
Notation compute := (compute compute_kernel).
Notation compile := (@compile D C).
Notation run := (run empty add_component assemble_kernel compute_kernel).
Notation op := (@op C).

Definition settled (c : content) : Prop := c_pack c = false /\ c_compute c = false.
Definition nod (c : content) : content := with_deps c [].

Lemma set_same : forall (h : heap) t c, set_ h t c t = c.
Proof. intros. unfold set_. rewrite Nat.eqb_refl. auto. Qed.
Lemma set_other : forall (h : heap) t c u, u <> t -> set_ h t c u = h u.
Proof. intros. unfold set_. destruct (Nat.eqb_spec u t); congruence. Qed.

Variable v : @values D.
Variable r : nat -> nat.

Record ok_t (h : heap) (t : nat) : Prop := Ok_t {
  k_alive : c_alive (h t) = true;
  k_pack : c_pack (h t) = true -> c_compute (h t) = false /\
    v t = fold_left (fun d x => add_component x d) (c_buffer (h t)) (if c_never (h t) then empty else c_data (h t));
  k_buf : c_pack (h t) = false -> c_buffer (h t) = [];
  k_val : settled (h t) -> v t = c_data (h t);
  k_comp : c_compute (h t) = true -> exists a, c_asg (h t) = Some a /\
    v t = result (a_expr a) (map v (a_ops a)) /\
    (forall u, In u (a_ops a) -> In t (c_deps (h u)) /\ r u < r t) /\
    (c_assemble (h t) = false -> c_compile (h t) = false /\
       (forall u, In u (a_ops a) -> settled (h u)) /\
       c_data (h t) = assemble_kernel (a_expr a) (map v (a_ops a)));
  k_mod : c_compile (h t) = false -> forall a, c_asg (h t) = Some a -> c_module (h t) = Some (a_expr a);
  k_asm : c_assemble (h t) = true -> c_compute (h t) = true;
  k_cpl : c_compile (h t) = true -> c_compute (h t) = true }.
Definition Inv (h : heap) : Prop := forall t, ok_t h t.

Record mono (c c' : content) : Prop := Mono {
  m_pack : c_pack c' = true -> c_pack c = true;
  m_compute : c_compute c' = true -> c_compute c = true;
  m_compile : c_compile c' = true -> c_compile c = true;
  m_assemble : c_assemble c' = true -> c_assemble c = true;
  m_never : c_never c' = true -> c_never c = true /\ c_pack c' = c_pack c;
  m_buf : c_buffer c' = c_buffer c \/ c_buffer c' = [];
  m_asg : c_asg c' = c_asg c }.
Lemma mono_refl : forall c, mono c c. Proof. intro; constructor; auto. Qed.
Lemma mono_trans : forall a b c, mono a b -> mono b c -> mono a c.
Proof.
  intros a b c H1 H2. destruct H1, H2. constructor; auto.
  - intro H. destruct (m_never1 H) as (H1 & H2). destruct (m_never0 H1). split; congruence.
  - destruct m_buf1 as [->| ->]; auto.
  - congruence.
Qed.
Lemma settled_mono : forall c c', mono c c' -> settled c -> settled c'.
Proof.
  intros c c' H (H1 & H2). destruct H. split.
  - destruct (c_pack c'); auto. rewrite m_pack0 in H1; auto.
  - destruct (c_compute c'); auto. rewrite m_compute0 in H2; auto.
Qed.
Lemma nod_fields : forall c c', nod c' = nod c -> mono c c' /\ c_data c' = c_data c /\ c_alive c' = c_alive c /\
  c_module c' = c_module c /\ c_buffer c' = c_buffer c /\ c_pack c' = c_pack c /\ c_compute c' = c_compute c /\
  c_compile c' = c_compile c /\ c_assemble c' = c_assemble c /\ c_never c' = c_never c /\ c_asg c' = c_asg c.
Proof.
  intros c c' H. destruct c, c'. unfold nod, with_deps in H. cbn in H. injection H as -> -> -> -> -> -> -> -> -> ->.
  split; [|cbn; tauto]. constructor; cbn; auto.
Qed.

(** [h'] comes from [h] by synchronising tensors of rank less than [b]. *)
Definition evolves (b : nat) (h h' : heap) : Prop :=
  (forall w, mono (h w) (h' w)) /\
  (forall w, b <= r w \/ settled (h w) -> nod (h' w) = nod (h w)).
Lemma evolves_refl : forall b h, evolves b h h.
Proof. split; auto. intro; apply mono_refl. Qed.
Lemma evolves_trans : forall b h1 h2 h3, evolves b h1 h2 -> evolves b h2 h3 -> evolves b h1 h3.
Proof.
  intros b h1 h2 h3 (A1 & A2) (B1 & B2). split.
  - intro w. eapply mono_trans; eauto.
  - intros w Hw. rewrite B2; [auto|]. destruct Hw; [auto|right]. eapply settled_mono; eauto.
Qed.
Lemma evolves_le : forall b b' h h', b <= b' -> evolves b h h' -> evolves b' h h'.
Proof. intros b b' h h' Hb (H1 & H2). split; auto. intros w [Hw|Hw]; apply H2; [left; lia|auto]. Qed.

Lemma sync_settled : forall n t (h : heap), 0 < n -> c_alive (h t) = true -> settled (h t) -> sync n t h = Val h.
Proof.
  intros n t h Hn Ha (H1 & H2). destruct n; [lia|]. cbn [DelayedEval.sync]. rewrite Ha, H1, H2. auto.
Qed.

(** Changing one tensor. *)
Lemma Inv_set : forall h t c, Inv h -> mono (h t) c ->
  (forall x, x <> t -> In x (c_deps (h t)) -> In x (c_deps c)) ->
  ok_t (set_ h t c) t -> Inv (set_ h t c).
Proof.
  intros h t c HI Hm Hd Hok w. destruct (Nat.eq_dec w t) as [->|Hw]; auto.
  destruct (HI w) as [K1 K2 K3 K4 K5 K6 K7 K8]. constructor; rewrite ?set_other by auto; auto.
  intro Hc. destruct (K5 Hc) as (a & A1 & A2 & A3 & A4). exists a. split; auto. split; auto. split.
  - intros u Hu. destruct (A3 u Hu) as (A5 & A6). split; auto.
    destruct (Nat.eq_dec u t) as [->|]; [rewrite set_same; auto|rewrite set_other; auto].
  - intro Has. destruct (A4 Has) as (A5 & A6 & A7). split; auto. split; auto.
    intros u Hu. destruct (Nat.eq_dec u t) as [->|]; [rewrite set_same|rewrite set_other; auto].
    eapply settled_mono; [exact Hm|auto].
Qed.

Lemma pack_ok : forall h t, Inv h -> c_pack (h t) = true ->
  Inv (pack empty add_component t h) /\ settled (pack empty add_component t h t) /\ evolves (S (r t)) h (pack empty add_component t h).
Proof.
  intros h t HI Hp. unfold pack. rewrite Hp. cbn [negb].
  destruct (HI t) as [K1 K2 K3 K4 K5 K6 K7 K8]. destruct (K2 Hp) as (Hc & Hv).
  assert (Hm : mono (h t) (Content (fold_left (fun d x => add_component x d) (c_buffer (h t)) (if c_never (h t) then empty else c_data (h t))) []
     false false (c_compile (h t)) (c_assemble (h t)) (c_compute (h t)) (c_asg (h t)) (c_module (h t)) (c_deps (h t)) (c_alive (h t))))
    by (constructor; cbn; auto; discriminate).
  split; [|split].
  - apply Inv_set; auto. constructor; rewrite ?set_same; cbn; auto; try discriminate.
    + rewrite Hc. discriminate.
  - rewrite set_same. split; auto.
  - split.
    + intro w. destruct (Nat.eq_dec w t) as [->|]; [rewrite set_same; auto|rewrite set_other by auto; apply mono_refl].
    + intros w Hw. destruct (Nat.eq_dec w t) as [->|]; [|rewrite set_other; auto].
      destruct Hw as [Hw|(Hw & _)]; [lia|congruence].
Qed.

Definition sync_spec (n : nat) : Prop := forall t h, Inv h -> S (r t) < n ->
  exists h', sync n t h = Val h' /\ Inv h' /\ settled (h' t) /\ evolves (S (r t)) h h'.

Lemma each_sync : forall n, sync_spec n -> forall b ts h, Inv h -> (forall u, In u ts -> S (r u) < n /\ r u < b) ->
  exists h', each (sync n) ts h = Val h' /\ Inv h' /\ (forall u, In u ts -> settled (h' u)) /\ evolves b h h'.
Proof.
  intros n Hs b. induction ts as [|t ts IH]; intros h HI Hts; cbn [each].
  - exists h. split; auto. split; auto. split; [intros u []|apply evolves_refl].
  - destruct (Hts t (or_introl eq_refl)) as (H1 & H2).
    destruct (Hs t h HI H1) as (h1 & -> & HI1 & Hst & He). cbn [obind].
    destruct (IH h1 HI1) as (h2 & -> & HI2 & Hset & He2).
    { intros u Hu. apply Hts. right. auto. }
    exists h2. split; auto. split; auto. split.
    + intros u [<-|Hu]; [|auto]. eapply settled_mono; [apply He2|auto].
    + eapply evolves_trans; [|exact He2]. eapply evolves_le; [|exact He]. lia.
Qed.

Lemma compile_ok : forall h t a, Inv h -> c_asg (h t) = Some a -> c_pack (h t) = false ->
  exists h', compile t h = Val h' /\ Inv h' /\ c_compile (h' t) = false /\
    c_compute (h' t) = c_compute (h t) /\ c_pack (h' t) = false /\ c_asg (h' t) = Some a /\
    c_assemble (h' t) = c_assemble (h t) /\
    (forall w, mono (h w) (h' w)) /\ (forall w, w <> t -> h' w = h w).
Proof.
  intros h t a HI Ha Hp. unfold DelayedEval.compile. rewrite Ha.
  destruct (c_compile (h t)) eqn:Hc; cbn [negb].
  - destruct (HI t) as [K1 K2 K3 K4 K5 K6 K7 K8].
    eexists. split; [reflexivity|]. rewrite !set_same. cbn.
    assert (Hm : mono (h t) (Content (c_data (h t)) (c_buffer (h t)) (c_never (h t)) (c_pack (h t)) false (c_assemble (h t))
      (c_compute (h t)) (Some a) (Some (a_expr a)) (c_deps (h t)) (c_alive (h t)))) by (constructor; cbn; auto; discriminate).
    split; [|sp; split].
    + apply Inv_set; auto. constructor; rewrite ?set_same; cbn; auto.
      * intro H. destruct (K5 H) as (a' & A1 & A2 & A3 & A4). exists a'. split; [congruence|]. split; auto. split.
        -- intros u Hu. destruct (A3 u Hu). split; auto. rewrite set_other; auto. intros ->. lia.
        -- intro Has. destruct (A4 Has) as (A5 & _). congruence.
      * intros _ a' E. congruence.
    + intro w. destruct (Nat.eq_dec w t) as [->|]; [rewrite set_same; auto|rewrite set_other by auto; apply mono_refl].
    + intros w Hw. apply set_other. auto.
  - exists h. sp. split; auto. intro; apply mono_refl.
Qed.

Lemma datas_v : forall h ts, Inv h -> (forall u, In u ts -> settled (h u)) -> datas h ts = map v ts.
Proof. intros h ts HI Hs. apply map_ext_in. intros u Hu. symmetry. apply (HI u). auto. Qed.

Lemma operands_in : forall a u, In u (operands a) <-> In u (a_ops a).
Proof. intros. unfold operands. apply nodup_In. Qed.

Lemma assemble_ok : forall n h t a, sync_spec n -> Inv h -> c_compile (h t) = false -> c_compute (h t) = true ->
  c_asg (h t) = Some a -> r t < n ->
  exists h', assemble (sync n) t h = Val h' /\ Inv h' /\ c_assemble (h' t) = false /\
    c_compile (h' t) = false /\ c_compute (h' t) = true /\ c_asg (h' t) = Some a /\
    (forall w, mono (h w) (h' w)) /\ (forall w, w <> t -> (r t <= r w \/ settled (h w)) -> nod (h' w) = nod (h w)).
Proof.
  intros n h t a Hs HI Hcc Hcp Ha Hn. unfold DelayedEval.assemble. rewrite Hcc.
  destruct (c_assemble (h t)) eqn:Has; cbn [negb].
  2:{ exists h. sp. split; auto. intro; apply mono_refl. }
  rewrite Ha. destruct (k_comp _ _ (HI t) Hcp) as (a' & A1 & A2 & A3 & _). assert (a' = a) by congruence. subst a'.
  destruct (each_sync n Hs (r t) (operands a) h HI) as (h1 & -> & HI1 & Hst & (He1 & He2)).
  { intros u Hu. apply operands_in in Hu. destruct (A3 u Hu). lia. }
  cbn [obind]. destruct (nod_fields _ _ (He2 t (or_introl (le_n _)))) as (_ & F1 & F2 & F3 & F4 & F5 & F6 & F7 & F8 & F9 & F10).
  rewrite F3, (k_mod _ _ (HI t) Hcc a Ha).
  eexists. split; [reflexivity|]. rewrite !set_same. cbn.
  assert (Hall : forall u, In u (a_ops a) -> settled (h1 u)) by (intros; apply Hst, operands_in; auto).
  rewrite (datas_v h1 _ HI1 Hall).
  destruct (HI1 t) as [K1 K2 K3 K4 K5 K6 K7 K8]. rewrite F6, Hcp in *. 
  assert (Hm : mono (h1 t) (Content (assemble_kernel (a_expr a) (map v (a_ops a))) (c_buffer (h1 t)) (c_never (h1 t))
    (c_pack (h1 t)) (c_compile (h1 t)) false true (c_asg (h1 t)) (Some (a_expr a)) (c_deps (h1 t)) (c_alive (h1 t))))
    by (constructor; cbn; auto; discriminate).
  split; [|sp; split].
  - apply Inv_set; auto. constructor; rewrite ?set_same; cbn; auto.
    + intros H. destruct (K2 H). congruence.
    + intros (_ & H). cbn in H. discriminate.
    + intros _. exists a. split; [congruence|]. split; auto. split.
      * intros u Hu. destruct (K5 eq_refl) as (a' & B1 & B2 & B3 & B4). assert (a' = a) by congruence. subst a'.
        destruct (B3 u Hu). split; auto. rewrite set_other; auto. intros ->. lia.
      * intros _. split; [congruence|]. split; auto. intros u Hu.
        destruct (Nat.eq_dec u t) as [->|]; [|rewrite set_other; auto].
        exfalso. destruct (A3 t Hu). lia.
    + intros _ a' E. congruence.
  - intro w. destruct (Nat.eq_dec w t) as [->|]; [|rewrite set_other by auto; auto]. rewrite set_same.
    eapply mono_trans; [apply He1|auto].
  - intros w Hw Hr. rewrite set_other by auto. apply He2. auto.
Qed.

(** Removing a dependent that is no longer pending. *)
Lemma remove_deps_other : forall t ts (h : heap) w,
  nod (fold_left (remove_dep t) ts h w) = nod (h w) /\
  (forall x, x <> t -> In x (c_deps (h w)) -> In x (c_deps (fold_left (remove_dep t) ts h w))).
Proof.
  intros t. induction ts as [|u ts IH]; intros h w; cbn [fold_left]; auto.
  destruct (IH (remove_dep t h u) w) as (H1 & H2). split.
  - rewrite H1. unfold remove_dep. destruct (Nat.eq_dec w u) as [->|]; [rewrite set_same; auto|rewrite set_other; auto].
  - intros x Hx Hin. apply H2; auto. unfold remove_dep.
    destruct (Nat.eq_dec w u) as [->|]; [rewrite set_same; cbn; apply remove_from_in; auto|rewrite set_other; auto].
Qed.

Lemma each_remove : forall n t ts (h : heap), 0 < n -> (forall u, In u ts -> c_alive (h u) = true /\ settled (h u)) ->
  each (fun u h => do h <- sync n u h; Val (remove_dep t h u)) ts h = Val (fold_left (remove_dep t) ts h).
Proof.
  intros n t. induction ts as [|u ts IH]; intros h Hn H; cbn [each fold_left]; auto.
  destruct (H u (or_introl eq_refl)) as (H1 & H2). rewrite sync_settled by auto. cbn [obind].
  apply IH; auto. intros w Hw. destruct (H w (or_intror Hw)) as (H3 & H4). unfold remove_dep.
  destruct (Nat.eq_dec w u) as [->|]; [rewrite set_same; auto|rewrite set_other; auto].
Qed.

Lemma compute_ok : forall n h t a, Inv h -> 0 < n -> c_compile (h t) = false -> c_compute (h t) = true ->
  c_assemble (h t) = false -> c_asg (h t) = Some a ->
  exists h', compute (sync n) t h = Val h' /\ Inv h' /\ settled (h' t) /\
    (forall w, mono (h w) (h' w)) /\ (forall w, w <> t -> nod (h' w) = nod (h w)).
Proof.
  intros n h t a HI Hn Hcc Hcp Has Ha. unfold DelayedEval.compute. rewrite Hcc, Hcp, Ha. cbn [negb].
  destruct (k_comp _ _ (HI t) Hcp) as (a' & A1 & A2 & A3 & A4). assert (a' = a) by congruence. subst a'.
  destruct (A4 Has) as (_ & A5 & A6).
  set (c1 := Content _ _ _ _ _ _ false _ _ _ _).
  assert (Hne : forall u, In u (a_ops a) -> u <> t) by (intros u Hu ->; destruct (A3 t Hu); lia).
  rewrite each_remove; auto.
  2:{ intros u Hu. apply operands_in in Hu. rewrite set_other by auto. split; [apply HI|auto]. }
  cbn [obind]. set (h1 := fold_left _ _ _).
  assert (Hnod : forall w, nod (h1 w) = nod (set_ h t c1 w)) by (intro w; apply (proj1 (remove_deps_other t (operands a) (set_ h t c1) w))).
  assert (Hdep : forall w x, x <> t -> In x (c_deps (set_ h t c1 w)) -> In x (c_deps (h1 w)))
    by (intro w; apply (proj2 (remove_deps_other t (operands a) (set_ h t c1) w))).
  pose proof (Hnod t) as Ht. rewrite set_same in Ht.
  destruct (nod_fields _ _ Ht) as (_ & F1 & F2 & F3 & F4 & F5 & F6 & F7 & F8 & F9 & F10). cbn in F1, F2, F3, F4, F5, F6, F7, F8, F9, F10.
  rewrite F3, (k_mod _ _ (HI t) Hcc a Ha).
  eexists. split; [reflexivity|].
  assert (Hdat : datas h1 (a_ops a) = map v (a_ops a)).
  { apply map_ext_in. intros u Hu. destruct (nod_fields _ _ (Hnod u)) as (_ & E & _). rewrite E, set_other by auto.
    symmetry. apply (HI u). auto. }
  rewrite F1, F2, F4, F5, F6, F7, F8, F9, F10, Hdat, A6, Hkernel, ?Hcc, ?Has.
  set (c2 := Content _ _ _ _ _ _ _ _ _ _ _).
  destruct (HI t) as [K1 K2 K3 K4 K5 K6 K7 K8].
  assert (Hpk : c_pack (h t) = false) by (destruct (c_pack (h t)); auto; destruct K2; congruence).
  split; [|split; [|split]].
  - intro w. destruct (Nat.eq_dec w t) as [->|Hw].
    + constructor; rewrite ?set_same; cbn; auto; try discriminate; try congruence.
    + destruct (HI w) as [L1 L2 L3 L4 L5 L6 L7 L8].
      pose proof (Hnod w) as Hw'. rewrite set_other in Hw' by auto.
      destruct (nod_fields _ _ Hw') as (_ & G1 & G2 & G3 & G4 & G5 & G6 & G7 & G8 & G9 & G10).
      constructor; rewrite ?set_other by auto; rewrite ?G1, ?G2, ?G3, ?G4, ?G5, ?G6, ?G7, ?G8, ?G9, ?G10; auto.
      * intros (H1 & H2). apply L4. split; congruence.
      * intro H. destruct (L5 H) as (b & B1 & B2 & B3 & B4). exists b. split; auto. split; auto. split.
        -- intros u Hu. destruct (B3 u Hu) as (B5 & B6). split; auto.
           assert (Hin : In w (c_deps (h1 u))).
           { apply Hdep; auto. destruct (Nat.eq_dec u t) as [->|]; [rewrite set_same|rewrite set_other by auto]; auto. }
           destruct (Nat.eq_dec u t) as [->|]; [rewrite set_same|rewrite set_other by auto]; auto.
        -- intro Hw2. destruct (B4 Hw2) as (B5 & B6 & B7). split; auto. split; auto.
           intros u Hu. destruct (Nat.eq_dec u t) as [->|].
           ++ rewrite set_same. split; auto.
           ++ rewrite set_other by auto. pose proof (Hnod u) as Hu'. rewrite set_other in Hu' by auto.
              eapply settled_mono; [apply (nod_fields _ _ Hu')|auto].
  - rewrite set_same. split; auto.
  - intro w. destruct (Nat.eq_dec w t) as [->|Hw].
    + rewrite set_same. constructor; cbn; auto; congruence.
    + rewrite set_other by auto. pose proof (Hnod w) as Hw'. rewrite set_other in Hw' by auto. apply (nod_fields _ _ Hw').
  - intros w Hw. rewrite set_other by auto. rewrite Hnod, set_other by auto. auto.
Qed.

Lemma sync_ok : forall n, sync_spec n.
Proof.
  induction n as [|n IH]; intros t h HI Hr; [lia|]. cbn [DelayedEval.sync].
  rewrite (k_alive _ _ (HI t)). cbn [negb]. destruct (c_pack (h t)) eqn:Hp.
  { destruct (pack_ok h t HI Hp) as (H1 & H2 & H3). eauto. }
  destruct (c_compute (h t)) eqn:Hc.
  2:{ exists h. split; auto. split; auto. split; [split; auto|apply evolves_refl]. }
  destruct (k_comp _ _ (HI t) Hc) as (a & A1 & A2 & A3 & _).
  destruct (compile_ok h t a HI A1 Hp) as (h1 & -> & HI1 & E1 & E2 & E3 & E4 & E5 & M1 & N1). cbn [obind].
  destruct (assemble_ok n h1 t a IH HI1 E1 (eq_trans E2 Hc) E4 ltac:(lia))
    as (h2 & -> & HI2 & E6 & E7 & E8 & E9 & M2 & N2). cbn [obind].
  destruct (compute_ok n h2 t a HI2 ltac:(lia) E7 E8 E6 E9) as (h3 & -> & HI3 & E10 & M3 & N3).
  exists h3. split; auto. split; auto. split; auto. split.
  - intro w. eapply mono_trans; [apply M1|]. eapply mono_trans; [apply M2|auto].
  - intros w Hw. assert (w <> t).
    { intros ->. destruct Hw as [Hw|(_ & Hw)]; [lia|congruence]. }
    rewrite N3 by auto. rewrite N2; auto; [rewrite N1; auto|].
    rewrite N1 by auto. destruct Hw; [left; lia|auto].
Qed.

Lemma sync_dependents_ok : forall n t h, Inv h -> (forall w, S (r w) < n) ->
  exists h', sync_dependents empty add_component assemble_kernel compute_kernel n t h = Val h' /\ Inv h' /\
    (forall w a, c_compute (h' w) = true -> c_asg (h' w) = Some a -> ~ In t (a_ops a)) /\
    (forall w, mono (h w) (h' w)).
Proof.
  intros n t h HI Hn. unfold sync_dependents.
  destruct (each_sync n (sync_ok n) n (c_deps (h t)) h HI) as (h1 & -> & HI1 & Hset & (Hm & _)).
  { intros u _. specialize (Hn u). lia. }
  cbn [obind]. eexists. split; [reflexivity|].
  assert (Hno : forall w a, c_compute (h1 w) = true -> c_asg (h1 w) = Some a -> ~ In t (a_ops a)).
  { intros w a Hw Ha Hin. assert (Hc : c_compute (h w) = true) by (apply (m_compute _ _ (Hm w)); auto).
    destruct (k_comp _ _ (HI w) Hc) as (a' & A1 & _ & A3 & _).
    assert (a' = a) by (rewrite <- (m_asg _ _ (Hm w)) in A1; congruence). subst a'.
    destruct (A3 t Hin) as (A4 & _). destruct (Hset w A4). congruence. }
  assert (Hnod : forall w, nod (set_ h1 t (with_deps (h1 t) []) w) = nod (h1 w)).
  { intro w. destruct (Nat.eq_dec w t) as [->|]; [rewrite set_same; auto|rewrite set_other; auto]. }
  split; [|split].
  - intro w. destruct (nod_fields _ _ (Hnod w)) as (_ & G1 & G2 & G3 & G4 & G5 & G6 & G7 & G8 & G9 & G10).
    destruct (HI1 w) as [L1 L2 L3 L4 L5 L6 L7 L8].
    constructor; rewrite ?G1, ?G2, ?G3, ?G4, ?G5, ?G6, ?G7, ?G8, ?G9, ?G10; auto.
    + intros (H1 & H2). apply L4. split; congruence.
    + intro H. destruct (L5 H) as (b & B1 & B2 & B3 & B4). exists b. split; auto. split; auto.
      assert (Hne : forall u, In u (a_ops b) -> u <> t) by (intros u Hu ->; eapply Hno; eauto).
      split.
      * intros u Hu. rewrite set_other by auto. auto.
      * intros H'. destruct (B4 H') as (B5 & B6 & B7). split; auto. split; auto.
        intros u Hu. rewrite set_other by auto. auto.
  - intros w a Hw Ha. destruct (nod_fields _ _ (Hnod w)) as (_ & G1 & G2 & G3 & G4 & G5 & G6 & G7 & G8 & G9 & G10).
    rewrite G6 in Hw. rewrite G10 in Ha. eauto.
  - intro w. eapply mono_trans; [apply Hm|]. apply (nod_fields _ _ (Hnod w)).
Qed.
End Proofs.

Section Steps.
Context {D C : Type}.
Variable empty : D.
Variable add_component : C -> D -> D.
Variable assemble_kernel : nat -> list D -> D.
Variable compute_kernel : nat -> D -> list D -> D.
Variable result : nat -> list D -> D.
Hypothesis Hkernel : forall e ds, compute_kernel e (assemble_kernel e ds) ds = result e ds.
Notation heap := (@heap D C).
Notation sync := (sync empty add_component assemble_kernel compute_kernel).
Notation Inv := (Inv empty add_component assemble_kernel result).
Notation ok_t := (ok_t empty add_component assemble_kernel result).
Notation insert := (insert empty add_component assemble_kernel compute_kernel).
Notation assign := (assign empty add_component assemble_kernel compute_kernel).
Notation eager := (eager add_component result).
Notation op := (@op C).

Lemma insert_ok : forall v r n t x h, Inv v r h -> (forall w, S (r w) < n) ->
  c_compute (h t) = false -> (c_never (h t) = true -> c_pack (h t) = true) ->
  exists h', insert n t x h = Val h' /\ Inv (eager (Insert t x) v) r h' /\
    (forall w, w <> t -> mono (h w) (h' w)) /\
    exists c, mono (h t) c /\ h' t = Content (c_data c) (c_buffer c ++ [x]) (c_never c) true (c_compile c) (c_assemble c)
      (c_compute c) (c_asg c) (c_module c) (c_deps c) (c_alive c).
Proof.
  intros v r n t x h HI Hn Hc Hnv. unfold DelayedEval.insert.
  destruct (sync_dependents_ok empty add_component assemble_kernel compute_kernel result Hkernel v r n t h HI Hn)
    as (h1 & -> & HI1 & Hno & Hm). cbn [obind].
  assert (Hc1 : c_compute (h1 t) = false).
  { destruct (c_compute (h1 t)) eqn:E; auto. rewrite (m_compute _ _ (Hm t) E) in Hc. discriminate. }
  assert (Hnv1 : c_never (h1 t) = true -> c_pack (h1 t) = true).
  { intro H. destruct (m_never _ _ (Hm t) H) as (H1 & ->). auto. }
  eexists. split; [reflexivity|]. split; [|split].
  - intro w. cbn [DelayedSpec.eager]. destruct (Nat.eq_dec w t) as [->|Hw].
    + destruct (HI1 t) as [L1 L2 L3 L4 L5 L6 L7 L8].
      constructor; rewrite ?set_same; cbn; rewrite ?Nat.eqb_refl; auto.
      * intros _. split; auto. rewrite fold_left_app. cbn. f_equal.
        destruct (c_pack (h1 t)) eqn:Hp; [apply L2; auto|].
        rewrite L3 by auto. destruct (c_never (h1 t)) eqn:En; [specialize (Hnv1 eq_refl); discriminate|]. cbn. apply L4. split; auto.
      * intro H. discriminate.
      * intros (H & _). discriminate H.
      * rewrite Hc1. discriminate.
    + destruct (HI1 w) as [L1 L2 L3 L4 L5 L6 L7 L8].
      assert (Hwt : (w =? t) = false) by (apply Nat.eqb_neq; auto).
      constructor; rewrite ?set_other by auto; rewrite ?Hwt; auto.
      intro H. destruct (L5 H) as (b & B1 & B2 & B3 & B4). exists b. split; auto.
      assert (Hne : forall u, In u (a_ops b) -> u <> t) by (intros u Hu ->; eapply Hno; eauto).
      assert (Hmap : map (fun u => if u =? t then add_component x (v t) else v u) (a_ops b) = map v (a_ops b)).
      { apply map_ext_in. intros u Hu. destruct (Nat.eqb_spec u t); auto. exfalso. eapply Hne; eauto. }
      rewrite Hmap. split; auto. split.
      * intros u Hu. rewrite set_other by auto. auto.
      * intros H'. destruct (B4 H') as (B5 & B6 & B7). split; auto. split; auto.
        intros u Hu. rewrite set_other by auto. auto.
  - intros w Hw. rewrite set_other by auto. auto.
  - exists (h1 t). split; auto. rewrite set_same. auto.
Qed.

Lemma add_deps_other : forall t ts (h : heap) w,
  nod (fold_left (add_dep t) ts h w) = nod (h w) /\
  (forall x, In x (c_deps (h w)) -> In x (c_deps (fold_left (add_dep t) ts h w))) /\
  (In w ts -> In t (c_deps (fold_left (add_dep t) ts h w))).
Proof.
  intros t. induction ts as [|u ts IH]; intros h w; cbn [fold_left]; auto.
  { split; auto. split; auto. intros []. }
  destruct (IH (add_dep t h u) w) as (H1 & H2 & H3). split; [|split].
  - rewrite H1. unfold add_dep. destruct (Nat.eq_dec w u) as [->|]; [rewrite set_same; auto|rewrite set_other; auto].
  - intros x Hin. apply H2; auto. unfold add_dep.
    destruct (Nat.eq_dec w u) as [->|]; [rewrite set_same; cbn; apply in_or_app; auto|rewrite set_other; auto].
  - intros [<-|Hin]; auto. apply H2. unfold add_dep. rewrite set_same. cbn. apply in_or_app. right. left. auto.
Qed.

Lemma asg_eqb_eq : forall a b, asg_eqb a b = true -> a = b.
Proof.
  intros [e1 o1] [e2 o2]. unfold asg_eqb. cbn [a_expr a_ops]. intro H. apply andb_prop in H. destruct H as (H1 & H2).
  apply Nat.eqb_eq in H1. destruct (list_eq_dec Nat.eq_dec o1 o2); [congruence|discriminate].
Qed.

Lemma assign_ok : forall v r n b t a h N, Inv v r h -> (forall w, S (r w) < n) -> (forall w, r w < N) ->
  c_buffer (h t) = [] -> ~ In t (a_ops a) ->
  exists h', assign n b t a h = Val h' /\ Inv (eager (Assign b t a) v) (fun w => if w =? t then N else r w) h' /\
    (forall w, w <> t -> mono (h w) (h' w)) /\
    c_buffer (h' t) = [] /\ c_pack (h' t) = false /\ (c_never (h' t) = true -> c_never (h t) = true) /\
    c_asg (h' t) = Some a.
Proof.
  intros v r n b t a h N HI Hn HN Hb Hself. unfold DelayedEval.assign.
  destruct (sync_dependents_ok empty add_component assemble_kernel compute_kernel result Hkernel v r n t h HI Hn)
    as (h1 & -> & HI1 & Hno & Hm). cbn [obind].
  set (h2 := if b then fold_left (add_dep t) (operands a) h1 else h1).
  assert (A2 : forall w, nod (h2 w) = nod (h1 w) /\ (forall x, In x (c_deps (h1 w)) -> In x (c_deps (h2 w))) /\
                 (b = true -> In w (a_ops a) -> In t (c_deps (h2 w)))).
  { intro w. unfold h2. destruct b; [|split; auto; split; auto; intro E; discriminate E].
    destruct (add_deps_other t (operands a) h1 w) as (H1 & H2 & H3). split; auto. split; auto.
    intros _ Hin. apply H3. apply operands_in. auto. }
  set (same := match c_asg (h2 t) with Some b0 => asg_eqb b0 a | None => false end).
  set (h3 := match c_asg (h2 t) with Some _ => _ | None => _ end).
  assert (A3 : forall w, nod (h3 w) = nod (h1 w) /\ (forall x, x <> t -> In x (c_deps (h1 w)) -> In x (c_deps (h3 w))) /\
                 (b = true -> In w (a_ops a) -> In t (c_deps (h3 w)))).
  { intro w. destruct (A2 w) as (H1 & H2 & H3). unfold h3. destruct (c_asg (h2 t)) as [b0|]; auto.
    destruct b; cbn [negb andb]; auto. destruct (negb same && c_compute (h2 t)); auto.
    destruct (remove_deps_other t (operands b0) h2 w) as (H4 & H5). split; [congruence|]. split; auto. intro E; discriminate E. }
  set (h4 := if b then h3 else fold_left (add_dep t) (operands a) h3).
  assert (A4 : forall w, nod (h4 w) = nod (h1 w) /\ (forall x, x <> t -> In x (c_deps (h1 w)) -> In x (c_deps (h4 w))) /\
                 (In w (a_ops a) -> In t (c_deps (h4 w)))).
  { intro w. destruct (A3 w) as (H1 & H2 & H3). unfold h4. destruct b; auto.
    destruct (add_deps_other t (operands a) h3 w) as (H4 & H5 & H6). split; [congruence|]. split; auto.
    intros Hin. apply H6. apply operands_in. auto. }
  clearbody h4. clear A3 h3.
  destruct (nod_fields _ _ (proj1 (A2 t))) as (_ & _ & _ & _ & _ & _ & _ & _ & _ & _ & E2).
  assert (Hsame : same = match c_asg (h1 t) with Some b0 => asg_eqb b0 a | None => false end) by (unfold same; rewrite E2; auto).
  clearbody same. clear A2 E2 h2.
  destruct (nod_fields _ _ (proj1 (A4 t))) as (_ & T1 & T2 & T3 & T4 & T5 & T6 & T7 & T8 & T9 & T10).
  assert (Hb4 : c_buffer (h4 t) = []).
  { rewrite T4. destruct (m_buf _ _ (Hm t)) as [->| ->]; auto. }
  assert (Hmap : forall l, ~ In t l -> map (eager (Assign b t a) v) l = map v l).
  { intros l Hl. apply map_ext_in. intros u Hu. cbn. destruct (Nat.eqb_spec u t); auto. subst. tauto. }
  eexists. split; [reflexivity|]. split; [|split].
  - intro w. destruct (Nat.eq_dec w t) as [->|Hw].
    + destruct (HI1 t) as [L1 L2 L3 L4 L5 L6 L7 L8].
      constructor; rewrite ?set_same; cbn [c_alive c_pack c_buffer c_compute c_assemble c_compile c_asg c_module c_data c_never];
        auto; try discriminate; try congruence.
      * intros (_ & H). discriminate H.
      * intros _. exists a. split; auto. split.
        -- rewrite Hmap by auto. cbn. rewrite Nat.eqb_refl. auto.
        -- split; [|discriminate]. intros u Hu. assert (u <> t) by congruence. rewrite set_other by auto.
           split; [apply A4; auto|]. rewrite Nat.eqb_refl. destruct (Nat.eqb_spec u t); [congruence|auto].
      * destruct same; [|discriminate]. intros Hcc a' Ea. injection Ea as <-.
        destruct (c_asg (h1 t)) as [b0|] eqn:Eb; [|discriminate]. symmetry in Hsame. apply asg_eqb_eq in Hsame. subst b0.
        rewrite T3. apply L6; auto. congruence.
    + destruct (HI1 w) as [L1 L2 L3 L4 L5 L6 L7 L8].
      destruct (nod_fields _ _ (proj1 (A4 w))) as (_ & G1 & G2 & G3 & G4 & G5 & G6 & G7 & G8 & G9 & G10).
      assert (Hv : eager (Assign b t a) v w = v w) by (cbn; destruct (Nat.eqb_spec w t); [congruence|auto]).
      constructor; rewrite ?set_other by auto; rewrite ?Hv, ?G1, ?G2, ?G3, ?G4, ?G5, ?G6, ?G7, ?G8, ?G9, ?G10; auto.
      * intros (H1 & H2). apply L4. split; congruence.
      * intro H. destruct (L5 H) as (b0 & B1 & B2 & B3 & B4). exists b0. split; auto.
        assert (Hne : forall u, In u (a_ops b0) -> u <> t) by (intros u Hu ->; eapply Hno; eauto).
        rewrite Hmap by (intro Hin; eapply Hne; eauto). split; auto. split.
        -- intros u Hu. rewrite set_other by auto. destruct (B3 u Hu). split; [apply A4; auto|].
           destruct (Nat.eqb_spec w t); [congruence|]. destruct (Nat.eqb_spec u t); [exfalso; eapply Hne; eauto|auto].
        -- intros H'. destruct (B4 H') as (B5 & B6 & B7). split; auto. split; auto.
           intros u Hu. rewrite set_other by auto.
           eapply settled_mono; [apply (nod_fields _ _ (proj1 (A4 u)))|auto].
  - intros w Hw. rewrite set_other by auto. eapply mono_trans; [apply Hm|]. apply (nod_fields _ _ (proj1 (A4 w))).
  - rewrite set_same. cbn. split; auto. split; auto. split; auto. rewrite T9.
    intro H. apply (m_never _ _ (Hm t) H).
Qed.

(** What the flags tell about the history [p] so far. *)
Definition unsettled (p : list op) (X Q : op -> Prop) : Prop :=
  exists a x b, p = a ++ x :: b /\ X x /\ forall q, In q b -> ~ Q q.
Lemma unsettled_app : forall p X Q o, unsettled p X Q -> ~ Q o -> unsettled (p ++ [o]) X Q.
Proof.
  intros p X Q o (a & x & b & -> & Hx & Hb) Ho. exists a, x, (b ++ [o]).
  split; [rewrite <- app_assoc; auto|]. split; auto. intros q Hq. apply in_app_or in Hq.
  destruct Hq as [Hq|[<-|[]]]; auto.
Qed.
Lemma unsettled_now : forall p (X Q : op -> Prop) o, X o -> unsettled (p ++ [o]) X Q.
Proof. intros p X Q o Ho. exists p, o, []. split; auto. Qed.
Lemma separated_not : forall p o rest (X Y Q : op -> Prop), separated X Y Q (p ++ o :: rest) -> Y o -> ~ unsettled p X Q.
Proof.
  intros p o rest X Y Q Hs Hy (a & x & b & -> & Hx & Hb).
  destruct (Hs a x b o rest) as (q & H1 & H2); auto; [rewrite <- app_assoc; auto|]. eapply Hb; eauto.
Qed.

Record facts (p : list op) (h : heap) (t : nat) : Prop := Facts {
  f_ins : c_buffer (h t) <> [] -> unsettled p (is_insert t) (is_read t);
  f_cmp : c_compute (h t) = true -> unsettled p (is_assign t) (fun q => is_read t q \/ q = Compute t);
  f_cpl : c_compile (h t) = true -> unsettled p (is_assign t) (fun q => is_read t q \/ q = Compile t);
  f_asm : c_assemble (h t) = true -> unsettled p (is_assign t) (fun q => is_read t q \/ q = Assemble t);
  f_nev : c_never (h t) = true -> (c_pack (h t) = true /\ forall q, In q p -> ~ is_read t q) \/
            (exists a x b, p = a ++ x :: b /\ is_assign t x /\ forall q, In q a -> ~ is_read t q);
  f_asg : (exists x, In x p /\ is_assign t x) -> c_asg (h t) <> None }.

Lemma facts_mono : forall p (h h' : heap) t, mono (h t) (h' t) -> facts p h t -> facts p h' t.
Proof.
  intros p h h' t Hm [F1 F2 F3 F4 F5 F6]. destruct Hm. constructor; auto.
  - intro H. apply F1. destruct m_buf0 as [E|E]; congruence.
  - intro H. destruct (m_never0 H) as (H1 & H2). rewrite H2. auto.
  - rewrite m_asg0. auto.
Qed.
Lemma facts_app : forall p (h : heap) t o, facts p h t ->
  (c_buffer (h t) <> [] -> ~ is_read t o) ->
  (c_compute (h t) = true -> ~ (is_read t o \/ o = Compute t)) ->
  (c_compile (h t) = true -> ~ (is_read t o \/ o = Compile t)) ->
  (c_assemble (h t) = true -> ~ (is_read t o \/ o = Assemble t)) ->
  (c_never (h t) = true -> c_pack (h t) = true -> ~ is_read t o) ->
  (is_assign t o -> c_asg (h t) <> None) ->
  facts (p ++ [o]) h t.
Proof.
  intros p h t o [F1 F2 F3 F4 F5 F6] G1 G2 G3 G4 G5 G6. constructor.
  - intro H. apply unsettled_app; auto.
  - intro H. apply unsettled_app; auto.
  - intro H. apply unsettled_app; auto.
  - intro H. apply unsettled_app; auto.
  - intro H. destruct (F5 H) as [(H1 & H2)|(a & x & b & -> & H1 & H2)].
    + left. split; auto. intros q Hq. apply in_app_or in Hq. destruct Hq as [Hq|[<-|[]]]; auto.
    + right. exists a, x, (b ++ [o]). rewrite <- app_assoc. auto.
  - intros (x & Hx & Ha). apply in_app_or in Hx. destruct Hx as [Hx|[<-|[]]]; eauto.
Qed.
(** Operations on another tensor. *)
Definition about (o : op) : nat :=
  match o with
  | Insert t _ => t | Assign _ t _ => t | Read t => t | Compile t => t | Assemble t => t | Compute t => t | Destroy t => t
  end.
Lemma facts_other : forall p (h h' : heap) t o, facts p h t -> mono (h t) (h' t) -> about o <> t -> facts (p ++ [o]) h' t.
Proof.
  intros p h h' t o F Hm Ho. apply facts_app; [eapply facts_mono; eauto|..];
    unfold is_read, is_assign; intros; try intros [?|?]; try intro; subst; cbn in *; try congruence.
  destruct H as (b & a & ->). cbn in Ho. congruence.
Qed.

Notation run := (run empty add_component assemble_kernel compute_kernel).

Lemma run_ok : forall ops p h v r N fuel,
  Inv v r h -> (forall w, r w < N) -> (forall t, facts p h t) -> N + length ops < fuel ->
  unmixed (p ++ ops) -> read_first (p ++ ops) -> in_order (p ++ ops) -> not_recursive ops -> none_destroyed ops ->
  run fuel ops h = Val (eager_reads add_component result ops v).
Proof.
  induction ops as [|o ops IH]; intros p h v r N fuel HI HN HF Hfuel Hu Hr Ho Hs Hd; [reflexivity|].
  cbn [length] in Hfuel.
  assert (Hn : forall w, S (r w) < fuel) by (intro w; specialize (HN w); lia).
  assert (Hp : p ++ o :: ops = (p ++ [o]) ++ ops) by (rewrite <- app_assoc; auto).
  assert (Hs' : not_recursive ops) by (intros b t a Hin; eapply Hs; right; eauto).
  assert (Hd' : none_destroyed ops) by (intros t Hin; eapply Hd; right; eauto).
  assert (Next : forall h' v' r' N', Inv v' r' h' -> (forall w, r' w < N') -> (forall t, facts (p ++ [o]) h' t) ->
            N' + length ops < fuel -> run fuel ops h' = Val (eager_reads add_component result ops v')).
  { intros. apply (IH (p ++ [o]) h' v' r' N'); auto; rewrite <- Hp; auto. }
  destruct o as [t x|b t a|t|t|t|t|t]; cbn [DelayedEval.run eager_reads].
  - (* Insert *)
    destruct (Hu t) as (U1 & U2).
    assert (Hc : c_compute (h t) = false).
    { destruct (c_compute (h t)) eqn:E; auto. exfalso.
      eapply (separated_not p (Insert t x) ops _ _ _ U2); [exists x; auto|]. apply (HF t). auto. }
    assert (Hnv : c_never (h t) = true -> c_pack (h t) = true).
    { intro H. destruct (f_nev _ _ _ (HF t) H) as [(H1 & _)|(a & y & b & E & H1 & H2)]; auto.
      exfalso. destruct (Hr t a y b (Insert t x) ops) as (q & Q1 & Q2); auto.
      - rewrite E, <- app_assoc. auto.
      - exists x. auto.
      - eapply H2; eauto. }
    destruct (insert_ok v r fuel t x h HI Hn Hc Hnv) as (h' & -> & HI' & Hm & c & Hmc & Ht). cbn [obind].
    apply (Next h' (eager (Insert t x) v) r N); auto; [|lia].
    intro w. destruct (Nat.eq_dec w t) as [->|Hw].
    + pose proof (facts_mono p h (fun _ => c) t Hmc (HF t)) as Fc. destruct Fc as [F1 F2 F3 F4 F5 F6].
      assert (Hn1 : ~ is_read t (Insert t x : op)) by (unfold is_read; congruence).
      constructor; rewrite Ht; cbn.
      * intros _. apply unsettled_now. exists x. auto.
      * intro H. apply unsettled_app; auto. intros [H1|H1]; [auto|congruence].
      * intro H. apply unsettled_app; auto. intros [H1|H1]; [auto|congruence].
      * intro H. apply unsettled_app; auto. intros [H1|H1]; [auto|congruence].
      * intro H. destruct (F5 H) as [(H1 & H2)|(a & y & b & E & H1 & H2)].
        -- left. split; auto. intros q Hq. apply in_app_or in Hq. destruct Hq as [Hq|[<-|[]]]; auto.
        -- right. exists a, y, (b ++ [Insert t x]). rewrite E, <- app_assoc. auto.
      * intros (y & Hy & Ha). apply in_app_or in Hy. destruct Hy as [Hy|[<-|[]]]; [eauto|].
        destruct Ha as (? & ? & Ha). congruence.
    + eapply facts_other; eauto. 
  - (* Assign *)
    destruct (Hu t) as (U1 & U2).
    assert (Hb : c_buffer (h t) = []).
    { destruct (c_buffer (h t)) as [|y l] eqn:E; auto. exfalso.
      eapply (separated_not p (Assign b t a) ops _ _ _ U1); [exists b, a; auto|]. apply (HF t). congruence. }
    assert (Hself : ~ In t (a_ops a)) by (eapply Hs; left; reflexivity).
    destruct (assign_ok v r fuel b t a h N HI Hn HN Hb Hself) as (h' & -> & HI' & Hm & E1 & E2 & E3 & E4). cbn [obind].
    eapply (Next h' _ _ (S N)); [exact HI'| | |lia].
    + intro w. cbn. destruct (w =? t); [lia|]. specialize (HN w). lia.
    + intro w. destruct (Nat.eq_dec w t) as [->|Hw].
      * assert (Ha : is_assign t (Assign b t a : op)) by (exists b, a; auto).
        constructor.
        -- congruence.
        -- intros _. apply unsettled_now. auto.
        -- intros _. apply unsettled_now. auto.
        -- intros _. apply unsettled_now. auto.
        -- intro H. right. destruct (f_nev _ _ _ (HF t) (E3 H)) as [(H1 & H2)|(a' & y & b' & E & H1 & H2)].
           ++ exists p, (Assign b t a), []. auto.
           ++ exists a', y, (b' ++ [Assign b t a]). rewrite E, <- app_assoc. auto.
        -- intros _. congruence.
      * eapply facts_other; eauto. 
  - (* Read *)
    destruct (sync_ok empty add_component assemble_kernel compute_kernel result Hkernel v r fuel t h HI (Hn t))
      as (h' & -> & HI' & Hst & (Hm & _)). cbn [obind].
    rewrite (Next h' v r N); auto; [cbn [obind]; rewrite <- (k_val _ _ _ _ _ _ _ _ (HI' t) Hst); auto| |lia].
    intro w. destruct (Nat.eq_dec w t) as [->|Hw]; [|eapply facts_other; eauto].
    destruct Hst as (S1 & S2). destruct (HI' t) as [K1 K2 K3 K4 K5 K6 K7 K8].
    apply facts_app; [eapply facts_mono; eauto|..]; unfold is_read, is_assign; try congruence.
    + intro H. exfalso. apply H. auto.
    + intro H. rewrite K8 in S2 by auto. discriminate.
    + intro H. rewrite K7 in S2 by auto. discriminate.
    + intros (? & ? & ?). congruence.
  - (* Compile *)
    destruct (Ho t) as (O1 & _). destruct (O1 p ops eq_refl) as (y & Hy & Hya).
    destruct (c_asg (h t)) as [a|] eqn:Ea; [|exfalso; eapply (f_asg _ _ _ (HF t)); eauto].
    assert (Hc : exists h', compile t h = Val h' /\ Inv v r h' /\ c_compile (h' t) = false /\ forall w, mono (h w) (h' w)).
    { destruct (c_pack (h t)) eqn:Ep.
      - exists h. destruct (HI t) as [K1 K2 K3 K4 K5 K6 K7 K8]. destruct (K2 Ep) as (E & _).
        assert (Hcc : c_compile (h t) = false) by (destruct (c_compile (h t)); auto; rewrite K8 in E; auto).
        unfold compile. rewrite Ea, Hcc. cbn. sp. intro; apply mono_refl.
      - destruct (compile_ok empty add_component assemble_kernel result v r h t a HI Ea Ep)
          as (h' & H1 & H2 & H3 & _ & _ & _ & _ & H4 & _). eauto. }
    destruct Hc as (h' & -> & HI' & Hcc & Hm). cbn [obind].
    apply (Next h' v r N); auto; [|lia].
    intro w. destruct (Nat.eq_dec w t) as [->|Hw]; [|eapply facts_other; eauto].
    apply facts_app; [eapply facts_mono; eauto|..]; unfold is_read, is_assign; try congruence;
      try (intros; intros [?|?]; congruence). intros (? & ? & ?). congruence.
  - (* Assemble *)
    destruct (Ho t) as (_ & O2 & _).
    assert (Hcc : c_compile (h t) = false).
    { destruct (c_compile (h t)) eqn:E; auto. exfalso.
      eapply (separated_not p (Assemble t) ops _ _ _ O2); [auto|]. apply (HF t). auto. }
    assert (Hc : exists h', assemble assemble_kernel (sync fuel) t h = Val h' /\ Inv v r h' /\ c_assemble (h' t) = false /\
                   forall w, mono (h w) (h' w)).
    { destruct (c_assemble (h t)) eqn:Ea.
      - assert (Hcp : c_compute (h t) = true) by (apply (HI t); auto).
        destruct (k_comp _ _ _ _ _ _ _ _ (HI t) Hcp) as (a & A1 & _).
        destruct (assemble_ok empty add_component assemble_kernel compute_kernel result v r fuel h t a
                    (sync_ok empty add_component assemble_kernel compute_kernel result Hkernel v r fuel) HI Hcc Hcp A1)
          as (h' & H1 & H2 & H3 & _ & _ & _ & H4 & _); [specialize (Hn t); lia|]. eauto.
      - exists h. unfold assemble. rewrite Hcc, Ea. cbn. sp. intro; apply mono_refl. }
    destruct Hc as (h' & -> & HI' & Has & Hm). cbn [obind].
    apply (Next h' v r N); auto; [|lia].
    intro w. destruct (Nat.eq_dec w t) as [->|Hw]; [|eapply facts_other; eauto].
    apply facts_app; [eapply facts_mono; eauto|..]; unfold is_read, is_assign; try congruence;
      try (intros; intros [?|?]; congruence). intros (? & ? & ?). congruence.
  - (* Compute *)
    destruct (Ho t) as (_ & _ & O3).
    assert (Hc : exists h', compute compute_kernel (sync fuel) t h = Val h' /\ Inv v r h' /\ c_compute (h' t) = false /\
                   forall w, mono (h w) (h' w)).
    { destruct (c_compute (h t)) eqn:Ec.
      - assert (Has : c_assemble (h t) = false).
        { destruct (c_assemble (h t)) eqn:E; auto. exfalso.
          eapply (separated_not p (Compute t) ops _ _ _ O3); [auto|]. apply (HF t). auto. }
        destruct (k_comp _ _ _ _ _ _ _ _ (HI t) Ec) as (a & A1 & A2 & A3 & A4). destruct (A4 Has) as (Hcc & _).
        destruct (compute_ok empty add_component assemble_kernel compute_kernel result Hkernel v r fuel h t a HI)
          as (h' & H1 & H2 & (_ & H3) & H4 & _); auto; [lia|]. eauto.
      - exists h. destruct (HI t) as [K1 K2 K3 K4 K5 K6 K7 K8].
        assert (Hcc : c_compile (h t) = false) by (destruct (c_compile (h t)); auto; rewrite K8 in Ec; auto).
        unfold compute. rewrite Hcc, Ec. cbn. sp. intro; apply mono_refl. }
    destruct Hc as (h' & -> & HI' & Hcc & Hm). cbn [obind].
    apply (Next h' v r N); auto; [|lia].
    intro w. destruct (Nat.eq_dec w t) as [->|Hw]; [|eapply facts_other; eauto].
    apply facts_app; [eapply facts_mono; eauto|..]; unfold is_read, is_assign; try congruence;
      try (intros; intros [?|?]; congruence). intros (? & ? & ?). congruence.
  - exfalso. eapply Hd. left. reflexivity.
Qed.

Lemma history_ok : forall ops fuel, S (length ops) < fuel ->
  unmixed ops -> read_first ops -> in_order ops -> not_recursive ops -> none_destroyed ops ->
  run fuel ops (start empty) = Val (eager_reads add_component result ops (fun _ => empty)).
Proof.
  intros ops fuel Hf Hu Hr Ho Hs Hd.
  apply (run_ok ops [] (start empty) (fun _ => empty) (fun _ => 0) 1); auto.
  - intro t. constructor; cbn; auto; try discriminate.
  - intro t. constructor; cbn; try discriminate; try congruence.
    + intros _. left. split; auto.
    + intros (x & [] & _).
Qed.
End Steps.

(** Deciding the conditions on a concrete history. *)
Section Decide.
Context {C : Type}.
Notation op := (@op C).
Definition insertb (t : nat) (o : op) : bool := match o with Insert u _ => u =? t | _ => false end.
Definition assignb (t : nat) (o : op) : bool := match o with Assign _ u _ => u =? t | _ => false end.
Definition readb (t : nat) (o : op) : bool := match o with Read u => u =? t | _ => false end.
Definition compileb (t : nat) (o : op) : bool := match o with Compile u => u =? t | _ => false end.
Definition assembleb (t : nat) (o : op) : bool := match o with Assemble u => u =? t | _ => false end.
Definition computeb (t : nat) (o : op) : bool := match o with Compute u => u =? t | _ => false end.
Fixpoint afterb (Y Q : op -> bool) (ops : list op) : bool :=
  match ops with [] => true | o :: ops => negb (Y o) && (Q o || afterb Y Q ops) end.
Fixpoint sepb (X Y Q : op -> bool) (ops : list op) : bool :=
  match ops with [] => true | o :: ops => (negb (X o) || afterb Y Q ops) && sepb X Y Q ops end.

Lemma afterb_ok (Y Q : op -> bool) ops : afterb Y Q ops = true ->
  forall b y c, ops = b ++ y :: c -> Y y = true -> exists q, In q b /\ Q q = true.
Proof.
  induction ops as [|o ops IH]; cbn; intros H b y c E Hy.
  - destruct b; discriminate E.
  - apply andb_prop in H. destruct H as [H1 H2]. destruct b as [|o' b]; cbn in E; injection E as -> E.
    + rewrite Hy in H1. discriminate H1.
    + destruct (Q o') eqn:EQ; [exists o'; cbn; auto|]. cbn in H2.
      destruct (IH H2 _ _ _ E Hy) as (q & Hq & Hq'). exists q. cbn. auto.
Qed.
Lemma sepb_ok (X Y Q : op -> bool) (X' Y' Q' : op -> Prop) ops :
  (forall o, X' o -> X o = true) -> (forall o, Y' o -> Y o = true) -> (forall o, Q o = true -> Q' o) ->
  sepb X Y Q ops = true -> separated X' Y' Q' ops.
Proof.
  intros HX HY HQ H a x b y c. revert ops H. induction a as [|o' a IH]; intros ops H E Hx Hy; subst ops; cbn in H;
    apply andb_prop in H; destruct H as [H1 H2].
  - rewrite (HX _ Hx) in H1. cbn in H1. destruct (afterb_ok _ _ _ H1 b y c eq_refl (HY _ Hy)) as (q & ? & ?). eauto.
  - eapply IH; eauto.
Qed.

(** Per tensor. *)
Definition unmixedb (t : nat) (ops : list op) : bool :=
  sepb (insertb t) (assignb t) (readb t) ops &&
  sepb (assignb t) (insertb t) (fun o => readb t o || computeb t o) ops.
Definition in_orderb (t : nat) (ops : list op) : bool :=
  afterb (compileb t) (assignb t) ops &&
  sepb (assignb t) (assembleb t) (fun o => readb t o || compileb t o) ops &&
  sepb (assignb t) (computeb t) (fun o => readb t o || assembleb t o) ops.
Fixpoint read_firstb (t : nat) (ops : list op) : bool :=
  match ops with
  | [] => true
  | o :: ops => readb t o || ((negb (assignb t o) || negb (existsb (insertb t) ops)) && read_firstb t ops)
  end.

Lemma insertb_ok t o : is_insert t o <-> insertb t o = true.
Proof. split; [intros (? & ->); apply Nat.eqb_refl|]. destruct o; cbn; try discriminate. intro H. apply Nat.eqb_eq in H. subst. eexists; eauto. Qed.
Lemma assignb_ok t o : is_assign t o <-> assignb t o = true.
Proof. split; [intros (? & ? & ->); apply Nat.eqb_refl|]. destruct o; cbn; try discriminate. intro H. apply Nat.eqb_eq in H. subst. eexists; eauto. Qed.
Lemma readb_ok t o : is_read t o <-> readb t o = true.
Proof. split; [intros ->; apply Nat.eqb_refl|]. destruct o; cbn; try discriminate. intro H. apply Nat.eqb_eq in H. subst. reflexivity. Qed.
Lemma compileb_ok t o : Compile t = o <-> compileb t o = true.
Proof. split; [intros <-; apply Nat.eqb_refl|]. destruct o; cbn; try discriminate. intro H. apply Nat.eqb_eq in H. subst. reflexivity. Qed.
Lemma assembleb_ok t o : Assemble t = o <-> assembleb t o = true.
Proof. split; [intros <-; apply Nat.eqb_refl|]. destruct o; cbn; try discriminate. intro H. apply Nat.eqb_eq in H. subst. reflexivity. Qed.
Lemma computeb_ok t o : Compute t = o <-> computeb t o = true.
Proof. split; [intros <-; apply Nat.eqb_refl|]. destruct o; cbn; try discriminate. intro H. apply Nat.eqb_eq in H. subst. reflexivity. Qed.

Lemma unmixed_check ops : (forall t, unmixedb t ops = true) -> unmixed ops.
Proof.
  intros H t. specialize (H t). apply andb_prop in H. destruct H as [H1 H2]. split.
  - eapply sepb_ok; [apply insertb_ok|apply assignb_ok|apply readb_ok|exact H1].
  - eapply sepb_ok; [apply assignb_ok|apply insertb_ok| |exact H2].
    cbn. intros o Ho. apply orb_prop in Ho. destruct Ho as [Ho|Ho]; [left; apply readb_ok; auto|].
    right. symmetry. apply computeb_ok. auto.
Qed.
Lemma in_order_check ops : (forall t, in_orderb t ops = true) -> in_order ops.
Proof.
  intros H t. specialize (H t). apply andb_prop in H. destruct H as [H H3]. apply andb_prop in H. destruct H as [H1 H2].
  split; [|split].
  - intros a c E. destruct (afterb_ok _ _ _ H1 a (Compile t) c E) as (q & Hq & Hq'); [apply Nat.eqb_refl|].
    exists q. split; auto. apply assignb_ok. auto.
  - eapply sepb_ok; [apply assignb_ok|apply assembleb_ok| |exact H2].
    cbn. intros o Ho. apply orb_prop in Ho. destruct Ho as [Ho|Ho]; [left; apply readb_ok; auto|].
    right. symmetry. apply compileb_ok. auto.
  - eapply sepb_ok; [apply assignb_ok|apply computeb_ok| |exact H3].
    cbn. intros o Ho. apply orb_prop in Ho. destruct Ho as [Ho|Ho]; [left; apply readb_ok; auto|].
    right. symmetry. apply assembleb_ok. auto.
Qed.
Lemma read_first_check ops : (forall t, read_firstb t ops = true) -> read_first ops.
Proof.
  intros H t a x b y c. specialize (H t). revert ops H. induction a as [|o a IH]; intros ops H E Hx Hy; subst ops; cbn in H.
  - exfalso. apply orb_prop in H. destruct H as [H|H].
    + destruct Hx as (? & ? & ->). discriminate H.
    + apply andb_prop in H. destruct H as [H _]. apply assignb_ok in Hx. rewrite Hx in H. cbn in H.
      assert (E : existsb (insertb t) (b ++ y :: c) = true).
      { apply existsb_exists. exists y. split; [apply in_or_app; right; left; auto|apply insertb_ok; auto]. }
      rewrite E in H. discriminate H.
  - apply orb_prop in H. destruct H as [H|H].
    + exists o. split; [left; auto|apply readb_ok; auto].
    + apply andb_prop in H. destruct H as [_ H]. destruct (IH _ H eq_refl Hx Hy) as (q & ? & ?). exists q. cbn. auto.
Qed.
End Decide.
