(** Proofs about the memory of tensors. *)
From Coq Require Import List Arith Bool Lia.
From Verif Require Import StoreMem StoreMemSpec.
Import ListNotations.
Local Open Scope nat_scope.

(* ------------------------------------------------------------------ *)
(** * Arrays *)

Definition cell_is (m : mem) (c : nat) (x : cell) : Prop := nth_error (cells m) c = Some x.
Definition unowned (m : mem) (b : nat) : Prop :=
  b < next m /\ (forall c x, cell_is m c x -> c_owns x = true -> c_ptr x <> Some b).
Definition unclaimed (m : mem) (b : nat) : Prop :=
  b < next m /\ (forall c x, cell_is m c x -> c_ptr x <> Some b).
Record mem_ok (m : mem) (lent : list nat) : Prop := MemOk {
  mo_bound : forall c x b, cell_is m c x -> c_ptr x = Some b -> b < next m;
  mo_owner : forall c d x y b, cell_is m c x -> cell_is m d y -> c <> d -> c_owns x = true ->
             c_ptr x = Some b -> c_ptr y = Some b -> False;
  mo_freed : forall b, In b (freed m) -> exists c x, cell_is m c x /\ c_owns x = true /\ c_dead x = true /\ c_ptr x = Some b;
  mo_dead : forall c x b, cell_is m c x -> c_owns x = true -> c_dead x = true -> c_ptr x = Some b -> In b (freed m);
  mo_nodup : NoDup (freed m);
  mo_lent : forall b, In b lent -> unowned m b
}.
(** Allocating and making arrays only add. *)
Definition ext (m m' : mem) : Prop :=
  freed m' = freed m /\ next m <= next m' /\ exists more, cells m' = cells m ++ more.

Lemma ext_refl m : ext m m.
Proof. split; [|split]; auto. exists []. now rewrite app_nil_r. Qed.
Lemma ext_trans a b c : ext a b -> ext b c -> ext a c.
Proof.
  intros (F & N & k & K) (F' & N' & l & L). split; [congruence|]. split; [lia|].
  exists (k ++ l). now rewrite L, K, app_assoc.
Qed.
Lemma ext_cell m m' c x : ext m m' -> cell_is m c x -> cell_is m' c x.
Proof. intros (_ & _ & k & K) H. unfold cell_is in *. rewrite K, nth_error_app1; auto. apply nth_error_Some. congruence. Qed.

Lemma cell_app m c y x m' : cells m' = cells m ++ [y] ->
  cell_is m' c x -> cell_is m c x \/ (c = length (cells m) /\ x = y).
Proof.
  intros E H. unfold cell_is in *. rewrite E in H.
  destruct (Nat.lt_ge_cases c (length (cells m))).
  - rewrite nth_error_app1 in H; auto.
  - right. rewrite nth_error_app2 in H by auto. destruct (c - length (cells m)) eqn:Q; simpl in H.
    + split; [lia | congruence].
    + destruct n; discriminate.
Qed.
Lemma cell_new m c x : cell_is m c x -> c < length (cells m).
Proof. intros H. apply nth_error_Some. unfold cell_is in H. congruence. Qed.

Lemma malloc_ok m L : mem_ok m L -> mem_ok (fst (malloc m)) L.
Proof.
  intros [A B C D E F]. constructor; simpl; auto.
  - intros c x b H1 H2. apply (A c x b) in H1; auto.
  - intros b H. destruct (F b H) as [G1 G2]. split; simpl; auto.
Qed.
Lemma malloc_ext m : ext m (fst (malloc m)).
Proof. split; [|split]; simpl; auto. exists []. now rewrite app_nil_r. Qed.
Lemma malloc_unclaimed m L : mem_ok m L -> unclaimed (fst (malloc m)) (snd (malloc m)).
Proof.
  intros [A _ _ _ _ _]. split; simpl; [lia|]. intros c x H E. apply A with (c := c) in E; auto. lia.
Qed.
Lemma malloc_keeps m b : unclaimed m b -> unclaimed (fst (malloc m)) b.
Proof. intros [A B]. split; simpl; [lia | auto]. Qed.
Lemma malloc_unowned m b : unowned m b -> unowned (fst (malloc m)) b.
Proof. intros [A B]. split; simpl; [lia | auto]. Qed.
Lemma unclaimed_unowned m b : unclaimed m b -> unowned m b.
Proof. intros [A B]. split; auto. intros. eauto. Qed.

Lemma new_cell_ok m L p (owns : bool) :
  mem_ok m L ->
  match p with
  | None => True
  | Some b => if owns then unclaimed m b /\ ~ In b L else unowned m b
  end -> mem_ok (fst (new_cell m p owns)) L.
Proof.
  intros [A B C D E F] P.
  assert (K : forall c x, cell_is (fst (new_cell m p owns)) c x ->
                cell_is m c x \/ (c = length (cells m) /\ x = Cell p owns false)).
  { intros c x H. now apply cell_app with (m' := fst (new_cell m p owns)). }
  constructor; simpl; auto.
  - intros c x b H1 H2. destruct (K _ _ H1) as [H|[H ->]]; [eauto|]. simpl in H2. subst p.
    destruct owns; [apply P | apply P].
  - intros c d x y b H1 H2 N O E1 E2.
    destruct (K _ _ H1) as [G1|[G1 ->]], (K _ _ H2) as [G2|[G2 ->]]; simpl in *.
    + apply (B c d x y b); auto.
    + subst p. destruct owns; [destruct P as [P _]|]; apply P in G1; auto.
    + subst p owns. destruct P as [P _]. apply P in G2. auto.
    + congruence.
  - intros b H. destruct (C b H) as (c & x & H1 & H2). exists c, x. split; auto.
    apply ext_cell with (m := m); auto. split; [|split]; simpl; auto. now eexists.
  - intros c x b H1 H2 H3 H4. destruct (K _ _ H1) as [H|[H ->]]; [eauto | discriminate].
  - intros b H. destruct (F b H) as [G1 G2]. split; simpl; auto.
    intros c x H1 H2. destruct (K _ _ H1) as [G|[G ->]]; [eauto|].
    simpl in *. intros ->. subst owns. destruct P as [_ P]. contradiction.
Qed.
Lemma new_cell_ext m p owns : ext m (fst (new_cell m p owns)).
Proof. split; [|split]; simpl; auto. now eexists. Qed.
Lemma new_cell_is m p owns : cell_is (fst (new_cell m p owns)) (snd (new_cell m p owns)) (Cell p owns false).
Proof. unfold cell_is; simpl. rewrite nth_error_app2, Nat.sub_diag; auto. Qed.
Lemma new_cell_unowned m p b : unowned m b -> unowned (fst (new_cell m p false)) b.
Proof.
  intros [A B]. split; simpl; auto. intros c x H O.
  destruct (cell_app m c (Cell p false false) x (fst (new_cell m p false)) eq_refl H) as [G|[G ->]]; [eauto | discriminate].
Qed.
Lemma new_cell_unclaimed m p owns b : p <> Some b -> unclaimed m b -> unclaimed (fst (new_cell m p owns)) b.
Proof.
  intros N [A B]. split; simpl; auto. intros c x H.
  destruct (cell_app m c (Cell p owns false) x (fst (new_cell m p owns)) eq_refl H) as [G|[G ->]]; [eauto | exact N].
Qed.
Lemma new_cell_unowned' m p owns b : p <> Some b -> unowned m b -> unowned (fst (new_cell m p owns)) b.
Proof.
  intros N [A B]. split; simpl; auto. intros c x H.
  destruct (cell_app m c (Cell p owns false) x (fst (new_cell m p owns)) eq_refl H) as [G|[G ->]]; [eauto | intros _; exact N].
Qed.

Lemma makeArray_unfold m : makeArray m = new_cell (fst (malloc m)) (Some (snd (malloc m))) true.
Proof. reflexivity. Qed.
Lemma not_lent m L b : mem_ok m L -> In b L -> b < next m.
Proof. intros H I. now apply (mo_lent _ _ H). Qed.
Lemma makeArray_ok m L : mem_ok m L -> mem_ok (fst (makeArray m)) L.
Proof.
  intros H. rewrite makeArray_unfold. apply new_cell_ok; [now apply malloc_ok|]. split; [now apply malloc_unclaimed with (L := L)|].
  simpl. intros I. apply (not_lent m L) in I; auto. lia.
Qed.
Lemma makeArray_ext m : ext m (fst (makeArray m)).
Proof. rewrite makeArray_unfold. eapply ext_trans; [apply malloc_ext | apply new_cell_ext]. Qed.
Lemma makeArray_unclaimed m b : unclaimed m b -> unclaimed (fst (makeArray m)) b.
Proof.
  intros H. rewrite makeArray_unfold. apply new_cell_unclaimed; [|now apply malloc_keeps].
  simpl. destruct H as [H _]. intros [= E]. lia.
Qed.
Lemma makeArray_unowned m b : unowned m b -> unowned (fst (makeArray m)) b.
Proof.
  intros H. rewrite makeArray_unfold. apply new_cell_unowned'; [|now apply malloc_unowned].
  simpl. destruct H as [H _]. intros [= E]. lia.
Qed.

(** An array that exists and points to memory. *)
Definition live (m : mem) (c : nat) : Prop := exists x b, cell_is m c x /\ c_dead x = false /\ c_ptr x = Some b.
Definition exists_cell (m : mem) (c : nat) : Prop := exists x, cell_is m c x /\ c_dead x = false.
Lemma live_exists m c : live m c -> exists_cell m c.
Proof. intros (x & b & H & D & _). now exists x. Qed.
Lemma live_ext m m' c : ext m m' -> live m c -> live m' c.
Proof. intros E (x & b & H & D). exists x, b. split; auto. now apply ext_cell with (m := m). Qed.
Lemma exists_ext m m' c : ext m m' -> exists_cell m c -> exists_cell m' c.
Proof. intros E (x & H & D). exists x. split; auto. now apply ext_cell with (m := m). Qed.
Lemma makeArray_live m : live (fst (makeArray m)) (snd (makeArray m)).
Proof. rewrite makeArray_unfold. exists (Cell (Some (snd (malloc m))) true false), (snd (malloc m)). split; [apply new_cell_is | auto]. Qed.
Lemma new_cell_live m b owns : live (fst (new_cell m (Some b) owns)) (snd (new_cell m (Some b) owns)).
Proof. exists (Cell (Some b) owns false), b. split; [apply new_cell_is | auto]. Qed.

Lemma is_freed_iff m b : is_freed m b = true <-> In b (freed m).
Proof.
  unfold is_freed. rewrite existsb_exists. split.
  - intros (x & I & E). apply Nat.eqb_eq in E. now subst.
  - intros I. exists b. split; auto. apply Nat.eqb_refl.
Qed.
Lemma not_freed_alive m b : b < next m -> ~ In b (freed m) -> alive m (Some b) = true.
Proof.
  intros H N. unfold alive. apply andb_true_iff. split; [now apply Nat.ltb_lt|].
  apply negb_true_iff, not_true_iff_false. now rewrite is_freed_iff.
Qed.
Lemma unowned_alive m L b : mem_ok m L -> unowned m b -> alive m (Some b) = true.
Proof.
  intros H [U V]. apply not_freed_alive; auto. intros I.
  destruct (mo_freed _ _ H b I) as (c & x & H1 & H2 & _ & H3). now apply (V c x).
Qed.
Lemma live_data m L c : mem_ok m L -> live m c -> exists b, data m c = Some (Some b) /\ alive m (Some b) = true.
Proof.
  intros H (x & b & H1 & H2 & H3). exists b. split.
  - unfold data. unfold cell_is in H1. now rewrite H1, H2, H3.
  - apply not_freed_alive; [now apply (mo_bound _ _ H c x)|]. intros I.
    destruct (mo_freed _ _ H b I) as (d & y & G1 & G2 & G3 & G4).
    assert (d <> c). { intros ->. unfold cell_is in *. congruence. }
    now apply (mo_owner _ _ H d c y x b).
Qed.
Lemma exists_data m c : exists_cell m c -> exists p, data m c = Some p.
Proof. intros (x & H & D). exists (c_ptr x). unfold data. unfold cell_is in H. now rewrite H, D. Qed.
Lemma data_live m c b : data m c = Some (Some b) -> live m c.
Proof.
  unfold data. destruct (nth_error (cells m) c) eqn:E; [|discriminate]. destruct (c_dead c0) eqn:D; [discriminate|].
  intros [= Q]. now exists c0, b.
Qed.
Lemma data_exists m c p : data m c = Some p -> exists_cell m c.
Proof.
  unfold data. destruct (nth_error (cells m) c) eqn:E; [|discriminate]. destruct (c_dead c0) eqn:D; [discriminate|].
  now exists c0.
Qed.

(* ------------------------------------------------------------------ *)
(** * Storages *)

Definition level_good (m : mem) (l : level) (arrays : list nat) : Prop :=
  match l with
  | Dense => exists c, arrays = [c] /\ live m c
  | _ => exists a b, arrays = [a; b] /\ live m a /\ live m b
  end.
(** [full]: every level has its arrays. *)
Definition level_some (m : mem) (full : bool) (l : level) (arrays : list nat) : Prop :=
  level_good m l arrays \/ (full = false /\ l <> Dense /\ arrays = []).
Definition sto_ok (m : mem) (d : storage) : Prop :=
  length (s_indices d) = length (s_format d) /\ exists_cell m (s_values d) /\
  exists full, Forall2 (level_some m full) (s_format d) (s_index d) /\ (live m (s_values d) -> full = true).

Lemma level_good_ext m m' l a : ext m m' -> level_good m l a -> level_good m' l a.
Proof.
  intros E. destruct l; simpl.
  - intros (c & H & K). exists c. split; auto. now apply live_ext with (m := m).
  - intros (c & d & H & K & J). exists c, d. split; [|split]; auto; now apply live_ext with (m := m).
  - intros (c & d & H & K & J). exists c, d. split; [|split]; auto; now apply live_ext with (m := m).
Qed.
Lemma live_back m m' c : ext m m' -> exists_cell m c -> live m' c -> live m c.
Proof.
  intros E (x & H & D) (y & b & G & D' & P). exists x, b. split; auto.
  apply ext_cell with (m' := m') in H; [|exact E]. unfold cell_is in *. assert (x = y) by congruence. subst y. now split.
Qed.
Lemma Forall2_imp {A B} (P Q : A -> B -> Prop) l k : (forall a b, P a b -> Q a b) -> Forall2 P l k -> Forall2 Q l k.
Proof. intros I H. induction H; constructor; auto. Qed.
Lemma sto_ok_ext m m' d : ext m m' -> sto_ok m d -> sto_ok m' d.
Proof.
  intros E (A & B & full & C & D). split; [auto|]. split; [now apply exists_ext with (m := m)|].
  exists full. split.
  - eapply Forall2_imp; [|exact C]. intros l a [H|H]; [left; now apply level_good_ext with (m := m) | now right].
  - intros H. apply D. now apply live_back with (m' := m').
Qed.

(** Conversion succeeds; of a storage with values the result is accessible. *)
Lemma convert_level_ok m L full l arrays p : mem_ok m L -> level_some m full l arrays ->
  exists q, convert_level m l arrays p = Some q /\ (full = true -> level_ok m l q = true) /\ (l = Dense -> alive m (fst q) = true).
Proof.
  intros H [G|(G & N & ->)].
  - destruct l; simpl in G.
    + destruct G as (c & -> & G). destruct (live_data m L c H G) as (b & E & A). simpl. rewrite E. eexists; split; [reflexivity|]. now split.
    + destruct G as (a & c & -> & G & K).
      destruct (live_data m L a H G) as (b & E & A), (live_data m L c H K) as (b' & E' & A').
      simpl convert_level. rewrite E, E'. eexists; split; [reflexivity|]. split; [|discriminate]. intros _. simpl fst; simpl snd.
      unfold level_ok. cbn [fst snd]. now rewrite A, A'.
    + destruct G as (a & c & -> & G & K). destruct (live_data m L c H K) as (b' & E' & A').
      simpl convert_level. rewrite E'. eexists; split; [reflexivity|]. split; [|discriminate]. intros _. exact A'.
  - subst full. destruct l; [contradiction N; auto| |]; simpl; (eexists; split; [reflexivity|]); split; discriminate.
Qed.
Definition dense_ok (m : mem) (l : level) (p : pointers) : Prop := l = Dense -> alive m (fst p) = true.
Lemma convert_levels_ok m L full : mem_ok m L -> forall ls index old, Forall2 (level_some m full) ls index -> length old = length ls ->
  exists ps, convert_levels m ls index old = Some ps /\ Forall2 (dense_ok m) ls ps /\ (full = true -> levels_ok m ls ps = true).
Proof.
  intros H ls index old F. revert old. induction F as [|l a ls index P F IH]; intros old E.
  - exists []. split; [reflexivity | split; [constructor | reflexivity]].
  - destruct old as [|p old]; [discriminate|]. injection E as E. destruct (IH old E) as (ps & C & D & K).
    destruct (convert_level_ok m L full l a p H P) as (q & Q & QK & QD).
    exists (q :: ps). cbn [convert_levels]. rewrite Q, C. split; [reflexivity|]. split; [constructor; auto|].
    intros T. cbn [levels_ok]. now rewrite QK, K.
Qed.
Lemma convert_ok m L d : mem_ok m L -> sto_ok m d ->
  exists d', convert m d = Some d' /\ s_format d' = s_format d /\ s_index d' = s_index d /\ s_values d' = s_values d /\
             Forall2 (dense_ok m) (s_format d) (s_indices d') /\ (live m (s_values d) -> accessible m d' = true).
Proof.
  intros H (A & B & full & C & D). unfold convert.
  destruct (convert_levels_ok m L full H _ _ _ C A) as (ps & E & F & K). rewrite E.
  destruct (exists_data _ _ B) as (v & V). rewrite V. eexists; split; [reflexivity|]. simpl.
  split; [auto|]. split; [auto|]. split; [auto|]. split; auto. intros G. unfold accessible; simpl. rewrite (K (D G)).
  destruct (live_data m L _ H G) as (b & E' & Al). rewrite E' in V. injection V as <-. exact Al.
Qed.
Lemma Forall2_len {A B} (P : A -> B -> Prop) l k : Forall2 P l k -> length k = length l.
Proof. induction 1; simpl; auto. Qed.
Lemma convert_sto_ok m L d d' : mem_ok m L -> sto_ok m d -> convert m d = Some d' -> sto_ok m d'.
Proof.
  intros H S E. destruct (convert_ok m L d H S) as (d'' & E' & A & B & C & D & _).
  assert (d'' = d') by congruence. subst d''. destruct S as (S1 & S2 & full & S3 & S4).
  unfold sto_ok. rewrite A, B, C. split; [now apply Forall2_len in D | eauto].
Qed.

(** A kernel that assembles. *)
Definition slot_ok (m : mem) (v : nat) (l : level) (p : pointers) : Prop :=
  match l with
  | Dense => alive m (fst p) = true
  | Compressed => exists a b, p = (Some a, Some b) /\ unowned m a /\ unowned m b /\ a <> v /\ b <> v
  | Singleton => exists b, snd p = Some b /\ unowned m b /\ b <> v
  end.
Lemma alive_ext m m' p : ext m m' -> alive m p = true -> alive m' p = true.
Proof.
  intros (F & N & _). destruct p as [b|]; [|discriminate]. unfold alive, is_freed. rewrite F.
  intros H. apply andb_true_iff in H as [H1 H2]. rewrite H2, andb_true_r. apply Nat.ltb_lt in H1. apply Nat.ltb_lt. lia.
Qed.
Definition pre_slot (m : mem) (l : level) (p : pointers) : Prop :=
  match l with
  | Dense => alive m (fst p) = true
  | Compressed => exists a b, p = (Some a, Some b) /\ unclaimed m a /\ unclaimed m b
  | Singleton => exists b, snd p = Some b /\ unclaimed m b
  end.
(* m' differs from m by allocations only *)
Definition mallocs (m m' : mem) : Prop := freed m' = freed m /\ next m <= next m' /\ cells m' = cells m.
Lemma mallocs_refl m : mallocs m m. Proof. now split. Qed.
Lemma mallocs_trans a b c : mallocs a b -> mallocs b c -> mallocs a c.
Proof. intros (A & B & C) (D & E & F). split; [congruence|]. split; [lia | congruence]. Qed.
Lemma mallocs_malloc m : mallocs m (fst (malloc m)).
Proof. split; [|split]; simpl; auto. Qed.
Lemma mallocs_ext m m' : mallocs m m' -> ext m m'.
Proof. intros (A & B & C). split; [auto|]. split; auto. exists []. now rewrite app_nil_r. Qed.
Lemma mallocs_unclaimed m m' b : mallocs m m' -> unclaimed m b -> unclaimed m' b.
Proof. intros (A & B & C) [D E]. split; [lia|]. unfold cell_is in *. now rewrite C. Qed.
Lemma mallocs_ok m m' L : mallocs m m' -> mem_ok m L -> mem_ok m' L.
Proof.
  intros (A & B & C) [D E F G H I].
  constructor; unfold cell_is, unowned in *; rewrite ?C, ?A; auto.
  - intros c x b P Q. apply (D c x b) in P; auto. lia.
  - intros b P. destruct (I b P) as [J K]. split; [lia|]. unfold cell_is in *. now rewrite C.
Qed.
Lemma pre_slot_mallocs m m' l p : mallocs m m' -> pre_slot m l p -> pre_slot m' l p.
Proof.
  intros M. destruct l; simpl.
  - apply alive_ext. now apply mallocs_ext.
  - intros (a & b & E & P & Q). exists a, b. split; [auto|]. split; now apply mallocs_unclaimed with (m := m).
  - intros (b & E & P). exists b. split; auto. now apply mallocs_unclaimed with (m := m).
Qed.
Lemma assemble_levels_ok L : forall ls ps m, mem_ok m L -> Forall2 (dense_ok m) ls ps ->
  mallocs m (fst (assemble_levels m ls ps)) /\
  Forall2 (pre_slot (fst (assemble_levels m ls ps))) ls (snd (assemble_levels m ls ps)).
Proof.
  induction ls as [|l ls IH]; intros ps m H F; inversion F as [|? p ? ps' P F' E1 E2]; subst; clear F.
  - simpl. split; [apply mallocs_refl | constructor].
  - cbn [assemble_levels].
    assert (Q : mallocs m (fst (assemble_level m l p)) /\ pre_slot (fst (assemble_level m l p)) l (snd (assemble_level m l p))).
    { destruct l; simpl assemble_level.
      - split; [apply mallocs_refl | exact (P eq_refl)].
      - pose proof (malloc_unclaimed m L H) as U1.
        pose proof (malloc_unclaimed (fst (malloc m)) L (malloc_ok m L H)) as U2.
        split; [eapply mallocs_trans; [apply mallocs_malloc | apply (mallocs_malloc (fst (malloc m)))]|].
        exists (next m), (S (next m)). split; [reflexivity|]. split; [|exact U2].
        apply mallocs_unclaimed with (m := fst (malloc m)); [apply (mallocs_malloc (fst (malloc m))) | exact U1].
      - split; [apply mallocs_malloc|]. exists (next m). split; [reflexivity|]. apply (malloc_unclaimed m L H). }
    destruct (assemble_level m l p) as [m1 p1]. simpl in Q. destruct Q as [Q1 Q2].
    assert (F2 : Forall2 (dense_ok m1) ls ps').
    { eapply Forall2_imp; [|exact F']. intros l0 p0 D E. eapply alive_ext; [apply mallocs_ext; exact Q1 | now apply D]. }
    specialize (IH ps' m1 (mallocs_ok _ _ _ Q1 H) F2).
    destruct (assemble_levels m1 ls ps') as [m2 ps2]. simpl in *. destruct IH as [I1 I2].
    split; [now apply mallocs_trans with m1|]. constructor; auto. now apply pre_slot_mallocs with (m := m1).
Qed.
Lemma Forall2_and {A B} (P Q : A -> B -> Prop) l k : Forall2 P l k -> Forall2 Q l k -> Forall2 (fun a b => P a b /\ Q a b) l k.
Proof. intros H. induction H; intros K; inversion K; subst; constructor; auto. Qed.
Lemma kernel_assembles_ok m L d : mem_ok m L -> Forall2 (dense_ok m) (s_format d) (s_indices d) ->
  exists m' ps v, kernel_assembles m d = (m', Sto (s_format d) (s_index d) (s_values d) ps (Some v)) /\
    mallocs m m' /\ unclaimed m' v /\ ~ In v L /\ Forall2 (slot_ok m' v) (s_format d) ps.
Proof.
  intros H F. unfold kernel_assembles. pose proof (assemble_levels_ok L _ _ m H F) as A.
  destruct (assemble_levels m (s_format d) (s_indices d)) as [m1 ps]. simpl in A. destruct A as [A1 A2].
  pose proof (mallocs_ok _ _ _ A1 H) as H1. pose proof (malloc_unclaimed m1 L H1) as U.
  exists (fst (malloc m1)), ps, (next m1). split; [reflexivity|].
  split; [eapply mallocs_trans; [exact A1 | apply mallocs_malloc]|]. split; [exact U|].
  split. { intros I. apply (not_lent m1 L) in I; auto. lia. }
  eapply Forall2_imp; [|exact A2]. intros l p S. destruct l; simpl in *.
  - eapply alive_ext; [apply malloc_ext | exact S].
  - destruct S as (a & b & E & P & Q). exists a, b. split; [auto|].
    assert (a < next m1) by apply P. assert (b < next m1) by apply Q.
    split; [apply malloc_unowned; now apply unclaimed_unowned|]. split; [apply malloc_unowned; now apply unclaimed_unowned|]. lia.
  - destruct S as (b & E & Q). exists b. split; [auto|].
    assert (b < next m1) by apply Q. split; [apply malloc_unowned; now apply unclaimed_unowned|]. lia.
Qed.

Lemma slot_ok_ext m m' v l p : ext m m' -> (forall b, unowned m b -> unowned m' b) -> slot_ok m v l p -> slot_ok m' v l p.
Proof.
  intros E U. destruct l; simpl.
  - now apply alive_ext.
  - intros (a & b & H & P & Q & R). exists a, b. auto.
  - intros (b & H & P & Q). exists b. auto.
Qed.
Lemma unpack_level_ok m L v l p : mem_ok m L -> slot_ok m v l p -> unclaimed m v ->
  exists m' arrays, unpack_level m l p = Some (m', arrays) /\ mem_ok m' L /\ ext m m' /\
    (forall b, unowned m b -> unowned m' b) /\ unclaimed m' v /\ level_good m' l arrays.
Proof.
  intros H S U. destruct l; simpl in S.
  - cbn [unpack_level]. rewrite S. rewrite (surjective_pairing (makeArray m)).
    eexists _, _. split; [reflexivity|]. split; [now apply makeArray_ok|]. split; [apply makeArray_ext|].
    split; [apply makeArray_unowned|]. split; [now apply makeArray_unclaimed|]. eexists. split; [reflexivity|]. apply makeArray_live.
  - destruct S as (a & b & -> & Ua & Ub & Na & Nb). cbn [unpack_level fst snd].
    rewrite (unowned_alive m L a H Ua).
    set (m1 := fst (new_cell m (Some a) false)).
    set (m2 := fst (new_cell m1 (Some b) false)).
    assert (E1 : ext m m1) by apply new_cell_ext. assert (E2 : ext m1 m2) by apply new_cell_ext.
    assert (H1 : mem_ok m1 L). { apply new_cell_ok; auto. }
    exists m2, [snd (new_cell m (Some a) false); snd (new_cell m1 (Some b) false)]. split; [reflexivity|].
    split. { apply new_cell_ok; auto. now apply new_cell_unowned. }
    split; [now apply ext_trans with m1|]. split. { intros c Uc. now apply new_cell_unowned, new_cell_unowned. }
    split. { apply new_cell_unclaimed; [congruence|]. apply new_cell_unclaimed; [congruence | exact U]. }
    eexists _, _. split; [reflexivity|]. split; [|apply new_cell_live]. eapply live_ext; [exact E2 | apply new_cell_live].
  - destruct S as (b & Eb & Ub & Nb). cbn [unpack_level]. rewrite Eb.
    set (m1 := fst (new_cell m (Some b) false)).
    assert (E1 : ext m m1) by apply new_cell_ext.
    assert (H1 : mem_ok m1 L). { apply new_cell_ok; auto. }
    exists (fst (makeArray m1)), [snd (makeArray m1); snd (new_cell m (Some b) false)]. split; [reflexivity|].
    split; [now apply makeArray_ok|]. split; [eapply ext_trans; [exact E1 | apply makeArray_ext]|].
    split. { intros c Uc. now apply makeArray_unowned, new_cell_unowned. }
    split. { apply makeArray_unclaimed. apply new_cell_unclaimed; [congruence | exact U]. }
    eexists _, _. split; [reflexivity|]. split; [apply makeArray_live|]. eapply live_ext; [apply makeArray_ext | apply new_cell_live].
Qed.
Lemma unpack_levels_ok L v : forall ls ps m, mem_ok m L -> Forall2 (slot_ok m v) ls ps -> unclaimed m v ->
  exists m' index, unpack_levels m ls ps = Some (m', index) /\ mem_ok m' L /\ ext m m' /\ unclaimed m' v /\
    Forall2 (level_good m') ls index.
Proof.
  induction ls as [|l ls IH]; intros ps m H F U; inversion F as [|? p ? ps' P F' E1 E2]; subst; clear F.
  - exists m, []. split; [reflexivity|]. split; [auto|]. split; [apply ext_refl|]. split; [auto | constructor].
  - destruct (unpack_level_ok m L v l p H P U) as (m1 & a & E & H1 & X1 & N1 & U1 & G1).
    assert (F2 : Forall2 (slot_ok m1 v) ls ps').
    { eapply Forall2_imp; [|exact F']. intros. now apply slot_ok_ext with (m := m). }
    destruct (IH ps' m1 H1 F2 U1) as (m2 & index & E' & H2 & X2 & U2 & G2).
    exists m2, (a :: index). cbn [unpack_levels]. rewrite E, E'. split; [reflexivity|]. split; [auto|].
    split; [now apply ext_trans with m1|]. split; [auto|]. constructor; auto. now apply level_good_ext with (m := m1).
Qed.
Lemma unpack_ok m L ls index0 values0 ps v : mem_ok m L -> unclaimed m v -> ~ In v L -> Forall2 (slot_ok m v) ls ps ->
  exists m' d', unpack m (Sto ls index0 values0 ps (Some v)) = Some (m', d') /\ mem_ok m' L /\ ext m m' /\ sto_ok m' d' /\
    live m' (s_values d') /\ s_format d' = ls /\ cell_is m' (s_values d') (Cell (Some v) true false).
Proof.
  intros H U N F. unfold unpack. cbn [s_format s_indices s_vals].
  destruct (unpack_levels_ok L v _ _ m H F U) as (m1 & index & E & H1 & X1 & U1 & G1). rewrite E.
  exists (fst (new_cell m1 (Some v) true)), (Sto ls index (snd (new_cell m1 (Some v) true)) ps (Some v)).
  split; [reflexivity|].
  assert (X2 : ext m1 (fst (new_cell m1 (Some v) true))) by apply new_cell_ext.
  split. { apply new_cell_ok; auto. } split; [now apply ext_trans with m1|].
  split; [|split; [apply new_cell_live | split; [reflexivity | apply new_cell_is]]].
  split; [simpl; now apply Forall2_len in F|]. split; [apply live_exists, new_cell_live|].
  exists true. split; [|auto]. cbn [s_format s_index]. eapply Forall2_imp; [|exact G1].
  intros l a G. left. now apply level_good_ext with (m := m1).
Qed.
(** pack and assemble: convert, call the kernel and unpack. *)
Lemma assembled_ok m L d d1 : mem_ok m L -> sto_ok m d -> convert m d = Some d1 ->
  exists m2 d2 v, kernel_assembles m d1 = (m2, d2) /\ s_vals d2 = Some v /\ mem_ok m2 L /\ ext m m2 /\ sto_ok m2 d2 /\
    s_values d2 = s_values d /\ s_format d2 = s_format d /\
  exists m3 d3, unpack m2 d2 = Some (m3, d3) /\ mem_ok m3 L /\ ext m m3 /\ sto_ok m3 d3 /\ live m3 (s_values d3) /\
    cell_is m3 (s_values d3) (Cell (Some v) true false).
Proof.
  intros H S E. destruct (convert_ok m L d H S) as (d' & E' & A & B & C & D & _).
  assert (d' = d1) by congruence. subst d'. rewrite <- A in D.
  destruct (kernel_assembles_ok m L d1 H D) as (m2 & ps & v & K & M & U & N & F).
  pose proof (mallocs_ok _ _ _ M H) as H2. pose proof (mallocs_ext _ _ M) as X.
  exists m2, (Sto (s_format d1) (s_index d1) (s_values d1) ps (Some v)), v.
  split; [exact K|]. split; [reflexivity|]. split; [exact H2|]. split; [exact X|]. split.
  { apply sto_ok_ext with (m' := m2) in S; auto. destruct S as (S1 & S2 & full & S3 & S4).
    split; [simpl; now apply Forall2_len in F|]. simpl. rewrite A, B, C. eauto. }
  split; [exact C|]. split; [exact A|].
  destruct (unpack_ok m2 L (s_format d1) (s_index d1) (s_values d1) ps v H2 U N F) as (m3 & d3 & E3 & H3 & X3 & S3 & V3 & _ & Cl).
  exists m3, d3. split; [exact E3|]. split; [auto|]. split; [now apply ext_trans with m2|]. auto.
Qed.

(** Arrays that users hand over. *)
Definition given_ok (L : list nat) (p : option nat) : Prop := match p with Some b => In b L | None => True end.
Lemma supply_array_ok m L p : mem_ok m L -> given_ok L p ->
  mem_ok (fst (supply_array m p)) L /\ ext m (fst (supply_array m p)) /\ live (fst (supply_array m p)) (snd (supply_array m p)).
Proof.
  intros H G. destruct p as [b|]; simpl supply_array.
  - split; [|split; [apply new_cell_ext | apply (new_cell_live m b false)]].
    apply new_cell_ok; auto. now apply (mo_lent _ _ H).
  - split; [now apply makeArray_ok|]. split; [apply makeArray_ext | apply makeArray_live].
Qed.
Lemma supply_levels_ok L : forall ls given m, mem_ok m L -> Forall (fun g => given_ok L (fst g) /\ given_ok L (snd g)) given ->
  mem_ok (fst (supply_levels m ls given)) L /\ ext m (fst (supply_levels m ls given)) /\
  Forall2 (level_good (fst (supply_levels m ls given))) ls (snd (supply_levels m ls given)).
Proof.
  induction ls as [|l ls IH]; intros given m H G.
  - simpl. split; [auto|]. split; [apply ext_refl | constructor].
  - assert (G1 : given_ok L (fst (hd (None, None) given)) /\ given_ok L (snd (hd (None, None) given))).
    { destruct G; simpl; auto. }
    assert (G2 : Forall (fun g => given_ok L (fst g) /\ given_ok L (snd g)) (tl given)).
    { destruct G; simpl; auto. }
    assert (P : mem_ok (fst (supply_level m l (hd (None, None) given))) L /\
                ext m (fst (supply_level m l (hd (None, None) given))) /\
                level_good (fst (supply_level m l (hd (None, None) given))) l (snd (supply_level m l (hd (None, None) given)))).
    { destruct (hd (None, None) given) as [g g']. simpl in G1. destruct G1 as [Ga Gb].
      assert (K : mem_ok (fst (let (m, a) := supply_array m g in let (m, b) := supply_array m g' in (m, [a; b]))) L /\
         ext m (fst (let (m, a) := supply_array m g in let (m, b) := supply_array m g' in (m, [a; b]))) /\
         (exists a b, snd (let (m, a) := supply_array m g in let (m, b) := supply_array m g' in (m, [a; b])) = [a; b] /\
            live (fst (let (m, a) := supply_array m g in let (m, b) := supply_array m g' in (m, [a; b]))) a /\
            live (fst (let (m, a) := supply_array m g in let (m, b) := supply_array m g' in (m, [a; b]))) b)).
      { destruct (supply_array_ok m L g H Ga) as (A1 & A2 & A3). destruct (supply_array m g) as [m1 a]. simpl in A1, A2, A3.
        destruct (supply_array_ok m1 L g' A1 Gb) as (B1 & B2 & B3). destruct (supply_array m1 g') as [m2 b]. simpl in B1, B2, B3.
        simpl. split; [auto|]. split; [now apply ext_trans with m1|]. exists a, b. split; [auto|]. split; auto.
        now apply live_ext with (m := m1). }
      destruct l; [|exact K|exact K].
      unfold supply_level. rewrite (surjective_pairing (makeArray m)). simpl fst. simpl snd.
      split; [now apply makeArray_ok|]. split; [apply makeArray_ext|]. eexists. split; [reflexivity | apply makeArray_live]. }
    cbn [supply_levels]. destruct (supply_level m l (hd (None, None) given)) as [m1 a]. simpl in P. destruct P as (P1 & P2 & P3).
    specialize (IH (tl given) m1 P1 G2). destruct (supply_levels m1 ls (tl given)) as [m2 index]. simpl in *.
    destruct IH as (I1 & I2 & I3). split; [auto|]. split; [now apply ext_trans with m1|]. constructor; auto.
    now apply level_good_ext with (m := m1).
Qed.
Lemma new_levels_ok L : forall ls m, mem_ok m L ->
  mem_ok (fst (new_levels m ls)) L /\ ext m (fst (new_levels m ls)) /\
  Forall2 (level_some (fst (new_levels m ls)) false) ls (snd (new_levels m ls)).
Proof.
  induction ls as [|l ls IH]; intros m H.
  - simpl. split; [auto|]. split; [apply ext_refl | constructor].
  - cbn [new_levels].
    destruct (match l with Dense => let (m, c) := makeArray m in (m, [c]) | _ => (m, []) end) as [m1 a] eqn:E.
    assert (P : mem_ok m1 L /\ ext m m1 /\ level_some m1 false l a).
    { destruct l.
      - rewrite (surjective_pairing (makeArray m)) in E. injection E as <- <-.
        split; [now apply makeArray_ok|]. split; [apply makeArray_ext|]. left. eexists. split; [reflexivity | apply makeArray_live].
      - injection E as <- <-. split; [auto|]. split; [apply ext_refl|]. right. split; auto. now split.
      - injection E as <- <-. split; [auto|]. split; [apply ext_refl|]. right. split; auto. now split. }
    destruct P as (P1 & P2 & P3). specialize (IH m1 P1). destruct (new_levels m1 ls) as [m2 index]. simpl in *.
    destruct IH as (I1 & I2 & I3). split; [auto|]. split; [now apply ext_trans with m1|]. constructor; auto.
    destruct P3 as [P3|P3]; [left; now apply level_good_ext with (m := m1) | now right].
Qed.

(* ------------------------------------------------------------------ *)
(** * States *)

Lemma set_nth_length {A} (l : list A) k a : length (set_nth l k a) = length l.
Proof. revert k. induction l; intros [|k]; simpl; auto. Qed.
Lemma set_nth_same {A} (l : list A) k a : k < length l -> nth_error (set_nth l k a) k = Some a.
Proof. revert k. induction l; intros [|k] H; simpl in *; try lia; auto. apply IHl. lia. Qed.
Lemma set_nth_other {A} (l : list A) k j a : j <> k -> nth_error (set_nth l k a) j = nth_error l j.
Proof. revert k j. induction l; intros [|k] [|j] H; simpl; auto; try lia. Qed.

Definition flags_ok (m : mem) (x : tensor) (d : storage) : Prop :=
  (t_needsPack x = false -> t_needsCompute x = false -> live m (s_values d)) /\
  (t_needsPack x = false -> t_needsAssemble x = false -> live m (s_values d)) /\
  (t_neverPacked x = false -> live m (s_values d)).
Definition tensor_ok (s : state) (x : tensor) : Prop :=
  exists d, get_sto s x = Some d /\ sto_ok (memory s) d /\ flags_ok (memory s) x d.
Definition ops_ok (s : state) (x : tensor) : Prop := forall u, In u (t_operands x) -> exists y, get_tensor s u = Some y.
Record inv (s : state) : Prop := Inv {
  i_mem : mem_ok (memory s) (lent s);
  i_ten : forall t x, get_tensor s t = Some x -> tensor_ok s x;
  i_ops : forall t x, get_tensor s t = Some x -> ops_ok s x;
  i_held : forall c, In c (held s) -> exists_cell (memory s) c
}.

Lemma get_tensor_lt s t x : get_tensor s t = Some x -> t < length (tens s) /\ t_dead x = false.
Proof.
  unfold get_tensor. destruct (nth_error (tens s) t) eqn:E; [|discriminate]. destruct (t_dead t0) eqn:D; [discriminate|].
  intros [= <-]. split; auto. apply nth_error_Some. congruence.
Qed.
Lemma get_with_same s t x y : get_tensor s t = Some y -> get_tensor (with_tensor s t x) t = if t_dead x then None else Some x.
Proof. intros H. apply get_tensor_lt in H as [H _]. unfold get_tensor, with_tensor; simpl. now rewrite set_nth_same. Qed.
Lemma get_with_other s t u x : u <> t -> get_tensor (with_tensor s t x) u = get_tensor s u.
Proof. intros N. unfold get_tensor, with_tensor; simpl. now rewrite set_nth_other. Qed.

Lemma with_tensor_inv s t y x : inv s -> get_tensor s t = Some y -> t_dead x = false -> tensor_ok s x -> ops_ok s x ->
  inv (with_tensor s t x).
Proof.
  intros [A B C D] H N T O.
  assert (K : forall u z, get_tensor (with_tensor s t x) u = Some z -> z = x \/ get_tensor s u = Some z).
  { intros u z. destruct (Nat.eq_dec u t) as [->|E].
    - rewrite (get_with_same s t x y H), N. intros [= <-]. now left.
    - rewrite get_with_other by auto. now right. }
  assert (J : forall u z, get_tensor s u = Some z -> exists z', get_tensor (with_tensor s t x) u = Some z').
  { intros u z G. destruct (Nat.eq_dec u t) as [->|E].
    - rewrite (get_with_same s t x y H), N. eauto.
    - rewrite get_with_other by auto. eauto. }
  constructor; auto.
  - intros u z G. destruct (K u z G) as [->|G']; [exact T | exact (B u z G')].
  - intros u z G w I. assert (Q : exists z', get_tensor s w = Some z').
    { destruct (K u z G) as [->|G']; [exact (O w I) | exact (C u z G' w I)]. }
    destruct Q as [z' Q]. eauto.
Qed.

Lemma with_sto_get s m k d c t : get_tensor (with_sto s m k d c) t = get_tensor s t.
Proof. reflexivity. Qed.
Lemma with_sto_inv s m k d0 d c : inv s -> nth_error (stos s) k = Some d0 -> ext (memory s) m -> mem_ok m (lent s) -> sto_ok m d ->
  (live (memory s) (s_values d0) -> live m (s_values d)) -> inv (with_sto s m k d c).
Proof.
  intros [A B C D] K X M S V. assert (Kl : k < length (stos s)) by (apply nth_error_Some; congruence).
  constructor; auto.
  - intros t x G. rewrite with_sto_get in G. destruct (B t x G) as (e & E1 & E2 & E3 & E4 & E5).
    unfold tensor_ok, get_sto in *. simpl. destruct (Nat.eq_dec (t_sto x) k) as [Ek|N].
    + rewrite Ek in *. rewrite set_nth_same by auto. assert (e = d0) by congruence. subst e. exists d. split; [auto|]. split; [auto|].
      split; [|split]; intros; apply V; auto.
    + rewrite set_nth_other by auto. exists e. split; [auto|]. split; [now apply sto_ok_ext with (m := memory s)|].
      split; [|split]; intros; apply live_ext with (m := memory s); auto.
  - intros e I. apply exists_ext with (m := memory s); auto.
Qed.
Lemma with_sto_tensor s m k d0 d c x : nth_error (stos s) k = Some d0 -> t_sto x = k -> sto_ok m d -> flags_ok m x d ->
  tensor_ok (with_sto s m k d c) x.
Proof.
  intros K <- S F. exists d. split; [|now split]. unfold get_sto; simpl. apply set_nth_same. apply nth_error_Some. congruence.
Qed.

Lemma ext_inv s m : inv s -> ext (memory s) m -> mem_ok m (lent s) -> inv (St m (stos s) (tens s) (held s) (lent s) (computed s)).
Proof.
  intros [A B C D] X M. constructor; auto.
  - intros t x G. destruct (B t x G) as (e & E1 & E2 & E3 & E4 & E5). exists e. split; [auto|].
    split; [now apply sto_ok_ext with (m := memory s)|]. split; [|split]; intros; apply live_ext with (m := memory s); auto.
  - intros c I. apply exists_ext with (m := memory s); auto.
Qed.

(** A tensor that was packed or computed can be read. *)
Lemma synced_readable s t x : inv s -> get_tensor s t = Some x -> synced s t = true -> readable s t = true.
Proof.
  intros I G S. unfold synced in S. rewrite G in S. apply andb_true_iff in S as [S1 S2].
  apply negb_true_iff in S1. apply negb_true_iff in S2.
  destruct (i_ten s I t x G) as (d & D1 & D2 & D3 & _). unfold readable. rewrite G, D1.
  destruct (convert_ok _ _ _ (i_mem s I) D2) as (d' & E & _ & _ & _ & _ & Ac). rewrite E. apply Ac. now apply D3.
Qed.
Lemma values_readable s t x d : inv s -> get_tensor s t = Some x -> get_sto s x = Some d -> live (memory s) (s_values d) -> readable s t = true.
Proof.
  intros I G D V. destruct (i_ten s I t x G) as (d' & D1 & D2 & _). assert (d' = d) by congruence. subst d'.
  unfold readable. rewrite G, D1.
  destruct (convert_ok _ _ _ (i_mem s I) D2) as (d' & E & _ & _ & _ & _ & Ac). rewrite E. now apply Ac.
Qed.
Lemma operands_readable s t x : inv s -> get_tensor s t = Some x -> forallb (synced s) (t_operands x) = true ->
  forallb (readable s) (t_operands x) = true.
Proof.
  intros I G S. rewrite forallb_forall in *. intros u U. destruct (i_ops s I t x G u U) as [y Y].
  now apply synced_readable with (x := y); auto.
Qed.

(** Destroying an array that nothing refers to. *)
Lemma destroy_cells m c x : cell_is m c x ->
  forall d y, cell_is (destroy m c) d y -> (d = c /\ y = Cell (c_ptr x) (c_owns x) true) \/ (d <> c /\ cell_is m d y).
Proof.
  intros H d y G. unfold destroy in G. unfold cell_is in *. rewrite H in G.
  assert (K : nth_error (firstn c (cells m) ++ Cell (c_ptr x) (c_owns x) true :: skipn (S c) (cells m)) d = Some y).
  { destruct (c_owns x), (c_ptr x); exact G. }
  clear G. assert (Lc : c < length (cells m)) by (apply nth_error_Some; congruence).
  assert (Lf : length (firstn c (cells m)) = c) by (rewrite firstn_length; lia).
  destruct (Nat.lt_trichotomy d c) as [N|[N|N]].
  - right. split; [lia|]. rewrite nth_error_app1 in K by lia. rewrite <- (firstn_skipn c (cells m)), nth_error_app1 by lia. exact K.
  - left. split; [auto|]. subst d. rewrite nth_error_app2 in K by lia. rewrite Lf, Nat.sub_diag in K. now injection K as <-.
  - right. split; [lia|]. rewrite nth_error_app2 in K by lia. rewrite Lf in K.
    destruct (d - c) as [|k] eqn:Q; [lia|]. simpl in K.
    rewrite <- (firstn_skipn (S c) (cells m)), nth_error_app2 by (rewrite firstn_length; lia).
    rewrite firstn_length. replace (d - Nat.min (S c) (length (cells m))) with k by lia. exact K.
Qed.
Lemma destroy_keeps m c x : cell_is m c x -> forall d y, cell_is m d y ->
  cell_is (destroy m c) d (if d =? c then Cell (c_ptr x) (c_owns x) true else y).
Proof.
  intros H d y G. assert (Lc : c < length (cells m)) by (now apply cell_new with x).
  assert (Lf : length (firstn c (cells m)) = c) by (rewrite firstn_length; lia).
  assert (K : nth_error (firstn c (cells m) ++ Cell (c_ptr x) (c_owns x) true :: skipn (S c) (cells m)) d =
              Some (if d =? c then Cell (c_ptr x) (c_owns x) true else y)).
  { unfold cell_is in G. destruct (Nat.eqb_spec d c) as [->|N].
    - rewrite nth_error_app2 by lia. now rewrite Lf, Nat.sub_diag.
    - destruct (Nat.lt_ge_cases d c).
      + rewrite nth_error_app1 by lia. rewrite <- (firstn_skipn c (cells m)), nth_error_app1 in G by lia. exact G.
      + rewrite nth_error_app2 by lia. rewrite Lf. destruct (d - c) as [|k] eqn:Q; [lia|]. simpl.
        rewrite <- (firstn_skipn (S c) (cells m)), nth_error_app2 in G by (rewrite firstn_length; lia).
        rewrite firstn_length in G. replace (d - Nat.min (S c) (length (cells m))) with k in G by lia. exact G. }
  unfold destroy, cell_is in *. rewrite H. destruct (c_owns x), (c_ptr x); exact K.
Qed.
Lemma destroy_next m c : next (destroy m c) = next m.
Proof. unfold destroy. destruct (nth_error (cells m) c) as [x|]; auto. destruct (c_owns x), (c_ptr x); auto. Qed.
Lemma destroy_freed m c x : cell_is m c x ->
  freed (destroy m c) = freed m ++ match c_owns x, c_ptr x with true, Some b => [b] | _, _ => [] end.
Proof.
  intros H. unfold destroy, cell_is in *. rewrite H. destruct (c_owns x), (c_ptr x); simpl; auto using app_nil_r.
  all: now rewrite app_nil_r.
Qed.
Lemma NoDup_snoc {A} (l : list A) a : NoDup l -> ~ In a l -> NoDup (l ++ [a]).
Proof.
  induction 1 as [|b l N H IH]; simpl; intros K; [constructor; auto; constructor|].
  constructor; [|apply IH; tauto]. rewrite in_app_iff. simpl. intuition.
Qed.
Lemma destroy_ok m L c x : mem_ok m L -> cell_is m c x -> c_dead x = false -> mem_ok (destroy m c) L.
Proof.
  intros [A B C D E F] H N. pose proof (destroy_cells m c x H) as K. pose proof (destroy_keeps m c x H) as J.
  assert (R : forall d y, cell_is (destroy m c) d y -> exists z, cell_is m d z /\ c_ptr z = c_ptr y /\ c_owns z = c_owns y).
  { intros d y G. destruct (K d y G) as [[-> ->]|[_ G']]; [exists x; auto | exists y; auto]. }
  assert (NF : forall b, c_owns x = true -> c_ptr x = Some b -> ~ In b (freed m)).
  { intros b O P I. destruct (C b I) as (d & y & Y1 & Y2 & Y3 & Y4).
    assert (d <> c). { intros ->. unfold cell_is in *. congruence. }
    now apply (B d c y x b). }
  constructor; rewrite ?destroy_next.
  - intros d y b G P. destruct (R d y G) as (z & Z & P' & _). apply (A d z b); congruence.
  - intros d e y z b G1 G2 NE O P1 P2. destruct (R d y G1) as (y' & Y & Py & Oy), (R e z G2) as (z' & Z & Pz & _).
    apply (B d e y' z' b); congruence.
  - intros b I. rewrite (destroy_freed m c x H) in I. apply in_app_iff in I as [I|I].
    + destruct (C b I) as (d & y & Y1 & Y2 & Y3 & Y4).
      assert (d <> c). { intros ->. unfold cell_is in *. congruence. }
      exists d, y. split; auto. specialize (J d y Y1). now rewrite (proj2 (Nat.eqb_neq d c)) in J.
    + destruct (c_owns x) eqn:O; [|destruct I]. destruct (c_ptr x) as [p|] eqn:P; [|destruct I]. destruct I as [<-|[]].
      exists c, (Cell (Some p) true true). split; auto. specialize (J c x H). now rewrite Nat.eqb_refl, ?O, ?P in J.
  - intros d y b G O De P. rewrite (destroy_freed m c x H). apply in_app_iff.
    destruct (K d y G) as [[-> ->]|[_ G']].
    + right. simpl in *. rewrite O, P. now left.
    + left. eauto.
  - rewrite (destroy_freed m c x H). destruct (c_owns x) eqn:O; [|now rewrite app_nil_r].
    destruct (c_ptr x) as [p|] eqn:P; [|now rewrite app_nil_r]. apply NoDup_snoc; auto.
  - intros b I. destruct (F b I) as [U V]. split; [now rewrite destroy_next|].
    intros d y G O P. destruct (R d y G) as (z & Z & Pz & Oz). apply (V d z); congruence.
Qed.
Lemma destroy_exists m c x d : cell_is m c x -> d <> c -> exists_cell m d -> exists_cell (destroy m c) d.
Proof.
  intros H N (y & G & D). exists y. split; auto. pose proof (destroy_keeps m c x H d y G) as J.
  now rewrite (proj2 (Nat.eqb_neq d c)) in J.
Qed.
Lemma destroy_live m c x d : cell_is m c x -> d <> c -> live m d -> live (destroy m c) d.
Proof.
  intros H N (y & b & G & D). exists y, b. split; auto. pose proof (destroy_keeps m c x H d y G) as J.
  now rewrite (proj2 (Nat.eqb_neq d c)) in J.
Qed.
Lemma destroy_live_back m c x d : cell_is m c x -> d <> c -> live (destroy m c) d -> live m d.
Proof.
  intros H N (y & b & G & D). exists y, b. split; auto. destruct (destroy_cells m c x H d y G) as [[E _]|[_ E]]; [contradiction | auto].
Qed.
Lemma destroy_sto m c x d : cell_is m c x -> in_sto d c = false -> sto_ok m d -> sto_ok (destroy m c) d.
Proof.
  intros H N (A & B & full & F & V). unfold in_sto in N. apply orb_false_iff in N as [N1 N2].
  apply Nat.eqb_neq in N1. split; [auto|]. split; [now apply destroy_exists with x|]. exists full. split.
  - clear - F N2 H. induction F as [|l a ls index P F IH]; [constructor|].
    simpl in N2. apply orb_false_iff in N2 as [N N2]. constructor; [|now apply IH].
    assert (Q : forall e, In e a -> e <> c).
    { intros e I ->. assert (existsb (Nat.eqb c) a = true); [|congruence].
      apply existsb_exists. exists c. split; auto. apply Nat.eqb_refl. }
    destruct P as [P|P]; [left|now right]. destruct l; simpl in *.
    + destruct P as (e & -> & P). exists e. split; [auto|]. apply destroy_live with x; auto. apply Q. now left.
    + destruct P as (e & g & -> & P & P'). exists e, g. split; [auto|].
      split; apply destroy_live with x; auto; apply Q; simpl; auto.
    + destruct P as (e & g & -> & P & P'). exists e, g. split; [auto|].
      split; apply destroy_live with x; auto; apply Q; simpl; auto.
  - intros G. apply V. now apply destroy_live_back with (c := c) (x := x).
Qed.
Lemma unreferenced s c : referenced s c = false ->
  ~ In c (held s) /\ (forall t x d, get_tensor s t = Some x -> get_sto s x = Some d -> in_sto d c = false).
Proof.
  unfold referenced. intros H. apply orb_false_iff in H as [H1 H2]. split.
  - intros I. assert (existsb (Nat.eqb c) (held s) = true); [|congruence].
    apply existsb_exists. exists c. split; auto. apply Nat.eqb_refl.
  - intros t x d G S. apply not_true_iff_false. intros I.
    assert (existsb (fun x => negb (t_dead x) && match get_sto s x with Some d => in_sto d c | None => false end) (tens s) = true); [|congruence].
    apply existsb_exists. exists x. unfold get_tensor in G. destruct (nth_error (tens s) t) eqn:E; [|discriminate].
    destruct (t_dead t0) eqn:D; [discriminate|]. injection G as ->. apply nth_error_In in E. split; auto.
    now rewrite D, S, I.
Qed.
Lemma destroy_inv s c p : inv s -> data (memory s) c = Some p -> referenced s c = false ->
  inv (St (destroy (memory s) c) (stos s) (tens s) (held s) (lent s) (computed s)).
Proof.
  intros [A B C D] P R. destruct (unreferenced s c R) as [R1 R2].
  destruct (data_exists _ _ _ P) as (x & H & N).
  constructor; simpl; auto.
  - now apply destroy_ok with x.
  - intros t y G. destruct (B t y G) as (e & E1 & E2 & E3 & E4 & E5). specialize (R2 t y e G E1).
    exists e. split; [auto|]. split; [now apply destroy_sto with x|].
    assert (Nv : s_values e <> c). { intros Q. unfold in_sto in R2. rewrite Q, Nat.eqb_refl in R2. discriminate. }
    split; [|split]; intros; apply destroy_live with x; auto.
  - intros d I. apply destroy_exists with x; auto. intros ->. contradiction.
Qed.

(** * Steps *)

Lemma exec_ok e s : inv s -> careful_call e s ->
  exists s', exec e s = Some s' /\ inv s' /\
    (forall b, In b (lent s) -> In b (lent s')).
Proof.
  intros I Cf. destruct e; cbn [exec].
  - (* New *)
    destruct (new_levels_ok (lent s) format (memory s) (i_mem s I)) as (A & B & C).
    destruct (new_levels (memory s) format) as [m1 index]. simpl in A, B, C.
    set (m2 := fst (new_cell m1 None false)).
    assert (X : ext m1 m2) by apply new_cell_ext.
    assert (M : mem_ok m2 (lent s)) by (apply new_cell_ok; simpl; auto).
    change (new_cell m1 None false) with (m2, length (cells m1)).
    eexists. split; [reflexivity|]. split; [|auto].
    assert (Xs : ext (memory s) m2) by (now apply ext_trans with m1).
    pose proof (ext_inv s m2 I Xs M) as [A' B' C' D'].
    set (d := Sto format index (length (cells m1)) (map (fun _ : level => (None, None)) format) None).
    assert (Cl : cell_is m2 (length (cells m1)) (Cell None false false)) by apply (new_cell_is m1 None false).
    assert (S : sto_ok m2 d).
    { split; [simpl; apply map_length|]. split; [now exists (Cell None false false)|]. exists false. simpl. split.
      - eapply Forall2_imp; [|exact C]. intros l a [H|H]; [left; now apply level_good_ext with (m := m1) | now right].
      - intros (x & b & H & _ & P). unfold cell_is in *. rewrite Cl in H. injection H as <-. discriminate. }
    set (y := Ten (length (stos s)) true true false false false false false [] true false).
    assert (K : forall t x, get_tensor (St m2 (stos s ++ [d]) (tens s ++ [y]) (held s) (lent s) (computed s)) t = Some x ->
              x = y \/ get_tensor s t = Some x).
    { intros t x. unfold get_tensor; simpl. destruct (Nat.lt_ge_cases t (length (tens s))).
      - rewrite nth_error_app1 by auto. now right.
      - rewrite nth_error_app2 by auto. destruct (t - length (tens s)) as [|k]; simpl.
        + intros [= <-]. now left.
        + destruct k; discriminate. }
    assert (J : forall t x, get_tensor s t = Some x ->
              get_tensor (St m2 (stos s ++ [d]) (tens s ++ [y]) (held s) (lent s) (computed s)) t = Some x).
    { intros t x G. unfold get_tensor in *; simpl. rewrite nth_error_app1; auto. apply nth_error_Some.
      destruct (nth_error (tens s) t); congruence. }
    constructor; simpl; auto.
    + intros t x G. destruct (K t x G) as [->|G'].
      * exists d. split. { unfold get_sto; simpl. rewrite nth_error_app2 by auto. now rewrite Nat.sub_diag. }
        split; [exact S|]. split; [|split]; simpl; discriminate.
      * destruct (B' t x G') as (e & E1 & E2). exists e. split; [|exact E2].
        unfold get_sto in *; simpl in *. rewrite nth_error_app1; auto. apply nth_error_Some. congruence.
    + intros t x G u U. destruct (K t x G) as [->|G']; [destruct U|].
      destruct (i_ops s I t x G' u U) as [z Z]. exists z. now apply J.
  - (* Insert *)
    destruct (get_tensor s t) as [x|] eqn:G; [|eauto].
    eexists. split; [reflexivity|]. split; [|auto]. apply with_tensor_inv with x; auto.
    + apply get_tensor_lt in G. apply G.
    + destruct (i_ten s I t x G) as (d & E1 & E2 & E3 & E4 & E5). exists d. split; [auto|]. split; [auto|].
      split; [|split]; simpl; auto; discriminate.
    + exact (i_ops s I t x G).
  - (* Assign *)
    destruct (get_tensor s t) as [x|] eqn:G; [|eauto].
    destruct (forallb _ operands) eqn:F; [|eauto].
    eexists. split; [reflexivity|]. split; [|auto]. apply with_tensor_inv with x; auto.
    + destruct (i_ten s I t x G) as (d & E1 & E2 & E3 & E4 & E5). exists d. split; [auto|]. split; [auto|].
      split; [|split]; simpl; auto; discriminate.
    + intros u U. simpl in U. rewrite forallb_forall in F. specialize (F u U). apply andb_true_iff in F as [_ F].
      destruct (get_tensor s u); [eauto | discriminate].
  - (* SetAWC *)
    destruct (get_tensor s t) as [x|] eqn:G; [|eauto].
    eexists. split; [reflexivity|]. split; [|auto]. apply with_tensor_inv with x; auto.
    + destruct (i_ten s I t x G) as (d & E1 & E2 & E3 & E4 & E5). exists d. split; [auto|]. split; [auto|]. now split.
    + exact (i_ops s I t x G).
  - (* Compile *)
    destruct (get_tensor s t) as [x|] eqn:G; [|eauto]. destruct (t_needsCompile x); [|eauto].
    eexists. split; [reflexivity|]. split; [|auto]. apply with_tensor_inv with x; auto.
    + destruct (i_ten s I t x G) as (d & E1 & E2 & E3 & E4 & E5). exists d. split; [auto|]. split; [auto|]. now split.
    + exact (i_ops s I t x G).
  - (* Pack *)
    destruct (get_tensor s t) as [x|] eqn:G; [|eauto]. destruct (t_needsPack x) eqn:NP; [|eauto].
    destruct (i_ten s I t x G) as (d & E1 & E2 & E3 & E4 & E5).
    assert (R : negb (t_neverPacked x) && negb (readable s t) = false).
    { destruct (t_neverPacked x) eqn:Nv; simpl; auto. apply negb_false_iff. apply values_readable with x d; auto. }
    rewrite R, E1. destruct (convert_ok _ _ _ (i_mem s I) E2) as (d1 & C & _). rewrite C.
    destruct (assembled_ok _ _ _ _ (i_mem s I) E2 C) as (m2 & d2 & v & K & V & M2 & X2 & S2 & Ev & Ef & m3 & d3 & U & M3 & X3 & S3 & V3 & Cl).
    rewrite K, U. eexists. split; [reflexivity|]. split; [|auto].
    apply with_tensor_inv with x.
    + eapply with_sto_inv; eauto.
    + exact G.
    + apply get_tensor_lt in G. apply G.
    + eapply with_sto_tensor; eauto. split; [|split]; auto.
    + exact (i_ops s I t x G).
  - (* Assemble *)
    destruct (get_tensor s t) as [x|] eqn:G; [|eauto].
    destruct (negb (t_needsCompile x) && t_needsAssemble x && forallb (synced s) (t_operands x)) eqn:Gd; [|eauto].
    apply andb_true_iff in Gd as [_ Sy]. rewrite (operands_readable s t x I G Sy). cbn [negb].
    destruct (i_ten s I t x G) as (d & E1 & E2 & E3 & E4 & E5). rewrite E1.
    destruct (convert_ok _ _ _ (i_mem s I) E2) as (d1 & C & _). rewrite C.
    destruct (assembled_ok _ _ _ _ (i_mem s I) E2 C) as (m2 & d2 & v & K & V & M2 & X2 & S2 & Ev & Ef & m3 & d3 & U & M3 & X3 & S3 & V3 & Cl).
    rewrite K. cbv zeta. destruct (t_awc x).
    + eexists. split; [reflexivity|]. split; [|auto]. eapply with_sto_inv; eauto. rewrite Ev. now apply live_ext.
    + rewrite U. eexists. split; [reflexivity|]. split; [|auto].
      apply with_tensor_inv with x.
      * eapply with_sto_inv; eauto.
      * exact G.
      * apply get_tensor_lt in G. apply G.
      * eapply with_sto_tensor; eauto. split; [|split]; auto.
      * exact (i_ops s I t x G).
  - (* Compute *)
    destruct (get_tensor s t) as [x|] eqn:G; [|eauto].
    destruct (negb (t_needsCompile x) && t_needsCompute x && forallb (synced s) (t_operands x)) eqn:Gd; [|eauto].
    apply andb_true_iff in Gd as [Gd Sy]. apply andb_true_iff in Gd as [Gc Gp]. apply negb_true_iff in Gc.
    rewrite (operands_readable s t x I G Sy). cbn [negb].
    destruct (Cf x G Gc Gp) as [Kw Vw].
    destruct (i_ten s I t x G) as (d & E1 & E2 & E3 & E4 & E5). rewrite E1.
    destruct (convert_ok _ _ _ (i_mem s I) E2) as (d1 & C & Cf1 & Cf2 & Cf3 & Cf4 & Ac). rewrite C, Kw.
    destruct (t_awc x).
    + cbn [negb andb].
      destruct (assembled_ok _ _ _ _ (i_mem s I) E2 C) as (m2 & d2 & v & K & V & M2 & X2 & S2 & Ev & Ef & m3 & d3 & U & M3 & X3 & S3 & V3 & Cl).
      rewrite K, U. eexists. split; [reflexivity|]. split; [|auto].
      apply with_tensor_inv with x.
      * eapply with_sto_inv; eauto.
      * exact G.
      * apply get_tensor_lt in G. apply G.
      * eapply with_sto_tensor; eauto. split; [|split]; auto.
      * exact (i_ops s I t x G).
    + destruct (Vw eq_refl) as (x' & d' & b & H1 & H2 & H3). assert (x' = x) by congruence. subst x'.
      assert (d' = d) by congruence. subst d'. apply data_live in H3. rewrite (Ac H3). cbn [negb andb].
      eexists. split; [reflexivity|]. split; [|auto].
      pose proof (convert_sto_ok _ _ _ _ (i_mem s I) E2 C) as S1.
      apply with_tensor_inv with x.
      * eapply with_sto_inv; eauto; [apply ext_refl | apply (i_mem s I) | now rewrite Cf3].
      * exact G.
      * apply get_tensor_lt in G. apply G.
      * eapply with_sto_tensor; eauto. split; [|split]; rewrite Cf3; auto.
      * exact (i_ops s I t x G).
  - (* Read *)
    destruct (get_tensor s t) as [x|] eqn:G; [|eauto]. destruct (synced s t) eqn:S; [|eauto].
    rewrite (synced_readable s t x I G S). eauto.
  - (* SetStorage *)
    destruct (get_tensor s t) as [x|] eqn:G; [|eauto]. destruct (get_tensor s u) as [y|] eqn:Gu; [|eauto].
    eexists. split; [reflexivity|]. split; [|auto]. apply with_tensor_inv with x; auto.
    + destruct Cf as (x' & d' & b & H1 & H2 & H3). assert (x' = y) by congruence. subst x'.
      apply data_live in H3. destruct (i_ten s I u y Gu) as (d & E1 & E2 & _). assert (d' = d) by congruence. subst d'.
      exists d. split; [exact E1|]. split; [auto|]. split; [|split]; auto.
    + exact (i_ops s I t x G).
  - (* Alloc *)
    eexists. split; [reflexivity|]. split.
    + pose proof (malloc_ok _ _ (i_mem s I)) as M. pose proof (ext_inv s _ I (malloc_ext _) M) as [A B C D].
      constructor; auto. destruct M as [M1 M2 M3 M4 M5 M6]. constructor; auto. simpl.
      intros b H. apply in_app_iff in H as [H|[<-|[]]]; [exact (M6 b H)|].
      apply unclaimed_unowned. apply (malloc_unclaimed _ _ (i_mem s I)).
    + intros b H. simpl. apply in_app_iff. now left.
  - (* Supply *)
    destruct (get_tensor s t) as [x|] eqn:G; [|eauto].
    destruct (forallb (fun g => is_lent s (fst g) && is_lent s (snd g)) index && is_lent s values) eqn:Le; [|eauto].
    apply andb_true_iff in Le as [L1 L2].
    assert (LO : forall p, is_lent s p = true -> given_ok (lent s) p).
    { intros [b|]; simpl; auto. intros H. apply existsb_exists in H as (b' & H & E). apply Nat.eqb_eq in E. now subst. }
    destruct (i_ten s I t x G) as (d & E1 & E2 & E3 & E4 & E5). rewrite E1.
    assert (F : Forall (fun g => given_ok (lent s) (fst g) /\ given_ok (lent s) (snd g)) index).
    { apply Forall_forall. rewrite forallb_forall in L1. intros g H. specialize (L1 g H). apply andb_true_iff in L1 as [? ?]. split; auto. }
    destruct (supply_levels_ok (lent s) (s_format d) index (memory s) (i_mem s I) F) as (A & B & C).
    destruct (supply_levels (memory s) (s_format d) index) as [m1 ix]. simpl in A, B, C.
    destruct (supply_array_ok m1 (lent s) values A (LO values L2)) as (A' & B' & C').
    destruct (supply_array m1 values) as [m2 v]. simpl in A', B', C'.
    eexists. split; [reflexivity|]. split; [|auto].
    assert (S : sto_ok m2 (Sto (s_format d) ix v (s_indices d) (s_vals d))).
    { split; [apply E2|]. split; [now apply live_exists|]. exists true. split; auto. simpl. eapply Forall2_imp; [|exact C].
      intros l a Q. left. now apply level_good_ext with (m := m1). }
    apply with_tensor_inv with x.
    + eapply with_sto_inv; eauto. now apply ext_trans with m1.
    + exact G.
    + apply get_tensor_lt in G. apply G.
    + eapply with_sto_tensor; eauto. split; [|split]; auto.
    + exact (i_ops s I t x G).
  - (* Hold *)
    destruct (get_tensor s t) as [x|] eqn:G; [|eauto]. destruct (i_ten s I t x G) as (d & E1 & E2 & _). rewrite E1.
    eexists. split; [reflexivity|]. split; [|auto]. destruct I as [A B C D]. constructor; auto.
    simpl. intros c [<-|H]; [apply E2 | auto].
  - (* Release *)
    eexists. split; [reflexivity|]. split; [|auto]. destruct I as [A B C D]. constructor; auto.
    simpl. intros d H. apply filter_In in H as [H _]. auto.
  - (* Drop *)
    destruct (get_tensor s t) as [x|] eqn:G; [|eauto].
    eexists. split; [reflexivity|]. split; [|auto]. apply with_tensor_inv with x; auto.
    + destruct (i_ten s I t x G) as (d & E1 & E2 & E3 & E4 & E5). exists d. split; [auto|]. split; [auto|]. now split.
    + exact (i_ops s I t x G).
  - (* DestroyTensor *)
    destruct (get_tensor s t) as [x|] eqn:G; [|eauto].
    destruct (t_handle x || _) eqn:H; [eauto|]. apply orb_false_iff in H as [_ H].
    eexists. split; [reflexivity|]. split; [|auto]. destruct I as [A B C D]. 
    match goal with |- inv (with_tensor s t ?y) => set (x' := y) end.
    assert (K : forall u z, get_tensor (with_tensor s t x') u = Some z -> u <> t /\ get_tensor s u = Some z).
    { intros u z Q. destruct (Nat.eq_dec u t) as [->|N].
      - rewrite (get_with_same s t x' x G) in Q. discriminate.
      - rewrite get_with_other in Q by auto. auto. }
    constructor; auto.
    + intros u z Q. destruct (K u z Q) as [_ Q']. exact (B u z Q').
    + intros u z Q w Iw. destruct (K u z Q) as [_ Q']. destruct (C u z Q' w Iw) as [y Y]. exists y.
      rewrite get_with_other; auto. intros ->.
      assert (existsb (fun y => negb (t_dead y) && existsb (Nat.eqb t) (t_operands y)) (tens s) = true); [|congruence].
      apply existsb_exists. exists z. pose proof (get_tensor_lt s u z Q') as [_ Dz]. split.
      * unfold get_tensor in Q'. destruct (nth_error (tens s) u) eqn:E; [|discriminate]. destruct (t_dead t0); [discriminate|].
        injection Q' as ->. now apply nth_error_In in E.
      * rewrite Dz. simpl. apply existsb_exists. exists t. split; auto. apply Nat.eqb_refl.
  - (* DestroyArray *)
    destruct (data (memory s) c) as [p|] eqn:P; [|eauto]. destruct (referenced s c) eqn:R; [eauto|].
    eexists. split; [reflexivity|]. split; [|auto]. now apply destroy_inv with p.
Qed.

Lemma init_inv : inv init.
Proof.
  assert (N : forall c x, cell_is (Mem 0 [] []) c x -> False) by (intros [|c] x H; discriminate).
  assert (M : forall t x, get_tensor init t = Some x -> False) by (intros [|t] x H; discriminate).
  constructor; simpl; try contradiction.
  - constructor; simpl; try contradiction; try constructor; try (intros; exfalso; eauto).
  - intros. exfalso. eauto.
  - intros. exfalso. eauto.
Qed.
Lemma run_ok : forall es s, inv s -> careful es s -> exists s', run es s = Some s' /\ inv s' /\ (forall b, In b (lent s) -> In b (lent s')).
Proof.
  induction es as [|e es IH]; intros s I C; simpl in *.
  - eauto.
  - destruct C as [C1 C2]. destruct (exec_ok e s I C1) as (s1 & E & I1 & L1). rewrite E.
    destruct (IH s1 I1 (C2 s1 E)) as (s2 & R & I2 & L2). exists s2. split; [auto|]. split; auto.
Qed.

(* ------------------------------------------------------------------ *)
(** * Values arrays *)

(** Arrays stay what they are; they may be destroyed. *)
Definition cells_kept (m m' : mem) : Prop :=
  (forall c x, cell_is m c x -> exists x', cell_is m' c x' /\ c_ptr x' = c_ptr x /\ c_owns x' = c_owns x) /\
  length (cells m) <= length (cells m').
Definition fresh_values (s s' : state) (d : storage) : Prop :=
  length (cells (memory s)) <= s_values d /\
  exists x, cell_is (memory s') (s_values d) x /\
    (c_owns x = true \/ c_ptr x = None \/ exists b, c_ptr x = Some b /\ In b (lent s')).
Definition stos_change (s s' : state) : Prop :=
  stos s' = stos s \/
  (exists d, stos s' = stos s ++ [d] /\ fresh_values s s' d) \/
  (exists k d0 d, nth_error (stos s) k = Some d0 /\ stos s' = set_nth (stos s) k d /\
     (s_values d = s_values d0 \/ fresh_values s s' d)).
Definition owned (m : mem) (b : nat) : Prop := exists c x, cell_is m c x /\ c_owns x = true /\ c_ptr x = Some b.
Definition plain_tensors (s : state) : Prop := forall t x, get_tensor s t = Some x -> t_awc x = false /\ t_kernel x = false.
Definition change (s s' : state) : Prop :=
  cells_kept (memory s) (memory s') /\ (forall b, In b (lent s) -> In b (lent s')) /\ stos_change s s' /\
  (plain_tensors s -> forall b, In b (computed s') -> In b (computed s) \/ owned (memory s') b).

Lemma ext_kept m m' : ext m m' -> cells_kept m m'.
Proof.
  intros E. split; [intros c x H; exists x; split; [now apply ext_cell with (m := m) | auto]|].
  destruct E as (_ & _ & k & K). rewrite K, app_length. lia.
Qed.
Lemma change_refl s : change s s.
Proof. split; [apply ext_kept, ext_refl|]. split; [auto|]. split; [now left|]. auto. Qed.
Lemma change_same s s' : memory s' = memory s -> stos s' = stos s -> lent s' = lent s -> computed s' = computed s -> change s s'.
Proof.
  intros M S L C. unfold change, stos_change. rewrite M, S, L, C. split; [apply ext_kept, ext_refl|]. auto.
Qed.
Lemma ext_length m m' c : ext m m' -> c < length (cells m) -> c < length (cells m').
Proof. intros (_ & _ & k & K) H. rewrite K, app_length. lia. Qed.
Lemma unpack_fresh m d m' d' : unpack m d = Some (m', d') -> s_values d' = length (cells m') - 1 /\
  cells m' <> [].
Proof.
  unfold unpack. destruct (unpack_levels m (s_format d) (s_indices d)) as [[m1 ix]|]; [|discriminate].
  intros [= <- <-]. simpl. rewrite app_length. simpl. split; [lia|]. now destruct (cells m1).
Qed.
Lemma unpack_fresh' m d m' d' : unpack m d = Some (m', d') -> (forall m1 ix, unpack_levels m (s_format d) (s_indices d) = Some (m1, ix) -> ext m m1) ->
  length (cells m) <= s_values d'.
Proof.
  unfold unpack. destruct (unpack_levels m (s_format d) (s_indices d)) as [[m1 ix]|]; [|discriminate].
  intros [= <- <-] H. simpl. destruct (H m1 ix eq_refl) as (_ & _ & k & K). rewrite K, app_length. lia.
Qed.
Lemma unpack_levels_ext : forall ls ps m m' ix, unpack_levels m ls ps = Some (m', ix) -> ext m m'.
Proof.
  induction ls as [|l ls IH]; intros ps m m' ix; simpl.
  - intros [= <- <-]. apply ext_refl.
  - destruct ps as [|p ps]; [discriminate|].
    destruct (unpack_level m l p) as [[m1 a]|] eqn:E; [|discriminate].
    destruct (unpack_levels m1 ls ps) as [[m2 index]|] eqn:E2; [|discriminate]. intros [= <- <-].
    apply ext_trans with m1; [|now apply IH in E2].
    destruct l; simpl in E.
    + destruct (alive m (fst p)); [|discriminate]. injection E as <- <-. apply makeArray_ext.
    + destruct (alive m (fst p)); [|discriminate]. injection E as <- <-.
      eapply ext_trans; [apply (new_cell_ext m (fst p) false)|].
      apply (new_cell_ext (fst (new_cell m (fst p) false)) (snd p) false).
    + injection E as <- <-. eapply ext_trans; [apply (new_cell_ext m (snd p) false)|].
      apply (makeArray_ext (fst (new_cell m (snd p) false))).
Qed.
Lemma unpack_values m d m' d' : unpack m d = Some (m', d') -> length (cells m) <= s_values d'.
Proof. intros H. apply (unpack_fresh' _ _ _ _ H). intros. eapply unpack_levels_ext; eauto. Qed.
Lemma mallocs_length m m' : mallocs m m' -> length (cells m') = length (cells m).
Proof. intros (_ & _ & ->). reflexivity. Qed.

(** The state after a call that unpacked. *)
Lemma change_unpacked s x d0 m2 d2 v m3 d3 : get_sto s x = Some d0 -> ext (memory s) m2 ->
  unpack m2 d2 = Some (m3, d3) -> ext (memory s) m3 -> cell_is m3 (s_values d3) (Cell (Some v) true false) -> s_vals d2 = Some v ->
  forall s', memory s' = m3 -> stos s' = set_nth (stos s) (t_sto x) d3 -> lent s' = lent s ->
  computed s' = computed s ++ match s_vals d2 with Some v => [v] | None => [] end -> change s s'.
Proof.
  intros G X2 U X3 Cl V s' M S L C. split; [rewrite M; now apply ext_kept|]. split; [rewrite L; auto|]. split.
  - right. right. exists (t_sto x), d0, d3. split; [exact G|]. split; [exact S|]. right. split.
    + apply unpack_values in U. destruct X2 as (_ & _ & k & K). rewrite K, app_length in U. lia.
    + exists (Cell (Some v) true false). rewrite M. auto.
  - intros _ b. rewrite C, V, in_app_iff. intros [H|[<-|[]]]; [now left|]. right. rewrite M.
    exists (s_values d3), (Cell (Some v) true false). auto.
Qed.
Lemma exec_change e s s' : inv s -> careful_call e s -> exec e s = Some s' -> change s s'.
Proof.
  intros I Cf E. destruct e; cbn [exec] in E.
  - (* New *)
    destruct (new_levels_ok (lent s) format (memory s) (i_mem s I)) as (A & B & C).
    destruct (new_levels (memory s) format) as [m1 index]. simpl in A, B, C.
    injection E as <-. 
    assert (X : ext (memory s) (fst (new_cell m1 None false))).
    { eapply ext_trans; [exact B | apply new_cell_ext]. }
    split; [now apply ext_kept|]. split; [auto|]. split; [|auto].
    right. left. eexists. split; [reflexivity|]. split.
    + simpl. destruct B as (_ & _ & k & K). rewrite K, app_length. lia.
    + exists (Cell None false false). split; [apply (new_cell_is m1 None false)|]. auto.
  - destruct (get_tensor s t); injection E as <-; [now apply change_same | apply change_refl].
  - destruct (get_tensor s t); [destruct (forallb _ operands)|]; injection E as <-; first [apply change_refl | now apply change_same].
  - destruct (get_tensor s t); injection E as <-; [now apply change_same | apply change_refl].
  - destruct (get_tensor s t) as [x|]; [destruct (t_needsCompile x)|]; injection E as <-; [now apply change_same | apply change_refl..].
  - (* Pack *)
    destruct (get_tensor s t) as [x|] eqn:G; [|injection E as <-; apply change_refl].
    destruct (t_needsPack x); [|injection E as <-; apply change_refl].
    destruct (negb (t_neverPacked x) && negb (readable s t)); [discriminate|].
    destruct (i_ten s I t x G) as (d & E1 & E2 & _). rewrite E1 in E.
    destruct (convert (memory s) d) as [d1|] eqn:C; [|discriminate].
    destruct (assembled_ok _ _ _ _ (i_mem s I) E2 C) as (m2 & d2 & v & K & V & M2 & X2 & S2 & Ev & Ef & m3 & d3 & U & M3 & X3 & S3 & V3 & Cl).
    rewrite K, U in E. injection E as <-. apply (change_unpacked s x d m2 d2 v m3 d3 E1 X2 U X3 Cl V); reflexivity.
  - (* Assemble *)
    destruct (get_tensor s t) as [x|] eqn:G; [|injection E as <-; apply change_refl].
    destruct (negb (t_needsCompile x) && t_needsAssemble x && forallb (synced s) (t_operands x)); [|injection E as <-; apply change_refl].
    destruct (negb (forallb (readable s) (t_operands x))); [discriminate|].
    destruct (i_ten s I t x G) as (d & E1 & E2 & _). rewrite E1 in E.
    destruct (convert (memory s) d) as [d1|] eqn:C; [|discriminate].
    destruct (assembled_ok _ _ _ _ (i_mem s I) E2 C) as (m2 & d2 & v & K & V & M2 & X2 & S2 & Ev & Ef & m3 & d3 & U & M3 & X3 & S3 & V3 & Cl).
    rewrite K in E. cbv zeta in E. destruct (t_awc x) eqn:Aw.
    + injection E as <-. split; [now apply ext_kept|]. split; [auto|]. split.
      * right. right. exists (t_sto x), d, d2. split; [exact E1|]. split; [reflexivity|]. now left.
      * intros P. destruct (P t x G). congruence.
    + rewrite U in E. injection E as <-. apply (change_unpacked s x d m2 d2 v m3 d3 E1 X2 U X3 Cl V); reflexivity.
  - (* Compute *)
    destruct (get_tensor s t) as [x|] eqn:G; [|injection E as <-; apply change_refl].
    destruct (negb (t_needsCompile x) && t_needsCompute x && forallb (synced s) (t_operands x)) eqn:Gd; [|injection E as <-; apply change_refl].
    destruct (negb (forallb (readable s) (t_operands x))); [discriminate|].
    apply andb_true_iff in Gd as [Gd Sy]. apply andb_true_iff in Gd as [Gc Gp]. apply negb_true_iff in Gc.
    destruct (Cf x G Gc Gp) as [Kw Vw].
    destruct (i_ten s I t x G) as (d & E1 & E2 & _). rewrite E1 in E.
    destruct (convert_ok _ _ _ (i_mem s I) E2) as (d1 & C & Cf1 & Cf2 & Cf3 & Cf4 & Ac). rewrite C, Kw in E.
    destruct (t_awc x).
    + cbn [negb andb] in E.
      destruct (assembled_ok _ _ _ _ (i_mem s I) E2 C) as (m2 & d2 & v & K & V & M2 & X2 & S2 & Ev & Ef & m3 & d3 & U & M3 & X3 & S3 & V3 & Cl).
      rewrite K, U in E. injection E as <-. apply (change_unpacked s x d m2 d2 v m3 d3 E1 X2 U X3 Cl V); reflexivity.
    + destruct (negb false && negb (accessible (memory s) d1)); [discriminate|]. injection E as <-.
      split; [apply ext_kept, ext_refl|]. split; [auto|]. split.
      * right. right. exists (t_sto x), d, d1. split; [exact E1|]. split; [reflexivity|]. now left.
      * intros _ b. simpl. rewrite app_nil_r. auto.
  - destruct (get_tensor s t); [destruct (synced s t); [destruct (readable s t)|]|]; try discriminate; injection E as <-; apply change_refl.
  - destruct (get_tensor s t); [destruct (get_tensor s u)|]; injection E as <-; [now apply change_same | apply change_refl..].
  - (* Alloc *)
    injection E as <-. split; [apply (ext_kept _ _ (malloc_ext (memory s)))|]. split; [intros; simpl; apply in_app_iff; auto|].
    split; [now left | auto].
  - (* Supply *)
    destruct (get_tensor s t) as [x|] eqn:G; [|injection E as <-; apply change_refl].
    destruct (forallb (fun g => is_lent s (fst g) && is_lent s (snd g)) index && is_lent s values) eqn:Le; [|injection E as <-; apply change_refl].
    apply andb_true_iff in Le as [L1 L2].
    assert (LO : forall p, is_lent s p = true -> given_ok (lent s) p).
    { intros [b|]; simpl; auto. intros H. apply existsb_exists in H as (b' & H & Q). apply Nat.eqb_eq in Q. now subst. }
    destruct (i_ten s I t x G) as (d & E1 & E2 & E3 & E4 & E5). rewrite E1 in E.
    assert (F : Forall (fun g => given_ok (lent s) (fst g) /\ given_ok (lent s) (snd g)) index).
    { apply Forall_forall. rewrite forallb_forall in L1. intros g H. specialize (L1 g H). apply andb_true_iff in L1 as [? ?]. split; auto. }
    destruct (supply_levels_ok (lent s) (s_format d) index (memory s) (i_mem s I) F) as (A & B & C).
    destruct (supply_levels (memory s) (s_format d) index) as [m1 ix]. simpl in A, B, C.
    destruct (supply_array_ok m1 (lent s) values A (LO values L2)) as (A' & B' & C').
    assert (Fr : length (cells m1) <= snd (supply_array m1 values) /\
      exists x, cell_is (fst (supply_array m1 values)) (snd (supply_array m1 values)) x /\
        (c_owns x = true \/ c_ptr x = None \/ exists b, c_ptr x = Some b /\ In b (lent s))).
    { destruct values as [b|]; simpl supply_array.
      - split; [simpl; lia|]. exists (Cell (Some b) false false). split; [apply (new_cell_is m1 (Some b) false)|].
        right. right. exists b. split; auto. exact (LO (Some b) L2).
      - split; [simpl; lia|]. rewrite makeArray_unfold. exists (Cell (Some (snd (malloc m1))) true false).
        split; [apply new_cell_is | auto]. }
    destruct (supply_array m1 values) as [m2 v]. simpl in A', B', C', Fr. destruct Fr as [Fr1 Fr2].
    injection E as <-. split; [apply ext_kept; now apply ext_trans with m1|]. split; [auto|]. split.
    + right. right. exists (t_sto x), d. eexists. split; [exact E1|]. split; [reflexivity|]. right. split; [|exact Fr2].
      simpl. destruct B as (_ & _ & k & K). rewrite K, app_length in Fr1. lia.
    + intros _ b. simpl. rewrite app_nil_r. auto.
  - destruct (get_tensor s t) as [x|]; [destruct (get_sto s x); [|discriminate]|]; injection E as <-; [now apply change_same | apply change_refl].
  - injection E as <-. now apply change_same.
  - destruct (get_tensor s t); injection E as <-; [now apply change_same | apply change_refl].
  - destruct (get_tensor s t) as [x|]; [destruct (t_handle x || _)|]; injection E as <-; try apply change_refl; now apply change_same.
  - (* DestroyArray *)
    destruct (data (memory s) c) as [p|] eqn:P; [|injection E as <-; apply change_refl].
    destruct (referenced s c) eqn:R; injection E as <-; [apply change_refl|].
    destruct (data_exists _ _ _ P) as (x & H & N).
    split; [|split; [auto|split; [now left | auto]]]. simpl. split.
    + intros d y G. pose proof (destroy_keeps _ c x H d y G) as J. eexists. split; [exact J|].
      destruct (Nat.eqb_spec d c) as [->|]; [|auto]. unfold cell_is in *. assert (x = y) by congruence. subst y. auto.
    + unfold destroy. unfold cell_is in H. rewrite H.
      assert (length (firstn c (cells (memory s)) ++ Cell (c_ptr x) (c_owns x) true :: skipn (S c) (cells (memory s))) = length (cells (memory s))).
      { assert (c < length (cells (memory s))) by (apply nth_error_Some; congruence).
        rewrite app_length. cbn [length]. rewrite firstn_length, skipn_length. lia. }
      destruct (c_owns x), (c_ptr x); cbn [cells] in *; rewrite H0; auto.
Qed.

(** Different storages have different values arrays, which are taco's own, undefined
    or the user's. *)
Record sep (s : state) : Prop := Sep {
  sp_distinct : forall k j d e, nth_error (stos s) k = Some d -> nth_error (stos s) j = Some e -> k <> j -> s_values d <> s_values e;
  sp_values : forall k d, nth_error (stos s) k = Some d -> exists x, cell_is (memory s) (s_values d) x /\
    (c_owns x = true \/ c_ptr x = None \/ exists b, c_ptr x = Some b /\ In b (lent s))
}.
Lemma change_sep s s' : change s s' -> sep s -> sep s'.
Proof.
  intros ((K1 & K2) & L & S & _) [A B].
  assert (B' : forall k d, nth_error (stos s) k = Some d -> exists x, cell_is (memory s') (s_values d) x /\
    (c_owns x = true \/ c_ptr x = None \/ exists b, c_ptr x = Some b /\ In b (lent s'))).
  { intros k d H. destruct (B k d H) as (x & X & O). destruct (K1 _ x X) as (x' & X' & P & W). exists x'. split; [auto|].
    rewrite P, W. destruct O as [O|[O|(b & O & O')]]; [auto|auto|]. right. right. exists b. split; auto. }
  assert (Lt : forall k d, nth_error (stos s) k = Some d -> s_values d < length (cells (memory s))).
  { intros k d H. destruct (B k d H) as (x & X & _). now apply cell_new with x. }
  destruct S as [S|[(d & S & F1 & F2)|(k & d0 & d & N & S & V)]]; constructor; rewrite S.
  - exact A.
  - exact B'.
  - assert (Cs : forall j e, nth_error (stos s ++ [d]) j = Some e -> (nth_error (stos s) j = Some e) \/ (j = length (stos s) /\ e = d)).
    { intros j e. destruct (Nat.lt_ge_cases j (length (stos s))).
      - rewrite nth_error_app1 by auto. auto.
      - rewrite nth_error_app2 by auto. destruct (j - length (stos s)) as [|i] eqn:Q; simpl.
        + intros [= <-]. right. split; [lia | auto].
        + destruct i; discriminate. }
    intros k j e f H1 H2 N. destruct (Cs k e H1) as [G1|[G1 ->]], (Cs j f H2) as [G2|[G2 ->]].
    + exact (A k j e f G1 G2 N).
    + apply Lt in G1. lia.
    + apply Lt in G2. lia.
    + lia.
  - intros k e. destruct (Nat.lt_ge_cases k (length (stos s))).
    + rewrite nth_error_app1 by auto. apply B'.
    + rewrite nth_error_app2 by auto. destruct (k - length (stos s)) as [|i]; simpl; [intros [= <-]; exact F2 | destruct i; discriminate].
  - assert (Kl : k < length (stos s)) by (apply nth_error_Some; congruence).
    assert (Cs : forall j e, nth_error (set_nth (stos s) k d) j = Some e -> (j <> k /\ nth_error (stos s) j = Some e) \/ (j = k /\ e = d)).
    { intros j e. destruct (Nat.eq_dec j k) as [->|Nj].
      - rewrite set_nth_same by auto. intros [= <-]. auto.
      - rewrite set_nth_other by auto. auto. }
    assert (Q : forall j e, j <> k -> nth_error (stos s) j = Some e -> s_values d <> s_values e).
    { intros j e Nj G. destruct V as [V|[F1 _]].
      - rewrite V. apply (A k j d0 e); auto.
      - apply Lt in G. lia. }
    intros i j e f H1 H2 Nij. destruct (Cs i e H1) as [[G0 G1]|[G1 ->]], (Cs j f H2) as [[G3 G2]|[G2 ->]].
    + exact (A i j e f G1 G2 Nij).
    + apply not_eq_sym. apply (Q i); auto.
    + apply (Q j); auto.
    + congruence.
  - assert (Kl : k < length (stos s)) by (apply nth_error_Some; congruence).
    intros j e. destruct (Nat.eq_dec j k) as [->|Nj].
    + rewrite set_nth_same by auto. intros [= <-]. destruct V as [V|[_ F2]]; [|exact F2]. rewrite V. exact (B' k d0 N).
    + rewrite set_nth_other by auto. apply B'.
Qed.
Lemma init_sep : sep init.
Proof. constructor; intros [|k]; discriminate. Qed.

Definition known (s : state) : Prop := forall b, In b (computed s) -> owned (memory s) b.
Lemma exec_plain e s s' : separate e -> exec e s = Some s' -> plain_tensors s -> plain_tensors s'.
Proof.
  intros Se E P.
  assert (W : forall t y x, get_tensor s t = Some y -> t_awc x = false -> t_kernel x = false -> plain_tensors (with_tensor s t x)).
  { intros t y x G A B u z. destruct (Nat.eq_dec u t) as [->|N].
    - rewrite (get_with_same s t x y G). destruct (t_dead x); [discriminate|]. intros [= <-]. auto.
    - rewrite get_with_other by auto. apply P. }
  assert (W2 : forall m k d c t y x, get_tensor s t = Some y -> t_awc x = false -> t_kernel x = false ->
      plain_tensors (with_tensor (with_sto s m k d c) t x)).
  { intros m k d c t y x G A B u z. destruct (Nat.eq_dec u t) as [->|N].
    - rewrite (get_with_same (with_sto s m k d c) t x y G). destruct (t_dead x); [discriminate|]. intros [= <-]. auto.
    - rewrite get_with_other by auto. apply P. }
  destruct e; cbn [exec] in E; simpl in Se;
    try (injection E as <-; exact P).
  - destruct (new_levels (memory s) format) as [m1 ix]. injection E as <-. intros t x. unfold get_tensor. simpl.
    destruct (Nat.lt_ge_cases t (length (tens s))).
    + rewrite nth_error_app1 by auto. apply P.
    + rewrite nth_error_app2 by auto. destruct (t - length (tens s)) as [|k]; simpl; [intros [= <-]; auto | destruct k; discriminate].
  - destruct (get_tensor s t) as [x|] eqn:G; injection E as <-; auto. eapply W; eauto; now apply (P t x).
  - destruct (get_tensor s t) as [x|] eqn:G; [destruct (forallb _ operands)|]; injection E as <-; auto.
    eapply W; eauto; now apply (P t x).
  - destruct (get_tensor s t) as [x|] eqn:G; injection E as <-; auto. eapply W; eauto. now apply (P t x).
  - destruct (get_tensor s t) as [x|] eqn:G; [destruct (t_needsCompile x)|]; injection E as <-; auto. eapply W; eauto. now apply (P t x).
  - destruct (get_tensor s t) as [x|] eqn:G; [|now injection E as <-].
    destruct (t_needsPack x); [|now injection E as <-].
    destruct (negb (t_neverPacked x) && negb (readable s t)); [discriminate|].
    destruct (get_sto s x); [|discriminate]. destruct (convert (memory s) s0); [|discriminate].
    destruct (kernel_assembles (memory s) s1) as [m2 d2]. destruct (unpack m2 d2) as [[m3 d3]|]; [|discriminate].
    injection E as <-. eapply W2; eauto; now apply (P t x).
  - destruct (get_tensor s t) as [x|] eqn:G; [|now injection E as <-].
    destruct (negb (t_needsCompile x) && t_needsAssemble x && forallb (synced s) (t_operands x)); [|now injection E as <-].
    destruct (negb (forallb (readable s) (t_operands x))); [discriminate|].
    destruct (get_sto s x); [|discriminate]. destruct (convert (memory s) s0); [|discriminate].
    destruct (kernel_assembles (memory s) s1) as [m2 d2]. cbv zeta in E. destruct (t_awc x) eqn:Aw.
    + destruct (P t x G). congruence.
    + destruct (unpack m2 d2) as [[m3 d3]|]; [|discriminate]. injection E as <-. eapply W2; eauto; now apply (P t x).
  - destruct (get_tensor s t) as [x|] eqn:G; [|now injection E as <-].
    destruct (negb (t_needsCompile x) && t_needsCompute x && forallb (synced s) (t_operands x)); [|now injection E as <-].
    destruct (negb (forallb (readable s) (t_operands x))); [discriminate|].
    destruct (get_sto s x); [|discriminate]. destruct (convert (memory s) s0); [|discriminate].
    destruct (P t x G) as [Aw Ke]. rewrite Aw, Ke in E.
    destruct (negb false && negb (accessible (memory s) s1)); [discriminate|]. injection E as <-. eapply W2; eauto.
  - destruct (get_tensor s t); [destruct (synced s t); [destruct (readable s t)|]|]; try discriminate; injection E as <-; auto.
  - destruct (get_tensor s t) as [x|] eqn:G; [destruct (get_tensor s u)|]; injection E as <-; auto. eapply W; eauto; now apply (P t x).
  - destruct (get_tensor s t) as [x|] eqn:G; [|now injection E as <-].
    destruct (forallb (fun g => is_lent s (fst g) && is_lent s (snd g)) index && is_lent s values); [|now injection E as <-].
    destruct (get_sto s x); [|discriminate]. destruct (supply_levels (memory s) (s_format s0) index) as [m1 ix].
    destruct (supply_array m1 values) as [m2 v]. injection E as <-. eapply W2; eauto; now apply (P t x).
  - destruct (get_tensor s t) as [x|]; [destruct (get_sto s x); [|discriminate]|]; injection E as <-; auto.
  - destruct (get_tensor s t) as [x|] eqn:G; injection E as <-; auto. eapply W; eauto; now apply (P t x).
  - destruct (get_tensor s t) as [x|] eqn:G; [destruct (t_handle x || _)|]; injection E as <-; auto. eapply W; eauto; now apply (P t x).
  - destruct (data (memory s) c); [destruct (referenced s c)|]; injection E as <-; auto.
Qed.

Lemma run_sep : forall es s s', inv s -> careful es s -> sep s -> run es s = Some s' -> sep s'.
Proof.
  induction es as [|e es IH]; intros s s' I C P R; simpl in *.
  - now injection R as <-.
  - destruct C as [C1 C2]. destruct (exec_ok e s I C1) as (s1 & E & I1 & L1). rewrite E in R.
    apply (IH s1 s'); auto. apply change_sep with s; auto. now apply exec_change with e.
Qed.
Lemma run_known : forall es s s', inv s -> careful es s -> Forall separate es -> plain_tensors s -> known s -> run es s = Some s' -> known s'.
Proof.
  induction es as [|e es IH]; intros s s' I C F P K R; simpl in *.
  - now injection R as <-.
  - inversion F; subst. destruct C as [C1 C2]. destruct (exec_ok e s I C1) as (s1 & E & I1 & L1). rewrite E in R.
    apply (IH s1 s'); auto.
    + now apply exec_plain with e s.
    + intros b B. destruct (exec_change e s s1 I C1 E) as ((K1 & _) & _ & _ & Q).
      destruct (Q P b B) as [B'|B']; [|exact B']. destruct (K b B') as (c & x & X & O & Pt).
      destruct (K1 c x X) as (x' & X' & P' & O'). exists c, x'. split; [auto|]. split; congruence.
Qed.

(* ------------------------------------------------------------------ *)
(** * What users see *)

Lemma alive_valid s b : alive (memory s) (Some b) = true -> valid s b.
Proof.
  unfold alive. intros H. apply andb_true_iff in H as [H1 H2]. apply Nat.ltb_lt in H1. split; auto.
  intros I. apply is_freed_iff in I. rewrite I in H2. discriminate.
Qed.
Lemma live_valid s c : inv s -> live (memory s) c -> exists b, data (memory s) c = Some (Some b) /\ valid s b.
Proof.
  intros I H. destruct (live_data _ _ c (i_mem s I) H) as (b & E & A). exists b. split; auto. now apply alive_valid.
Qed.
Lemma inv_usable s t x d : inv s -> get_tensor s t = Some x -> get_sto s x = Some d -> live (memory s) (s_values d) -> usable s x.
Proof.
  intros I G D V. destruct (i_ten s I t x G) as (d' & D1 & (_ & _ & full & F & Fu) & _). assert (d' = d) by congruence. subst d'.
  exists d. split; [auto|]. split; [now apply live_valid|]. specialize (Fu V). subst full.
  split; [now apply Forall2_len in F|]. intros k arrays K.
  assert (Q : exists l, nth_error (s_format d) k = Some l /\ level_good (memory s) l arrays).
  { clear - F K. revert k K. induction F as [|l a ls index P F IH]; intros [|k] K; try discriminate.
    - simpl in *. injection K as <-. exists l. split; auto. destruct P as [P|[P _]]; [auto | discriminate].
    - exact (IH k K). }
  destruct Q as (l & -> & Q). destruct l; simpl in Q.
  - destruct Q as (c & -> & Q). split; [reflexivity|]. intros e [<-|[]]. now apply live_valid.
  - destruct Q as (a & b & -> & Qa & Qb). split; [reflexivity|]. intros e [<-|[<-|[]]]; now apply live_valid.
  - destruct Q as (a & b & -> & Qa & Qb). split; [reflexivity|]. intros e [<-|[<-|[]]]; now apply live_valid.
Qed.
Lemma run_inv es s' : careful es init -> run es init = Some s' -> inv s'.
Proof.
  intros C R. destruct (run_ok es init init_inv C) as (s2 & R2 & I & _). congruence.
Qed.
Lemma flags_values s t x : inv s -> get_tensor s t = Some x -> t_needsPack x = false ->
  t_needsAssemble x = false \/ t_needsCompute x = false -> exists d, get_sto s x = Some d /\ live (memory s) (s_values d).
Proof.
  intros I G P O. destruct (i_ten s I t x G) as (d & D1 & _ & F1 & F2 & _). exists d. split; auto. destruct O; auto.
Qed.
Lemma no_sharing s t u x y d e b : inv s -> sep s -> get_tensor s t = Some x -> get_tensor s u = Some y ->
  get_sto s x = Some d -> get_sto s y = Some e -> t_sto x <> t_sto y ->
  data (memory s) (s_values d) = Some (Some b) -> data (memory s) (s_values e) = Some (Some b) -> In b (lent s).
Proof.
  intros I [A B] Gx Gy Dx Dy N Vx Vy. unfold get_sto in *.
  pose proof (A _ _ _ _ Dx Dy N) as Ne.
  destruct (B _ _ Dx) as (cx & Cx & Ox). destruct (B _ _ Dy) as (cy & Cy & _).
  assert (Px : c_ptr cx = Some b). { unfold data, cell_is in *. rewrite Cx in Vx. destruct (c_dead cx); congruence. }
  assert (Py : c_ptr cy = Some b). { unfold data, cell_is in *. rewrite Cy in Vy. destruct (c_dead cy); congruence. }
  destruct Ox as [O|[O|(b' & O & L)]].
  - exfalso. apply (mo_owner _ _ (i_mem s I) _ _ _ _ b Cx Cy Ne O Px Py).
  - congruence.
  - assert (b' = b) by congruence. now subst.
Qed.
Lemma known_accounted s b : inv s -> owned (memory s) b -> accounted s b.
Proof.
  intros I (c & x & X & O & P). destruct (c_dead x) eqn:D.
  - left. now apply (mo_dead _ _ (i_mem s I) c x b).
  - right. exists c, x. auto.
Qed.
