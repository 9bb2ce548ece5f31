(** Steps of one iteration, taken without interruption. *)
From Coq Require Import List Arith Lia Bool Ring_theory Ring Permutation.
Import ListNotations.
From Verif Require Import IndexExpr Eval Notation NotationSpec NotationProofs NotationRun Parallel ParallelSpec.
Local Open Scope nat_scope.

Section P.
Context {V : Type}.
Variable R : ring_ops V.
Hypothesis RT : ring_theory (r0 R) (r1 R) (radd R) (rmul R) (rsub R) (ropp R) eq.
Variable fn : nat -> V -> V.
Variable dv : V -> V -> V.
Variable dim : ivar -> nat.
Notation ev := (neval R fn dv dim).
Notation run := (run R fn dv dim).
Notation stmt := (nstmt V).
Notation store := (@store V).
Notation action := (@action V).
Notation actions := (actions R fn dv dim).
Notation value := (value R fn dv dim).
Notation value_from := (value_from R fn dv dim).
Notation locs := (locs dim).
Notation eqT := (@eqT V).

Definition act1 (a : action) (T : store) (g : list V) : store * list V :=
  match a with
  | ARead t x => (T, g ++ [T t x])
  | AWrite t x f => (upd T t x (f g), [])
  | AUpdate t x f => (upd T t x (f (T t x) g), [])
  | AZero t => (clear R t T, g)
  end.
Fixpoint exec (l : list action) (T : store) (g : list V) : store * list V :=
  match l with [] => (T, g) | a :: l => let '(T, g) := act1 a T g in exec l T g end.

Lemma exec_app : forall l l' T g, exec (l ++ l') T g = let '(T', g') := exec l T g in exec l' T' g'.
Proof. induction l as [|a l IH]; cbn; intros; auto. destruct (act1 a T g). apply IH. Qed.

(** *** Values *)
Lemma value_locs : forall (T : store) e r l, value_from e r (map (fun p => T (fst p) (snd p)) (locs e r) ++ l) = (ev T r e, l).
Proof.
  intros T. induction e; intros r l; cbn; auto; try (rewrite IHe; reflexivity);
    try (rewrite map_app, <- app_assoc, IHe1, IHe2; reflexivity).
  assert (G : forall (f : V -> V -> V) u cs, reduce_from (fun c l => value_from e (ext r i c) l) f u cs
            (map (fun p => T (fst p) (snd p)) (flat_map (fun c => locs e (ext r i c)) cs) ++ l) =
          (fold_right (fun c a => f (ev T (ext r i c) e) a) u cs, l)).
  { intros f u. induction cs as [|c cs IH]; cbn; auto. rewrite map_app, <- app_assoc, IHe, IH. reflexivity. }
  destruct op; apply G.
Qed.
Lemma value_ok : forall (T : store) e r, value e r (map (fun p => T (fst p) (snd p)) (locs e r)) = ev T r e.
Proof. intros. unfold ParallelSpec.value. rewrite <- (app_nil_r (map _ _)), value_locs. auto. Qed.
Lemma exec_reads : forall ls T g, exec (map (fun p => ARead (fst p) (snd p)) ls) T g = (T, g ++ map (fun p => T (fst p) (snd p)) ls).
Proof. induction ls as [|p ls IH]; cbn; intros; [rewrite app_nil_r; auto|]. rewrite IH, <- app_assoc. auto. Qed.
Lemma exec_assign : forall atomic t vs op e r T,
  exec (assign_actions R fn dv dim atomic t vs op e r) T [] = (run (NAssign t vs op e) r T, []).
Proof.
  intros atomic t vs op e r T. unfold assign_actions. destruct op as [o|]; cbn [NotationSpec.run].
  - destruct atomic.
    + rewrite exec_app, exec_reads. cbn. rewrite value_ok. auto.
    + cbn. rewrite exec_app, exec_reads. cbn. rewrite value_ok. auto.
  - rewrite exec_app, exec_reads. cbn. rewrite value_ok. auto.
Qed.

Lemma nodup_app : forall (l l' : list nat), NoDup (l ++ l') -> NoDup l /\ NoDup l' /\ forall t, In t l -> In t l' -> False.
Proof.
  induction l as [|a l IH]; cbn; intros l' H; [repeat split; auto; constructor|]. inversion H; subst.
  destruct (IH _ H3) as (A & B & C). rewrite in_app_iff in H2. repeat split; auto; [constructor; auto|].
  intros t [->|I] J; [auto|eauto].
Qed.

(** *** A statement's steps *)
Definition offD (D : tensor -> Prop) (T T' : store) : Prop := forall t x, ~ D t -> T t x = T' t x.
Lemma run_loop_off : forall D b i r d ws,
  (forall c T T', offD D T T' -> exists T1, exec (actions d ws b (ext r i c)) T [] = (T1, []) /\ offD D T1 (run b (ext r i c) T')) ->
  forall cs T T', offD D T T' ->
  exists T1, exec (flat_map (fun c => actions d ws b (ext r i c)) cs) T [] = (T1, []) /\
    offD D T1 (fold_left (fun T c => run b (ext r i c) T) cs T').
Proof.
  intros D b i r d ws H. induction cs as [|c cs IH]; cbn; intros T T' O; [eauto|].
  destruct (H c T T' O) as (T1 & E & O1). rewrite exec_app, E. apply IH. auto.
Qed.
Lemma exec_actions : forall (s : stmt) d ws r (D : tensor -> Prop) T T',
  (forall t, In t (temps s) -> D t) -> (forall t, D t -> In t (rhs_reads s) -> In t (temps s)) -> ~ D (res s) ->
  NoDup (res s :: temps s) -> scoped_temps s -> offD D T T' ->
  exists T1, exec (actions d ws s r) T [] = (T1, []) /\ offD D T1 (run s r T').
Proof.
  induction s as [t vs op e|an i b IH|c IHc p IHp]; intros d ws r D T T' DT DR N ND SC O.
  - cbn [ParallelSpec.actions]. rewrite exec_assign. eexists. split; [reflexivity|]. cbn in *.
    assert (G : ev T r e = ev T' r e).
    { apply neval_ext; auto. intros t' x I. apply O. intros Dt. apply (DR t'); auto. }
    intros t' x Nt. unfold upd. destruct (Nat.eqb_spec t' t) as [->|]; [|auto]. destruct (list_eqb x (map r vs)); [|auto].
    rewrite G. destruct op; auto. rewrite O; auto.
  - cbn [ParallelSpec.actions NotationSpec.run]. apply run_loop_off; auto.
  - cbn [ParallelSpec.actions NotationSpec.run temps rhs_reads res scoped_temps] in *.
    destruct SC as (S1 & S2 & Sc & Sp).
    inversion ND as [|? ? N1 ND1]; subst. inversion ND1 as [|? ? N2 ND2]; subst. rewrite in_app_iff in N2. cbn [In] in N1. rewrite in_app_iff in N1.
    apply nodup_app in ND2. destruct ND2 as (NDp0 & NDc0 & DJ).
    assert (NDp : NoDup (res p :: temps p)) by (constructor; tauto).
    assert (NDc : NoDup (res c :: temps c)) by (constructor; tauto).
    set (D' := fun t => D t /\ t <> res p).
    change (exists T1, exec (actions (depth_producer d) (res p :: ws) p r ++ actions d ws c r) (clear R (res p) T) [] = (T1, []) /\
       offD D T1 (set_tensor (run c r (run p r (clear R (res p) T'))) (res p) (T' (res p)))).
    destruct (IHp (depth_producer d) (res p :: ws) r D' (clear R (res p) T) (clear R (res p) T')) as (T1 & E1 & O1); auto.
    { intros t I. split; [apply DT; right; apply in_app_iff; auto|]. intros ->. tauto. }
    { intros t [Dt Nt] I. specialize (DR t Dt). rewrite in_app_iff in DR. cbn [In] in DR.
      destruct DR as [E|J]; auto. { exfalso. apply Nt. auto. }
      apply in_app_iff in J. destruct J as [J|J]; auto. exfalso. apply (S1 t); [right|]; auto. }
    { intros [_ Q]. congruence. }
    { intros t x Nt. unfold clear, set_tensor. destruct (Nat.eqb_spec t (res p)); auto. apply O. intros Q. apply Nt. split; auto. }
    rewrite exec_app, E1.
    destruct (IHc d ws r D' T1 (run p r (clear R (res p) T'))) as (T2 & E2 & O2); auto.
    { intros t I. split; [apply DT; right; apply in_app_iff; auto|]. intros ->. tauto. }
    { intros t [Dt Nt] I. specialize (DR t Dt). rewrite in_app_iff in DR. cbn [In] in DR.
      destruct DR as [E|J]; auto. { exfalso. apply Nt. auto. }
      apply in_app_iff in J. destruct J as [J|J]; auto. exfalso. apply (S2 t); auto. }
    { intros [Q _]. auto. }
    exists T2. split; auto. intros t x Nt. unfold set_tensor. destruct (Nat.eqb_spec t (res p)) as [->|Ne].
    + exfalso. apply Nt. apply DT. left. auto.
    + apply O2. intros [Q _]. auto.
Qed.

(** *** Locality *)
(** The action accesses [A] at coordinates in [W] only, and does not clear it. *)
Definition touches (A : tensor) (W : list nat -> Prop) (a : action) : Prop :=
  match a with
  | ARead t x | AWrite t x _ | AUpdate t x _ => t = A -> W x
  | AZero t => t <> A
  end.
Definition agree (A : tensor) (W : list nat -> Prop) (T T' : store) : Prop := forall t x, (t = A -> W x) -> T t x = T' t x.
Lemma upd_agree : forall A W T T' t x v, agree A W T T' -> agree A W (upd T t x v) (upd T' t x v).
Proof. intros A W T T' t x v H t' x' Q. unfold upd. destruct (Nat.eqb t' t), (list_eqb x' x); auto. Qed.
Lemma act1_agree : forall A W a T T' g, touches A W a -> agree A W T T' ->
  snd (act1 a T g) = snd (act1 a T' g) /\ agree A W (fst (act1 a T g)) (fst (act1 a T' g)).
Proof.
  intros A W a T T' g H G. destruct a; cbn in *.
  - split; auto. rewrite G; auto.
  - split; auto. apply upd_agree; auto.
  - split; auto. rewrite (G t x) by auto. apply upd_agree; auto.
  - split; auto. intros t' x Q. unfold clear, set_tensor. destruct (Nat.eqb t' t); auto.
Qed.
Lemma exec_agree : forall A W l T T' g, Forall (touches A W) l -> agree A W T T' -> agree A W (fst (exec l T g)) (fst (exec l T' g)).
Proof.
  intros A W. induction l as [|a l IH]; cbn; intros T T' g F G; auto. inversion F; subst.
  destruct (act1_agree A W a T T' g) as [E G']; auto. destruct (act1 a T g), (act1 a T' g). cbn in E, G'. subst. auto.
Qed.
Lemma locs_reads : forall (e : nexpr V) r p, In p (locs e r) -> In (fst p) (reads e).
Proof.
  clear RT fn dv R. induction e; cbn; intros r p I; auto; rewrite ?in_app_iff in *; try (intuition eauto; fail).
  - destruct I as [<-|[]]. cbn. auto.
  - apply in_flat_map in I as (c & _ & I). eauto.
Qed.
Lemma reads_touch : forall A W (e : nexpr V) r, ~ In A (reads e) -> Forall (touches A W) (map (fun p => ARead (fst p) (snd p)) (locs e r)).
Proof.
  intros A W e r N. apply Forall_forall. intros a I. apply in_map_iff in I as (p & <- & I). apply locs_reads in I. cbn. intros <-. tauto.
Qed.
Lemma untouched : forall A (s : stmt) d ws r, A <> res s -> ~ In A (temps s) -> ~ In A (rhs_reads s) ->
  Forall (touches A (fun _ => False)) (actions d ws s r).
Proof.
  intros A. induction s as [t vs op e|an i b IH|c IHc p IHp]; intros d ws r N1 N2 N3; cbn [ParallelSpec.actions res temps rhs_reads] in *.
  - assert (G : Forall (touches A (fun _ => False)) (map (fun p => ARead (fst p) (snd p)) (locs e r))).
    { apply reads_touch; auto. }
    unfold assign_actions. destruct op as [o|]; [destruct (is_atomic d ws t vs)|].
    + apply Forall_app. split; auto. constructor; auto. cbn. congruence.
    + constructor; [cbn; congruence|]. apply Forall_app. split; auto. constructor; auto. cbn. congruence.
    + apply Forall_app. split; auto. constructor; auto. cbn. congruence.
  - induction (seq 0 (dim i)); cbn; auto. apply Forall_app. auto.
  - cbn [In] in N2. rewrite in_app_iff in N2, N3. constructor; [cbn; intuition congruence|]. apply Forall_app. split.
    + apply IHp; intuition congruence.
    + apply IHc; intuition congruence.
Qed.
Lemma touches_weak : forall A (W W' : list nat -> Prop) a, (forall x, W x -> W' x) -> touches A W a -> touches A W' a.
Proof. intros A W W' [] H; cbn; auto. Qed.
Lemma touched : forall (s : stmt) d ws r k i, ~ In (res s) (temps s) -> ~ In (res s) (rhs_reads s) ->
  nth_error (lhs s) k = Some i -> ~ In i (spine s) ->
  Forall (touches (res s) (fun x => nth_error x k = Some (r i))) (actions d ws s r).
Proof.
  induction s as [t vs op e|an j b IH|c IHc p IHp]; intros d ws r k i N1 N2 L S; cbn [ParallelSpec.actions res temps rhs_reads lhs spine] in *.
  - set (W := fun x => nth_error x k = Some (r i)).
    assert (W (map r vs)) by (unfold W; rewrite nth_error_map, L; auto).
    assert (G : Forall (touches t W) (map (fun p => ARead (fst p) (snd p)) (locs e r))).
    { apply reads_touch; auto. }
    unfold assign_actions. destruct op as [o|]; [destruct (is_atomic d ws t vs)|].
    + apply Forall_app. split; auto. constructor; auto. cbn. auto.
    + constructor; [cbn; auto|]. apply Forall_app. split; auto. constructor; auto. cbn. auto.
    + apply Forall_app. split; auto. constructor; auto. cbn. auto.
  - cbn in S. induction (seq 0 (dim j)) as [|c cs IHl]; cbn; auto. apply Forall_app. split; auto.
    replace (r i) with (ext r j c i) by (apply ext_other; intuition congruence). apply IH; auto.
  - cbn [In] in N1. rewrite in_app_iff in N1, N2. constructor; [cbn; intuition congruence|]. apply Forall_app. split.
    + eapply Forall_impl; [|apply (untouched (res c)); intuition congruence]. intros a. apply touches_weak. tauto.
    + apply IHc; tauto.
Qed.

(** *** What is written *)
Definition writes (A : tensor) (P : list tensor) (a : action) : Prop :=
  match a with ARead _ _ => True | AWrite t _ _ | AUpdate t _ _ => t = A \/ In t P | AZero t => In t P end.
Lemma writes_ok : forall (s : stmt) d ws r P, incl (temps s) P -> Forall (writes (res s) P) (actions d ws s r).
Proof.
  assert (G : forall A P (e : nexpr V) r, Forall (writes A P) (map (fun p => ARead (fst p) (snd p)) (locs e r))).
  { intros. induction (locs e r); cbn; constructor; cbn; auto. }
  induction s as [t vs op e|an i b IH|c IHc p IHp]; intros d ws r P I; cbn [ParallelSpec.actions res temps] in *.
  - unfold assign_actions. destruct op as [o|]; [destruct (is_atomic d ws t vs)|].
    + apply Forall_app. split; auto. constructor; auto. cbn. auto.
    + constructor; [exact Logic.I|]. apply Forall_app. split; auto. constructor; auto. cbn. auto.
    + apply Forall_app. split; auto. constructor; auto. cbn. auto.
  - induction (seq 0 (dim i)); cbn; auto. apply Forall_app. auto.
  - constructor; [apply I; cbn; auto|]. apply Forall_app. split.
    + eapply Forall_impl; [|apply (IHp _ _ _ P)].
      * intros []; cbn; auto; intros [->|]; auto; right; apply I; cbn; auto.
      * intros t J. apply I. right. apply in_app_iff. auto.
    + apply IHc. intros t J. apply I. right. apply in_app_iff. auto.
Qed.

(** *** Threads *)
Lemma act_view : forall P a M L g M' L' g', act R P a M L g = (M', L', g') ->
  snd (act1 a (get P M L) g) = g' /\ eqT (fst (act1 a (get P M L) g)) (get P M' L').
Proof.
  intros P a M L g M' L' g' H.
  assert (PU : forall t x v, put P M L t x v = (M', L') -> eqT (upd (get P M L) t x v) (get P M' L')).
  { intros t x v E t' x'. unfold put in E. unfold upd, get. destruct (mem t P) eqn:B; inversion E; subst; clear E.
    - destruct (Nat.eqb_spec t' t) as [->|Ne].
      + rewrite B. unfold upd. rewrite Nat.eqb_refl. auto.
      + destruct (mem t' P); auto. unfold upd. destruct (Nat.eqb_spec t' t); congruence.
    - destruct (Nat.eqb_spec t' t) as [->|Ne].
      + rewrite B. unfold upd. rewrite Nat.eqb_refl. auto.
      + destruct (mem t' P); auto. unfold upd. destruct (Nat.eqb_spec t' t); congruence. }
  destruct a; cbn in H |- *.
  - inversion H; subst. split; auto. apply eqT_refl.
  - inversion H; subst; clear H. split; auto. 
  - inversion H; subst; clear H. split; auto.
  - split; [inversion H; auto|]. intros t' x'. unfold clear, set_tensor, get.
    destruct (mem t P) eqn:B; inversion H; subst; clear H; destruct (Nat.eqb_spec t' t) as [->|Ne].
    + rewrite B. unfold clear, set_tensor. rewrite Nat.eqb_refl. auto.
    + destruct (mem t' P); auto. unfold clear, set_tensor. destruct (Nat.eqb_spec t' t); congruence.
    + rewrite B. unfold clear, set_tensor. rewrite Nat.eqb_refl. auto.
    + destruct (mem t' P); auto. unfold clear, set_tensor. destruct (Nat.eqb_spec t' t); congruence.
Qed.
Lemma exec_eqT : forall l T T' g, eqT T T' -> snd (exec l T g) = snd (exec l T' g) /\ eqT (fst (exec l T g)) (fst (exec l T' g)).
Proof.
  induction l as [|a l IH]; cbn; intros T T' g E; auto.
  assert (Q : snd (act1 a T g) = snd (act1 a T' g) /\ eqT (fst (act1 a T g)) (fst (act1 a T' g))).
  { destruct a; cbn.
    - split; auto. rewrite E. auto.
    - split; auto. apply upd_ext; auto.
    - split; auto. rewrite E. apply upd_ext; auto.
    - split; auto. apply set_ext; auto. }
  destruct (act1 a T g), (act1 a T' g). cbn in Q. destruct Q as [-> Q]. auto.
Qed.
(** A step of one iteration leaves the rest of the shared memory alone. *)
Lemma act_frame : forall P A W a M L g M' L' g', act R P a M L g = (M', L', g') -> writes A P a -> touches A W a ->
  forall t x, (t = A -> ~ W x) -> M' t x = M t x.
Proof.
  clear RT fn dv dim. assert (PU : forall P A (W : list nat -> Prop) (M L : store) t x v M' L', put P M L t x v = (M', L') -> t = A \/ In t P -> (t = A -> W x) ->
    forall t' x', (t' = A -> ~ W x') -> M' t' x' = M t' x').
  { intros P A W M L t x v M' L' E B Q t' x' N. unfold put in E. destruct (mem_spec t P); inversion E; subst; auto.
    unfold upd. destruct (Nat.eqb_spec t' t) as [->|]; auto. destruct (list_eqb_spec x' x) as [->|]; auto.
    destruct B as [->|]; [|tauto]. exfalso. apply N; auto. }
  intros P A W a M L g M' L' g' H B Q t x N. destruct a; cbn in *.
  - inversion H; auto.
  - inversion H; subst. eapply PU; eauto.
  - inversion H; subst. eapply PU; eauto.
  - destruct (mem_spec t0 P); [|tauto]. inversion H; auto.
Qed.
End P.
