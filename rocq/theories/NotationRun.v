(** The effect of a statement on its result as a list of updates. *)
From Coq Require Import List Arith Lia Bool Ring_theory Ring Permutation.
Import ListNotations.
From Verif Require Import IndexExpr Eval Notation NotationSpec NotationProofs.
Local Open Scope nat_scope.

Section P.
Context {V : Type}.
Variable R : ring_ops V.
Hypothesis RT : ring_theory (r0 R) (r1 R) (radd R) (rmul R) (rsub R) (ropp R) eq.
Variable fn : nat -> V -> V.
Variable dv : V -> V -> V.
Variable dim : ivar -> nat.
Add Ring Rr2 : RT.

Notation "0r" := (r0 R). Notation "a +r b" := (radd R a b) (at level 50, left associativity).
Notation ev := (neval R fn dv dim).
Notation run := (run R fn dv dim).
Notation stmt := (nstmt V).
Notation store := (@store V).

Definition eqT (T T' : store) : Prop := forall t x, T t x = T' t x.
Definition off (A : tensor) (T T' : store) : Prop := forall t x, t <> A -> T t x = T' t x.

Lemma eqT_refl : forall T, eqT T T. Proof. intros T t x. auto. Qed.
Lemma eqT_sym : forall T T', eqT T T' -> eqT T' T. Proof. intros T T' H t x. auto. Qed.
Lemma eqT_trans : forall T T' T'', eqT T T' -> eqT T' T'' -> eqT T T''. Proof. intros T T' T'' H H' t x. rewrite H. auto. Qed.

(** *** Congruence *)
Lemma upd_ext : forall T T' t x v v', eqT T T' -> v = v' -> eqT (upd T t x v) (upd T' t x v').
Proof. intros T T' t x v v' H -> t' x'. unfold upd. destruct (Nat.eqb t' t), (list_eqb x' x); auto. Qed.
Lemma set_ext : forall T T' t f f', eqT T T' -> (forall x, f x = f' x) -> eqT (set_tensor T t f) (set_tensor T' t f').
Proof. intros T T' t f f' H F t' x'. unfold set_tensor. destruct (Nat.eqb t' t); auto. Qed.

Lemma fold_ext : forall (l : list nat) (F G : store -> nat -> store),
  (forall T T' c, In c l -> eqT T T' -> eqT (F T c) (G T' c)) -> forall T T', eqT T T' -> eqT (fold_left F l T) (fold_left G l T').
Proof. induction l; cbn; intros; auto. Qed.

Lemma run_ext : forall (s : stmt) r r' T T', eqT T T' -> (forall i, In i (svars s) -> r i = r' i) -> eqT (run s r T) (run s r' T').
Proof.
  induction s as [t vs op e|an i b IH|c IHc p IHp]; intros r r' T T' HT Hr; cbn in *.
  - assert (E : map r vs = map r' vs) by (apply map_ext_in; intros; apply Hr; apply in_app_iff; auto).
    assert (G : ev T r e = ev T' r' e) by (apply neval_ext; auto; intros; apply Hr; apply in_app_iff; auto).
    rewrite E. apply upd_ext; auto. destruct op; auto. rewrite G, HT. auto.
  - apply fold_ext; auto. intros T1 T1' c _ H1. apply IH; auto.
    intros j J. unfold ext. destruct (Nat.eqb_spec j i); auto. apply Hr. apply in_in_remove; auto.
  - apply set_ext; auto. apply IHc.
    + apply IHp; [apply set_ext; auto|]. intros. apply Hr. apply in_app_iff. auto.
    + intros. apply Hr. apply in_app_iff. auto.
Qed.

(** A statement changes only its result. *)
Lemma frame : forall (s : stmt) r T t x, t <> res s -> run s r T t x = T t x.
Proof.
  induction s as [t vs op e|an i b IH|c IHc p IHp]; intros r T t' x N; cbn in *.
  - unfold upd. destruct (Nat.eqb_spec t' t); congruence.
  - revert T. induction (seq 0 (dim i)) as [|k l IHl]; cbn; intros T; auto. rewrite IHl. auto.
  - unfold set_tensor. destruct (Nat.eqb_spec t' (res p)) as [->|N']; auto.
    rewrite IHc by auto. rewrite IHp by auto. unfold clear, set_tensor. destruct (Nat.eqb_spec t' (res p)); congruence.
Qed.

(** A tensor that is not read does not influence the others. *)
Lemma run_off : forall A (s : stmt) r T T', ~ In A (rhs_reads s) -> off A T T' -> off A (run s r T) (run s r T').
Proof.
  intros A. induction s as [t vs op e|an i b IH|c IHc p IHp]; intros r T T' N H; cbn in *.
  - assert (G : ev T r e = ev T' r e) by (apply neval_ext; auto; intros t' x I; apply H; intro; subst; auto).
    intros t' x N'. unfold upd. destruct (Nat.eqb_spec t' t) as [->|]; auto. destruct (list_eqb x (map r vs)); auto.
    destruct op; auto. rewrite G, H; auto.
  - revert T T' H. induction (seq 0 (dim i)) as [|k l IHl]; cbn; intros T T' H; auto. 
  - rewrite in_app_iff in N. intros t x N'. unfold set_tensor. destruct (Nat.eqb_spec t (res p)); [subst; apply H; auto|].
    apply IHc; auto. apply IHp; auto. intros t' x' N''. unfold clear, set_tensor. destruct (Nat.eqb t' (res p)); auto.
Qed.

(** *** Updates *)
Fixpoint ups (s : stmt) (r : val) (T : store) (x : list nat) : list (option redop * V) :=
  match s with
  | NAssign t vs op e => if list_eqb x (map r vs) then [(op, ev T r e)] else []
  | NForall _ i b => flat_map (fun c => ups b (ext r i c) T x) (seq 0 (dim i))
  | NWhere c p => ups c r (run p r (clear R (res p) T)) x
  end.
Definition apply1 (a : V) (u : option redop * V) : V := match fst u with None => snd u | Some o => opf R o a (snd u) end.
Definition apply (a : V) (us : list (option redop * V)) : V := fold_left apply1 us a.

Lemma ups_ext : forall (s : stmt) r r' T T' x, eqT T T' -> (forall i, In i (svars s) -> r i = r' i) -> ups s r T x = ups s r' T' x.
Proof.
  induction s as [t vs op e|an i b IH|c IHc p IHp]; intros r r' T T' x HT Hr; cbn in *.
  - assert (E : map r vs = map r' vs) by (apply map_ext_in; intros; apply Hr; apply in_app_iff; auto).
    assert (G : ev T r e = ev T' r' e) by (apply neval_ext; auto; intros; apply Hr; apply in_app_iff; auto).
    rewrite E, G. auto.
  - rewrite !flat_map_concat_map. f_equal. apply map_ext_in. intros c _. apply IH; auto.
    intros j J. unfold ext. destruct (Nat.eqb_spec j i); auto. apply Hr. apply in_in_remove; auto.
  - apply IHc; [apply run_ext; [apply set_ext; auto|]|]; intros; apply Hr; apply in_app_iff; auto.
Qed.
Lemma ups_off : forall A (s : stmt) r T T' x, ~ In A (rhs_reads s) -> off A T T' -> ups s r T x = ups s r T' x.
Proof.
  intros A. induction s as [t vs op e|an i b IH|c IHc p IHp]; intros r T T' x N H; cbn in *.
  - replace (ev T' r e) with (ev T r e); auto. apply neval_ext; auto; intros t' x' I; apply H; intro; subst; auto.
  - rewrite !flat_map_concat_map. f_equal. apply map_ext_in. intros c _. apply IH; auto.
  - rewrite in_app_iff in N. apply IHc; auto. apply run_off; auto.
    intros t' x' N'. unfold clear, set_tensor. destruct (Nat.eqb t' (res p)); auto.
Qed.

(** The result is the old value with the updates applied in order. *)
Lemma run_ups : forall (s : stmt) r T x, ~ In (res s) (rhs_reads s) -> ~ In (res s) (temps s) ->
  run s r T (res s) x = apply (T (res s) x) (ups s r T x).
Proof.
  induction s as [t vs op e|an i b IH|c IHc p IHp]; intros r T x N N2; cbn [NotationSpec.run res rhs_reads temps ups] in *.
  - unfold upd. rewrite Nat.eqb_refl. destruct (list_eqb_spec x (map r vs)) as [->|]; auto.
  - assert (G : forall l T', off (res b) T T' ->
      fold_left (fun T0 c => run b (ext r i c) T0) l T' (res b) x = apply (T' (res b) x) (flat_map (fun c => ups b (ext r i c) T x) l)).
    { induction l as [|k l IHl]; cbn; intros T' H; auto. rewrite IHl.
      - unfold apply. rewrite fold_left_app. f_equal. rewrite IH by auto. unfold apply. f_equal.
        symmetry. apply (ups_off (res b)); auto.
      - intros t' x' N'. rewrite frame by auto. apply H. auto. }
    apply G. intros t x' _. auto.
  - rewrite in_app_iff in N. cbn in N2. rewrite in_app_iff in N2.
    unfold set_tensor. destruct (Nat.eqb_spec (res c) (res p)) as [E|E]; [exfalso; apply N2; auto|].
    rewrite IHc by tauto. f_equal. rewrite frame by auto. unfold clear, set_tensor. destruct (Nat.eqb_spec (res c) (res p)); congruence.
Qed.

Lemma ups_op : forall (s : stmt) r T x u, In u (ups s r T x) -> fst u = op_of s.
Proof.
  induction s as [t vs op e|an i b IH|c IHc p IHp]; intros r T x u H; cbn in *.
  - destruct (list_eqb x (map r vs)); cbn in H; [|tauto]. destruct H as [<-|[]]; auto.
  - apply in_flat_map in H as (k & _ & H). eauto.
  - eauto.
Qed.

(** *** Order of the updates *)
Lemma apply_perm : forall us us' a, Permutation us us' ->
  (exists o, (forall u, In u us -> fst u = o) /\ (o = None -> forall u u', In u us -> In u' us -> snd u = snd u')) ->
  apply a us = apply a us'.
Proof.
  intros us us' a P (o & O & D). destruct o as [o|].
  - clear D. revert a. unfold apply. induction P; intros a; cbn [fold_left]; auto.
    + rewrite IHP; auto. intros. apply O. right. auto.
    + f_equal. unfold apply1. rewrite (O x), (O y) by (cbn; auto). destruct o; cbn; ring.
    + rewrite IHP1, IHP2; auto. intros. apply O. eapply Permutation_in; [apply Permutation_sym|]; eauto.
  - specialize (D eq_refl).
    assert (G : forall l v a, (forall u, In u l -> u = (None, v)) -> apply a l = match l with [] => a | _ => v end).
    { unfold apply. induction l as [|u l IH]; cbn [fold_left]; intros v a' H; auto.
      rewrite (IH v) by (intros; apply H; right; auto). destruct l; auto. rewrite (H u) by (left; auto). auto. }
    destruct us as [|u us]. { apply Permutation_nil in P. subst. auto. }
    assert (H : forall w, In w (u :: us) -> w = (None, snd u)).
    { intros w W. rewrite (surjective_pairing w). rewrite (O w), (D w u) by (auto; left; auto). auto. }
    rewrite (G _ (snd u) a H). rewrite (G us' (snd u)).
    + destruct us'; auto. apply Permutation_sym, Permutation_nil in P. discriminate.
    + intros w W. apply H. eapply Permutation_in; [apply Permutation_sym|]; eauto.
Qed.

(** Plain assignments store one value per coordinate. *)
Lemma hit : forall (c : stmt) r T x u v, In u (ups c r T x) -> In v (lhs c) -> ~ In v (spine c) ->
  exists k, nth_error x k = Some (r v) /\ nth_error (lhs c) k = Some v.
Proof.
  induction c as [t vs op e|an i b IH|c IHc p IHp]; intros r T x u v H Hv N; cbn in *.
  - destruct (list_eqb_spec x (map r vs)) as [->|]; [|destruct H].
    apply In_nth_error in Hv as (k & K). exists k. split; auto. rewrite nth_error_map, K. auto.
  - apply in_flat_map in H as (k & _ & H). destruct (IH _ _ _ _ v H Hv) as (j & J & J'); [tauto|].
    exists j. split; auto. rewrite J. rewrite ext_other; auto.
  - eauto.
Qed.
Lemma determined_spine : forall (s : stmt) bs v, determined bs s -> In v bs -> ~ In v (spine s).
Proof.
  induction s as [t vs op e|an i b IH|c IHc p IHp]; intros bs v D I; cbn in *; auto.
  - destruct D as [N D]. intros [->|J]; [auto|]. eapply IH; eauto. right. auto.
  - destruct D. eauto.
Qed.
Lemma determined_same : forall (s : stmt) bs r r' T T' x u u', determined bs s ->
  (forall v, ~ In v bs -> r v = r' v) -> eqT T T' ->
  In u (ups s r T x) -> In u' (ups s r' T' x) -> snd u = snd u'.
Proof.
  induction s as [t vs op e|an i b IH|c IHc p IHp]; intros bs r r' T T' x u u' D Hr HT H H'; cbn in *.
  - destruct (list_eqb_spec x (map r vs)) as [E|]; [|destruct H]. destruct (list_eqb_spec x (map r' vs)) as [E'|]; [|destruct H'].
    destruct H as [<-|[]], H' as [<-|[]]. cbn. apply neval_ext; auto. intros i I.
    destruct (in_dec Nat.eq_dec i bs) as [B|B]; [|auto].
    specialize (D i I B). rewrite E in E'. rewrite map_ext_in_iff in E'. auto.
  - destruct D as [N D]. apply in_flat_map in H as (c & _ & H). apply in_flat_map in H' as (c' & _ & H').
    apply (IH (i :: bs) (ext r i c) (ext r' i c') T T' x); auto.
    intros v W. cbn in W. unfold ext. destruct (Nat.eqb_spec v i); [subst; tauto|]. apply Hr. tauto.
  - destruct D as [D1 D]. eapply (IHc bs); [exact D|exact Hr| |exact H|exact H'].
    apply run_ext; [apply set_ext; auto|]. intros v I.
    destruct (in_dec Nat.eq_dec v bs) as [B|B]; [|auto]. specialize (D1 v I B).
    pose proof (determined_spine c bs v D B) as NS.
    destruct (hit _ _ _ _ _ v H D1 NS) as (k & K & L).
    (* the same position for both valuations *)
    assert (HIT2 : forall (c : stmt) r T x u k, In u (ups c r T x) -> nth_error (lhs c) k = Some v -> ~ In v (spine c) -> nth_error x k = Some (r v)).
    { clear. induction c as [t vs op e|an i b IH|c IHc p IHp]; intros r T x u k H Hv N; cbn in *.
      - destruct (list_eqb_spec x (map r vs)) as [->|]; [|destruct H]. rewrite nth_error_map, Hv. auto.
      - apply in_flat_map in H as (k' & _ & H). rewrite (IH _ _ _ _ k H Hv) by tauto. rewrite ext_other; auto.
      - eauto. }
    rewrite (HIT2 _ _ _ _ _ _ H' L NS) in K. congruence.
Qed.

(** Two statements with the same updates up to order. *)
Lemma same_effect : forall (s s' : stmt) r T, res s' = res s -> order_free1 s ->
  ~ In (res s) (rhs_reads s') -> ~ In (res s) (temps s') ->
  (forall x, Permutation (ups s r T x) (ups s' r T x)) -> eqT (run s' r T) (run s r T).
Proof.
  intros s s' r T E (O1 & O2 & O3) N N' P t x. destruct (Nat.eq_dec t (res s)) as [->|Ne].
  - rewrite <- E at 1. rewrite !run_ups by (rewrite ?E; auto). rewrite E. symmetry. apply apply_perm; auto.
    exists (op_of s). split; [intros; eapply ups_op; eauto|].
    intros EN u u' U U'. eapply (determined_same s []); eauto. apply eqT_refl.
  - rewrite !frame; auto. congruence.
Qed.

(** *** Loops *)
Lemma flat_map_swap : forall {B} (l l' : list nat) (f : nat -> nat -> list B),
  Permutation (flat_map (fun i => flat_map (f i) l') l) (flat_map (fun j => flat_map (fun i => f i j) l) l').
Proof.
  intros B. induction l as [|a l IH]; intros l' f; cbn.
  - induction l'; cbn; auto.
  - rewrite IH. clear IH. induction l' as [|b l' IH]; cbn; auto.
    rewrite <- IH. rewrite !app_assoc. apply Permutation_app_tail. rewrite <- !app_assoc. apply Permutation_app_head.
    apply Permutation_app_comm.
Qed.
Lemma flat_map_perm : forall {B} (l : list nat) (f g : nat -> list B),
  (forall c, In c l -> Permutation (f c) (g c)) -> Permutation (flat_map f l) (flat_map g l).
Proof. induction l; cbn; intros; auto. apply Permutation_app; auto. Qed.

Lemma ups_foralls_perm : forall is js (b : stmt), Permutation is js -> NoDup is ->
  forall r T x, Permutation (ups (foralls is b) r T x) (ups (foralls js b) r T x).
Proof.
  intros is js b P. induction P; intros N r T x0; auto.
  - inversion N; subst. cbn. apply flat_map_perm. intros. apply IHP. auto.
  - inversion N as [|? ? H1 N1]; subst. cbn. rewrite flat_map_swap. apply flat_map_perm. intros d _. apply flat_map_perm. intros c _.
    erewrite ups_ext; [apply Permutation_refl|apply eqT_refl|]. intros k _. apply ext_swap. intro; subst; apply H1; left; auto.
  - etransitivity; [apply IHP1; auto|apply IHP2]. eapply Permutation_NoDup; eauto.
Qed.
Lemma foralls_res : forall is (b : stmt), res (foralls is b) = res b. Proof. induction is; cbn; auto. Qed.
Lemma foralls_reads : forall is (b : stmt), rhs_reads (foralls is b) = rhs_reads b. Proof. induction is; cbn; auto. Qed.
Lemma foralls_temps : forall is (b : stmt), temps (foralls is b) = temps b. Proof. induction is; cbn; auto. Qed.

(** Reordering the loops of a nest. *)
Lemma reorder_nest : forall is js (b : stmt) r T, Permutation is js -> NoDup is -> order_free1 (foralls is b) ->
  eqT (run (foralls js b) r T) (run (foralls is b) r T).
Proof.
  intros is js b r T P N O. apply same_effect; auto.
  - rewrite !foralls_res. auto.
  - destruct O as (O & _). rewrite foralls_res, foralls_reads in *. auto.
  - destruct O as (_ & O & _). rewrite foralls_res, foralls_temps in *. auto.
  - intros x. apply ups_foralls_perm; auto.
Qed.
End P.
