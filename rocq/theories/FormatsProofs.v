(** Proofs about formats. *)
From Coq Require Import List Arith Bool Lia.
Import ListNotations.
From Verif Require Import Formats FormatsSpec.

Lemma copy_class : forall i ps, class (copy i ps) = class i.
Proof.
  intros i ps. unfold copy. destruct (class i) eqn:E.
  - destruct (fold_left set_dense ps _) as [[o u] z]. reflexivity.
  - destruct (fold_left set_compressed ps _) as [[[f o] u] z]. reflexivity.
  - destruct (fold_left set_singleton ps _) as [[[[f o] u] z] p]. reflexivity.
Qed.
(** What the class fixes. *)
Lemma made_fixed : forall i, made i ->
  compact i = true /\
  match class i with
  | DenseK => full i = true /\ branchless i = false /\ padded i = true
  | CompressedK => branchless i = false /\ padded i = false
  | SingletonK => branchless i = true
  end.
Proof.
  intros i M. induction M as [| | |i ps M IH]; try (cbn; repeat split; reflexivity).
  unfold copy. destruct (class i).
  - destruct (fold_left set_dense ps _) as [[o u] z]. cbn. repeat split.
  - destruct (fold_left set_compressed ps _) as [[[f o] u] z]. cbn. repeat split.
  - destruct (fold_left set_singleton ps _) as [[[[f o] u] z] p]. cbn. repeat split.
Qed.

(** One step of a copy function, and the attribute of a state. *)
Lemma copy_nil : forall i, made i -> copy i [] = i.
Proof.
  intros i M. destruct (made_fixed i M) as [C F].
  destruct i as [k f o u br c z p]. unfold copy; cbn in *.
  destruct k; cbn in *; subst; [destruct F as (-> & -> & ->)|destruct F as (-> & ->)|idtac]; reflexivity.
Qed.
Lemma copy_cons : forall i p ps, copy i (p :: ps) = copy (copy i [p]) ps.
Proof.
  intros i [a b] ps. unfold copy. destruct (class i) eqn:E.
  - destruct a; reflexivity.
  - destruct a; reflexivity.
  - destruct a; reflexivity.
Qed.
Lemma copy_one : forall i a b, made i -> forall a',
  is (Some (copy i [(a, b)])) a' =
  match a, a' with
  | Ordered, Ordered | Unique, Unique | Zeroless, Zeroless => Some b
  | Full, Full => match class i with DenseK => is (Some i) a' | _ => Some b end
  | Padded, Padded => match class i with SingletonK => Some b | _ => is (Some i) a' end
  | _, _ => is (Some i) a'
  end.
Proof.
  intros i a b M a'. destruct (made_fixed i M) as [C F].
  destruct i as [k f o u br c z p]. unfold copy; cbn in *.
  destruct k; cbn in *; subst; [destruct F as (-> & -> & ->)|destruct F as (-> & ->)|idtac];
    destruct a, a'; reflexivity.
Qed.
Definition attribute_eq_dec : forall a b : attribute, {a = b} + {a <> b}.
Proof. decide equality. Defined.
Lemma copy_same : forall i a b, made i -> configurable (class i) a ->
  is (Some (copy i [(a, b)])) a = Some b.
Proof.
  intros i a b M C. rewrite copy_one by exact M.
  destruct a, (class i); cbn in *; try reflexivity; contradiction.
Qed.
Lemma copy_other : forall i a b a', made i -> a <> a' \/ ~ configurable (class i) a ->
  is (Some (copy i [(a, b)])) a' = is (Some i) a'.
Proof.
  intros i a b a' M C. rewrite copy_one by exact M.
  destruct a, a', (class i); cbn in *; try reflexivity; destruct C as [C|C]; try congruence; exfalso; now apply C.
Qed.

Lemma kept : forall ps i a, made i -> (forall b, In (a, b) ps -> ~ configurable (class i) a) ->
  is (Some (copy i ps)) a = is (Some i) a.
Proof.
  induction ps as [|[a' b'] ps IH]; intros i a M N; [now rewrite copy_nil|].
  rewrite copy_cons, IH.
  - apply copy_other; [exact M|]. destruct (attribute_eq_dec a' a) as [->|D]; [|now left].
    right. apply (N b'). now left.
  - now apply made_variant.
  - intros b I. rewrite copy_class. apply (N b). now right.
Qed.
Lemma requested : forall ps i a b, made i -> configurable (class i) a -> last_request a b ps ->
  is (Some (copy i ps)) a = Some b.
Proof.
  intros ps i a b M C L. revert i M C. induction L as [ps N|p ps L IH]; intros i M C; rewrite copy_cons.
  - rewrite kept; [now apply copy_same|now apply made_variant|]. intros c I. now apply N in I.
  - apply IH; [now apply made_variant|]. now rewrite copy_class.
Qed.
Lemma last_exists : forall ps a b, In (a, b) ps -> exists c, In (a, c) ps /\ last_request a c ps.
Proof.
  induction ps as [|[a' b'] ps IH]; intros a b I; [destruct I|].
  assert (D : (exists c, In (a, c) ps) \/ forall c, ~ In (a, c) ps).
  { destruct (in_dec (fun x y : property =>
       ltac:(decide equality; [apply bool_dec|apply attribute_eq_dec])) (a, true) ps) as [T|T];
      [left; now exists true|].
    destruct (in_dec (fun x y : property =>
       ltac:(decide equality; [apply bool_dec|apply attribute_eq_dec])) (a, false) ps) as [U|U];
      [left; now exists false|].
    right. intros [|]; assumption. }
  destruct D as [[c K]|N].
  - destruct (IH a c K) as (d & K1 & K2). exists d. split; [now right|now constructor].
  - destruct I as [E|I]; [|now apply N in I]. injection E as -> ->.
    exists b. split; [now left|now constructor].
Qed.
Lemma has_spec : forall i ps, has_properties (Some i) ps = Some true <->
  forall a b, In (a, b) ps -> is (Some i) a = Some b.
Proof.
  intros i. induction ps as [|[a b] ps IH]; [split; [intros _ a b []|reflexivity]|].
  cbn [has_properties]. destruct (is (Some i) a) as [x|] eqn:E; [|discriminate].
  destruct (Bool.eqb x b) eqn:B.
  - apply eqb_prop in B. subst x. rewrite IH. split.
    + intros H a' b' [I|I]; [injection I as <- <-; exact E|now apply H].
    + intros H a' b' I. apply H. now right.
  - split; [discriminate|]. intros H. specialize (H a b (or_introl eq_refl)).
    rewrite E in H. injection H as ->. rewrite eqb_reflx in B. discriminate.
Qed.
Lemma has_defined : forall i ps, has_properties (Some i) ps <> None.
Proof.
  intros i. induction ps as [|[a b] ps IH]; [discriminate|]. cbn [has_properties is].
  destruct (Bool.eqb _ b); [exact IH|discriminate].
Qed.

(** ** Equality *)
Lemma impl_eqb_spec : forall a b, impl_eqb a b = true <-> alike a b.
Proof.
  intros a b. unfold impl_eqb, alike. rewrite !andb_true_iff, !eqb_true_iff. split.
  - intros (K & (((((A & B) & C) & D) & E) & F)). split.
    + destruct (class a), (class b); try reflexivity; discriminate.
    + intros [] N; cbn; congruence.
  - intros (K & H). split; [rewrite K; destruct (class b); reflexivity|].
    repeat split.
    + assert (X := H Full ltac:(discriminate)); cbn in X; congruence.
    + assert (X := H Ordered ltac:(discriminate)); cbn in X; congruence.
    + assert (X := H Unique ltac:(discriminate)); cbn in X; congruence.
    + assert (X := H Branchless ltac:(discriminate)); cbn in X; congruence.
    + assert (X := H Compact ltac:(discriminate)); cbn in X; congruence.
    + assert (X := H Zeroless ltac:(discriminate)); cbn in X; congruence.
Qed.
Lemma list_eqb_spec : forall A (eqb : A -> A -> bool) (R : A -> A -> Prop),
  (forall x y, eqb x y = true <-> R x y) ->
  forall a b, list_eqb eqb a b = true <-> Forall2 R a b.
Proof.
  intros A eqb R H. induction a as [|x a IH]; intros [|y b]; cbn; split; intros K;
    try discriminate; try inversion K; subst; auto.
  - apply andb_true_iff in K as [K1 K2]. constructor; [now apply H|now apply IH].
  - apply andb_true_iff. split; [now apply H|now apply IH].
Qed.
Lemma Forall2_eq : forall A (a b : list A), Forall2 eq a b <-> a = b.
Proof.
  intros A a b. split.
  - intros H. induction H; congruence.
  - intros ->. induction b; constructor; auto.
Qed.
Lemma nats_eqb : forall a b, list_eqb Nat.eqb a b = true <-> a = b.
Proof.
  intros a b. rewrite (list_eqb_spec _ Nat.eqb eq Nat.eqb_eq). apply Forall2_eq.
Qed.
Lemma format_eqb_spec : forall f g, format_eqb f g = true <-> same_layout f g.
Proof.
  intros f g. unfold format_eqb, same_layout. rewrite !andb_true_iff, !Nat.eqb_eq, nats_eqb.
  rewrite (list_eqb_spec _ pack_eqb (Forall2 alike)
             (list_eqb_spec _ impl_eqb alike impl_eqb_spec) (packs f) (packs g)).
  split; [tauto|]. intros [O P]. repeat split; try assumption; [|now rewrite O].
  clear O. induction P; cbn; congruence.
Qed.
Lemma alike_refl : forall a, alike a a.
Proof. intros a. split; reflexivity. Qed.
Lemma alike_sym : forall a b, alike a b -> alike b a.
Proof. intros a b [H K]. split; [now symmetry|]. intros p N. symmetry. now apply K. Qed.
Lemma alike_trans : forall a b c, alike a b -> alike b c -> alike a c.
Proof.
  intros a b c [H K] [H' K']. split; [congruence|]. intros p N. rewrite (K p N). now apply K'.
Qed.
Lemma Forall2_refl' : forall A (R : A -> A -> Prop), (forall x, R x x) -> forall l, Forall2 R l l.
Proof. intros A R H. induction l; constructor; auto. Qed.
Lemma Forall2_sym' : forall A (R : A -> A -> Prop), (forall x y, R x y -> R y x) ->
  forall a b, Forall2 R a b -> Forall2 R b a.
Proof. intros A R H a b K. induction K; constructor; auto. Qed.
Lemma Forall2_trans' : forall A (R : A -> A -> Prop), (forall x y z, R x y -> R y z -> R x z) ->
  forall a b c, Forall2 R a b -> Forall2 R b c -> Forall2 R a c.
Proof.
  intros A R H a b c K. revert c. induction K; intros c L; inversion L; subst; constructor; eauto.
Qed.
Lemma layout_refl : forall f, same_layout f f.
Proof. intros f. split; [reflexivity|]. apply Forall2_refl', Forall2_refl', alike_refl. Qed.
Lemma layout_sym : forall f g, same_layout f g -> same_layout g f.
Proof.
  intros f g [O P]. split; [now symmetry|]. revert P. apply Forall2_sym', Forall2_sym', alike_sym.
Qed.
Lemma layout_trans : forall f g h, same_layout f g -> same_layout g h -> same_layout f h.
Proof.
  intros f g h [O P] [O' P']. split; [congruence|]. revert P P'. apply Forall2_trans', Forall2_trans', alike_trans.
Qed.

(** ** Coordinate formats *)
Lemma make_packs_some : forall l, make_packs (map (fun i => [Some i]) l) = Some (map (fun i => [i]) l).
Proof. induction l as [|i l IH]; cbn; [reflexivity|]. now rewrite IH. Qed.
Lemma concat_single : forall A (l : list A), concat (map (fun i => [i]) l) = l.
Proof. induction l as [|i l IH]; cbn; congruence. Qed.
Definition coo_levels (n : nat) (u o : bool) : list impl :=
  copy Compressed [(Ordered, o); (Unique, (n =? 1) && u)] ::
  if 1 <? n
  then repeat (copy Singleton [(Ordered, o); (Unique, false)]) (n - 2) ++
       [copy Singleton [(Ordered, o); (Unique, u)]]
  else [].
Lemma coo_levels_length : forall n u o, n <> 0 -> length (coo_levels n u o) = n.
Proof.
  intros n u o N. unfold coo_levels. cbn [length]. destruct (1 <? n) eqn:E.
  - apply Nat.ltb_lt in E. rewrite app_length, repeat_length. cbn. lia.
  - apply Nat.ltb_ge in E. cbn. lia.
Qed.
Lemma map_repeat' : forall A B (g : A -> B) x n, map g (repeat x n) = repeat (g x) n.
Proof. intros A B g x. induction n as [|n IH]; cbn; congruence. Qed.
Lemma coo_make : forall n u o l, n <> 0 -> (l = [] \/ length l = n) ->
  coo n u o false l =
  Some {| packs := map (fun i => [i]) (coo_levels n u o);
          ordering := match l with [] => seq 0 n | _ => l end; level_types := [] |}.
Proof.
  intros n u o l N L. unfold coo. destruct (Nat.eqb_spec n 0) as [E|_]; [contradiction|].
  replace (negb match l with [] => true | _ => length l =? n end) with false.
  2: { destruct l as [|x l]; [reflexivity|]. destruct L as [L|L]; [discriminate|].
       rewrite L, Nat.eqb_refl. reflexivity. }
  cbv zeta.
  assert (E : [Some (copy Compressed [(Ordered, o); (Unique, (n =? 1) && u)])] ::
     (if 1 <? n then repeat [Some (copy Singleton [(Ordered, o); (Unique, false)])] (n - 2) ++
        [[Some (copy Singleton [(Ordered, o); (Unique, u)])]] else []) =
     map (fun i => [Some i]) (coo_levels n u o)).
  { unfold coo_levels. cbn [map]. f_equal. destruct (1 <? n); [|reflexivity].
    rewrite map_app, map_repeat'. reflexivity. }
  rewrite E. unfold make_format. rewrite make_packs_some, concat_single, coo_levels_length by exact N.
  destruct l as [|x l]; [reflexivity|]. destruct L as [L|L]; [discriminate|].
  rewrite <- L at 1. rewrite Nat.eqb_refl. reflexivity.
Qed.
Lemma coo_nth : forall n u o k d, k < n ->
  nth k (coo_levels n u o) d =
  if k =? 0 then copy Compressed [(Ordered, o); (Unique, (n =? 1) && u)]
  else copy Singleton [(Ordered, o); (Unique, (S k =? n) && u)].
Proof.
  intros n u o k d L. unfold coo_levels. destruct k as [|k]; [reflexivity|].
  change (S k =? 0) with false. cbn [nth]. cbv iota. replace (1 <? n) with true by (symmetry; apply Nat.ltb_lt; lia).
  destruct (Nat.eqb_spec (S (S k)) n) as [E|E].
  - rewrite app_nth2; rewrite repeat_length; [|lia]. replace (k - (n - 2)) with 0 by lia. reflexivity.
  - rewrite app_nth1 by (rewrite repeat_length; lia).
    rewrite (nth_indep _ d (copy Singleton [(Ordered, o); (Unique, false)])) by (rewrite repeat_length; lia).
    rewrite nth_repeat. reflexivity.
Qed.

(** ** The cache *)
Section Cache.
  Variable module : Type.
  Variable generate : format -> nat -> list nat -> module.
  Hypothesis layout_only : forall f g t ds, same_layout f g -> generate f t ds = generate g t ds.
  Definition sound (c : list (entry module)) : Prop :=
    forall f t ds m, In (f, t, ds, m) c -> m = generate f t ds.
  Lemma lookup_sound : forall c f t ds m, sound c -> lookup module c f t ds = Some m -> m = generate f t ds.
  Proof.
    induction c as [|[[[f' t'] ds'] m'] c IH]; intros f t ds m S L; [discriminate|]. cbn in L.
    destruct (lookup module c f t ds) as [m2|] eqn:K.
    - injection L as <-. apply (IH f t ds m2); [|exact K]. intros f0 t0 d0 m0 I. apply S. now right.
    - destruct (format_eqb f' f && (t' =? t) && list_eqb Nat.eqb ds' ds) eqn:E; [|discriminate].
      injection L as <-. apply andb_true_iff in E as [E E3]. apply andb_true_iff in E as [E1 E2].
      apply format_eqb_spec in E1. apply Nat.eqb_eq in E2. apply nats_eqb in E3. subst t' ds'.
      rewrite (S f' t ds m' (or_introl eq_refl)). now apply layout_only.
  Qed.
  Lemma helpers_sound : forall c f t ds, sound c ->
    fst (helpers module generate c f t ds) = generate f t ds /\
    sound (snd (helpers module generate c f t ds)).
  Proof.
    intros c f t ds S. unfold helpers. destruct (lookup module c f t ds) as [m|] eqn:L; cbn.
    - split; [now apply (lookup_sound c)|exact S].
    - split; [reflexivity|]. intros f0 t0 d0 m0 I. apply in_app_or in I as [I|[I|[]]]; [now apply S|].
      injection I as <- <- <- <-. reflexivity.
  Qed.
  Lemma serve_sound : forall rs c, sound c -> sound (serve module generate c rs).
  Proof.
    induction rs as [|[[f t] ds] rs IH]; intros c S; cbn; [exact S|]. apply IH. now apply helpers_sound.
  Qed.
End Cache.
