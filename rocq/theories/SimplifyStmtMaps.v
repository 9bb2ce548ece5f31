(** Facts about scoped maps and about the invalidation of copies. *)
From Coq Require Import List ZArith Lia Bool.
From Verif Require Import Outcome Types Simplify SimplifyStmt.
Import ListNotations.
Local Open Scope nat_scope.

Section Maps.
Context {V : Type}.
Notation smap := (smap V).
Definition keys (m : smap) : list nat := map fst (concat m).

Lemma assoc_in x v : forall s : list (nat * V), assoc x s = Some v -> In (x, v) s.
Proof.
  induction s as [|[y w] s IH]; cbn; [discriminate|]. destruct (Nat.eqb_spec y x); [intros [= ->]; subst; auto|auto].
Qed.
Lemma assoc_none x : forall s : list (nat * V), assoc x s = None -> forall v, ~ In (x, v) s.
Proof.
  induction s as [|[y w] s IH]; cbn; [auto|]. destruct (Nat.eqb_spec y x); [discriminate|].
  intros E v [[= <- _]|H]; [congruence|]. eapply IH; eauto.
Qed.
Lemma assoc_complete x v : forall s : list (nat * V), NoDup (map fst s) -> In (x, v) s -> assoc x s = Some v.
Proof.
  induction s as [|[y w] s IH]; cbn; [contradiction|]. intros N [[= -> ->]|H].
  - rewrite Nat.eqb_refl. reflexivity.
  - inversion N; subst. destruct (Nat.eqb_spec y x); [|auto]. subst. exfalso. apply H2. apply (in_map fst) in H. exact H.
Qed.
Lemma NoDup_app_inv {A} (a b : list A) : NoDup (a ++ b) -> NoDup a /\ NoDup b /\ forall x, In x a -> ~ In x b.
Proof.
  induction a as [|x a IH]; cbn; intro N; [repeat split; auto; constructor|]. inversion N; subst.
  destruct (IH H2) as (A1 & B1 & D). repeat split; auto.
  - constructor; auto. intro. apply H1. apply in_or_app. auto.
  - intros y [->|Hy] Hb; [apply H1; apply in_or_app; auto|eapply D; eauto].
Qed.
Lemma get_in x v : forall m : smap, get x m = Some v -> In (x, v) (concat m).
Proof.
  induction m as [|s m IH]; cbn; [discriminate|]. destruct (assoc x s) eqn:E.
  - intros [= ->]. apply in_or_app. left. apply assoc_in; auto.
  - intro. apply in_or_app. auto.
Qed.
Lemma get_complete x v : forall m : smap, NoDup (keys m) -> In (x, v) (concat m) -> get x m = Some v.
Proof.
  unfold keys. induction m as [|s m IH]; cbn; [contradiction|]. rewrite map_app. intros N H. apply NoDup_app_inv in N as (N1 & N2 & D).
  apply in_app_or in H as [H|H].
  - rewrite (assoc_complete x v s N1 H). reflexivity.
  - destruct (assoc x s) eqn:E; [|auto]. exfalso. apply assoc_in in E. apply (in_map fst) in E, H. eapply D; eauto.
Qed.
Lemma get_none x : forall m : smap, get x m = None -> forall v, ~ In (x, v) (concat m).
Proof.
  induction m as [|s m IH]; cbn; [auto|]. destruct (assoc x s) eqn:E; [discriminate|]. intros G v H.
  apply in_app_or in H as [H|H]; [eapply assoc_none; eauto|eapply IH; eauto].
Qed.

Lemma filter_keys x : forall s : list (nat * V), incl (map fst (filter (fun p => negb (fst p =? x)) s)) (map fst s).
Proof. intros s y H. apply in_map_iff in H as (p & <- & Hp). apply filter_In in Hp as (Hp & _). apply in_map. auto. Qed.
Lemma filter_nodup x : forall s : list (nat * V), NoDup (map fst s) -> NoDup (map fst (filter (fun p => negb (fst p =? x)) s)).
Proof.
  induction s as [|[y w] s IH]; cbn; auto. intro N. inversion N; subst. destruct (y =? x); cbn; auto.
  constructor; auto. intro H. apply H1. eapply filter_keys; eauto.
Qed.
(** [sub m' m]: the same scopes with fewer entries. *)
Definition sub : smap -> smap -> Prop := Forall2 (@incl (nat * V)).
Lemma sub_refl m : sub m m.
Proof. induction m; constructor; auto. apply incl_refl. Qed.
Lemma sub_trans a b c : sub a b -> sub b c -> sub a c.
Proof.
  intro H. revert c. induction H; intros c Hc; inversion Hc; subst; constructor; auto.
  - eapply incl_tran; eauto.
  - apply IHForall2; auto.
Qed.
Lemma sub_in a b p : sub a b -> In p (concat a) -> In p (concat b).
Proof.
  intro H. induction H; cbn; auto. intro Hin. apply in_app_or in Hin as [Hin|Hin]; apply in_or_app; auto.
Qed.
Lemma sub_tl a b : sub a b -> sub (tl a) (tl b).
Proof. intro H. destruct H; [constructor|assumption]. Qed.
Lemma sub_hd a b : sub a b -> incl (hd [] a) (hd [] b).
Proof. intro H. destruct H; cbn; auto. apply incl_refl. Qed.
Lemma sub_ne a b : sub a b -> b <> [] -> a <> [].
Proof. intros H N ->. inversion H; subst. congruence. Qed.
Lemma remove_sub x : forall m : smap, sub (remove x m) m.
Proof.
  induction m as [|s m IH]; cbn; [constructor|]. destruct (assoc x s).
  - constructor; [|apply sub_refl]. intros p H. apply filter_In in H. tauto.
  - constructor; auto. apply incl_refl.
Qed.
Lemma remove_keys x : forall m : smap, incl (keys (remove x m)) (keys m).
Proof. intros m y H. apply in_map_iff in H as (p & <- & Hp). apply in_map. eapply sub_in; [apply remove_sub|]. exact Hp. Qed.
Lemma nodup_app {A} (a b : list A) : NoDup a -> NoDup b -> (forall x, In x a -> ~ In x b) -> NoDup (a ++ b).
Proof.
  induction a as [|x a IH]; cbn; auto. intros N1 N2 D. inversion N1; subst. constructor.
  - intro H. apply in_app_or in H as [H|H]; auto. eapply D; eauto.
  - apply IH; auto.
Qed.
Lemma remove_nodup x : forall m : smap, NoDup (keys m) -> NoDup (keys (remove x m)).
Proof.
  unfold keys. induction m as [|s m IH]; cbn; auto. rewrite map_app. intro N. apply NoDup_app_inv in N as (N1 & N2 & D).
  destruct (assoc x s); cbn; rewrite map_app; apply nodup_app; auto.
  - apply filter_nodup; auto.
  - intros y Hy. apply D. eapply filter_keys; eauto.
  - intros y Hy H. eapply D; eauto. eapply remove_keys; eauto.
Qed.
Lemma remove_gone x : forall m : smap, NoDup (keys m) -> ~ In x (keys (remove x m)).
Proof.
  unfold keys. induction m as [|s m IH]; cbn; auto. rewrite map_app. intro N. apply NoDup_app_inv in N as (N1 & N2 & D).
  destruct (assoc x s) eqn:E; cbn; rewrite map_app; intro H; apply in_app_or in H as [H|H].
  - apply in_map_iff in H as (p & E1 & Hp). apply filter_In in Hp as (_ & Hp). rewrite E1, Nat.eqb_refl in Hp. discriminate.
  - apply assoc_in in E. apply (in_map fst) in E. eapply D; eauto.
  - apply in_map_iff in H as ([y w] & E1 & Hp). cbn in E1. subst. eapply assoc_none; eauto.
  - eapply IH; eauto.
Qed.
Lemma remove_keeps x p : forall m : smap, In p (concat m) -> fst p <> x -> In p (concat (remove x m)).
Proof.
  induction m as [|s m IH]; cbn; auto. intros H N. destruct (assoc x s); cbn; apply in_app_or in H as [H|H]; apply in_or_app; auto.
  left. apply filter_In. split; auto. apply Nat.eqb_neq in N. rewrite N. reflexivity.
Qed.
End Maps.

(** *** Invalidation *)
Section Invalidate.
Variable deps : list (nat * nat).
Notation map_ := (smap (kind * nat)).
Definition drop (v : nat) (m : map_) : map_ := if contains v m then remove v m else m.
Lemma drop_sub v m : sub (drop v m) m.
Proof. unfold drop. destruct (contains v m); [apply remove_sub|apply sub_refl]. Qed.
Lemma drop_nodup v m : NoDup (keys m) -> NoDup (keys (drop v m)).
Proof. unfold drop. destruct (contains v m); auto using remove_nodup. Qed.
Lemma drop_gone v m : NoDup (keys m) -> ~ In v (keys (drop v m)).
Proof.
  unfold drop, contains. intro N. destruct (get v m) eqn:E; [apply remove_gone; auto|].
  intro H. apply in_map_iff in H as ([y w] & E1 & Hp). cbn in E1. subst. eapply get_none; eauto.
Qed.
Lemma drop_keeps v m p : In p (concat m) -> fst p <> v -> In p (concat (drop v m)).
Proof. unfold drop. destruct (contains v m); auto using remove_keeps. Qed.

Lemma invalidate_sub : forall n q m m', invalidate n q deps m = Val m' -> sub m' m.
Proof.
  induction n as [|n IH]; cbn; intros q m m' E; [discriminate|]. destruct q as [|v q]; [injection E as ->; apply sub_refl|].
  eapply sub_trans; [eapply IH; exact E|apply drop_sub].
Qed.
Lemma invalidate_nodup : forall n q m m', invalidate n q deps m = Val m' -> NoDup (keys m) -> NoDup (keys m').
Proof.
  induction n as [|n IH]; cbn; intros q m m' E N; [discriminate|]. destruct q as [|v q]; [injection E as ->; auto|].
  eapply IH; [exact E|]. apply (drop_nodup v m N).
Qed.
Lemma sub_keys (a b : map_) : sub a b -> incl (keys a) (keys b).
Proof. intros S x H. apply in_map_iff in H as (p & <- & Hp). apply in_map. eapply sub_in; eauto. Qed.
Lemma invalidate_gone : forall n q m m', invalidate n q deps m = Val m' -> NoDup (keys m) ->
  forall x, In x q -> ~ In x (keys m').
Proof.
  induction n as [|n IH]; cbn; intros q m m' E N x Hx; [discriminate|]. destruct q as [|v q]; [contradiction|].
  destruct Hx as [->|Hx].
  - intro H. apply (drop_gone x m N). eapply sub_keys; [eapply invalidate_sub; exact E|]. exact H.
  - eapply IH; [exact E|apply (drop_nodup v m N)|]. apply in_or_app. auto.
Qed.
Lemma invalidate_gone_deps : forall n q m m', invalidate n q deps m = Val m' -> NoDup (keys m) ->
  forall v x, In v q -> In (v, x) deps -> ~ In x (keys m').
Proof.
  induction n as [|n IH]; cbn; intros q m m' E N v x Hv Hd; [discriminate|]. destruct q as [|w q]; [contradiction|].
  destruct Hv as [->|Hv].
  - eapply invalidate_gone; [exact E|apply (drop_nodup v m N)|]. apply in_or_app. right.
    apply in_map_iff. exists (v, x). split; auto. apply filter_In. split; auto. cbn. apply Nat.eqb_refl.
  - eapply IH; [exact E|apply (drop_nodup w m N)| |exact Hd]. apply in_or_app. auto.
Qed.
Variable R : nat -> nat -> Prop.
Hypothesis R_trans : forall x y z, R x y -> R y z -> R x z.
Hypothesis R_deps : forall y x, In (y, x) deps -> R x y.
Lemma invalidate_killed : forall n q m m', invalidate n q deps m = Val m' ->
  forall p, In p (concat m) -> In p (concat m') \/ exists v, In v q /\ (fst p = v \/ R (fst p) v).
Proof.
  induction n as [|n IH]; cbn; intros q m m' E p Hp; [discriminate|]. destruct q as [|v q]; [injection E as ->; auto|].
  destruct (Nat.eq_dec (fst p) v) as [Ev|Ev]; [right; exists v; cbn; auto|].
  destruct (IH _ _ _ E p (drop_keeps v m p Hp Ev)) as [H|(w & Hw & H)]; auto.
  right. apply in_app_or in Hw as [Hw|Hw]; [exists w; cbn; auto|].
  apply in_map_iff in Hw as ([v' w'] & E1 & Hw). apply filter_In in Hw as (Hd & E2). cbn in E1, E2. subst w'.
  apply Nat.eqb_eq in E2. subst v'. apply R_deps in Hd. exists v. split; [left; auto|]. right.
  destruct H as [->|H]; eauto.
Qed.
End Invalidate.
