(** Proofs about transposing, comparing, wrapping arrays and removing values
    (Tensor.v). *)
From Coq Require Import List Arith ZArith Lia Bool Sorting.Sorted Permutation Ring_theory Ring.
Import ListNotations.
From Verif Require Import Outcome Storage Eval StorageProofs StorageMore PackKernel Compare Tensor TensorSpec PackKernelProofs TensorProofs TensorMore.
Local Open Scope nat_scope.
Local Arguments list_eq_dec : simpl never.

Lemma last_comp_depth : forall kinds dims, length kinds = length dims -> last kinds KDense = KComp ->
  comp_depth (combine kinds dims) = length kinds.
Proof.
  induction kinds as [|k ks IH]; intros [|d dims] L H; cbn in L; try discriminate.
  cbn [combine comp_depth length]. destruct ks as [|k2 ks].
  - cbn in H. subst. cbn. destruct dims; auto.
  - rewrite IH; auto.
Qed.

Section Ops.
Context {V : Type}.
Variable R : ring_ops V.
Hypothesis HR : ring_theory (r0 R) (r1 R) (radd R) (rmul R) (rsub R) (ropp R) eq.
Add Ring VRing4 : HR.
Notation row := (@Storage.row V).
Notation tensor := (@tensor V).
Variable sort : list row -> list row.
Hypothesis SORT : sorts sort.

Lemma last_stored : forall dims kinds ord (rows : list row), format_ok dims kinds ord -> dims <> [] ->
  (forall r, In r rows -> in_range dims (fst r)) -> last kinds KDense = KComp ->
  forall cs, In cs (map fst (iterate R (fresh R sort dims kinds ord rows))) <-> In cs (map fst rows).
Proof.
  intros dims kinds ord rows OK NE IR LK cs. rewrite (fresh_stored R HR sort SORT) by auto.
  assert (MO : mode_order ord (length dims)) by apply OK.
  assert (CD : comp_depth (fmt dims kinds ord) = length dims).
  { unfold fmt. rewrite last_comp_depth; auto; [apply OK|]. rewrite (permute_length _ _ MO). apply OK. }
  rewrite CD. split.
  - intros (RC & [H|(r & Hr & H)]); [destruct dims; [congruence|discriminate]|].
    rewrite !firstn_all2 in H by (rewrite (permute_length _ _ MO); auto). apply (permute_inj _ _ MO) in H.
    + subst. apply in_map. auto.
    + specialize (IR r Hr). apply in_range_nth in IR. tauto.
    + apply in_range_nth in RC. tauto.
  - intros H. apply in_map_iff in H. destruct H as (r & <- & Hr). split; auto. right. exists r. auto.
Qed.

(** ** Transposition *)
Definition moved (modes : list nat) (rows : list row) : list row := map (fun c : row => (permute modes (fst c), snd c)) rows.

Lemma transpose_eq : forall modes kinds ord (t : tensor), is_packed t -> permute modes (t_dims t) <> [] ->
  transpose R sort modes kinds ord t = Val (fresh R sort (permute modes (t_dims t)) kinds ord (moved modes (iterate R t))).
Proof.
  intros modes kinds ord t P NE. unfold transpose. rewrite (p_pack R sort t P). cbn [obind].
  rewrite <- (fresh_run R sort _ kinds ord (moved modes (iterate R t)) NE). f_equal. f_equal. unfold moved. rewrite map_map. auto.
Qed.
Lemma permute_ne : forall modes (t : tensor), is_packed t -> mode_order modes (length (t_dims t)) -> permute modes (t_dims t) <> [].
Proof.
  intros modes t (_ & NE & _) MO E. apply (f_equal (@length nat)) in E. rewrite (permute_length _ _ MO) in E. cbn in E.
  destruct (t_dims t); [congruence|discriminate].
Qed.
Lemma moved_range : forall modes (t : tensor), is_packed t -> mode_order modes (length (t_dims t)) ->
  forall r, In r (moved modes (iterate R t)) -> in_range (permute modes (t_dims t)) (fst r).
Proof.
  intros modes t P MO r Hr. apply in_map_iff in Hr. destruct Hr as (x & <- & Hx). cbn [fst].
  apply (in_range_permute _ _ MO); auto; [apply (p_len R t P); auto|apply (p_range R t P); auto].
Qed.
Lemma moved_ok : forall modes kinds ord (t : tensor), is_packed t -> mode_order modes (length (t_dims t)) ->
  length kinds = length (t_dims t) -> mode_order ord (length (t_dims t)) -> format_ok (permute modes (t_dims t)) kinds ord.
Proof.
  intros modes kinds ord t P MO LK MO2. unfold format_ok. rewrite (permute_length _ _ MO). split; auto. split; auto.
  apply Forall_forall. intros d Hd. unfold permute in Hd. apply in_map_iff in Hd. destruct Hd as (m & <- & Hm).
  apply (mo_in _ _ MO) in Hm. destruct P as ((_ & _ & D) & _). rewrite Forall_forall in D. apply D. apply nth_In. auto.
Qed.

Lemma transpose_ok : forall modes kinds ord (t : tensor), is_packed t -> mode_order modes (length (t_dims t)) ->
  length kinds = length (t_dims t) -> mode_order ord (length (t_dims t)) ->
  exists t', transpose R sort modes kinds ord t = Val t' /\ is_packed t' /\
    t_dims t' = permute modes (t_dims t) /\ t_kinds t' = kinds /\ t_ord t' = ord /\
    forall cs, in_range (t_dims t) cs -> tvalue R t' (permute modes cs) = tvalue R t cs.
Proof.
  intros modes kinds ord t P MO LK MO2. rewrite transpose_eq by (auto; apply permute_ne; auto).
  eexists. split; [reflexivity|].
  assert (OK := moved_ok modes kinds ord t P MO LK MO2). assert (NE := permute_ne modes t P MO).
  assert (MR := moved_range modes t P MO).
  split; [apply (fresh_packed R HR sort SORT); auto|]. repeat split; auto.
  intros cs RC. rewrite (fresh_value R HR sort SORT); auto.
  - rewrite <- (p_value R HR t P cs RC). unfold moved. apply inserted_map. intros r Hr E.
    apply (permute_inj _ _ MO) in E; auto; [apply (p_len R t P); auto|apply in_range_nth in RC; tauto].
  - apply (in_range_permute _ _ MO); auto. apply in_range_nth in RC. tauto.
Qed.

Lemma undo_permute : forall back modes n cs, undoes back modes n -> length cs = n -> permute back (permute modes cs) = cs.
Proof.
  intros back modes n cs (MB & MM & U) L. apply (list_ext n); auto; [apply (permute_length _ _ MB)|].
  intros m Hm. rewrite (nth_permute _ _ MB) by auto. rewrite (nth_permute _ _ MM) by (apply (mo_lt _ _ MB); auto). rewrite U; auto.
Qed.
Lemma undo_sym : forall back modes n, undoes back modes n -> undoes modes back n.
Proof.
  intros back modes n (MB & MM & U). split; auto. split; auto. intros m Hm.
  assert (X : In m back) by (apply (mo_in _ _ MB); auto). apply (In_nth _ _ 0) in X. destruct X as (l & A & C). rewrite (mo_length _ _ MB) in A.
  rewrite <- C. rewrite U by auto. auto.
Qed.

Lemma transpose_twice : forall back modes kinds ord (t : tensor), is_packed t -> undoes back modes (length (t_dims t)) ->
  length kinds = length (t_dims t) -> mode_order ord (length (t_dims t)) ->
  exists t1 t2, transpose R sort modes kinds ord t = Val t1 /\ transpose R sort back (t_kinds t) (t_ord t) t1 = Val t2 /\
    is_packed t2 /\ t_dims t2 = t_dims t /\ t_kinds t2 = t_kinds t /\ t_ord t2 = t_ord t /\
    (forall cs, in_range (t_dims t) cs -> tvalue R t2 cs = tvalue R t cs) /\
    (last kinds KDense = KComp -> iterate R t2 = iterate R t).
Proof.
  intros back modes kinds ord t P U LK MO2. assert (U' := U). destruct U' as (MB & MM & _).
  assert (E1 := transpose_eq modes kinds ord t P (permute_ne modes t P MM)).
  destruct (transpose_ok modes kinds ord t P MM LK MO2) as (t1 & E1' & P1 & D1 & K1 & O1 & V1).
  assert (LD : length (t_dims t1) = length (t_dims t)) by (rewrite D1; apply (permute_length _ _ MM)).
  assert (MB1 : mode_order back (length (t_dims t1))) by (rewrite LD; auto).
  assert (LKt : length (t_kinds t) = length (t_dims t1)) by (rewrite LD; apply P).
  assert (MOt : mode_order (t_ord t) (length (t_dims t1))) by (rewrite LD; apply P).
  assert (E2 := transpose_eq back (t_kinds t) (t_ord t) t1 P1 (permute_ne back t1 P1 MB1)).
  destruct (transpose_ok back (t_kinds t) (t_ord t) t1 P1 MB1 LKt MOt) as (t2 & E2' & P2 & D2 & K2 & O2 & V2).
  assert (DD : t_dims t2 = t_dims t). { rewrite D2, D1. apply (undo_permute _ _ _ _ U). auto. }
  assert (VV : forall cs, in_range (t_dims t) cs -> tvalue R t2 cs = tvalue R t cs).
  { intros cs RC. assert (LC : length cs = length (t_dims t)) by (apply in_range_nth in RC; tauto).
    rewrite <- V1 by auto. rewrite <- V2.
    - rewrite (undo_permute _ _ _ _ U) by auto. auto.
    - rewrite D1. apply (in_range_permute _ _ MM); auto. }
  exists t1, t2. split; auto. split; auto. split; auto. split; auto. split; auto. split; auto. split; auto.
  intros LC. apply (iterate_ext R); auto; [|rewrite DD; auto].
  assert (T1 : t1 = fresh R sort (permute modes (t_dims t)) kinds ord (moved modes (iterate R t))) by congruence.
  assert (T2 : t2 = fresh R sort (permute back (t_dims t1)) (t_kinds t) (t_ord t) (moved back (iterate R t1))) by congruence.
  assert (ST1 : forall cs, In cs (map fst (iterate R t1)) <-> In cs (map (fun r => permute modes (fst r)) (iterate R t))).
  { intros cs. rewrite T1. rewrite last_stored; auto.
    - unfold moved. rewrite map_map. cbn [fst]. tauto.
    - apply moved_ok; auto.
    - apply permute_ne; auto.
    - apply moved_range; auto. }
  assert (BR : permute back (t_dims t1) = t_dims t) by congruence. rewrite BR in T2.
  assert (ST2 : forall cs, In cs (map fst (moved back (iterate R t1))) <-> In cs (map fst (iterate R t))).
  { intros cs. unfold moved. rewrite map_map. cbn [fst]. rewrite <- (map_map fst (permute back)). rewrite in_map_iff. split.
    - intros (x & <- & Hx). apply ST1 in Hx. apply in_map_iff in Hx. destruct Hx as (r & <- & Hr).
      rewrite (undo_permute _ _ _ _ U) by (apply (p_len R t P); auto). apply in_map. auto.
    - intros H. apply in_map_iff in H. destruct H as (r & <- & Hr). exists (permute modes (fst r)).
      rewrite (undo_permute _ _ _ _ U) by (apply (p_len R t P); auto). split; auto. apply ST1. apply in_map_iff. exists r. auto. }
  intros cs. rewrite T2. rewrite (fresh_stored R HR sort SORT); auto.
  2:{ first [exact (proj1 P)|exact (proj1 (proj2 P))]. }
  2:{ intros r Hr. rewrite <- BR. apply moved_range; auto. }
  split.
  - intros (RC & H). destruct H as [H|(r & Hr & H)].
    + eapply all_stored; eauto.
    + eapply (p_closed R t P (fst r)); eauto. apply ST2. apply in_map. auto.
  - intros H. assert (RC : in_range (t_dims t) cs).
    { apply in_map_iff in H. destruct H as (r & <- & Hr). apply (p_range R t P). auto. }
    split; auto. right. apply ST2 in H. apply in_map_iff in H. destruct H as (r & <- & Hr). exists r. auto.
Qed.

(** ** Removing stored values *)
Lemma remove_ok : forall (is_value : V -> bool) kinds ord (t : tensor), is_packed t ->
  length kinds = length (t_dims t) -> mode_order ord (length (t_dims t)) ->
  exists t', removeExplicit R sort is_value kinds ord t = Val t' /\ is_packed t' /\
    t_dims t' = t_dims t /\ t_kinds t' = kinds /\ t_ord t' = ord /\
    (forall cs, in_range (t_dims t) cs -> tvalue R t' cs = if is_value (tvalue R t cs) then r0 R else tvalue R t cs) /\
    (last kinds KDense = KComp -> forall c, In c (iterate R t') <-> In c (iterate R t) /\ is_value (snd c) = false).
Proof.
  intros is_value kinds ord t P LK MO. unfold removeExplicit. rewrite (p_pack R sort t P). cbn [obind].
  set (rows := filter (fun c : row => negb (is_value (snd c))) (iterate R t)).
  destruct (insert_all_ok rows (new_tensor (t_dims t) kinds ord) []) as (n & E & B & D & K & O & S & N & PN); [split; auto|].
  rewrite E. cbn [obind]. assert (NE : t_dims t <> []) by apply P.
  rewrite (pack_fresh R sort n (t_dims t) kinds ord rows); auto. eexists. split; [reflexivity|].
  assert (OK : format_ok (t_dims t) kinds ord). { split; auto. split; auto. apply P. }
  assert (RI : forall r, In r rows <-> In r (iterate R t) /\ is_value (snd r) = false).
  { intros r. unfold rows. rewrite filter_In. rewrite negb_true_iff. tauto. }
  assert (IR : forall r, In r rows -> in_range (t_dims t) (fst r)).
  { intros r Hr. apply RI in Hr. apply (p_range R t P). tauto. }
  assert (PF : is_packed (fresh R sort (t_dims t) kinds ord rows)) by (apply (fresh_packed R HR sort SORT); auto).
  assert (VAL : forall cs, in_range (t_dims t) cs -> tvalue R (fresh R sort (t_dims t) kinds ord rows) cs = if is_value (tvalue R t cs) then r0 R else tvalue R t cs).
  { intros cs RC. rewrite (fresh_value R HR sort SORT) by auto.
    assert (ND : NoDup (map fst (iterate R t))).
    { assert (SS := p_sorted R t P). apply lexlt_nodup in SS. rewrite <- (map_map fst (permute (t_ord t))) in SS.
      apply NoDup_map_inv in SS. auto. }
    assert (NDR : NoDup (map fst rows)).
    { unfold rows. clear -ND. induction (iterate R t) as [|r l IH]; [constructor|]. cbn [map] in ND. inversion ND; subst. cbn [filter].
      destruct (negb (is_value (snd r))); auto. cbn [map]. constructor; auto. intros H. apply H1. apply in_map_iff in H.
      destruct H as (x & E & H). apply filter_In in H. apply in_map_iff. exists x. tauto. }
    destruct (in_dec (list_eq_dec Nat.eq_dec) cs (map fst rows)) as [I|I].
    - apply in_map_iff in I. destruct I as ((c & v) & EC & I). cbn [fst] in EC. subst c.
      rewrite (inserted_unique R HR rows cs v) by auto. apply RI in I. cbn [snd] in I. destruct I as [I IV].
      apply (p_in R t P) in I. destruct I as (_ & _ & ->). rewrite IV. auto.
    - rewrite (inserted_absent R rows cs I).
      destruct (in_dec (list_eq_dec Nat.eq_dec) cs (map fst (iterate R t))) as [J|J].
      + destruct (is_value (tvalue R t cs)) eqn:EV; auto. exfalso. apply I. apply in_map_iff. exists (cs, tvalue R t cs). split; auto.
        apply RI. split; auto. apply (p_in R t P). auto.
      + rewrite <- (p_value R HR t P cs RC). rewrite (inserted_absent R _ cs J). destruct (is_value (r0 R)); auto. }
  split; auto. cbn [fresh t_dims t_kinds t_ord]. split; auto. split; auto. split; auto. split; auto.
  intros LC [c v]. rewrite (p_in R _ PF). rewrite last_stored by auto. rewrite (p_in R t P). cbn [snd fresh t_dims]. split.
  - intros (RC & H & ->). rewrite VAL by auto. apply in_map_iff in H. destruct H as ((c' & v) & EC & H). cbn [fst] in EC. subst c'.
    apply RI in H. cbn [snd] in H. destruct H as [H HV]. assert (H0 := H). apply (p_in R t P) in H. destruct H as (_ & H & ->). rewrite HV. auto.
  - intros ((RC & H & ->) & HV). split; auto. split.
    + apply in_map_iff. exists (c, tvalue R t c). split; auto. apply RI. split; auto. apply (p_in R t P). auto.
    + rewrite VAL by auto. rewrite HV. auto.
Qed.

(** ** Equality *)
Section Equality.
Variable isZero : V -> bool.
Variable scalarEquals : V -> V -> bool.
Hypothesis ZERO : forall v, isZero v = true <-> v = r0 R.
Hypothesis SE0 : scalarEquals (r0 R) (r0 R) = true.
Hypothesis SEl : forall v, isZero v = false -> scalarEquals (r0 R) v = false.
Hypothesis SEr : forall v, isZero v = false -> scalarEquals v (r0 R) = false.
Variable key : list nat -> list nat.

Notation val l c := (find_component R c l).
Definition keyed (l : list row) : Prop := StronglySorted lexlt (map (fun r => key (fst r)) l).

Lemma keyed_out : forall c v l, keyed ((c, v) :: l) -> ~ In c (map fst l).
Proof.
  intros c v l K H. unfold keyed in K. cbn [map fst] in K. inversion K; subst. rewrite Forall_forall in H3.
  apply in_map_iff in H. destruct H as (r & <- & Hr). apply (lexlt_irrefl (key (fst r))). apply H3. apply in_map_iff. exists r. auto.
Qed.
Lemma keyed_tail : forall r l, keyed (r :: l) -> keyed l.
Proof. intros r l K. inversion K; auto. Qed.
Lemma val_cons : forall c v l x, val ((c, v) :: l) x = if list_eq_dec Nat.eq_dec c x then v else val l x.
Proof. auto. Qed.
Lemma val_out : forall l c, ~ In c (map fst l) -> val l c = r0 R.
Proof. apply find_component_out. Qed.

Lemma zeros : forall l, keyed l -> (forallb (fun c : row => isZero (snd c)) l = true <-> forall c, val l c = r0 R).
Proof.
  induction l as [|[c v] l IH]; intros K; [cbn; tauto|]. cbn [forallb snd]. rewrite andb_true_iff, (IH (keyed_tail _ _ K)), ZERO. split.
  - intros [-> H] x. rewrite val_cons. destruct (list_eq_dec Nat.eq_dec c x); auto.
  - intros H. assert (HC := H c). rewrite val_cons in HC. destruct (list_eq_dec Nat.eq_dec c c); [|congruence]. split; auto.
    intros x. specialize (H x). rewrite val_cons in H. destruct (list_eq_dec Nat.eq_dec c x) as [<-|]; auto.
    apply val_out. eapply keyed_out; eauto.
Qed.
Lemma val_skip : forall c l, keyed ((c, r0 R) :: l) -> forall x, val ((c, r0 R) :: l) x = val l x.
Proof.
  intros c l K x. rewrite val_cons. destruct (list_eq_dec Nat.eq_dec c x) as [<-|]; auto. symmetry. apply val_out. eapply keyed_out; eauto.
Qed.
Lemma se_zero : forall v, scalarEquals (r0 R) v = true -> v = r0 R.
Proof. intros v H. destruct (isZero v) eqn:E; [apply ZERO; auto|]. rewrite SEl in H; auto; discriminate. Qed.
Lemma se_zero_r : forall v, scalarEquals v (r0 R) = true -> v = r0 R.
Proof. intros v H. destruct (isZero v) eqn:E; [apply ZERO; auto|]. rewrite SEr in H; auto; discriminate. Qed.

Definition apart (a b : list row) : Prop :=
  forall r s, In r a -> In s b -> fst r <> fst s -> lexlt (key (fst r)) (key (fst s)) \/ lexlt (key (fst s)) (key (fst r)).
Lemma below_out : forall c d v l, keyed ((d, v) :: l) -> c <> d -> lexlt (key c) (key d) -> val ((d, v) :: l) c = r0 R.
Proof.
  intros c d v l K N L. apply val_out. cbn [map fst]. intros [H|H]; [congruence|]. apply in_map_iff in H. destruct H as (r & <- & Hr).
  unfold keyed in K. cbn [map fst] in K. inversion K; subst. rewrite Forall_forall in H2.
  apply (lexlt_irrefl (key (fst r))). apply lexlt_trans with (key d); auto. apply H2. apply in_map_iff. exists r. auto.
Qed.

Lemma equals_seq_ok : forall a b, keyed a -> keyed b -> apart a b ->
  (equals_seq isZero scalarEquals a b = true <-> forall c, scalarEquals (val a c) (val b c) = true).
Proof.
  assert (HE : forall b, keyed b -> (forallb (fun c : row => isZero (snd c)) b = true <-> forall c, scalarEquals (r0 R) (val b c) = true)).
  { intros b K. rewrite zeros by auto. split; intros H c; [rewrite H; auto|apply se_zero; auto]. }
  assert (HE' : forall b, keyed b -> (forallb (fun c : row => isZero (snd c)) b = true <-> forall c, scalarEquals (val b c) (r0 R) = true)).
  { intros b K. rewrite zeros by auto. split; intros H c; [rewrite H; auto|apply se_zero_r; auto]. }
  induction a as [|[ca va] a IHa]; intros b KA.
  - intros KB _. destruct b as [|x b]; exact (HE _ KB).
  - induction b as [|[cb vb] b IHb]; intros KB AP.
    + exact (HE' _ KA).
    + change (equals_seq isZero scalarEquals ((ca, va) :: a) ((cb, vb) :: b)) with
        (if list_eq_dec Nat.eq_dec ca cb
         then if scalarEquals va vb then equals_seq isZero scalarEquals a b else false
         else if isZero va then equals_seq isZero scalarEquals a ((cb, vb) :: b)
         else if isZero vb then equals_seq isZero scalarEquals ((ca, va) :: a) b else false).
      destruct (list_eq_dec Nat.eq_dec ca cb) as [<-|N].
      * destruct (scalarEquals va vb) eqn:SV.
        -- rewrite (IHa b (keyed_tail _ _ KA) (keyed_tail _ _ KB)) by (intros r s Hr Hs; apply AP; simpl; auto).
           split; intros H c; specialize (H c); rewrite !val_cons in *; destruct (list_eq_dec Nat.eq_dec ca c) as [<-|]; auto.
           rewrite !val_out; auto; eapply keyed_out; eauto.
        -- split; [discriminate|]. intros H. specialize (H ca). rewrite !val_cons in H.
           destruct (list_eq_dec Nat.eq_dec ca ca); congruence.
      * destruct (isZero va) eqn:ZA.
        -- apply ZERO in ZA. subst va. rewrite (IHa _ (keyed_tail _ _ KA) KB) by (intros r s Hr Hs; apply AP; simpl in *; auto).
           split; intros H c; specialize (H c); assert (EQ := val_skip ca a KA c); unfold Storage.row in *; [rewrite EQ; auto|rewrite EQ in H; auto].
        -- destruct (isZero vb) eqn:ZB.
           ++ apply ZERO in ZB. subst vb. rewrite (IHb (keyed_tail _ _ KB)) by (intros r s Hr Hs; apply AP; simpl in *; auto).
              split; intros H c; specialize (H c); assert (EQ := val_skip cb b KB c); unfold Storage.row in *; [rewrite EQ; auto|rewrite EQ in H; auto].
           ++ split; [discriminate|]. intros H.
              destruct (AP (ca, va) (cb, vb) (or_introl eq_refl) (or_introl eq_refl) N) as [L|L]; cbn [fst] in L.
              ** specialize (H ca). assert (EQ := below_out ca cb vb b KB N L). unfold Storage.row in *. rewrite EQ in H. apply se_zero_r in H.
                 rewrite val_cons in H. destruct (list_eq_dec Nat.eq_dec ca ca); [|congruence]. subst va.
                 rewrite (proj2 (ZERO _) eq_refl) in ZA. discriminate.
              ** specialize (H cb). assert (EQ := below_out cb ca va a KA (not_eq_sym N) L). unfold Storage.row in *. rewrite EQ in H. apply se_zero in H.
                 rewrite val_cons in H. destruct (list_eq_dec Nat.eq_dec cb cb); [|congruence]. subst vb.
                 rewrite (proj2 (ZERO _) eq_refl) in ZB. discriminate.
Qed.
End Equality.

Lemma lexlt_tri : forall a b, length a = length b -> a <> b -> lexlt a b \/ lexlt b a.
Proof.
  induction a as [|x a IH]; intros [|y b] L N; try discriminate; [congruence|]. cbn [lexlt].
  destruct (lt_eq_lt_dec x y) as [[A|A]|A]; auto. subst y. destruct (IH b); auto. congruence.
Qed.
Lemma in_range_dec : forall dims cs, {in_range dims cs} + {~ in_range dims cs}.
Proof.
  induction dims as [|d dims IH]; intros [|c cs]; try (right; intros H; inversion H; fail); [left; constructor|].
  destruct (lt_dec c d), (IH cs); [left; constructor; auto| | |]; right; intros H; inversion H; auto.
Qed.
Lemma find_out_of_range : forall (t : tensor) cs, is_packed t -> ~ in_range (t_dims t) cs -> find_component R cs (iterate R t) = r0 R.
Proof.
  intros t cs P N. apply find_component_out. intros H. apply in_map_iff in H. destruct H as (r & <- & Hr). apply N. apply (p_range R t P). auto.
Qed.
Lemma p_find : forall (t : tensor) cs, is_packed t -> in_range (t_dims t) cs -> find_component R cs (iterate R t) = tvalue R t cs.
Proof. intros t cs P RC. apply (find_ok R _ _ _ (p_ok t P) t eq_refl (p_wf t P)). auto. Qed.

Lemma equal_ok : forall isZero scalarEquals,
  (forall v, isZero v = true <-> v = r0 R) -> scalarEquals (r0 R) (r0 R) = true ->
  (forall v, isZero v = false -> scalarEquals (r0 R) v = false /\ scalarEquals v (r0 R) = false) ->
  forall t u : tensor, is_packed t -> is_packed u -> t_dims t = t_dims u -> t_ord t = t_ord u ->
  exists b, tensors_equal R sort isZero scalarEquals t u = Val b /\
    (b = true <-> forall cs, in_range (t_dims t) cs -> scalarEquals (tvalue R t cs) (tvalue R u cs) = true).
Proof.
  intros isZero scalarEquals ZERO SE0 SEZ t u Pt Pu D O. unfold tensors_equal.
  rewrite (p_pack R sort t Pt). cbn [obind]. rewrite (p_pack R sort u Pu). cbn [obind]. eexists. split; [reflexivity|].
  rewrite <- D. destruct (list_eq_dec Nat.eq_dec (t_dims t) (t_dims t)); [|congruence]. cbn [andb].
  rewrite (equals_seq_ok isZero scalarEquals ZERO SE0 (fun v H => proj1 (SEZ v H)) (fun v H => proj2 (SEZ v H)) (permute (t_ord t))).
  - split; intros H cs.
    + intros RC. rewrite <- (p_find t), <- (p_find u); auto. congruence.
    + destruct (in_range_dec (t_dims t) cs) as [RC|NC].
      * rewrite (p_find t), (p_find u); auto. rewrite <- D. auto.
      * rewrite !find_out_of_range; auto. rewrite <- D. auto.
  - apply (p_sorted R t Pt).
  - unfold keyed. rewrite O. apply (p_sorted R u Pu).
  - intros r s Hr Hs N. apply lexlt_tri.
    + rewrite !(permute_length _ _ (p_mo t Pt)). auto.
    + intros E. apply N. apply (permute_inj _ _ (p_mo t Pt)) in E; auto; [apply (p_len R t Pt); auto|].
      rewrite D. apply (p_len R u Pu). auto.
Qed.

(** ** Arrays in compressed row form *)
Lemma csr_inc : forall rowptr colidx n, (forall i k, i < n -> nth i rowptr 0 <= k -> k + 1 < nth (i + 1) rowptr 0 ->
     nth k colidx 0 < nth (k + 1) colidx 0) ->
  forall p i j, p < n -> nth p rowptr 0 <= i -> i < j -> j < nth (S p) rowptr 0 -> nth i colidx 0 < nth j colidx 0.
Proof.
  intros rowptr colidx n H p i j Hp Hi Hij Hj. induction j as [|j IH]; [lia|].
  assert (X : nth j colidx 0 < nth (j + 1) colidx 0). { apply (H p); auto; [lia|]. replace (p + 1) with (S p) by lia. lia. }
  replace (S j) with (j + 1) by lia. destruct (Nat.eq_dec i j) as [->|]; auto. specialize (IH ltac:(lia) ltac:(lia)). lia.
Qed.
Lemma csr_wf : forall n m rowptr colidx (vals : list V), csr_ok n m rowptr colidx vals ->
  wf_storage [n; m] (mkStorage [LDense (length rowptr - 1); LComp rowptr colidx] vals).
Proof.
  intros n m rowptr colidx vals (A & B & C & D & E & F & G). unfold wf_storage. cbn [st_levels st_vals wf_levels]. rewrite A.
  replace (n + 1 - 1) with n by lia. split; auto. rewrite Nat.mul_1_l. split; [lia|]. split; auto. split; auto. split.
  - intros p Hp. specialize (E p Hp). replace (p + 1) with (S p) in E by lia. auto.
  - split; [eapply csr_inc; eauto|]. split; auto.
Qed.

Lemma csr_components : forall n m rowptr colidx (vals : list V), csr_ok n m rowptr colidx vals ->
  components (r0 R) (mkStorage [LDense (length rowptr - 1); LComp rowptr colidx] vals) =
  map (fun x => ([fst (fst x); snd (fst x)], snd x)) (triples R n rowptr colidx vals).
Proof.
  intros n m rowptr colidx vals (A & _). unfold components, triples. cbn [st_levels st_vals enum]. rewrite A.
  replace (n + 1 - 1) with n by lia. generalize (seq 0 n). induction l as [|i l IH]; auto. cbn [flat_map]. rewrite !map_app, IH. f_equal.
  cbn [plus mult]. replace (i + 1) with (S i) by lia. generalize (seq (nth i rowptr 0) (nth (S i) rowptr 0 - nth i rowptr 0)). clear.
  induction l as [|k l IH]; auto. cbn [flat_map map app fst snd]. f_equal. auto.
Qed.
End Ops.

(** ** Scalars *)
Section Scalar.
Context {V : Type}.
Variable R : ring_ops V.
Hypothesis HR : ring_theory (r0 R) (r1 R) (radd R) (rmul R) (rsub R) (ropp R) eq.
Add Ring VRing5 : HR.
Notation row := (@Storage.row V).
Notation tensor := (@tensor V).
Variable sort : list row -> list row.

Lemma run_unpacked : forall calls (t : tensor) pre, buffer_ok t pre -> (forall c, In c calls -> c <> Pack) ->
  exists t', run R sort calls t = Val t' /\ buffer_ok t' (pre ++ inserts calls) /\ t_dims t' = t_dims t /\ t_ord t' = t_ord t /\
    t_never t' = t_never t /\ (t_needs t = true -> t_needs t' = true).
Proof.
  induction calls as [|c calls IH]; intros t pre B NP.
  - exists t. cbn. rewrite app_nil_r. auto 10.
  - cbn [run]. assert (NC := NP c (or_introl eq_refl)). assert (NR : forall x, In x calls -> x <> Pack) by (intros x H; apply NP; right; auto). destruct c as [x v| |n]; cbn [do_call].
    + unfold insert. destruct (insert_ok (x, v) t pre B) as (t1 & E & B1 & D1 & K1 & O1 & S1 & N1 & P1). rewrite E. cbn [obind].
      destruct (IH (with_flags t1 (t_never t1) true) (pre ++ [(x, v)]) B1 NR) as (t2 & E2 & B2 & D2 & O2 & N2 & P2).
      exists t2. split; auto. rewrite <- app_assoc in B2. split; auto. cbn in *. repeat split; try congruence. auto.
    + congruence.
    + cbn [obind]. destruct (IH (reserve n t) pre) as (t2 & E2 & B2 & D2 & O2 & N2 & P2); auto.
      * destruct B as [B U]. split; [apply buffered_app; auto|]. cbn. rewrite app_length. lia.
      * exists t2. auto 10.
Qed.

Lemma scalar_ok : forall calls, (forall c, In c calls -> c <> Pack) -> (forall r, In r (inserts calls) -> fst r = []) ->
  exists t, run R sort (calls ++ [Pack]) (new_tensor [] [] []) = Val t /\ tvalue R t [] = inserted_at R (inserts calls) [].
Proof.
  intros calls NP Z0. rewrite run_app.
  destruct (run_unpacked calls (new_tensor [] [] []) [] ltac:(split; auto) NP) as (t & E & (B & U) & D & O & N & P).
  rewrite E. cbn [obind run do_call]. unfold pack_tensor. rewrite (P eq_refl), N. cbn [negb obind new_tensor t_never].
  cbn [with_flags t_used t_slots t_dims]. rewrite B. cbn [obind app]. rewrite D. cbn [new_tensor t_dims]. eexists. split; [reflexivity|].
  unfold tvalue, logical, value_at. cbn [with_store with_buffer with_flags t_store t_ord st_levels locate]. 
  rewrite O. cbn [new_tensor t_ord map st_vals nth]. rewrite (run_sum_values R HR). unfold inserted_at. f_equal. f_equal.
  revert Z0. generalize (inserts calls). clear. induction l as [|r l IH]; intros H; auto. cbn [filter].
  rewrite (proj2 (same_coords_eq (fst r) []) (H r (or_introl eq_refl))). f_equal. apply IH. intros x Hx. apply H. simpl. auto.
Qed.
End Scalar.

Lemma csr_packed : forall (V : Type) n m rowptr colidx (vals : list V), (Z.of_nat n <= 2 ^ 31)%Z -> (Z.of_nat m <= 2 ^ 31)%Z ->
  csr_ok n m rowptr colidx vals -> is_packed (makeCSR [n; m] rowptr colidx vals).
Proof.
  intros V n m rowptr colidx vals Bn Bm OK. unfold is_packed, format_ok. split; [split; [reflexivity|split; [apply Permutation_refl|repeat constructor; auto]]|].
  split; [discriminate|]. split; [reflexivity|]. split; [reflexivity|]. exact (csr_wf n m rowptr colidx vals OK).
Qed.
Lemma csc_packed : forall (V : Type) n m rowptr colidx (vals : list V), (Z.of_nat n <= 2 ^ 31)%Z -> (Z.of_nat m <= 2 ^ 31)%Z ->
  csr_ok n m rowptr colidx vals -> is_packed (makeCSC [m; n] rowptr colidx vals).
Proof.
  intros V n m rowptr colidx vals Bn Bm OK. unfold is_packed, format_ok. split; [split; [reflexivity|split; [constructor|repeat constructor; auto]]|].
  split; [discriminate|]. split; [reflexivity|]. split; [reflexivity|]. exact (csr_wf n m rowptr colidx vals OK).
Qed.
