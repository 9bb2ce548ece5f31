(** The code fragments that append to a compressed level. *)
From Coq Require Import List Arith Lia Bool.
Import ListNotations.
From Verif Require Import Outcome Storage StorageProofs IndexExpr Eval Lattice LoopIR Lower Walk LowerBase LoopRule
  TreeLevels SparseKernel.
Local Open Scope nat_scope.

Section Append.
Context {V : Type}.
Variable R : ring_ops V.
Variable fn : nat -> V -> V.
Variable T : nat -> storage V.
Variable junkV : nat -> V.
Variable junkI : nat -> nat.
Notation exec := (exec R fn T junkV junkI).
Notation ieval := (ieval T).

(** What a fragment may change. *)
Definition touch (vf : var -> Prop) (nf : iname -> Prop) (bf : nat -> Prop) (st st' : state V) : Prop :=
  (forall v, ~ vf v -> env st' v = env st v) /\
  (forall a, ~ nf a -> ibuf st' a = ibuf st a) /\
  (forall b, ~ bf b -> vbuf st' b = vbuf st b).
Definition none {A} (_ : A) : Prop := False.

Lemma touch_refl : forall vf nf bf st, touch vf nf bf st st.
Proof. repeat split; auto. Qed.
Lemma touch_trans : forall vf nf bf s1 s2 s3, touch vf nf bf s1 s2 -> touch vf nf bf s2 s3 -> touch vf nf bf s1 s3.
Proof.
  intros vf nf bf s1 s2 s3 (A1 & A2 & A3) (B1 & B2 & B3). repeat split; intros.
  - rewrite B1, A1; auto.
  - rewrite B2, A2; auto.
  - rewrite B3, A3; auto.
Qed.
Lemma touch_weak : forall (vf vf' : var -> Prop) (nf nf' : iname -> Prop) (bf bf' : nat -> Prop) s1 s2,
  (forall v, vf v -> vf' v) -> (forall a, nf a -> nf' a) -> (forall b, bf b -> bf' b) ->
  touch vf nf bf s1 s2 -> touch vf' nf' bf' s1 s2.
Proof. intros vf vf' nf nf' bf bf' s1 s2 H1 H2 H3 (A1 & A2 & A3). repeat split; intros; auto. Qed.

Lemma touch_setv : forall (vf : var -> Prop) nf bf st v x, vf v -> touch vf nf bf st (setv st v x).
Proof. intros. repeat split; intros; auto. apply setv_neq. congruence. Qed.
Lemma touch_setI : forall vf (nf : iname -> Prop) bf st a x, nf a -> touch vf nf bf st (setI st a x).
Proof. intros. repeat split; intros; auto. simpl. destruct (iname_eq_dec a0 a); congruence. Qed.
Lemma touch_setV : forall vf nf (bf : nat -> Prop) st b x, bf b -> touch vf nf bf st (setV st b x).
Proof. intros. repeat split; intros; auto. simpl. destruct (b0 =? b) eqn:E; auto. apply Nat.eqb_eq in E. congruence. Qed.

Lemma setI_eq : forall (st : state V) a x, ibuf (setI st a x) a = x.
Proof. intros. simpl. destruct (iname_eq_dec a a); congruence. Qed.
Lemma setV_eq : forall (st : state V) b x, vbuf (setV st b x) b = x.
Proof. intros. simpl. rewrite Nat.eqb_refl. auto. Qed.

Lemma exec_asg_ok : forall v x (st : state V) k, ieval st x = Some k -> exec (Asg v x) st (setv st v k).
Proof. intros. constructor. auto. Qed.

(** Counting loops. *)
Lemma while_range : forall v hi body (Inv : nat -> state V -> Prop) b,
  (forall k st, Inv k st -> k <= b -> env st v = Some k /\ ieval st hi = Some b) ->
  (forall k st, Inv k st -> k < b -> exists st', exec body st st' /\ ieval st' (IVar v) = Some k /\ Inv (S k) (setv st' v (S k))) ->
  forall m k st, b = k + m -> Inv k st ->
  exists st', exec (While (BLt (IVar v) hi) (Seq body (Asg v (IAdd (IVar v) (ICst 1))))) st st' /\ Inv b st'.
Proof.
  intros v hi body Inv b H1 H2. induction m; intros k st E I.
  - exists st. destruct (H1 k st I) as [A B]; [lia|]. replace k with b in * by lia. split; auto.
    apply X_while_end. simpl. rewrite A, B. rewrite Nat.ltb_irrefl. auto.
  - destruct (H1 k st I) as [A B]; [lia|]. destruct (H2 k st I) as (s1 & X1 & E1 & I1); [lia|].
    destruct (IHm (S k) (setv s1 v (S k))) as (s2 & X2 & I2); auto; [lia|].
    exists s2. split; auto. eapply X_while; [| |exact X2].
    + simpl. rewrite A, B. assert (L : k < b) by lia. apply Nat.ltb_lt in L. rewrite L. auto.
    + econstructor; [exact X1|]. constructor. simpl in *. rewrite E1. f_equal. lia.
Qed.

Lemma for_range : forall v lo hi body (Inv : nat -> state V -> Prop) a b st,
  ieval st lo = Some a -> a <= b ->
  (forall k st, Inv k st -> k <= b -> env st v = Some k /\ ieval st hi = Some b) ->
  (forall k st, Inv k st -> k < b -> exists st', exec body st st' /\ ieval st' (IVar v) = Some k /\ Inv (S k) (setv st' v (S k))) ->
  Inv a (setv st v a) ->
  exists st', exec (For v lo hi body) st st' /\ Inv b st'.
Proof.
  intros v lo hi body Inv a b st E L H1 H2 I.
  destruct (while_range v hi body Inv b H1 H2 (b - a) a (setv st v a)) as (st' & X & I'); [lia|auto|].
  exists st'. split; auto. econstructor; [|exact X]. constructor. auto.
Qed.

(** ** Growing an array *)
Lemma resize_len : forall A (junk : nat -> A) l k, length (resize junk l k) = k.
Proof.
  intros. unfold resize. rewrite app_length, firstn_length, map_length, seq_length. lia.
Qed.
Lemma resize_grow : forall A (junk : nat -> A) l k, length l <= k -> exists x, resize junk l k = l ++ x.
Proof. intros. unfold resize. rewrite firstn_all2 by auto. eauto. Qed.

Lemma double_i_ok : forall a size needed (st : state V) k p,
  env st size = Some k -> length (ibuf st a) = k -> ieval st needed = Some p -> p < 2 * k ->
  exists st' x, exec (double_i a size needed) st st' /\
    touch (eq size) (eq a) none st st' /\
    ibuf st' a = ibuf st a ++ x /\ env st' size = Some (length (ibuf st' a)) /\ p < length (ibuf st' a).
Proof.
  intros a size needed st k p E L N P.
  destruct (p <? k) eqn:C.
  - apply Nat.ltb_lt in C. exists st, []. split; [|split; [apply touch_refl|split; [rewrite app_nil_r; auto|split; [congruence|lia]]]].
    econstructor; [simpl; rewrite N, E|]. 
    + assert (X : (p <? k) = true) by (apply Nat.ltb_lt; auto). rewrite X. reflexivity.
    + constructor.
  - apply Nat.ltb_ge in C.
    destruct (resize_grow _ junkI (ibuf st a) (k * 2)) as [x RX]; [lia|].
    exists (setv (setI st a (resize junkI (ibuf st a) (k * 2))) size (k * 2)), x. split; [|split; [|split; [|split]]].
    + econstructor; [simpl; rewrite N, E; assert (X : (p <? k) = false) by (apply Nat.ltb_ge; auto); rewrite X; reflexivity|].
      eapply block_cons; [constructor; simpl; rewrite E; reflexivity|]. apply block1. constructor. simpl. rewrite E. auto.
    + eapply touch_trans; [apply touch_setI; reflexivity|apply touch_setv; reflexivity].
    + change (ibuf (setI st a (resize junkI (ibuf st a) (k * 2))) a = ibuf st a ++ x). rewrite setI_eq. auto.
    + rewrite setv_eq. f_equal. change (k * 2 = length (ibuf (setI st a (resize junkI (ibuf st a) (k * 2))) a)).
      rewrite setI_eq, resize_len. auto.
    + change (p < length (ibuf (setI st a (resize junkI (ibuf st a) (k * 2))) a)). rewrite setI_eq, resize_len. lia.
Qed.

Lemma double_v_ok : forall a size needed (st : state V) k p,
  env st size = Some k -> length (vbuf st a) = k -> ieval st needed = Some p -> p < 2 * k ->
  exists st' x, exec (double_v a size needed) st st' /\
    touch (eq size) none (eq a) st st' /\
    vbuf st' a = vbuf st a ++ x /\ env st' size = Some (length (vbuf st' a)) /\ p < length (vbuf st' a).
Proof.
  intros a size needed st k p E L N P.
  destruct (p <? k) eqn:C.
  - apply Nat.ltb_lt in C. exists st, []. split; [|split; [apply touch_refl|split; [rewrite app_nil_r; auto|split; [congruence|lia]]]].
    econstructor; [simpl; rewrite N, E|]. 
    + assert (X : (p <? k) = true) by (apply Nat.ltb_lt; auto). rewrite X. reflexivity.
    + constructor.
  - apply Nat.ltb_ge in C.
    destruct (resize_grow _ junkV (vbuf st a) (k * 2)) as [x RX]; [lia|].
    exists (setv (setV st a (resize junkV (vbuf st a) (k * 2))) size (k * 2)), x. split; [|split; [|split; [|split]]].
    + econstructor; [simpl; rewrite N, E; assert (X : (p <? k) = false) by (apply Nat.ltb_ge; auto); rewrite X; reflexivity|].
      eapply block_cons; [constructor; simpl; rewrite E; reflexivity|]. apply block1. constructor. simpl. rewrite E. auto.
    + eapply touch_trans; [apply touch_setV; reflexivity|apply touch_setv; reflexivity].
    + change (vbuf (setV st a (resize junkV (vbuf st a) (k * 2))) a = vbuf st a ++ x). rewrite setV_eq. auto.
    + rewrite setv_eq. f_equal. change (k * 2 = length (vbuf (setV st a (resize junkV (vbuf st a) (k * 2))) a)).
      rewrite setV_eq, resize_len. auto.
    + change (p < length (vbuf (setV st a (resize junkV (vbuf st a) (k * 2))) a)). rewrite setV_eq, resize_len. lia.
Qed.

(** Expressions over variables and dense widths only. *)
Fixpoint pure (x : iexp) : bool :=
  match x with
  | ICst _ | IDimOf _ _ | IVar _ => true
  | IAdd x y | IMul x y | IMin x y | IMax x y | ISub x y | IEqb x y => pure x && pure y
  | IPosAt _ _ _ | ICrdAt _ _ _ | IBuf _ _ => false
  end.
Fixpoint occurs (v : var) (x : iexp) : Prop :=
  match x with
  | ICst _ | IDimOf _ _ => False
  | IVar w => w = v
  | IAdd x y | IMul x y | IMin x y | IMax x y | ISub x y | IEqb x y => occurs v x \/ occurs v y
  | IPosAt _ _ x | ICrdAt _ _ x | IBuf _ x => occurs v x
  end.
Lemma ieval_pure : forall x (st st' : state V), pure x = true ->
  (forall v, occurs v x -> env st' v = env st v) -> ieval st' x = ieval st x.
Proof.
  induction x; simpl; intros st st' P H; auto; try discriminate;
    apply andb_true_iff in P; destruct P as [P1 P2];
    rewrite (IHx1 st st'), (IHx2 st st'); auto.
Qed.

Lemma atleast_i_ok : forall a size needed (st : state V) k p,
  env st size = Some k -> length (ibuf st a) = k -> ieval st needed = Some p -> size <> v_new ->
  exists st' x, exec (atleast_i a size needed) st st' /\
    touch (fun v => v = size \/ v = v_new) (eq a) none st st' /\
    ibuf st' a = ibuf st a ++ x /\ env st' size = Some (length (ibuf st' a)) /\ p < length (ibuf st' a).
Proof.
  intros a size needed st k p E L N NS.
  destruct (p <? k) eqn:C.
  - apply Nat.ltb_lt in C. exists st, []. split; [|split; [apply touch_refl|split; [rewrite app_nil_r; auto|split; [congruence|lia]]]].
    econstructor; [simpl; rewrite N, E|].
    + assert (X : (p <? k) = true) by (apply Nat.ltb_lt; auto). rewrite X. reflexivity.
    + constructor.
  - apply Nat.ltb_ge in C. set (m := Nat.max (k * 2) (p + 1)).
    destruct (resize_grow _ junkI (ibuf st a) m) as [x RX]; [unfold m; lia|].
    set (s1 := setv st v_new m). set (s2 := setI s1 a (resize junkI (ibuf st a) m)).
    exists (setv s2 size m), x.
    assert (B2 : ibuf (setv s2 size m) a = resize junkI (ibuf st a) m)
      by (change (ibuf s2 a = resize junkI (ibuf st a) m); apply setI_eq).
    split; [|split; [|split; [|split]]].
    + econstructor; [simpl; rewrite N, E; assert (X : (p <? k) = false) by (apply Nat.ltb_ge; auto); rewrite X; reflexivity|].
      eapply block_cons; [constructor; simpl; rewrite E, N; reflexivity|].
      eapply block_cons; [apply (X_rszi R fn T junkV junkI a (IVar v_new) s1 m); apply setv_eq|].
      apply block1. apply (X_asg R fn T junkV junkI size (IVar v_new) s2 m). apply setv_eq.
    + eapply touch_trans; [apply touch_setv; auto|]. eapply touch_trans; [apply touch_setI; auto|apply touch_setv; auto].
    + rewrite B2. auto.
    + rewrite setv_eq, B2, resize_len. auto.
    + rewrite B2, resize_len. unfold m. lia.
Qed.

Lemma atleast_v_ok : forall a size needed (st : state V) k p,
  env st size = Some k -> length (vbuf st a) = k -> ieval st needed = Some p -> size <> v_new ->
  exists st' x, exec (atleast_v a size needed) st st' /\
    touch (fun v => v = size \/ v = v_new) none (eq a) st st' /\
    vbuf st' a = vbuf st a ++ x /\ env st' size = Some (length (vbuf st' a)) /\ p < length (vbuf st' a).
Proof.
  intros a size needed st k p E L N NS.
  destruct (p <? k) eqn:C.
  - apply Nat.ltb_lt in C. exists st, []. split; [|split; [apply touch_refl|split; [rewrite app_nil_r; auto|split; [congruence|lia]]]].
    econstructor; [simpl; rewrite N, E|].
    + assert (X : (p <? k) = true) by (apply Nat.ltb_lt; auto). rewrite X. reflexivity.
    + constructor.
  - apply Nat.ltb_ge in C. set (m := Nat.max (k * 2) (p + 1)).
    destruct (resize_grow _ junkV (vbuf st a) m) as [x RX]; [unfold m; lia|].
    set (s1 := setv st v_new m). set (s2 := setV s1 a (resize junkV (vbuf st a) m)).
    exists (setv s2 size m), x.
    assert (B2 : vbuf (setv s2 size m) a = resize junkV (vbuf st a) m)
      by (change (vbuf s2 a = resize junkV (vbuf st a) m); apply setV_eq).
    split; [|split; [|split; [|split]]].
    + econstructor; [simpl; rewrite N, E; assert (X : (p <? k) = false) by (apply Nat.ltb_ge; auto); rewrite X; reflexivity|].
      eapply block_cons; [constructor; simpl; rewrite E, N; reflexivity|].
      eapply block_cons; [apply (X_rszv R fn T junkV junkI a (IVar v_new) s1 m); apply setv_eq|].
      apply block1. apply (X_asg R fn T junkV junkI size (IVar v_new) s2 m). apply setv_eq.
    + eapply touch_trans; [apply touch_setv; auto|]. eapply touch_trans; [apply touch_setV; auto|apply touch_setv; auto].
    + rewrite B2. auto.
    + rewrite setv_eq, B2, resize_len. auto.
    + rewrite B2, resize_len. unfold m. lia.
Qed.

(** ** Lists *)
Lemma upd_nth_len : forall A (l : list A) p x, length (upd_nth l p x) = length l.
Proof. intros. apply upd_nth_length. Qed.
Lemma firstn_upd : forall (l : list nat) p x, p < length l -> firstn (S p) (upd_nth l p x) = firstn p l ++ [x].
Proof.
  induction l; intros p x H; [simpl in H; lia|]. destruct p; simpl; auto. rewrite <- IHl; [auto|simpl in H; lia].
Qed.
Lemma firstn_upd_V : forall (l : list V) p x, p < length l -> firstn (S p) (upd_nth l p x) = firstn p l ++ [x].
Proof.
  induction l; intros p x H; [simpl in H; lia|]. destruct p; simpl; auto. rewrite <- IHl; [auto|simpl in H; lia].
Qed.
Lemma nth_upd_eq : forall A (l : list A) p x d, p < length l -> nth p (upd_nth l p x) d = x.
Proof. induction l; intros p x d H; [simpl in H; lia|]. destruct p; simpl; auto. apply IHl. simpl in H. lia. Qed.
Lemma nth_upd_neq : forall A (l : list A) p q x d, p <> q -> nth q (upd_nth l p x) d = nth q l d.
Proof. induction l; intros p q x d H; destruct p, q; simpl; auto; try lia. Qed.
Lemma firstn_app_le : forall A (l x : list A) k, k <= length l -> firstn k (l ++ x) = firstn k l.
Proof. intros. rewrite firstn_app. replace (k - length l) with 0 by lia. simpl. apply app_nil_r. Qed.

(** ** Appending a coordinate *)
Lemma append_coord_ok : forall l p i (st : state V) CR c,
  env st (v_ccap l) = Some (length (ibuf st (RCrd l))) -> 1 <= length (ibuf st (RCrd l)) ->
  length CR <= length (ibuf st (RCrd l)) ->
  firstn (length CR) (ibuf st (RCrd l)) = CR ->
  env st p = Some (length CR) -> env st i = Some c -> p <> v_ccap l -> i <> v_ccap l ->
  exists st', exec (append_coord l (IVar p) (IVar i)) st st' /\
    touch (eq (v_ccap l)) (eq (RCrd l)) none st st' /\
    env st' (v_ccap l) = Some (length (ibuf st' (RCrd l))) /\ 1 <= length (ibuf st' (RCrd l)) /\
    S (length CR) <= length (ibuf st' (RCrd l)) /\
    firstn (S (length CR)) (ibuf st' (RCrd l)) = CR ++ [c].
Proof.
  intros l p i st CR c CAP C1 LE FN EP EI NP NI.
  destruct (double_i_ok (RCrd l) (v_ccap l) (IVar p) st (length (ibuf st (RCrd l))) (length CR)) as (s1 & x & X1 & T1 & B1 & E1 & P1); auto; [lia|].
  exists (setI s1 (RCrd l) (upd_nth (ibuf s1 (RCrd l)) (length CR) c)). destruct T1 as (Tv & Tn & Tb).
  assert (EP1 : env s1 p = Some (length CR)) by (rewrite Tv; auto).
  assert (EI1 : env s1 i = Some c) by (rewrite Tv; auto).
  split; [|split; [|split; [|split; [|split]]]].
  - eapply block_cons; [exact X1|]. apply block1. constructor; auto.
  - eapply touch_trans; [exact (conj Tv (conj Tn Tb))|]. apply touch_setI. auto.
  - rewrite setI_eq, upd_nth_len. auto.
  - rewrite setI_eq, upd_nth_len. lia.
  - rewrite setI_eq, upd_nth_len. lia.
  - rewrite setI_eq, firstn_upd by auto. f_equal. rewrite B1, firstn_app_le by auto. auto.
Qed.

(** ** Zeroing a range of an index array *)
Lemma zero_range_ok : forall a lo hi (st : state V) x y,
  ieval st lo = Some x -> pure hi = true -> ~ occurs v_p hi -> ieval st hi = Some y ->
  x <= y -> y <= length (ibuf st a) ->
  exists st', exec (For v_p lo hi (StI a (IVar v_p) (ICst 0))) st st' /\
    touch (eq v_p) (eq a) none st st' /\ length (ibuf st' a) = length (ibuf st a) /\
    forall q, nth q (ibuf st' a) 0 = if (x <=? q) && (q <? y) then 0 else nth q (ibuf st a) 0.
Proof.
  intros a lo hi st x y EL PH OH EH XY YL.
  destruct (for_range v_p lo hi (StI a (IVar v_p) (ICst 0))
     (fun k s => x <= k /\ env s v_p = Some k /\ touch (eq v_p) (eq a) none st s /\ length (ibuf s a) = length (ibuf st a) /\
        forall q, nth q (ibuf s a) 0 = if (x <=? q) && (q <? k) then 0 else nth q (ibuf st a) 0)
     x y st EL XY) as (st' & X & _ & E & I1 & I2 & I3).
  - intros k s (_ & E & (Tv & _) & _) _. split; auto. rewrite <- EH. apply ieval_pure; auto.
    intros v O. apply Tv. intros <-. auto.
  - intros k s (XK & E & TT & LN & Q) K. exists (setI s a (upd_nth (ibuf s a) k 0)). split; [|split].
    + constructor; auto. lia.
    + exact E.
    + split; [lia|]. split; [apply setv_eq|]. split; [|split].
      * eapply touch_trans; [exact TT|]. eapply touch_trans; [apply touch_setI|apply touch_setv]; auto.
      * change (length (ibuf (setI s a (upd_nth (ibuf s a) k 0)) a) = length (ibuf st a)). rewrite setI_eq, upd_nth_len. auto.
      * intros q. change (nth q (ibuf (setI s a (upd_nth (ibuf s a) k 0)) a) 0 = if (x <=? q) && (q <? S k) then 0 else nth q (ibuf st a) 0).
        rewrite setI_eq. destruct (Nat.eq_dec q k) as [->|N].
        -- rewrite nth_upd_eq by lia.
           assert (L : k <? S k = true) by (apply Nat.ltb_lt; lia). apply Nat.leb_le in XK. rewrite XK, L. auto.
        -- rewrite nth_upd_neq by auto. rewrite Q. destruct (q <? k) eqn:A, (q <? S k) eqn:B; auto.
           ++ apply Nat.ltb_lt in A. apply Nat.ltb_ge in B. lia.
           ++ apply Nat.ltb_ge in A. apply Nat.ltb_lt in B. lia.
  - split; auto. split; [apply setv_eq|]. split; [apply touch_setv; auto|]. split; auto.
    intros q. simpl. destruct (x <=? q) eqn:A, (q <? x) eqn:B; auto.
    apply Nat.leb_le in A. apply Nat.ltb_lt in B. lia.
  - exists st'. auto.
Qed.

(** Same for values. *)
Lemma zero_values_ok : forall a lo hi (st : state V) x y,
  ieval st lo = Some x -> pure hi = true -> ~ occurs v_p hi -> ieval st hi = Some y ->
  x <= y -> y <= length (vbuf st a) ->
  exists st', exec (For v_p lo hi (StV a (IVar v_p) (XLit (r0 R)))) st st' /\
    touch (eq v_p) none (eq a) st st' /\ length (vbuf st' a) = length (vbuf st a) /\
    forall q, nth q (vbuf st' a) (r0 R) = if (x <=? q) && (q <? y) then r0 R else nth q (vbuf st a) (r0 R).
Proof.
  intros a lo hi st x y EL PH OH EH XY YL.
  destruct (for_range v_p lo hi (StV a (IVar v_p) (XLit (r0 R)))
     (fun k s => x <= k /\ env s v_p = Some k /\ touch (eq v_p) none (eq a) st s /\ length (vbuf s a) = length (vbuf st a) /\
        forall q, nth q (vbuf s a) (r0 R) = if (x <=? q) && (q <? k) then r0 R else nth q (vbuf st a) (r0 R))
     x y st EL XY) as (st' & X & _ & E & I1 & I2 & I3).
  - intros k s (_ & E & (Tv & _) & _) _. split; auto. rewrite <- EH. apply ieval_pure; auto.
    intros v O. apply Tv. intros <-. auto.
  - intros k s (XK & E & TT & LN & Q) K. exists (setV s a (upd_nth (vbuf s a) k (r0 R))). split; [|split].
    + constructor; auto. lia.
    + exact E.
    + split; [lia|]. split; [apply setv_eq|]. split; [|split].
      * eapply touch_trans; [exact TT|]. eapply touch_trans; [apply touch_setV|apply touch_setv]; auto.
      * change (length (vbuf (setV s a (upd_nth (vbuf s a) k (r0 R))) a) = length (vbuf st a)). rewrite setV_eq, upd_nth_len. auto.
      * intros q. change (nth q (vbuf (setV s a (upd_nth (vbuf s a) k (r0 R))) a) (r0 R) = if (x <=? q) && (q <? S k) then r0 R else nth q (vbuf st a) (r0 R)).
        rewrite setV_eq. destruct (Nat.eq_dec q k) as [->|N].
        -- rewrite nth_upd_eq by lia.
           assert (L : k <? S k = true) by (apply Nat.ltb_lt; lia). apply Nat.leb_le in XK. rewrite XK, L. auto.
        -- rewrite nth_upd_neq by auto. rewrite Q. destruct (q <? k) eqn:A, (q <? S k) eqn:B; auto.
           ++ apply Nat.ltb_lt in A. apply Nat.ltb_ge in B. lia.
           ++ apply Nat.ltb_ge in A. apply Nat.ltb_lt in B. lia.
  - split; auto. split; [apply setv_eq|]. split; [apply touch_setv; auto|]. split; auto.
    intros q. simpl. destruct (x <=? q) eqn:A, (q <? x) eqn:B; auto.
    apply Nat.leb_le in A. apply Nat.ltb_lt in B. lia.
  - exists st'. auto.
Qed.

(** ** The final prefix sum *)
(** What a pos array holds before it, with [B] slots initialised: the lengths
    of the closed slots, zero for the others. *)
Definition lengths_in (LN : list nat) (B : nat) (pos : list nat) : Prop :=
  nth 0 pos 0 = 0 /\ B < length pos /\ length LN <= B /\ forall s, s < B -> nth (S s) pos 0 = nth s LN 0.

Lemma sum_firstn_S : forall LN k, sum (firstn (S k) LN) = sum (firstn k LN) + nth k LN 0.
Proof.
  induction LN as [|x LN IH]; intros k; [destruct k; auto|]. destruct k; [simpl; lia|].
  change (x + sum (firstn (S k) LN) = x + sum (firstn k LN) + nth k LN 0). rewrite IH. lia.
Qed.

Lemma finalize_ok : forall l sz (st : state V) LN B,
  pure sz = true -> ~ occurs v_p sz -> ~ occurs v_cs sz -> ieval st sz = Some (length LN) ->
  lengths_in LN B (ibuf st (RPos l)) ->
  exists st', exec (append_finalize true l sz) st st' /\
    touch (fun v => v = v_p \/ v = v_cs) (eq (RPos l)) none st st' /\
    length (ibuf st' (RPos l)) = length (ibuf st (RPos l)) /\
    firstn (S (length LN)) (ibuf st' (RPos l)) = scan 0 LN.
Proof.
  intros l sz st LN B PU OP OC EZ (P0 & BL & LB & PS).
  set (s0 := setv st v_cs 0).
  assert (E0 : ieval s0 (ICst 1) = Some 1) by auto.
  destruct (for_range v_p (ICst 1) (IAdd sz (ICst 1))
     (Block [Asg v_cs (IAdd (IVar v_cs) (IBuf (RPos l) (IVar v_p))); StI (RPos l) (IVar v_p) (IVar v_cs)])
     (fun k s => env s v_p = Some k /\ env s v_cs = Some (sum (firstn (k - 1) LN)) /\ 1 <= k /\
        touch (fun v => v = v_p \/ v = v_cs) (eq (RPos l)) none st s /\
        length (ibuf s (RPos l)) = length (ibuf st (RPos l)) /\
        forall q, nth q (ibuf s (RPos l)) 0 = if q <? k then sum (firstn q LN) else nth q (ibuf st (RPos l)) 0)
     1 (S (length LN)) s0 E0) as (st' & X & E & C & _ & I1 & I2 & I3); [lia| | | |].
  - intros k s (E & C & _ & (Tv & _) & _) _. split; auto. simpl.
    rewrite (ieval_pure sz st s); auto; [rewrite EZ; f_equal; lia|].
    intros v O. apply Tv. intros [->| ->]; auto.
  - intros k s (E & C & K1 & TT & LS & Q) K.
    assert (NK : nth_error (ibuf s (RPos l)) k = Some (nth (k - 1) LN 0)).
    { rewrite nth_error_nth' with (d := 0) by lia. f_equal. rewrite Q.
      assert (k <? k = false) by (apply Nat.ltb_irrefl). rewrite H.
      replace k with (S (k - 1)) at 1 by lia. apply PS. lia. }
    set (s1 := setv s v_cs (sum (firstn (k - 1) LN) + nth (k - 1) LN 0)).
    exists (setI s1 (RPos l) (upd_nth (ibuf s1 (RPos l)) k (sum (firstn (k - 1) LN) + nth (k - 1) LN 0))).
    split; [|split].
    + eapply block_cons; [constructor; simpl; rewrite C, E, NK; reflexivity|].
      apply block1. constructor; simpl; auto. change (k < length (ibuf s (RPos l))). lia.
    + simpl. auto.
    + assert (SS : sum (firstn (k - 1) LN) + nth (k - 1) LN 0 = sum (firstn k LN)).
      { rewrite <- sum_firstn_S. f_equal. f_equal. lia. }
      split; [apply setv_eq|]. split; [|split; [lia|split; [|split]]].
      * rewrite setv_neq by discriminate. simpl. rewrite SS. rewrite Nat.sub_0_r. auto.
      * eapply touch_trans; [exact TT|]. eapply touch_trans; [apply touch_setv; auto|].
        eapply touch_trans; [apply touch_setI|apply touch_setv]; auto.
      * change (length (ibuf (setI s1 (RPos l) (upd_nth (ibuf s (RPos l)) k (sum (firstn (k - 1) LN) + nth (k - 1) LN 0))) (RPos l)) = length (ibuf st (RPos l))).
        rewrite setI_eq, upd_nth_len. auto.
      * intros q. change (nth q (ibuf (setI s1 (RPos l) (upd_nth (ibuf s (RPos l)) k (sum (firstn (k - 1) LN) + nth (k - 1) LN 0))) (RPos l)) 0 = if q <? S k then sum (firstn q LN) else nth q (ibuf st (RPos l)) 0).
        rewrite setI_eq, SS. destruct (Nat.eq_dec q k) as [->|N].
        -- rewrite nth_upd_eq by lia. assert (L : k <? S k = true) by (apply Nat.ltb_lt; lia). rewrite L. auto.
        -- rewrite nth_upd_neq by auto. rewrite Q. destruct (q <? k) eqn:A1, (q <? S k) eqn:A2; auto.
           ++ apply Nat.ltb_lt in A1. apply Nat.ltb_ge in A2. lia.
           ++ apply Nat.ltb_ge in A1. apply Nat.ltb_lt in A2. lia.
  - split; [apply setv_eq|]. split; [rewrite setv_neq by discriminate; apply setv_eq|]. split; auto.
    split; [|split]; auto.
    + eapply touch_trans; apply touch_setv; auto.
    + intros q. simpl. destruct q; simpl; auto.
  - exists st'. split; [|split; [|split]]; auto.
    + eapply block_cons; [constructor; reflexivity|]. apply block1. exact X.
    + apply nth_ext with (d := 0) (d' := 0).
      { rewrite firstn_length, I2, scan_length. lia. }
      intros q Q. rewrite firstn_length in Q. rewrite scan_nth by lia. rewrite Nat.add_0_l.
      rewrite <- (firstn_skipn (S (length LN)) (ibuf st' (RPos l))) in I3.
      specialize (I3 q). rewrite app_nth1 in I3 by (rewrite firstn_length; lia).
      rewrite I3. assert (L : q <? S (length LN) = true) by (apply Nat.ltb_lt; lia). rewrite L. auto.
Qed.
End Append.
