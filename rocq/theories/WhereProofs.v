(** Where statements: lowering, and computing in place (C18). *)
From Coq Require Import List Arith Lia Bool Ring_theory Ring Permutation.
Import ListNotations.
From Verif Require LatticeProofs.
From Verif Require Import IndexExpr Eval Notation NotationSpec NotationProofs NotationRun NotationConv NotationConc PrecomputeProofs PrecomputeSem Outcome WhereLower WhereSpec.
Local Open Scope nat_scope.

(** *** Row-major positions *)
Notation size ws := (fold_right Nat.mul 1 ws).

Lemma loc_from : forall ws xs p, length ws = length xs ->
  fold_left (fun p wx => p * fst wx + snd wx) (combine ws xs) p = p * size ws + loc ws xs.
Proof.
  unfold loc. induction ws as [|w ws IH]; intros [|x xs] p L; cbn in *; try lia.
  rewrite (IH xs (p * w + x)) by lia. rewrite (IH xs x) by lia. nia.
Qed.
Lemma loc_cons : forall w ws x xs, length ws = length xs -> loc (w :: ws) (x :: xs) = x * size ws + loc ws xs.
Proof. intros. unfold loc at 1. cbn [combine fold_left fst snd]. rewrite loc_from by auto. cbn [Nat.mul Nat.add]. auto. Qed.
Lemma F2_len : forall A B (P : A -> B -> Prop) l l', Forall2 P l l' -> length l = length l'.
Proof. induction 1; cbn; auto. Qed.
Lemma loc_bound : forall ws xs, Forall2 lt xs ws -> loc ws xs < size ws.
Proof.
  induction ws as [|w ws IH]; intros xs H; inversion H; subst. { cbn. lia. }
  rewrite loc_cons by (symmetry; eapply F2_len; eauto). specialize (IH _ H4). cbn. nia.
Qed.
Lemma loc_inj : forall ws xs ys, Forall2 lt xs ws -> Forall2 lt ys ws -> loc ws xs = loc ws ys -> xs = ys.
Proof.
  induction ws as [|w ws IH]; intros xs ys H1 H2 E; inversion H1; inversion H2; subst; auto.
  rewrite !loc_cons in E by (symmetry; eapply F2_len; eauto).
  pose proof (loc_bound ws _ H5). pose proof (loc_bound ws _ H10).
  assert (x = x0) by nia. subst. f_equal. apply IH; auto. lia.
Qed.
Lemma nth_error_slice : forall A (a : list A) k n q, q < n -> nth_error (firstn n (skipn k a)) q = nth_error a (k + q).
Proof.
  intros A a k. revert a. induction k; intros a n q L; cbn [skipn plus].
  - revert a n L. induction q; intros [|x a] [|n] L; cbn; auto; try lia. apply IHq. lia.
  - destruct a; cbn. { rewrite firstn_nil. destruct q; auto. } apply IHk. auto.
Qed.
Lemma element_loc : forall V ws xs (a : list V), length a = size ws -> Forall2 lt xs ws -> element ws xs a = nth_error a (loc ws xs).
Proof.
  induction ws as [|w ws IH]; intros xs a L H; inversion H; subst.
  - cbn in *. destruct a as [|v [|]]; cbn in *; try lia. auto.
  - cbn [element]. cbn [fold_right] in L. destruct (Nat.ltb_spec x w); [|lia]. destruct (Nat.eqb_spec (length a) (w * size ws)); [|lia]. cbn [andb].
    assert (length l = length ws) by (eapply F2_len; eauto).
    rewrite IH; auto.
    + rewrite loc_cons by auto. apply nth_error_slice. apply loc_bound. auto.
    + rewrite firstn_length, skipn_length. pose proof (loc_bound ws _ H4). nia.
Qed.
Lemma nth_error_upd : forall A (a : list A) p v q, p < length a -> nth_error (upd_nth a p v) q = if q =? p then Some v else nth_error a q.
Proof.
  induction a as [|x a IH]; intros [|p] v [|q] L; cbn in *; try lia; auto. rewrite IH by lia. auto.
Qed.

Section P.
Context {V : Type}.
Variable R : ring_ops V.
Hypothesis RT : ring_theory (r0 R) (r1 R) (radd R) (rmul R) (rsub R) (ropp R) eq.
Variable fn : nat -> V -> V.
Variable dv : V -> V -> V.
Variable dim : ivar -> nat.
Variable shp : tensor -> list nat.
Add Ring Rr18 : RT.

Notation "0r" := (r0 R).
Notation ev := (neval R fn dv dim).
Notation run := (run R fn dv dim).
Notation ups := (ups R fn dv dim).
Notation expr := (nexpr V).
Notation stmt := (nstmt V).
Notation store := (@store V).
Notation memory := (@WhereLower.memory V).
Notation wexec := (wexec R fn dv shp).
Notation weval := (weval R fn dv shp).
Notation holds := (holds shp).

Definition inr (B : list ivar) (r : val) : Prop := forall v, In v B -> r v < dim v.

Lemma access_in : forall B r t vs, inr B r -> map dim vs = shp t -> incl vs B -> Forall2 lt (map r vs) (shp t).
Proof.
  intros B r t vs I E C. rewrite <- E. clear E. induction vs as [|v vs IH]; cbn; constructor; [apply I; apply C; left; auto|]. apply IH. intros x X. apply C. right. auto.
Qed.
Lemma holds_nth : forall D (m : memory) (T : store) t xs, holds D m T -> In t D -> Forall2 lt xs (shp t) -> nth_error (m t) (loc (shp t) xs) = Some (T t xs).
Proof. intros D m T t xs H I F. destruct (H t I) as [L E]. rewrite <- element_loc; auto. Qed.

Lemma weval_ok : forall (e : expr) D B r (m : memory) (T : store), fits_expr dim shp B e -> incl (reads e) D -> inr B r -> holds D m T -> weval m r e = Some (ev T r e).
Proof.
  induction e; intros D B r m T F I N H; cbn in *; auto.
  - destruct F as [F1 F2]. apply (holds_nth D); auto; [apply I; left; auto|]. apply (access_in B); auto.
  - rewrite (IHe D B r m T) by auto; auto.
  - rewrite (IHe D B r m T) by auto; auto.
  - destruct F. rewrite (IHe1 D B r m T), (IHe2 D B r m T); auto; intros x X; apply I; apply in_app_iff; auto.
  - destruct F. rewrite (IHe1 D B r m T), (IHe2 D B r m T); auto; intros x X; apply I; apply in_app_iff; auto.
  - destruct F. rewrite (IHe1 D B r m T), (IHe2 D B r m T); auto; intros x X; apply I; apply in_app_iff; auto.
  - destruct F. rewrite (IHe1 D B r m T), (IHe2 D B r m T); auto; intros x X; apply I; apply in_app_iff; auto.
  - destruct F.
Qed.

Lemma write_ok : forall D (m : memory) (T : store) t xs v, holds D m T -> In t D -> Forall2 lt xs (shp t) ->
  exists m', write m t (loc (shp t) xs) v = Some m' /\ holds D m' (upd T t xs v) /\ (forall t, length (m' t) = length (m t)).
Proof.
  intros D m T t xs v H I F. destruct (H t I) as [L E]. pose proof (loc_bound _ _ F) as B. unfold write.
  destruct (Nat.ltb_spec (loc (shp t) xs) (length (m t))); [|lia]. eexists. split; [reflexivity|].
  assert (LL : forall t', length (set_mem m t (upd_nth (m t) (loc (shp t) xs) v) t') = length (m t')).
  { intros t'. unfold set_mem. destruct (Nat.eqb_spec t' t); auto. subst. apply upd_nth_length. }
  split; [|exact LL]. intros t' I'. split. { rewrite LL. apply (H t' I'). }
  intros ys Y. rewrite element_loc by (auto; rewrite LL; apply (H t' I')). unfold set_mem, upd. destruct (Nat.eqb_spec t' t) as [->|N].
  - rewrite nth_error_upd by auto. destruct (list_eqb_spec ys xs) as [->|N].
    + rewrite Nat.eqb_refl. auto.
    + destruct (Nat.eqb_spec (loc (shp t) ys) (loc (shp t) xs)) as [Q|]; [apply loc_inj in Q; auto; congruence|]. eapply holds_nth; eauto.
  - eapply holds_nth; eauto.
Qed.

Lemma zero_loop : forall n r (m : memory) t, n <= length (m t) ->
  exists m', wexec (WZero t n) r m = Some m' /\ (forall t', t' <> t -> m' t' = m t') /\ length (m' t) = length (m t) /\
    (forall k, k < n -> nth_error (m' t) k = Some 0r).
Proof.
  intros n r m t L. cbn. unfold iter_range. induction n as [|n IH].
  - exists m. cbn. repeat split; auto. lia.
  - destruct IH as (m1 & E1 & F1 & G1 & H1); [lia|]. rewrite seq_S, fold_left_app. cbn [fold_left plus]. rewrite E1. cbn [obnd].
    unfold write. rewrite G1. destruct (Nat.ltb_spec n (length (m t))); [|lia].
    eexists. split; [reflexivity|]. unfold set_mem. split; [|split].
    + intros t' N. destruct (Nat.eqb_spec t' t); [congruence|]. auto.
    + rewrite Nat.eqb_refl. rewrite upd_nth_length. auto.
    + intros k K. rewrite Nat.eqb_refl. rewrite nth_error_upd by lia. destruct (Nat.eqb_spec k n); auto. apply H1. lia.
Qed.

Lemma temporary_size_ok : forall vs, temporary_size dim vs = size (map dim vs).
Proof. induction vs; cbn; auto. Qed.
Lemma fits_lhs : forall (s : stmt) B, fits dim shp B s -> map dim (lhs s) = shp (res s).
Proof. induction s; cbn; intros B H; try tauto; eauto. destruct H; eauto. Qed.

Lemma holds_ext : forall D (m : memory) (T T' : store), (forall t x, In t D -> T t x = T' t x) -> holds D m T -> holds D m T'.
Proof. intros D m T T' E H t I. destruct (H t I). split; auto. intros xs X. rewrite <- E; auto. Qed.

(** The code computes what the statement means, whatever the temporaries' arrays
    contain. *)
Theorem lower_ok : forall (s : stmt) D B r (m : memory) (T : store),
  defined D s -> fits dim shp B s -> inr B r -> holds D m T -> (forall t, In t (temps s) -> length (m t) = size (shp t)) ->
  exists m', wexec (lower dim s) r m = Some m' /\ holds D m' (run s r T) /\ (forall t, length (m' t) = length (m t)).
Proof.
  induction s as [t vs op e|an i b IH|c IHc p IHp]; intros D B r m T DF FT N H TL; cbn [lower WhereLower.wexec NotationSpec.run defined fits temps] in *.
  - destruct DF as [D1 D2], FT as (F1 & F2 & F3). rewrite (weval_ok e D B r m T) by auto. cbn [obnd].
    pose proof (access_in B r t vs N F1 F2) as AI. destruct op as [o|].
    + rewrite (holds_nth D m T t (map r vs)) by auto. cbn [obnd]. apply write_ok; auto.
    + apply write_ok; auto.
  - unfold iter_range. 
    assert (G : forall l (m : memory) (T : store), (forall k, In k l -> k < dim i) -> holds D m T -> (forall t, In t (temps b) -> length (m t) = size (shp t)) ->
      exists m', fold_left (fun o k => obnd o (wexec (lower dim b) (ext r i k))) l (Some m) = Some m' /\
        holds D m' (fold_left (fun T k => run b (ext r i k) T) l T) /\ (forall t, length (m' t) = length (m t))).
    { clear m T H TL. induction l as [|k l IHl]; intros m T L H TL; cbn [fold_left]. { exists m. auto. }
      destruct (IH D (i :: B) (ext r i k) m T DF FT) as (m1 & E1 & H1 & L1); auto.
      { intros v V'. unfold ext. destruct (Nat.eqb_spec v i) as [->|]; [apply L; left; auto|]. destruct V' as [->|]; [congruence|auto]. }
      cbn [obnd]. rewrite E1. destruct (IHl m1 (run b (ext r i k) T)) as (m2 & E2 & H2 & L2); auto.
      { intros; apply L; right; auto. } { intros t I. rewrite L1. auto. }
      exists m2. split; [exact E2|]. split; [exact H2|]. intros t. rewrite L2. auto. }
    apply G; auto. intros k K. apply in_seq in K. lia.
  - destruct DF as (D1 & D2 & D3), FT as [F1 F2].
    assert (LT : length (m (res p)) = size (shp (res p))) by (apply TL; left; auto).
    assert (SZ : temporary_size dim (lhs p) = size (shp (res p))) by (rewrite temporary_size_ok; f_equal; eapply fits_lhs; eauto).
    destruct (zero_loop (temporary_size dim (lhs p)) r m (res p)) as (m0 & E0 & O0 & L0 & Z0). { rewrite SZ. lia. }
    cbn [WhereLower.wexec] in E0. rewrite E0. cbn [obnd].
    assert (H0 : holds (res p :: D) m0 (clear R (res p) T)).
    { intros t I. unfold clear, set_tensor. destruct (Nat.eqb_spec t (res p)) as [->|Nt].
      - split; [rewrite L0; auto|]. intros xs X. rewrite element_loc by (auto; rewrite L0; auto). apply Z0. rewrite SZ. apply loc_bound. auto.
      - destruct I as [I|I]; [congruence|]. rewrite O0 by auto. apply H. auto. }
    assert (LL0 : forall t, length (m0 t) = length (m t)). { intros t. destruct (Nat.eq_dec t (res p)) as [->|]; [auto|rewrite O0; auto]. }
    destruct (IHp (res p :: D) B r m0 (clear R (res p) T)) as (m1 & E1 & H1 & L1); auto.
    { intros t I. rewrite LL0. apply TL. right. apply in_app_iff; auto. }
    rewrite E1. cbn [obnd].
    destruct (IHc (res p :: D) B r m1 (run p r (clear R (res p) T))) as (m2 & E2 & H2 & L2); auto.
    { intros t I. rewrite L1, LL0. apply TL. right. apply in_app_iff; auto. }
    rewrite E2. exists m2. split; auto. split.
    + intros t I. destruct (H2 t (or_intror I)) as [A1 A2]. split; auto. intros xs X. rewrite A2 by auto. unfold set_tensor. destruct (Nat.eqb_spec t (res p)); [subst; tauto|auto].
    + intros t. rewrite L2, L1. auto.
Qed.

(** ** Computing in place *)
Notation so := (sum_over R dim).
Notation sumv := (sumv R).

Lemma summed_value : forall ks (e : expr) T r, ev T r (summed ks e) = so ks (fun r => ev T r e) r.
Proof. unfold summed. induction ks; cbn; intros; auto. apply sum_ext. intros. apply IHks. Qed.

Lemma renamed_value : forall f (e : expr), red_vars e = [] -> forall T r r', (forall v, In v (vars e) -> r (f v) = r' v) -> ev T r (renamed f e) = ev T r' e.
Proof.
  intros f. induction e; cbn; intros H T r r' E; auto; try discriminate.
  - f_equal. rewrite map_map. apply map_ext_in. auto.
  - f_equal; auto.
  - f_equal; auto.
  - apply app_eq_nil in H as [A B]. rewrite (IHe1 A T r r'), (IHe2 B T r r'); auto; intros; apply E; apply in_app_iff; auto.
  - apply app_eq_nil in H as [A B]. rewrite (IHe1 A T r r'), (IHe2 B T r r'); auto; intros; apply E; apply in_app_iff; auto.
  - apply app_eq_nil in H as [A B]. rewrite (IHe1 A T r r'), (IHe2 B T r r'); auto; intros; apply E; apply in_app_iff; auto.
  - apply app_eq_nil in H as [A B]. rewrite (IHe1 A T r r'), (IHe2 B T r r'); auto; intros; apply E; apply in_app_iff; auto.
Qed.
Lemma so_renamed : forall f P (e : expr) T r r', red_vars e = [] ->
  (forall v, In v (vars e) -> (In v P /\ f v = v) \/ (r (f v) = r' v /\ ~ In (f v) P /\ ~ In v P)) ->
  so P (fun r => ev T r (renamed f e)) r = so P (fun r => ev T r e) r'.
Proof.
  intros f. induction P as [|i P IH]; intros e T r r' NR H.
  - cbn. apply renamed_value; auto. intros v I. destruct (H v I) as [[[] _]|[? _]]; auto.
  - cbn [sum_over]. apply sum_ext. intros c _. apply IH; auto. intros v I. destruct (in_dec Nat.eq_dec v P) as [J|J].
    + left. split; auto. destruct (H v I) as [[_ E]|(_ & _ & N)]; auto. exfalso. apply N. right; auto.
    + right. destruct (H v I) as [[[->|K] E]|(E & N & N')]; try contradiction.
      * rewrite E. rewrite !ext_same. auto.
      * rewrite (ext_other r i c (f v)), (ext_other r' i c v) by (intro Q; (apply N + apply N'); left; symmetry; exact Q). split; auto. split; intro; [apply N|apply N']; right; auto.
Qed.

Lemma renamed_reads : forall f (e : expr), reads (renamed f e) = reads e.
Proof. induction e; cbn; congruence. Qed.
Lemma map_eq_in : forall (f g : nat -> nat) l, map f l = map g l -> forall v, In v l -> f v = g v.
Proof. induction l; cbn; intros E v I; [tauto|]. injection E as E1 E2. destruct I as [->|]; auto. Qed.
Lemma rename_out : forall ws us v, ~ In v ws -> rename ws us v = v.
Proof.
  intros ws us v N. unfold rename. destruct (find (fun p => fst p =? v) (combine ws us)) eqn:F; auto. exfalso. apply find_some in F as [I E]. apply Nat.eqb_eq in E. subst.
  destruct p as [a b]. apply in_combine_l in I. auto.
Qed.
Lemma rename_in : forall ws us v, In v ws -> length us = length ws -> In (rename ws us v) us.
Proof.
  intros ws us v I L. unfold rename. destruct (find (fun p => fst p =? v) (combine ws us)) as [[a b]|] eqn:F.
  - apply find_some in F as [J _]. apply in_combine_r in J. auto.
  - exfalso. revert us I L F. induction ws as [|w ws IH]; intros [|u us] I L F; cbn in *; try lia; try tauto.
    destruct (Nat.eqb_spec w v); [discriminate|]. destruct I as [I|I]; [congruence|]. apply (IH us I); auto.
Qed.
Lemma rename_map : forall ws us, NoDup ws -> length us = length ws -> map (rename ws us) ws = us.
Proof.
  induction ws as [|w ws IH]; intros [|u us] N L; cbn in *; try lia; auto. inversion N; subst. f_equal.
  - unfold rename. cbn. rewrite Nat.eqb_refl. auto.
  - rewrite <- (IH us) at 2; auto. apply map_ext_in. intros v I. unfold rename. cbn. destruct (Nat.eqb_spec w v); [subst; tauto|auto].
Qed.

Section Inline.
Variables (w : tensor) (ws L : list ivar) (op : option redop) (e : expr).
Let ks := filter (fun i => negb (mem i ws)) L.
Hypothesis NL : NoDup L.
Hypothesis NW : NoDup ws.
Hypothesis INC : incl ws L.
Hypothesis NR : red_vars e = [].
Hypothesis OP : op = Some RSum \/ (op = None /\ incl L ws).

Lemma InK : forall i, In i ks <-> In i L /\ ~ In i ws.
Proof. intros i. unfold ks. rewrite filter_In. destruct (mem_spec i ws); cbn; intuition discriminate. Qed.
Lemma perm_L : Permutation L (ws ++ ks).
Proof.
  apply NoDup_Permutation; auto.
  - apply LatticeProofs.NoDup_app_intro; auto. { apply NoDup_filter; auto. } intros x X Y. apply InK in Y. tauto.
  - intros x. rewrite in_app_iff, InK. destruct (in_dec Nat.eq_dec x ws); split; intros; intuition auto.
Qed.

Lemma point_value : forall r (rx : val) T, (forall v, In v ws -> rx v < dim v) ->
  apply R 0r (ups (foralls L (NAssign w ws op e)) r T (map rx ws)) = so ks (fun r => ev T r e) (over r ws rx).
Proof.
  intros r rx T RG. rewrite (apply_as_sum R RT). 2: { destruct OP as [->|[-> ?]]; auto. }
  rewrite (sumv_perm R RT _ _ (ups_foralls_perm R fn dv dim L (ws ++ ks) _ perm_L NL r T _)). rewrite foralls_app.
  rewrite (ups_point R fn dv dim ws _ T (map rx ws) rx NW RG).
  - replace (map rx ws) with (map (over r ws rx) ws).
    + apply (sumv_foralls R RT). intros i I. apply InK in I. tauto.
    + apply map_ext_in. intros v I. unfold over. destruct (mem_spec v ws); tauto.
  - intros r1 v I D. destruct (In_nth_error ws v I) as (k & K).
    apply (ups_none R fn dv dim ks w ws (Some RSum) e T _ r1 v k); auto.
    + intro Q. apply InK in Q. tauto.
    + rewrite nth_error_map, K. cbn. congruence.
Qed.

Variable c : stmt.
Variables (r : val) (T : store).
Hypothesis WE : ~ In w (reads e).
Hypothesis WC : ~ In w (res c :: temps c).
Hypothesis EC : forall t, In t (reads e) -> ~ In t (res c :: temps c).

Let F := filter (fun i => negb (mem i L)) (vars e).
Lemma InF : forall i, In i F <-> In i (vars e) /\ ~ In i L.
Proof. intros i. unfold F. rewrite filter_In. destruct (mem_spec i L); cbn; intuition discriminate. Qed.

Definition value (x : list nat) : V := apply R 0r (ups (foralls L (NAssign w ws op e)) r T x).
Definition inv (Ta Tb : store) : Prop :=
  off w Ta Tb /\ (forall x, Ta w x = value x) /\ (forall t x, In t (reads e) -> Ta t x = T t x).
Definition agree (r' : val) : Prop := forall v, In v F -> r' v = r v.

Lemma in_place_value : forall (x : expr) B r' Ta Tb, inv Ta Tb -> agree r' -> inr B r' -> uses_expr w ws ks dim F B x ->
  ev Ta r' x = ev Tb r' (in_place w ws ks e x).
Proof.
  induction x; intros B r' Ta Tb I A G U; cbn [neval in_place uses_expr] in *; auto.
  - destruct I as (I1 & I2 & I3). destruct (Nat.eqb_spec t w) as [->|N].
    + destruct (U eq_refl) as (U1 & U2 & U3). clear U.
      assert (LE : length vs = length ws). { rewrite <- (map_length dim vs), U1, map_length. auto. }
      rewrite I2. unfold value.
      assert (M : map r' vs = map (fun v => r' (rename ws vs v)) ws).
      { rewrite <- (map_map (rename ws vs) r'). rewrite rename_map; auto. }
      rewrite M, point_value.
      * rewrite summed_value.
        rewrite (so_ext R dim ks (fun r1 => ev Tb r1 (renamed (rename ws vs) e)) (fun r1 => ev T r1 (renamed (rename ws vs) e))).
        { symmetry. apply so_renamed; auto. intros v J. destruct (in_dec Nat.eq_dec v ws) as [K|K].
          - right. unfold over. destruct (mem_spec v ws); [|tauto]. split; auto. split; [|rewrite InK; tauto]. apply U3. apply rename_in; auto.
          - rewrite rename_out by auto. destruct (in_dec Nat.eq_dec v L) as [Q|Q].
            + left. split; auto. apply InK. auto.
            + right. unfold over. destruct (mem_spec v ws); [tauto|]. split; [apply A; apply InF; auto|]. rewrite InK. tauto. }
        intros r1. apply neval_ext; auto. intros t x J.
        assert (J' : In t (reads e)). { rewrite renamed_reads in J. auto. }
        rewrite <- I3 by auto. symmetry. apply I1. intro; subst; auto.
      * intros v J. assert (K := rename_map ws vs NW LE). assert (D : dim (rename ws vs v) = dim v).
        { assert (E : map (fun v => dim (rename ws vs v)) ws = map dim ws). { rewrite <- (map_map (rename ws vs) dim). rewrite K. auto. } exact (map_eq_in _ _ _ E v J). }
        rewrite <- D. apply G. apply U2. apply rename_in; auto.
    + cbn. apply I1. auto.
  - f_equal. eauto.
  - f_equal. eauto.
  - destruct U. f_equal; eauto.
  - destruct U. f_equal; eauto.
  - destruct U. f_equal; eauto.
  - destruct U. f_equal; eauto.
  - destruct U as [U1 U2].
    assert (E : forall k, k < dim i -> ev Ta (ext r' i k) x = ev Tb (ext r' i k) (in_place w ws ks e x)).
    { intros k K. apply (IHx (i :: B)); auto.
      - intros v V'. rewrite ext_other by (intro; subst; auto). auto.
      - intros v V'. unfold ext. destruct (Nat.eqb_spec v i) as [->|Q]; auto. destruct V'; [congruence|auto]. }
    destruct op0; [apply sum_ext|apply prod_ext]; auto.
Qed.

Lemma in_place_run : forall (s : stmt) B r' Ta Tb, inv Ta Tb -> agree r' -> inr B r' -> uses w ws ks dim F B s ->
  incl (res s :: temps s) (res c :: temps c) ->
  inv (run s r' Ta) (run (stmt_in_place w ws ks e s) r' Tb).
Proof.
  assert (RES : forall s : stmt, res (stmt_in_place w ws ks e s) = res s) by (induction s; cbn; auto).
  induction s as [t vs o x|an i b IH|cc IHc p IHp]; intros B r' Ta Tb I A G U IN; cbn [NotationSpec.run stmt_in_place uses res temps] in *.
  - assert (NW' : t <> w). { intro; subst. apply WC. apply IN. left; auto. }
    assert (E := in_place_value x B r' Ta Tb I A G U). destruct I as (I1 & I2 & I3). split; [|split].
    + intros t' x' N. unfold upd. destruct (Nat.eqb_spec t' t) as [->|]; auto. destruct (list_eqb x' (map r' vs)); auto. rewrite E. destruct o; auto. rewrite I1 by auto. auto.
    + intros x'. unfold upd. destruct (Nat.eqb_spec w t); [congruence|]. auto.
    + intros t' x' J. unfold upd. destruct (Nat.eqb_spec t' t) as [->|]; auto. exfalso. apply (EC t J). apply IN. left; auto.
  - destruct U as [U1 U2].
    assert (Q : forall l Ta Tb, (forall k, In k l -> k < dim i) -> inv Ta Tb ->
      inv (fold_left (fun T k => run b (ext r' i k) T) l Ta) (fold_left (fun T k => run (stmt_in_place w ws ks e b) (ext r' i k) T) l Tb)).
    { induction l as [|k l IHl]; intros Ta' Tb' K I'; cbn [fold_left]; auto. apply IHl. { intros; apply K; right; auto. }
      apply (IH (i :: B)); auto.
      - intros v V'. rewrite ext_other by (intro; subst; auto). auto.
      - intros v V'. unfold ext. destruct (Nat.eqb_spec v i) as [->|Q]; [apply K; left; auto|]. destruct V'; [congruence|auto]. }
    apply Q; auto. intros k K. apply in_seq in K. lia.
  - destruct U as [U1 U2]. rewrite RES.
    assert (NP : res p <> w). { intro Q. apply WC. apply IN. right. left. auto. }
    assert (I0 : inv (clear R (res p) Ta) (clear R (res p) Tb)).
    { destruct I as (I1 & I2 & I3). unfold clear, set_tensor. split; [|split].
      - intros t x N. destruct (Nat.eqb t (res p)); auto.
      - intros x. destruct (Nat.eqb_spec w (res p)); [congruence|auto].
      - intros t x J. destruct (Nat.eqb_spec t (res p)) as [->|]; auto. exfalso. apply (EC _ J). apply IN. right. left. auto. }
    assert (I1 := IHp B r' _ _ I0 A G U2).
    assert (I2 : inv (run p r' (clear R (res p) Ta)) (run (stmt_in_place w ws ks e p) r' (clear R (res p) Tb))).
    { apply I1. intros t [J|J]; apply IN; right; [left; auto|right; apply in_app_iff; auto]. }
    assert (I3 := IHc B r' _ _ I2 A G U1).
    destruct I3 as (J1 & J2 & J3). { intros t [J|J]; apply IN; [left; auto|right; right; apply in_app_iff; auto]. }
    destruct I as (K1 & K2 & K3). unfold set_tensor. split; [|split].
    + intros t x N. destruct (Nat.eqb_spec t (res p)) as [->|]; auto.
    + intros x. destruct (Nat.eqb_spec w (res p)); [congruence|auto].
    + intros t x J. destruct (Nat.eqb_spec t (res p)) as [->|]; auto.
Qed.
End Inline.

Theorem where_in_place : forall w ws L op (e : expr) (c p : stmt) B r T,
  nest_of L p (NAssign w ws op e) -> NoDup L -> NoDup ws -> incl ws L -> red_vars e = [] ->
  (op = Some RSum \/ (op = None /\ incl L ws)) ->
  ~ In w (reads e) -> ~ In w (res c :: temps c) -> (forall t, In t (reads e) -> ~ In t (res c :: temps c)) ->
  uses w ws (filter (fun i => negb (mem i ws)) L) dim (filter (fun i => negb (mem i L)) (vars e)) B c -> inr B r ->
  eqT (run (NWhere c p) r T) (run (stmt_in_place w ws (filter (fun i => negb (mem i ws)) L) e c) r T).
Proof.
  intros w ws L op e c p B r T NE NL NW INC NR OP WE WC EC U IB t x.
  destruct (nest_res L p _ NE) as (RP & RD & TP). cbn [res rhs_reads temps] in RP, RD, TP.
  cbn [NotationSpec.run]. rewrite RP.
  set (T1 := run p r (clear R w T)).
  assert (I : inv w ws L op e r T T1 T).
  { split; [|split].
    - intros t' x' N. unfold T1. rewrite frame by (rewrite RP; auto). unfold clear, set_tensor. destruct (Nat.eqb_spec t' w); congruence.
    - intros x'. unfold T1, value. assert (E := run_ups R fn dv dim p r (clear R w T) x'). rewrite RP, RD, TP in E. rewrite E by auto. rewrite (nest_ups R fn dv dim _ _ _ NE).
      unfold clear at 1, set_tensor. rewrite Nat.eqb_refl. f_equal. apply (ups_off R fn dv dim w).
      + clear - WE. induction L; cbn; auto.
      + intros t' x'' N. unfold clear, set_tensor. destruct (Nat.eqb_spec t' w); congruence.
    - intros t' x' J. unfold T1. rewrite frame by (rewrite RP; intro; subst; auto). unfold clear, set_tensor. destruct (Nat.eqb_spec t' w); [subst; tauto|auto]. }
  destruct (in_place_run w ws L op e NL NW INC NR OP c r T WE WC EC c B r T1 T I) as (J & _); auto.
  - intros v _. auto.
  - intros y Y; auto.
  - unfold set_tensor. destruct (Nat.eqb_spec t w) as [->|N]; [|apply J; auto].
    rewrite frame; auto. assert (RES : forall ks (s : stmt), res (stmt_in_place w ws ks e s) = res s) by (induction s; cbn; auto). rewrite RES. intro Q. apply WC. left. auto.
Qed.

Theorem where_in_loops : forall Lo w ws L op (e : expr) (c p : stmt) B r T,
  nest_of L p (NAssign w ws op e) -> NoDup L -> NoDup ws -> incl ws L -> red_vars e = [] ->
  (op = Some RSum \/ (op = None /\ incl L ws)) ->
  ~ In w (reads e) -> ~ In w (res c :: temps c) -> (forall t, In t (reads e) -> ~ In t (res c :: temps c)) ->
  uses w ws (filter (fun i => negb (mem i ws)) L) dim (filter (fun i => negb (mem i L)) (vars e)) (Lo ++ B) c -> inr B r ->
  eqT (run (foralls Lo (NWhere c p)) r T) (run (foralls Lo (stmt_in_place w ws (filter (fun i => negb (mem i ws)) L) e c)) r T).
Proof.
  intros Lo w ws L op e c p B r T NE NL NW INC NR OP WE WC EC U IB.
  assert (MONO : forall (x : expr) ks F B B', incl B B' -> uses_expr w ws ks dim F B x -> uses_expr w ws ks dim F B' x).
  { clear. induction x; cbn; intros ks F B B' I H; auto; try (destruct H; split; eauto; fail).
    - intros E. destruct (H E) as (H1 & H2 & H3). repeat split; auto. intros y Y. auto.
    - eauto.
    - eauto.
    - destruct H; split; auto. eapply IHx; [|eauto]. intros y [|Y]; [left|right]; auto. }
  assert (MONOS : forall (s : stmt) ks F B B', incl B B' -> uses w ws ks dim F B s -> uses w ws ks dim F B' s).
  { clear - MONO. induction s; cbn; intros ks F B B' I H; eauto; try (destruct H; split; eauto; fail).
    destruct H; split; auto. eapply IHs; [|eauto]. intros y [|Y]; [left|right]; auto. }
  revert B r T U IB. induction Lo as [|i Lo IH]; intros B r T U IB.
  - apply (where_in_place w ws L op e c p B); auto.
  - cbn [foralls fold_right NotationSpec.run].
    change (fold_right (NForall no_annot) (NWhere c p) Lo) with (foralls Lo (NWhere c p)).
    change (fold_right (NForall no_annot) (stmt_in_place w ws (filter (fun i => negb (mem i ws)) L) e c) Lo) with (foralls Lo (stmt_in_place w ws (filter (fun i => negb (mem i ws)) L) e c)).
    apply fold_ext; [|apply eqT_refl]. intros T1 T2 k K E. eapply eqT_trans; [apply run_ext; [exact E|auto]|].
    apply (IH (i :: B)).
    + eapply MONOS; [|exact U]. intros y Y. cbn in Y. rewrite in_app_iff in *. cbn. tauto.
    + intros v V'. unfold ext. destruct (Nat.eqb_spec v i) as [->|Q]; [apply in_seq in K; lia|]. destruct V'; [congruence|auto].
Qed.
End P.
