(** Proofs about consumers of temporary vectors. *)
From Coq Require Import List Arith Lia Bool Permutation Sorted Ring_theory.
Import ListNotations.
From Verif Require Import Outcome IndexExpr Eval Notation NotationSpec WhereLower Workspace WorkspaceSpec WorkspaceProofs Accel AccelSpec.
Local Open Scope nat_scope.

Lemma find_index_at : forall A (p : A -> bool) l m x, nth_error l m = Some x -> p x = true ->
  (forall k y, k < m -> nth_error l k = Some y -> p y = false) -> find_index p l = Some m.
Proof.
  induction l as [|a l IH]; intros [|m] x E P F; try discriminate; cbn in *.
  - injection E as ->. rewrite P. auto.
  - rewrite (F 0 a); auto; [|lia]. rewrite (IH m x); auto. intros k y K Y. apply (F (S k) y); [lia|auto].
Qed.
Lemma find_index_none : forall A (p : A -> bool) l, (forall x, In x l -> p x = false) -> find_index p l = None.
Proof. induction l as [|a l IH]; intros H; cbn; auto. rewrite H by (left; auto). rewrite IH; auto. intros; apply H; right; auto. Qed.

Section D.
Variable derived : ivar -> ivar -> bool.
(** The level that is consulted is the level that stores the variable's mode. *)
Lemma decide_in : forall j rv f m lv, NoDup rv -> nth_error rv m = Some j -> (forall v, In v rv -> derived j v = false) ->
  self_inverse (f_ordering f) -> stored_in f m lv ->
  can_accelerate derived false true true 1 [[j]] [(rv, f)] = if l_full lv then Decided false false else Decided true (l_ordered lv).
Proof.
  intros j rv f m lv ND J D SI (l & O & L). unfold can_accelerate. cbn [negb orb Nat.eqb].
  destruct rv as [|r0 rv0] eqn:RV. { destruct m; discriminate. } rewrite <- RV in *. clear RV r0 rv0.
  rewrite (find_index_at _ _ rv m j); auto.
  - rewrite (SI _ _ O), L. auto.
  - rewrite Nat.eqb_refl. auto.
  - intros k y K Y. rewrite D by (eapply nth_error_In; eauto). rewrite orb_false_r. apply Nat.eqb_neq. intros ->.
    assert (k = m); [|lia]. eapply NoDup_nth_error; eauto; [|congruence]. apply nth_error_Some. congruence.
Qed.
Lemma decide_out : forall j rv f, ~ In j rv -> (forall v, In v rv -> derived j v = false) ->
  can_accelerate derived false true true 1 [[j]] [(rv, f)] = Decided true false.
Proof.
  intros j rv f N D. unfold can_accelerate. cbn [negb orb Nat.eqb]. destruct rv as [|r0 rv0] eqn:RV; auto. rewrite <- RV in *. clear RV r0 rv0.
  rewrite find_index_none; auto. intros x X. rewrite D by auto. rewrite orb_false_r. apply Nat.eqb_neq. intros ->. auto.
Qed.
(** Acceleration happens only if everything else is as required. *)
Lemma decided_true : forall cuda flag dense order inputs results s,
  can_accelerate derived cuda flag dense order inputs results = Decided true s ->
  cuda = false /\ flag = true /\ dense = true /\ order = 1 /\ exists tv rs, inputs = [tv] /\ results = [rs].
Proof.
  intros cuda flag dense order inputs results s H. unfold can_accelerate in H.
  destruct cuda; [discriminate|]. destruct flag; [|discriminate]. cbn [negb] in H.
  destruct dense; [|discriminate]. destruct (Nat.eqb_spec order 1); [|discriminate]. cbn [negb orb] in H.
  destruct inputs as [|tv [|? ?]]; try discriminate. destruct results as [|[rv f] [|? ?]]; try discriminate. eauto 10.
Qed.
End D.

Lemma last_any : forall A (l : list A) x d d', last (x :: l) d = last (x :: l) d'.
Proof. induction l as [|y l IH]; intros x d d'; auto. cbn [last] in *. apply (IH y). Qed.

Section P.
Context {V : Type}.
Variable R : ring_ops V.
Hypothesis RT : is_ring R.
Notation "a [+] b" := (radd R a b) (at level 50, left associativity).

(** *** The plain temporary *)
Lemma plain_fold : forall n op us vals, op <> Some RProd -> length vals = n -> (forall u, In u us -> fst u < n) ->
  exists vals', fold_left (fun o u => obnd o (fun vals => compute R op vals (fst u) (snd u))) us (Some vals) = Some vals' /\
    length vals' = n /\
    forall i, i < n -> nth_error vals' i = option_map (fun x => match values_at us i with [] => x | vs =>
      match op with None => last vs x | _ => x [+] total R op vs end end) (nth_error vals i).
Proof.
  intros n op us. induction us as [|[k v] us IH]; intros vals NP L LT; cbn [fold_left obnd].
  - exists vals. split; auto. split; auto. intros i I. cbn. destruct (nth_error vals i); auto.
  - assert (K : k < n) by (apply (LT (k, v)); left; auto).
    cbn [fst snd].
    assert (C : exists z, nth_error vals k = Some z /\ compute R op vals k v = Some (upd_nth vals k (match op with None => v | Some o => opf R o z v end))).
    { destruct (nth_error vals k) as [z|] eqn:Z. 2: { apply nth_error_None in Z. lia. } exists z. split; auto. unfold compute.
      destruct op; [rewrite Z; cbn [obnd]|]; apply put_ok; lia. }
    destruct C as (z & Z & C). rewrite C.
    assert (L2 : length (upd_nth vals k (match op with None => v | Some o => opf R o z v end)) = n).
    { rewrite upd_nth_length; auto. }
    destruct (IH _ NP L2) as (vals' & E & LV & N). { intros u U; apply LT; right; auto. }
    exists vals'. split; auto. split; auto. intros i I. rewrite N by auto.
    unfold values_at. cbn [filter fst]. destruct (Nat.eqb_spec k i) as [->|NE].
    + rewrite upd_same by lia. rewrite Z. cbn [option_map map snd]. f_equal.
      fold (@values_at V us i). destruct (values_at us i) as [|x xs] eqn:VE.
      * destruct op as [[|]|]; try congruence; cbn; auto. rewrite (Radd_comm RT v), (Radd_0_l RT). auto.
      * destruct op as [[|]|]; try congruence; cbn [total fold_right opf].
        -- rewrite <- (Radd_assoc RT). auto.
        -- rewrite (last_any _ xs x v z). auto.
    + rewrite upd_other by lia. auto.
Qed.
Lemma combine_seq : forall A (g : nat -> A) n s l, length l = n -> (forall i, i < n -> nth_error l i = Some (g (s + i))) ->
  combine (seq s n) l = map (fun i => (i, g i)) (seq s n).
Proof.
  induction n as [|n IH]; intros s l L N; destruct l as [|x l]; try discriminate; auto. cbn [seq combine map]. f_equal.
  - specialize (N 0 ltac:(lia)). cbn in N. rewrite Nat.add_0_r in N. congruence.
  - apply IH; [cbn in L; lia|]. intros i I. specialize (N (S i) ltac:(lia)). cbn in N. rewrite N. do 2 f_equal. lia.
Qed.
Lemma plain_ok : forall n op us, op <> Some RProd -> (forall u, In u us -> fst u < n) ->
  plain R n op us = Some (map (fun i => (i, temporary R op us i)) (seq 0 n)).
Proof.
  intros n op us NP LT. unfold plain. destruct (plain_fold n op us (repeat (r0 R) n) NP) as (vals & E & L & N); auto. { apply repeat_length. }
  rewrite E. cbn [obnd]. f_equal. apply combine_seq; auto. intros i I. rewrite N by auto. cbn [plus].
  rewrite nth_error_repeat by auto. cbn [option_map]. f_equal. unfold temporary. destruct (values_at us i) as [|x xs]; auto.
  destruct op as [[|]|]; try congruence; auto. cbn [total]. rewrite (Radd_0_l RT). auto.
Qed.

(** *** Visits *)
Lemma visible_correct : forall s op us out, correct R true s op us out ->
  visible out = map (fun i => (i, temporary R op us i)) (map fst out).
Proof.
  intros s op us out (ND & IN & VAL & _).
  assert (G : forall o, (forall x, In x o -> In x out) -> visible o = map (fun i => (i, temporary R op us i)) (map fst o)).
  { induction o as [|[i v] o IH]; intros S; auto. unfold visible in *. cbn [flat_map map fst snd].
    rewrite (VAL i v) by (apply S; left; auto). cbn [app]. rewrite IH by (intros; apply S; right; auto). f_equal. f_equal.
    unfold temporary. assert (T : In i (map fst us)). { apply IN. apply in_map_iff. exists (i, v). split; auto. apply S; left; auto. }
    apply in_map_iff in T as ([k w] & <- & U). cbn [fst]. destruct (values_at us k) as [|x xs] eqn:VE; auto.
    exfalso. assert (In w (values_at us k)); [|rewrite VE in *; auto]. unfold values_at. apply in_map_iff. exists (k, w). split; auto.
    apply filter_In. split; auto. cbn. apply Nat.eqb_refl. }
  apply G. auto.
Qed.
Lemma temporary_untouched : forall op us i, ~ In i (map fst us) -> temporary R op us i = r0 R.
Proof. intros op us i H. unfold temporary. rewrite values_nil; auto. Qed.

(** *** Stores *)
Lemma stores_cons : forall op iv vs (p : place V), stores R op (iv :: vs) p = obnd (store R op p iv) (stores R op vs).
Proof.
  intros op iv vs p. unfold stores. cbn [fold_left obnd]. destruct (store R op p iv); auto. cbn [obnd].
  induction vs; auto.
Qed.
Lemma stores_full : forall op g is b, NoDup is -> (forall i, In i is -> i < length b) ->
  exists b', stores R op (map (fun i => (i, g i)) is) (Full b) = Some (Full b') /\ length b' = length b /\
    (forall i, In i is -> nth_error b' i = option_map (fun x => assigned R op x (g i)) (nth_error b i)) /\
    (forall i, ~ In i is -> nth_error b' i = nth_error b i).
Proof.
  induction is as [|k is IH]; intros b ND LT; cbn [map].
  - exists b. repeat split; auto. intros i [].
  - rewrite stores_cons. cbn [store fst snd]. inversion_clear ND as [|? ? NI ND'].
    assert (K : k < length b) by (apply LT; left; auto).
    assert (C : exists z, nth_error b k = Some z /\ compute R op b k (g k) = Some (upd_nth b k (assigned R op z (g k)))).
    { destruct (nth_error b k) as [z|] eqn:Z. 2: { apply nth_error_None in Z. lia. } exists z. split; auto. unfold compute, assigned, opf.
      destruct op as [[|]|]; try rewrite Z; cbn [obnd]; apply put_ok; lia. }
    destruct C as (z & Z & C). rewrite C. cbn [option_map obnd].
    assert (L2 : length (upd_nth b k (assigned R op z (g k))) = length b) by (apply upd_nth_length; auto).
    destruct (IH (upd_nth b k (assigned R op z (g k))) ND') as (b' & E & L & I & O). { intros i X. rewrite L2. apply LT; right; auto. }
    exists b'. split; auto. split; [congruence|]. split.
    + intros i [->|X]; [|rewrite I by auto; rewrite upd_other; auto; intros ->; auto].
      rewrite O by auto. rewrite upd_same by auto. rewrite Z. auto.
    + intros i X. rewrite O by (intro; apply X; right; auto). apply upd_other; auto. intros ->. apply X; left; auto.
Qed.
Lemma stores_appended : forall op vs l, stores R op vs (Appended l) = Some (Appended (l ++ vs)).
Proof.
  induction vs as [|iv vs IH]; intros l. { cbn. rewrite app_nil_r. auto. }
  rewrite stores_cons. cbn [store obnd]. rewrite IH. rewrite <- app_assoc. auto.
Qed.
Definition total_of (vs : list V) : V := fold_right (radd R) (r0 R) vs.
Lemma stores_reduced : forall vs x, stores R (Some RSum) vs (Reduced x) = Some (Reduced (x [+] total_of (map snd vs))).
Proof.
  induction vs as [|iv vs IH]; intros x. { cbn. rewrite (Radd_comm RT), (Radd_0_l RT). auto. }
  rewrite stores_cons. cbn [store obnd opf]. rewrite IH. cbn [map total_of fold_right]. rewrite <- (Radd_assoc RT). auto.
Qed.
Lemma total_perm : forall l l', Permutation l l' -> total_of l = total_of l'.
Proof.
  unfold total_of. induction 1; cbn; auto; [congruence| |congruence].
  rewrite !(Radd_assoc RT). rewrite (Radd_comm RT y x). auto.
Qed.
Lemma total_filter : forall (p : nat -> bool) g is, (forall i, In i is -> p i = false -> g i = r0 R) ->
  total_of (map g (filter p is)) = total_of (map g is).
Proof.
  induction is as [|i is IH]; intros Z; auto. cbn [filter]. destruct (p i) eqn:P; cbn [map total_of fold_right]; unfold total_of in IH; rewrite <- IH by (intros; apply Z; auto; right; auto); auto.
  rewrite (Z i); auto; [|left; auto]. rewrite (Radd_0_l RT). auto.
Qed.
Lemma total_sum : forall g n, total_of (map g (seq 0 n)) = sum_to R n g.
Proof. intros g n. unfold total_of, sum_to. generalize (seq 0 n). induction l; cbn; auto. congruence. Qed.

(** *** The where statement *)
(** The consumer visits a set of positions that includes every position stored. *)
Lemma visits_ok : forall d n pop srt us ws rop body p, sorts srt -> (forall u, In u us -> fst u < n) ->
  (forall s, d = Decided true s -> exists vals lst, ws = allocated n vals lst /\ length vals = n /\ length lst = n) ->
  d <> Undefined -> (pop = Some RProd -> exists s, d = Decided true s) ->
  exists is, run_where R d n pop srt us ws rop body p =
      stores R rop (map (fun i => (i, body i (temporary R pop us i))) is) p /\
    NoDup is /\ (forall i, In i is -> i < n) /\
    (forall i, i < n -> ~ In i is -> (exists s, d = Decided true s) /\ temporary R pop us i = r0 R) /\
    ((forall s, d = Decided true s -> s = true) -> StronglySorted lt is) /\
    (forall b, d = Decided false b -> is = seq 0 n).
Proof.
  intros d n pop srt us ws rop body p SO LT AL ND PR. destruct d as [[|] s|]; [| |congruence].
  - destruct (AL s eq_refl) as (vals & lst & -> & LV & LL). unfold run_where.
    destruct (use_ok R RT n true pop (if s then Some srt else None)) with (us := us) (w := allocated n vals lst) as (out & w' & E & C & _); auto.
    { intros f. destruct s; [|discriminate]. intros [= <-]. auto. }
    { split; [split; [|split]; auto; cbn; apply repeat_length|]. intros i I. cbn. apply nth_error_repeat. auto. }
    rewrite E. cbn [obnd fst]. exists (map fst out). rewrite (visible_correct _ _ _ _ C). rewrite !map_map. cbn [fst snd].
    destruct C as (N & IN & VAL & ST). split; [reflexivity|]. split; auto. split.
    { intros i I. apply IN in I. apply in_map_iff in I as (u & <- & U). auto. } split.
    { intros i I O. split; [eauto|]. apply temporary_untouched. rewrite <- IN. auto. }
    split; [|discriminate]. intros Q. apply ST. rewrite (Q s eq_refl). auto.
  - unfold run_where. rewrite plain_ok; auto. 2: { intros E. destruct (PR E); discriminate. } cbn [obnd]. exists (seq 0 n). rewrite map_map. cbn [fst snd].
    split; auto. split; [apply seq_NoDup|]. split; [intros i I; apply in_seq in I; lia|]. split.
    { intros i I O. exfalso. apply O. apply in_seq. lia. } split; auto. intros _.
    clear. generalize 0. induction n as [|n IH]; intros a; cbn; constructor; auto. apply Forall_forall. intros x X. apply in_seq in X. lia.
Qed.

Lemma component_map : forall g is i, component R (map (fun i => (i, g i)) is) i = if in_dec Nat.eq_dec i is then g i else r0 R.
Proof.
  intros g is i. unfold component. induction is as [|k is IH]; auto. cbn [map find fst].
  destruct (Nat.eqb_spec k i) as [->|NE].
  - cbn [snd]. destruct (in_dec Nat.eq_dec i (i :: is)) as [I|N]; auto. exfalso. apply N. left; auto.
  - rewrite IH. destruct (in_dec Nat.eq_dec i is) as [I|N], (in_dec Nat.eq_dec i (k :: is)) as [I'|N']; auto.
    + exfalso. apply N'. right; auto.
    + destruct I'; [congruence|]. contradiction.
Qed.

(** *** Threads *)
Lemma part_nth : forall A size t (a : list A) i, i < size -> nth_error (part size t a) i = nth_error a (size * t + i).
Proof.
  intros A size t a i I. unfold part. rewrite <- (firstn_skipn (size * t) a) at 2.
  destruct (Nat.le_gt_cases (length a) (size * t)) as [L|L].
  - rewrite skipn_all2 by lia. rewrite firstn_nil. rewrite app_nil_r, firstn_all2 by lia.
    transitivity (@None A); [destruct i; auto|]. symmetry. apply nth_error_None. lia.
  - rewrite nth_error_app2 by (rewrite firstn_length; lia). rewrite firstn_length, Nat.min_l by lia.
    replace (size * t + i - size * t) with i by lia.
    rewrite <- (firstn_skipn size (skipn (size * t) a)) at 2.
    destruct (Nat.lt_ge_cases i (length (firstn size (skipn (size * t) a)))) as [X|X].
    + rewrite nth_error_app1 by auto. auto.
    + rewrite (proj2 (nth_error_None _ _) X). symmetry. rewrite nth_error_app2 by auto. rewrite firstn_length in X.
      rewrite skipn_all2 by lia. destruct (_ - _); auto.
Qed.
Lemma part_length : forall A size t T (a : list A), t < T -> length a = size * T -> length (part size t a) = size.
Proof. intros A size t T a TT L. unfold part. rewrite firstn_length, skipn_length. nia. Qed.
Lemma disjoint_parts : forall size t i s j, i < size -> j < size -> size * t + i = size * s + j -> t = s /\ i = j.
Proof. intros size t i s j I J E. assert (t = s) by nia. subst. split; auto. lia. Qed.
Lemma exec_cons : forall size s ss (a : list V), exec size a (s :: ss) =
  obnd (obnd (nth_error a (size * s_thread s + s_loc s)) (fun v => put a (size * s_thread s + s_loc s) (s_fun s v))) (fun a => exec size a ss).
Proof.
  intros size s ss a. unfold exec. cbn [fold_left obnd]. destruct (obnd _ _); auto. cbn [obnd]. induction ss; auto.
Qed.
Lemma exec_parts : forall size T steps a, length a = size * T ->
  (forall s, In s steps -> s_thread s < T /\ s_loc s < size) ->
  exists a', exec size a steps = Some a' /\ length a' = size * T /\
    forall t, t < T -> exec size (part size t a) (map (fun s => Step 0 (s_loc s) (@s_fun V s)) (filter (fun s => s_thread s =? t) steps)) = Some (part size t a').
Proof.
  intros size T. induction steps as [|s ss IH]; intros a L H.
  - exists a. repeat split; auto.
  - destruct (H s (or_introl eq_refl)) as [S1 S2]. rewrite exec_cons.
    set (q := size * s_thread s + s_loc s). assert (Q : q < length a) by (unfold q; nia).
    destruct (nth_error a q) as [v|] eqn:E. 2: { apply nth_error_None in E. lia. } cbn [obnd]. rewrite put_ok by auto. cbn [obnd].
    assert (L1 : length (upd_nth a q (s_fun s v)) = size * T) by (rewrite upd_nth_length; auto).
    destruct (IH _ L1) as (a' & E' & L' & P'). { intros; apply H; right; auto. }
    exists a'. split; auto. split; auto. intros t TT. specialize (P' t TT). cbn [filter].
    destruct (Nat.eqb_spec (s_thread s) t) as [ET|NT].
    + cbn [map]. rewrite exec_cons. cbn [s_thread s_loc s_fun]. rewrite Nat.mul_0_r. cbn [plus].
      rewrite part_nth by auto. rewrite <- ET. fold q. rewrite E. cbn [obnd].
      rewrite put_ok by (erewrite part_length; eauto; lia). cbn [obnd]. rewrite ET. rewrite <- P'. f_equal.
      apply nth_error_ext_eq.
      { rewrite upd_nth_length by (erewrite part_length; eauto; lia). erewrite !part_length; eauto. }
      intros i I. rewrite upd_nth_length in I by (erewrite part_length; eauto; lia). erewrite part_length in I by eauto.
      rewrite part_nth by auto. destruct (Nat.eq_dec i (s_loc s)) as [->|NI].
      * rewrite upd_same by (erewrite part_length; eauto; lia). rewrite <- ET. fold q. rewrite upd_same by auto. auto.
      * rewrite upd_other; auto; [|erewrite part_length; eauto; lia]. rewrite part_nth by auto. rewrite upd_other; auto.
        unfold q. intros X. apply disjoint_parts in X; auto. lia.
    + rewrite <- P'. f_equal. apply nth_error_ext_eq. { erewrite !part_length; eauto. }
      intros i I. erewrite part_length in I by eauto. rewrite !part_nth by auto. symmetry. apply upd_other; auto. unfold q.
      intros X. symmetry in X. apply disjoint_parts in X; auto. lia.
Qed.
End P.
