(** Interleavings of the iterations of one loop. *)
From Coq Require Import List Arith Lia Bool Ring_theory Ring Permutation Relations.
Import ListNotations.
From Verif Require Import IndexExpr Eval Notation NotationSpec NotationProofs NotationRun Parallel ParallelSpec ParallelExec.
Local Open Scope nat_scope.

Section P.
Context {V : Type}.
Variable R : ring_ops V.
Hypothesis RT : ring_theory (r0 R) (r1 R) (radd R) (rmul R) (rsub R) (ropp R) eq.
Variable fn : nat -> V -> V.
Variable dv : V -> V -> V.
Variable dim : ivar -> nat.
Add Ring Rr3 : RT.
Notation ev := (neval R fn dv dim).
Notation run := (run R fn dv dim).
Notation stmt := (nstmt V).
Notation store := (@store V).
Notation action := (@action V).
Notation actions := (actions R fn dv dim).
Notation eqT := (@eqT V).
Notation exec := (exec R).
Notation thread := (@thread V).

Lemma rt_inv : forall (A : Type) (S : A -> A -> Prop) (I : A -> Prop), (forall a b, S a b -> I a -> I b) ->
  forall a b, clos_refl_trans A S a b -> I a -> I b.
Proof. intros A S I H a b C. induction C; eauto. Qed.
Lemma nth_error_seq : forall n s c, c < n -> nth_error (seq s n) c = Some (s + c).
Proof.
  induction n as [|n IH]; intros s c H; [lia|]. destruct c; cbn; [f_equal; lia|]. rewrite IH by lia. f_equal. lia.
Qed.
Lemma start_nth : forall n (L : nat -> store) todos c th, nth_error (start n L todos) c = Some th ->
  c < n /\ th = {| private := L c; registers := []; todo := todos c |}.
Proof.
  intros n L todos c th H. unfold start in H.
  assert (c < n). { rewrite <- (seq_length n 0), <- (map_length (fun c => {| private := L c; registers := []; todo := todos c |})). apply nth_error_Some. congruence. }
  split; auto. rewrite nth_error_map, nth_error_seq in H by auto. cbn in H. congruence.
Qed.
Lemma get_private : forall P (M L : store) t, In t P -> get P M L t = L t.
Proof. intros. unfold get. destruct (mem_spec t P); tauto. Qed.
Lemma get_shared : forall P (M L : store) t, ~ In t P -> get P M L t = M t.
Proof. intros. unfold get. destruct (mem_spec t P); tauto. Qed.

(** ** Loops over a variable of the left-hand side *)
Section Free.
Variables (b : stmt) (i : ivar) (k d : nat) (ws : list tensor) (r : val) (T : store).
Hypothesis ND : NoDup (res b :: temps b).
Hypothesis SC : scoped_temps b.
Hypothesis NO : ~ In (res b) (rhs_reads b).
Hypothesis LH : nth_error (lhs b) k = Some i.
Hypothesis SP : ~ In i (spine b).
Let A := res b.
Let P := temps b.
Let n := dim i.
Let W (c : nat) (x : list nat) : Prop := nth_error x k = Some c.
Lemma NA : ~ In A P. Proof. inversion ND; auto. Qed.
Definition inv_free (st : store * list thread) : Prop :=
  length (snd st) = n /\
  (forall c th, nth_error (snd st) c = Some th ->
    Forall (touches A (W c)) (todo th) /\ Forall (writes A P) (todo th) /\
    forall x, W c x -> fst (exec (todo th) (get P (fst st) (private th)) (registers th)) A x = run b (ext r i c) T A x) /\
  (forall t x, t <> A -> fst st t x = T t x) /\
  (forall x, (forall c, c < n -> ~ W c x) -> fst st A x = T A x).
Lemma inv_free_start : forall L, inv_free (T, start n L (fun c => actions d ws b (ext r i c))).
Proof.
  intros L. unfold inv_free. cbn [fst snd]. split; [unfold start; rewrite map_length, seq_length; auto|].
  split; [|split; auto]. intros c th H. apply start_nth in H as [Hc ->]. cbn [todo private registers]. split; [|split].
  - assert (G := touched R fn dv dim b d ws (ext r i c) k i). rewrite ext_same in G. apply G; auto. apply NA.
  - apply writes_ok. intros t; auto.
  - intros x _.
    destruct (exec_actions R fn dv dim b d ws (ext r i c) (fun t => In t P) (get P T (L c)) T) as (T1 & E & O); auto.
    { apply NA. }
    { intros t y Nt. rewrite get_shared; auto. }
    rewrite E. cbn [fst]. apply O. apply NA.
Qed.
Lemma inv_free_step : forall st st', step R P st st' -> inv_free st -> inv_free st'.
Proof.
  intros st st' S (LN & TH & OF & UN). destruct S as [before after M L g a rest M' L' g' HA]. cbn [fst snd] in *.
  set (c0 := length before).
  assert (H0 : nth_error (before ++ {| private := L; registers := g; todo := a :: rest |} :: after) c0 =
               Some {| private := L; registers := g; todo := a :: rest |}).
  { unfold c0. rewrite nth_error_app2, Nat.sub_diag by lia. auto. }
  assert (C0 : c0 < n). { unfold c0. rewrite <- LN, app_length. cbn. lia. }
  pose proof (TH _ _ H0) as (Ft & Fw & G). cbn [todo private registers] in *. inversion Ft as [|? ? Ha Fr]; subst. inversion Fw as [|? ? Hw Fv]; subst.
  assert (FR := act_frame R P A (W c0) a M L g M' L' g' HA Hw Ha).
  unfold inv_free. cbn [fst snd]. split; [rewrite app_length in *; cbn in *; auto|]. split; [|split].
  - intros c th H. destruct (Nat.eq_dec c c0) as [Ec|Ne].
    + subst c. assert (th = {| private := L'; registers := g'; todo := rest |}).
      { unfold c0 in H. rewrite nth_error_app2, Nat.sub_diag in H by lia. cbn in H. congruence. }
      subst th. cbn [todo private registers]. split; auto. split; auto. intros x Wx. rewrite <- (G x Wx). cbn [ParallelExec.exec].
      destruct (act_view R P a M L g M' L' g' HA) as [E1 E2]. destruct (act1 R a (get P M L) g) as [T1 g1]. cbn in E1, E2. subst g1.
      symmetry. apply exec_eqT. auto.
    + assert (H' : nth_error (before ++ {| private := L; registers := g; todo := a :: rest |} :: after) c = Some th).
      { destruct (Nat.lt_ge_cases c c0).
        - rewrite nth_error_app1 in H |- * by auto. auto.
        - rewrite nth_error_app2 in H |- * by auto. change (length before) with c0 in H |- *. destruct (c - c0) eqn:Z; [lia|]. auto. }
      destruct (TH _ _ H') as (Ft' & Fw' & G'). split; auto. split; auto. intros x Wx. rewrite <- (G' x Wx).
      apply (exec_agree R A (W c)); [auto| |intros _; auto]. intros t y Q. unfold get. destruct (mem t P); auto. apply FR.
      intros -> Wy. specialize (Q eq_refl). unfold W in *. congruence.
  - intros t x Nt. rewrite FR by congruence. auto.
  - intros x U. rewrite FR; auto.
Qed.

(** The serial loop. *)
Lemma run_miss : forall c T0 x, ~ W c x -> run b (ext r i c) T0 A x = T0 A x.
Proof.
  intros c T0 x N. unfold A. rewrite run_ups by (auto; apply NA). replace (ups R fn dv dim b (ext r i c) T0 x) with (@nil (option redop * V)); auto.
  destruct (ups R fn dv dim b (ext r i c) T0 x) as [|u us] eqn:E; auto. exfalso. apply N.
  assert (Hv : exists T1, In u (ups R fn dv dim b (ext r i c) T1 x)) by (exists T0; rewrite E; left; auto).
  clear E. destruct Hv as [T1 I]. unfold W. clear N ND SC NO T0 us A P W. revert T1 I LH SP. 
  assert (ext r i c i = c) by apply ext_same. revert H. generalize (ext r i c). clear r T n.
  induction b as [t vs op e|an j s IH|s IHc p IHp]; intros r E T1 I LH SP; cbn in *.
  - destruct (list_eqb_spec x (map r vs)) as [->|]; [|destruct I]. rewrite nth_error_map, LH. cbn. congruence.
  - apply in_flat_map in I as (c' & _ & I). eapply IH; [|exact I|auto|tauto]. rewrite ext_other by intuition congruence. auto.
  - eapply IHc; eauto.
Qed.
Lemma run_local : forall c T0 T1 x, T0 A x = T1 A x -> (forall t y, t <> A -> T0 t y = T1 t y) -> run b (ext r i c) T0 A x = run b (ext r i c) T1 A x.
Proof.
  intros c T0 T1 x E O. unfold A in *. rewrite !run_ups by (auto; apply NA). rewrite E. f_equal. apply (ups_off R fn dv dim (res b)); auto.
Qed.
Lemma serial_free : forall cs T0, NoDup cs -> off A T0 T ->
  (forall c x, In c cs -> W c x -> T0 A x = T A x -> fold_left (fun T c => run b (ext r i c) T) cs T0 A x = run b (ext r i c) T A x) /\
  (forall x, (forall c, In c cs -> ~ W c x) -> fold_left (fun T c => run b (ext r i c) T) cs T0 A x = T0 A x) /\
  off A (fold_left (fun T c => run b (ext r i c) T) cs T0) T.
Proof.
  induction cs as [|c cs IH]; intros T0 N O; cbn [fold_left].
  - repeat split; auto. intros c x [].
  - inversion N; subst.
    assert (O' : off A (run b (ext r i c) T0) T). { intros t x Nt. rewrite frame by auto. apply O; auto. }
    destruct (IH (run b (ext r i c) T0) H2 O') as (I1 & I2 & I3). split; [|split; auto].
    + intros c' x I Wx E. destruct (Nat.eq_dec c' c) as [->|Ne].
      * rewrite I2. { apply run_local; auto. } intros c' I' W'. unfold W in *. assert (c' = c) by congruence. subst. auto.
      * destruct I as [->|I]; [congruence|]. rewrite (I1 c' x I Wx); auto. rewrite run_miss; auto. intros W'. unfold W in *. congruence.
    + intros x U. rewrite I2; [|intros c' I'; apply U; right; auto]. apply run_miss. apply U. left; auto.
Qed.
Theorem loop_free : forall an L T' ths, clos_refl_trans _ (step R P) (T, start n L (fun c => actions d ws b (ext r i c))) (T', ths) ->
  finished ths -> eqT T' (run (NForall an i b) r T).
Proof.
  intros an L T' ths C F. pose proof (rt_inv _ _ _ inv_free_step _ _ C (inv_free_start L)) as (LN & TH & OF & UN). cbn [fst snd] in *.
  destruct (serial_free (seq 0 n) T (seq_NoDup _ _)) as (S1 & S2 & S3). { intros t x _. auto. }
  cbn [NotationSpec.run]. fold n. intros t x. destruct (Nat.eq_dec t A) as [->|Ne].
  - destruct (nth_error x k) as [c|] eqn:E; [destruct (Nat.lt_ge_cases c n) as [Lc|Lc]|].
    + rewrite (S1 c x); auto; [|apply in_seq; lia].
      destruct (nth_error ths c) as [th|] eqn:N. 2:{ apply nth_error_None in N. lia. }
      destruct (TH _ _ N) as (_ & _ & G). rewrite <- (G x E). rewrite (F th) by (eapply nth_error_In; eauto). cbn.
      rewrite get_shared; auto. apply NA.
    + rewrite S2. { apply UN. intros c' L' W'. unfold W in W'. rewrite E in W'. inversion W'. lia. }
      intros c' I W'. apply in_seq in I. unfold W in W'. rewrite E in W'. inversion W'. lia.
    + rewrite S2. { apply UN. intros c' L' W'. unfold W in W'. congruence. }
      intros c' I W'. unfold W in W'. congruence.
  - rewrite OF by auto. symmetry. apply S3. auto.
Qed.
End Free.

(** ** Loops of atomic updates *)
Section Atomic.
Variable o : redop.
Definition unit_of : V := match o with RSum => r0 R | RProd => r1 R end.
Lemma unit_l : forall v, opf R o unit_of v = v.
Proof. unfold unit_of. destruct o; cbn; intros; ring. Qed.
Definition atomic_on (A : tensor) (a : action) : Prop :=
  match a with
  | ARead t _ | AWrite t _ _ => t <> A
  | AUpdate t _ f => t = A -> forall old l, f old l = opf R o old (f unit_of l)
  | AZero t => t <> A
  end.
(** The values that a thread adds at [x]. *)
Fixpoint pend (A : tensor) (l : list action) (T : store) (g : list V) (x : list nat) : list V :=
  match l with
  | [] => []
  | a :: l =>
      let rest := let '(T', g') := act1 R a T g in pend A l T' g' x in
      match a with
      | AUpdate t y f => if Nat.eqb t A && list_eqb x y then f unit_of g :: rest else rest
      | _ => rest
      end
  end.
Lemma act1_off : forall A a (T T' : store) g, atomic_on A a -> off A T T' ->
  snd (act1 R a T g) = snd (act1 R a T' g) /\ off A (fst (act1 R a T g)) (fst (act1 R a T' g)).
Proof.
  intros A a T T' g H O. destruct a; cbn in *.
  - split; auto. rewrite O; auto.
  - split; auto. intros t' x' N. unfold upd. destruct (Nat.eqb t' t), (list_eqb x' x); auto.
  - split; auto. intros t' x' N. unfold upd. destruct (Nat.eqb_spec t' t), (list_eqb x' x); auto. subst. rewrite O; auto.
  - split; auto. intros t' x' N. unfold clear, set_tensor. destruct (Nat.eqb t' t); auto.
Qed.
Lemma pend_off : forall A l (T T' : store) g x, Forall (atomic_on A) l -> off A T T' -> pend A l T g x = pend A l T' g x.
Proof.
  intros A. induction l as [|a l IH]; intros T T' g x F O; cbn; auto. inversion F; subst.
  destruct (act1_off A a T T' g) as [E O']; auto. destruct (act1 R a T g) as [T1 g1], (act1 R a T' g) as [T2 g2]. cbn in E, O'. subst g2.
  rewrite (IH T1 T2 g1 x); auto.
Qed.
Lemma act1_cell : forall A a (T : store) g x, atomic_on A a ->
  fst (act1 R a T g) A x = match a with AUpdate t y f => if Nat.eqb t A && list_eqb x y then opf R o (T A x) (f unit_of g) else T A x | _ => T A x end.
Proof.
  intros A a T g x H. destruct a; cbn in *; auto.
  - unfold upd. destruct (Nat.eqb_spec A t); congruence.
  - unfold upd. rewrite (Nat.eqb_sym A t). destruct (Nat.eqb_spec t A) as [E|N]; cbn; auto.
    destruct (list_eqb_spec x x0) as [->|]; auto. rewrite H by auto. rewrite E. auto.
  - unfold clear, set_tensor. destruct (Nat.eqb_spec A t); congruence.
Qed.
Lemma pend_exec : forall A l (T : store) g x, Forall (atomic_on A) l -> fst (exec l T g) A x = fold_left (opf R o) (pend A l T g x) (T A x).
Proof.
  intros A. induction l as [|a l IH]; intros T g x F; cbn; auto. inversion F; subst.
  pose proof (act1_cell A a T g x H1) as C. destruct (act1 R a T g) as [T1 g1]. cbn in C. rewrite IH by auto. rewrite C.
  destruct a as [t y|t y f|t y f|t]; auto. destruct (Nat.eqb t A && list_eqb x y); auto.
Qed.
Lemma fold_swap : forall l a v, opf R o (fold_left (opf R o) l a) v = fold_left (opf R o) l (opf R o a v).
Proof. induction l as [|u l IH]; intros a v; cbn; auto. rewrite IH. f_equal. destruct o; cbn; ring. Qed.

Variables (b : stmt) (i : ivar) (d : nat) (ws : list tensor) (r : val) (T : store).
Hypothesis ND : NoDup (res b :: temps b).
Hypothesis SC : scoped_temps b.
Hypothesis NO : ~ In (res b) (rhs_reads b).
Hypothesis OP : op_of b = Some o.
Hypothesis DP : 0 < d.
Hypothesis WS : lhs b <> [] \/ ~ In (res b) ws.
Let A := res b.
Let P := temps b.
Let n := dim i.
Lemma NA' : ~ In A P. Proof. inversion ND; auto. Qed.
Lemma touch_atomic : forall A0 a, touches A0 (fun _ => False) a -> atomic_on A0 a.
Proof. intros A0 []; cbn; auto. intros H E. destruct (H E). Qed.
Lemma actions_atomic : forall (s : stmt) d0 ws0 r0, NoDup (res s :: temps s) -> ~ In (res s) (rhs_reads s) -> op_of s = Some o ->
  0 < d0 -> lhs s <> [] \/ ~ In (res s) ws0 -> Forall (atomic_on (res s)) (actions d0 ws0 s r0).
Proof.
  clear b i d ws r T ND SC NO OP DP WS A P n.
  induction s as [t vs op e|an j s IH|c IHc p IHp]; intros d ws r ND NO OP DP WS; cbn [ParallelSpec.actions res temps rhs_reads op_of lhs] in *.
  - subst op. unfold assign_actions.
    assert (is_atomic d ws t vs = true) as ->.
    { unfold is_atomic. destruct (Nat.ltb_spec 0 d); [|lia]. destruct vs; cbn; auto. destruct (mem_spec t ws); auto. destruct WS; [congruence|tauto]. }
    apply Forall_app. split.
    + eapply Forall_impl; [apply (touch_atomic t)|]. apply reads_touch. auto.
    + constructor; auto. cbn. intros _ old l. rewrite unit_l. auto.
  - assert (0 < depth_in an d). { unfold depth_in. destruct (_ && _); lia. }
    induction (seq 0 (dim j)); cbn; auto. apply Forall_app. auto.
  - inversion ND as [|? ? N1 ND1]; subst. inversion ND1 as [|? ? N2 ND2]; subst. apply nodup_app in ND2. destruct ND2 as (NDp & NDc & DJ).
    cbn [In] in N1. rewrite in_app_iff in N1, NO. constructor; [cbn; intuition congruence|]. apply Forall_app. split.
    + eapply Forall_impl; [apply (touch_atomic (res c))|]. apply untouched; intuition congruence.
    + apply IHc; auto; try tauto. constructor; tauto.
Qed.
(** What the result will be: the pending values of all iterations. *)
Definition total (M : store) (ths : list thread) (x : list nat) : V :=
  fold_left (opf R o) (concat (map (fun th => pend A (todo th) (get P M (private th)) (registers th) x) ths)) (M A x).
Definition inv_atomic (st : store * list thread) : Prop :=
  (forall th, In th (snd st) -> Forall (atomic_on A) (todo th) /\ Forall (writes A P) (todo th)) /\
  (forall t x, t <> A -> fst st t x = T t x) /\
  (forall x, total (fst st) (snd st) x = run (NForall no_annot i b) r T A x).
Lemma concat_ext : forall (M M' : store) (ths : list thread) x, (forall th, In th ths -> Forall (atomic_on A) (todo th)) -> off A M M' ->
  map (fun th => pend A (todo th) (get P M (private th)) (registers th) x) ths =
  map (fun th => pend A (todo th) (get P M' (private th)) (registers th) x) ths.
Proof.
  intros M M' ths x F O. apply map_ext_in. intros th I. apply pend_off; auto. intros t y N. unfold get. destruct (mem t P); auto.
Qed.
Lemma inv_atomic_step : forall st st', step R P st st' -> inv_atomic st -> inv_atomic st'.
Proof.
  intros st st' S (TH & OF & TO). destruct S as [before after M L g a rest M' L' g' HA]. cbn [fst snd] in *.
  pose proof (TH {| private := L; registers := g; todo := a :: rest |}) as (Fa & Fw). { apply in_app_iff. right. left. auto. }
  cbn [todo] in *. inversion Fa as [|? ? H1 Fr]; subst. inversion Fw as [|? ? Hw Fv]; subst.
  assert (TC : touches A (fun _ => True) a). { destruct a; cbn in *; auto. }
  assert (FR : forall t x, t <> A -> M' t x = M t x).
  { intros t x N. apply (act_frame R P A (fun _ => True) a M L g M' L' g' HA Hw TC). intros E. congruence. }
  unfold inv_atomic. cbn [fst snd]. split; [|split].
  - intros th I. apply in_app_iff in I. destruct I as [I|[<-|I]].
    + apply TH. apply in_app_iff. auto.
    + cbn [todo]. auto.
    + apply TH. apply in_app_iff. right. right. auto.
  - intros t x N. rewrite FR; auto.
  - intros x. rewrite <- TO. unfold total. rewrite !map_app, !concat_app. cbn [map concat todo private registers].
    assert (O : off A M' M) by (intros t y N; auto).
    rewrite (concat_ext M' M before x), (concat_ext M' M after x); auto.
    2:{ intros th I. apply TH. apply in_app_iff. right. right. auto. }
    2:{ intros th I. apply TH. apply in_app_iff. auto. }
    destruct (act_view R P a M L g M' L' g' HA) as [E1 E2]. pose proof (act1_cell A a (get P M L) g x H1) as C.
    cbn [pend]. destruct (act1 R a (get P M L) g) as [T1 g1]. cbn [fst snd] in *. subst g1.
    assert (C' : M' A x = T1 A x). { rewrite E2. rewrite get_shared; auto. apply NA'. }
    rewrite (get_shared P M L A NA') in C.
    assert (Q : pend A rest (get P M' L') g' x = pend A rest T1 g' x).
    { apply pend_off; auto. intros t y _. rewrite E2. auto. }
    rewrite Q, C', C. destruct a as [t y|t y f|t y f|t]; cbn [app]; auto. destruct (Nat.eqb t A && list_eqb x y); auto.
    rewrite !fold_left_app. cbn [fold_left app]. rewrite fold_swap. auto.
Qed.
Lemma inv_atomic_start : forall L, inv_atomic (T, start n L (fun c => actions d ws b (ext r i c))).
Proof.
  intros L. assert (AT : forall c, Forall (atomic_on A) (actions d ws b (ext r i c))) by (intros; apply actions_atomic; auto).
  unfold inv_atomic. cbn [fst snd]. split; [|split; auto].
  - intros th I. apply in_map_iff in I as (c & <- & _). cbn [todo]. split; auto. apply writes_ok. intros t; auto.
  - intros x. unfold total, start. rewrite map_map. cbn [todo private registers NotationSpec.run]. fold n.
    assert (G : forall cs T0, off A T T0 ->
      fold_left (opf R o) (concat (map (fun c => pend A (actions d ws b (ext r i c)) (get P T (L c)) [] x) cs)) (T0 A x) =
      fold_left (fun T c => run b (ext r i c) T) cs T0 A x).
    { induction cs as [|c cs IH]; intros T0 O; cbn [map concat fold_left]; auto. rewrite fold_left_app. rewrite <- IH.
      - f_equal. 
        destruct (exec_actions R fn dv dim b d ws (ext r i c) (fun t => In t P) (get P T0 (L c)) T0) as (T1 & E & O1); auto.
        { apply NA'. }
        { intros t y Nt. rewrite get_shared; auto. }
        rewrite <- (O1 A x) by apply NA'. change T1 with (fst (T1, @nil V)). rewrite <- E. rewrite pend_exec by auto.
        rewrite (get_shared P T0 (L c) A NA'). f_equal. apply pend_off; auto.
        intros t y N. unfold get. destruct (mem t P); auto.
      - intros t y N. rewrite frame by auto. apply O; auto. }
    apply G. intros t y _. auto.
Qed.
Theorem loop_atomic : forall an L T' ths, clos_refl_trans _ (step R P) (T, start n L (fun c => actions d ws b (ext r i c))) (T', ths) ->
  finished ths -> eqT T' (run (NForall an i b) r T).
Proof.
  intros an L T' ths C F. pose proof (rt_inv _ _ _ inv_atomic_step _ _ C (inv_atomic_start L)) as (TH & OF & TO). cbn [fst snd] in *.
  intros t x. destruct (Nat.eq_dec t A) as [->|Ne].
  - change (run (NForall an i b) r T A x) with (run (NForall no_annot i b) r T A x). rewrite <- TO. unfold total.
    replace (concat _) with (@nil V); auto. symmetry.
    assert (G : forall l : list thread, (forall th, In th l -> todo th = []) ->
      concat (map (fun th => pend A (todo th) (get P T' (private th)) (registers th) x) l) = []).
    { induction l as [|th l IH]; intros H; cbn; auto. rewrite (H th) by (left; auto). cbn. apply IH. intros; apply H; right; auto. }
    apply G. auto.
  - rewrite OF by auto. symmetry. apply (frame R fn dv dim (NForall an i b)). auto.
Qed.
End Atomic.
End P.
