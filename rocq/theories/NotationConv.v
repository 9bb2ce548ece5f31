(** Reordering (C23) and concrete notation (C21). *)
From Coq Require Import List ListDec Arith Lia Bool Ring_theory Ring Permutation.
Import ListNotations.
From Verif Require Import IndexExpr Eval Notation NotationSpec NotationProofs NotationRun.
Local Open Scope nat_scope.

Section P.
Context {V : Type}.
Variable R : ring_ops V.
Hypothesis RT : ring_theory (r0 R) (r1 R) (radd R) (rmul R) (rsub R) (ropp R) eq.
Variable fn : nat -> V -> V.
Variable dv : V -> V -> V.
Variable dim : ivar -> nat.
Add Ring Rr3 : RT.

Notation "0r" := (r0 R). Notation "a +r b" := (radd R a b) (at level 50, left associativity).
Notation ev := (neval R fn dv dim).
Notation run := (run R fn dv dim).
Notation ups := (ups R fn dv dim).
Notation stmt := (nstmt V).
Notation store := (@store V).
Notation sum := (sum R).

(** *** Loop nests *)
Lemma nest_facts : forall is (s b : stmt), nest_of is s b ->
  res s = res b /\ rhs_reads s = rhs_reads b /\ temps s = temps b /\ op_of s = op_of b /\
  (forall bs, determined bs s -> determined bs (foralls is b)) /\
  (forall r T, eqT (run s r T) (run (foralls is b) r T)) /\
  loops s = is ++ loops b.
Proof.
  induction 1 as [b|an i is s b H (E1 & E2 & E3 & E4 & E5 & E6 & E7)]; cbn; repeat split; auto.
  - tauto.
  - apply E5. tauto.
  - intros r T. apply fold_ext; [|apply eqT_refl]. intros T1 T1' c _ HT.
    eapply eqT_trans; [apply run_ext; [exact HT|auto]|]. apply E6.
  - rewrite E7. auto.
Qed.
Lemma nest_loops : forall is (s b : stmt), nest_of is s b -> loops s = is ++ loops b.
Proof. clear. induction 1; cbn; [reflexivity|]. rewrite IHnest_of. reflexivity. Qed.
Lemma foralls_nest : forall is (b : stmt), nest_of is (foralls is b) b.
Proof. induction is; intros; constructor. apply IHis. Qed.
Lemma foralls_op : forall is (b : stmt), op_of (foralls is b) = op_of b. Proof. induction is; cbn; auto. Qed.

Lemma nest_order_free : forall is (s b : stmt), nest_of is s b -> order_free1 s -> order_free1 (foralls is b).
Proof.
  intros is s b H (O1 & O2 & O3). destruct (nest_facts _ _ _ H) as (E1 & E2 & E3 & E4 & E5 & _).
  unfold order_free1. rewrite foralls_res, foralls_reads, foralls_temps, foralls_op, <- E1, <- E2, <- E3, <- E4. auto.
Qed.
Lemma nest_nodup : forall is (s b : stmt) bs, nest_of is s b -> no_shadow bs s -> NoDup is /\ (forall i, In i is -> ~ In i bs).
Proof.
  intros is s b bs H. revert bs. induction H as [b|an i is s b H IH]; intros bs N.
  - split; [constructor|]. intros i [].
  - cbn in N. destruct N as [N1 N2]. destruct (IH _ N2) as [A B]. split.
    + constructor; auto. intro I. apply (B i I). left. auto.
    + intros j [->|J]; auto. intro K. apply (B j J). right. auto.
Qed.

Lemma determined_mono : forall (s : stmt) bs bs', (forall v, In v bs' -> In v bs) -> determined bs s -> determined bs' s.
Proof.
  induction s as [t vs op e|an i b IH|c IHc p IHp]; intros bs bs' H D; cbn in *.
  - auto.
  - destruct D as [N D]. split; [auto|]. eapply IH; [|exact D]. intros v [->|W]; [left|right]; auto.
  - destruct D as [D1 D]. split; [auto|]. eapply IHc; eauto.
Qed.
Lemma no_shadow_mono : forall (s : stmt) bs bs', (forall v, In v bs' -> In v bs) -> no_shadow bs s -> no_shadow bs' s.
Proof.
  induction s as [t vs op e|an i b IH|c IHc p IHp]; intros bs bs' H D; cbn in *; auto.
  - destruct D as [N D]. split; [auto|]. eapply IH; [|exact D]. intros v [->|W]; [left|right]; auto.
  - destruct D as [D1 D]. split; [eapply IHc|eapply IHp]; eauto.
Qed.
Lemma order_free_forall : forall an i (b : stmt), order_free (NForall an i b) -> order_free b.
Proof.
  intros an i b ((O1 & O2 & O3) & P & N). cbn in *. split; [|split; auto].
  - split; [auto|split; auto]. intros H. destruct (O3 H) as [_ D]. eapply determined_mono; [|exact D]. intros v [].
  - destruct N as [_ N]. eapply no_shadow_mono; [|exact N]. intros v [].
Qed.
Lemma order_free_where : forall c p : stmt, order_free (NWhere c p) -> order_free c /\ order_free p.
Proof.
  intros c p ((O1 & O2 & O3) & P & N). cbn in *. rewrite in_app_iff in O1. rewrite in_app_iff in O2. destruct N as [N1 N2]. split; split; auto.
  - split; [tauto|split; [tauto|]]. intros H. apply O3 in H. tauto.
  - split; auto. intros q Q. apply P. right. apply in_app_iff. auto.
  - split; auto. intros q Q. apply P. right. apply in_app_iff. auto.
Qed.

(** *** ForAllReplaceRewriter *)
Lemma far_done : forall pat repl (s : stmt) k, length pat <= k -> far pat repl (Some k) s = (Some s, Some k).
Proof.
  intros pat repl. induction s as [t vs op e|an i b IH|c IHc p IHp]; intros k L; cbn [far]; auto.
  - destruct (Nat.leb_spec (length pat) k); [|lia]. rewrite IH by auto. auto.
  - rewrite IHp, IHc by auto. auto.
Qed.
Lemma skipn_nth : forall (l : list ivar) k, k < length l -> skipn k l = nth k l 0 :: skipn (S k) l.
Proof. induction l; cbn; intros k L; [lia|]. destruct k; auto. apply IHl. lia. Qed.
Lemma far_inside : forall pat repl (s : stmt) k s' m', 0 < k < length pat -> is_forall s = true ->
  far pat repl (Some k) s = (Some s', m') -> nest_of (skipn k pat) s s'.
Proof.
  intros pat repl. induction s as [t vs op e|an i b IH|c IHc p IHp]; intros k s' m' L F H; try discriminate.
  cbn [far] in H. destruct (Nat.leb_spec (length pat) k); [lia|].
  destruct (Nat.eqb_spec i (nth k pat 0)) as [->|Ne].
  - rewrite skipn_nth by lia. constructor.
    destruct (Nat.ltb_spec (S k) (length pat)); cbn [andb] in H.
    + destruct (is_forall b) eqn:FB; cbn [negb] in H; [|discriminate].
      destruct (far pat repl (Some (S k)) b) as [b' m1] eqn:Eb.
      destruct (Nat.eqb_spec k 0); [lia|]. injection H as -> ->. eapply IH; eauto. lia.
    + rewrite far_done in H by lia. destruct (Nat.eqb_spec k 0); [lia|]. injection H as <- <-.
      rewrite skipn_all2 by lia. constructor.
  - destruct (Nat.ltb_spec 0 k); [discriminate|lia].
Qed.
Lemma far_none : forall pat repl (s s' : stmt) m', far pat repl None s = (Some s', m') -> s' = s /\ m' = None.
Proof.
  intros pat repl. induction s as [t vs op e|an i b IH|c IHc p IHp]; intros s' m' H; cbn [far] in H.
  - injection H as <- <-. auto.
  - discriminate.
  - destruct (far pat repl None p) as [[p'|] m1] eqn:Ep.
    + destruct (IHp _ _ eq_refl) as [-> ->]. destruct (far pat repl None c) as [[c'|] m2] eqn:Ec; [|discriminate].
      destruct (IHc _ _ eq_refl) as [-> ->]. injection H as <- <-. auto.
    + destruct (far pat repl m1 c) as [[c'|] m2]; discriminate.
Qed.

Lemma far_ok : forall pat repl (s s' : stmt) m m', Permutation pat repl -> order_free s -> (m = None \/ m = Some 0) ->
  far pat repl m s = (Some s', m') ->
  res s' = res s /\ (m' = None \/ m' = Some 0 \/ pat = []) /\ forall r T, eqT (run s' r T) (run s r T).
Proof.
  intros pat repl s s' m m' P. revert s' m m'.
  destruct (le_lt_dec (length pat) 0) as [LZ|LP].
  { intros s' m m' O M H. destruct pat; [|cbn in LZ; lia]. destruct M as [->| ->].
    - apply far_none in H as [-> ->]. split; auto. split; auto. intros; apply eqT_refl.
    - rewrite far_done in H by (cbn; lia). injection H as <- <-. split; auto. split; auto. intros; apply eqT_refl. }
  induction s as [t vs op e|an i b IH|c IHc p IHp]; intros s' m m' O M H.
  - cbn in H. injection H as <- <-. split; auto. split; [tauto|]. intros; apply eqT_refl.
  - destruct M as [->| ->]; [discriminate|].
    assert (Case0 : i <> nth 0 pat 0 \/ i = nth 0 pat 0) by lia.
    cbn [far] in H. destruct (Nat.leb_spec (length pat) 0); [lia|]. destruct Case0 as [Ne| ->].
    + destruct (Nat.eqb_spec i (nth 0 pat 0)); [congruence|]. destruct (Nat.ltb_spec 0 0); [lia|].
      destruct (far pat repl (Some 0) b) as [[b'|] m1] eqn:Eb; cbn in H; [|discriminate]. injection H as <- <-.
      destruct (IH b' (Some 0) m1 (order_free_forall _ _ _ O) (or_intror eq_refl) Eb) as (E & M1 & G).
      cbn. split; auto. split; [tauto|]. intros r T. apply fold_ext; [|apply eqT_refl].
      intros T1 T1' c _ HT. eapply eqT_trans; [apply G|]. apply run_ext; auto.
    + rewrite Nat.eqb_refl in H. change (Nat.eqb 0 0) with true in H. cbv iota in H.
      assert (NST : exists b', s' = foralls repl b' /\ m' = Some 0 /\ nest_of pat (NForall an (nth 0 pat 0) b) b').
      { destruct (Nat.ltb_spec 1 (length pat)); cbn [andb] in H.
        - destruct (is_forall b) eqn:FB; cbn [negb] in H; [|discriminate].
          destruct (far pat repl (Some 1) b) as [[b'|] m1] eqn:Eb; cbn in H; [|discriminate]. injection H as <- <-.
          exists b'. split; auto. split; auto. destruct pat as [|a pat]; [cbn in *; lia|]. cbn [nth]. constructor.
          apply (far_inside (a :: pat) repl b 1 b' m1); auto.
        - rewrite far_done in H by lia. cbn in H. injection H as <- <-. exists b. split; auto. split; auto.
          destruct pat as [|a [|]]; cbn in *; try lia. constructor. constructor. }
      destruct NST as (b' & -> & -> & NST). destruct (nest_facts _ _ _ NST) as (E1 & _ & _ & _ & _ & E6 & _).
      rewrite foralls_res. split; auto. split; auto. intros r T.
      eapply eqT_trans; [|apply eqT_sym; apply E6].
      apply reorder_nest; auto.
      * destruct O as (_ & _ & N). eapply nest_nodup; eauto.
      * apply (nest_order_free _ _ _ NST). exact (proj1 O).
  - cbn [far] in H. destruct (order_free_where _ _ O) as [Oc Op].
    destruct (far pat repl m p) as [p' m1] eqn:Ep. destruct (far pat repl m1 c) as [[c'|] m2] eqn:Ec; [|discriminate].
    destruct p' as [p'|]; [|discriminate]. injection H as <- <-.
    destruct (IHp _ _ _ Op M Ep) as (E1 & M1 & G1).
    destruct (IHc c' m1 m2 Oc) as (E2 & M2 & G2); auto.
    { destruct M1 as [|[|]]; auto. subst. cbn in LP. lia. }
    cbn. split; auto. split; auto. intros r T. rewrite E1. apply set_ext; auto.
    eapply eqT_trans; [apply G2|]. apply run_ext; auto.
Qed.

(** *** Reorder::apply *)
Lemma scan_filter : forall (pat ls cur : list ivar) f, exists f', fold_left (scan_step pat) ls (cur, f) = (cur ++ filter (fun i : ivar => mem i pat) ls, f').
Proof.
  induction ls as [|i ls IH]; intros cur f; cbn [fold_left filter].
  - exists f. rewrite app_nil_r. auto.
  - unfold scan_step at 2. destruct (mem i pat).
    + destruct (IH (cur ++ [i]) f) as (f' & E). exists f'. rewrite E, <- app_assoc. auto.
    + destruct (negb (length cur =? 0) && negb (length cur =? length pat)); apply IH.
Qed.


(** A matched nest has distinct variables; if nothing is matched, nothing
    changes: either way the statement keeps its meaning. *)
Lemma far_unmatched : forall pat repl (s s' : stmt) m m', order_free s -> (m = None \/ m = Some 0) -> 0 < length pat ->
  ~ NoDup pat -> far pat repl m s = (Some s', m') -> s' = s /\ (m' = None \/ m' = Some 0).
Proof.
  intros pat repl s. induction s as [t vs op e|an i b IH|c IHc p IHp]; intros s' m m' O M LP ND H.
  - cbn in H. injection H as <- <-. auto.
  - destruct M as [->| ->]; [discriminate|].
    assert (Case0 : i <> nth 0 pat 0 \/ i = nth 0 pat 0) by lia.
    cbn [far] in H. destruct (Nat.leb_spec (length pat) 0); [lia|]. destruct Case0 as [Ne| ->].
    + destruct (Nat.eqb_spec i (nth 0 pat 0)); [congruence|]. destruct (Nat.ltb_spec 0 0); [lia|].
      destruct (far pat repl (Some 0) b) as [[b'|] m1] eqn:Eb; cbn in H; [|discriminate]. injection H as <- <-.
      destruct (IH b' (Some 0) m1 (order_free_forall _ _ _ O) (or_intror eq_refl) LP ND Eb) as (-> & M1). auto.
    + exfalso. apply ND. rewrite Nat.eqb_refl in H. change (Nat.eqb 0 0) with true in H. cbv iota in H.
      assert (NST : exists b', nest_of pat (NForall an (nth 0 pat 0) b) b').
      { destruct (Nat.ltb_spec 1 (length pat)); cbn [andb] in H.
        - destruct (is_forall b) eqn:FB; cbn [negb] in H; [|discriminate].
          destruct (far pat repl (Some 1) b) as [[b'|] m1] eqn:Eb; cbn in H; [|discriminate]. injection H as <- <-.
          exists b'. destruct pat as [|a pat]; [cbn in *; lia|]. cbn [nth]. constructor.
          apply (far_inside (a :: pat) repl b 1 b' m1); auto.
        - exists b. destruct pat as [|a [|]]; cbn in *; try lia. constructor. constructor. }
      destruct NST as (b' & NST). destruct O as (_ & _ & N). eapply nest_nodup; eauto.
  - cbn [far] in H. destruct (order_free_where _ _ O) as [Oc Op].
    destruct (far pat repl m p) as [p' m1] eqn:Ep. destruct (far pat repl m1 c) as [[c'|] m2] eqn:Ec; [|discriminate].
    destruct p' as [p'|]; [|discriminate]. injection H as <- <-.
    destruct (IHp _ _ _ Op M LP ND Ep) as (-> & M1).
    destruct (IHc c' m1 m2 Oc M1 LP ND Ec) as (-> & M2). auto.
Qed.

Lemma reorder_ok : forall ordered pat (s s' : stmt), order_free s -> reorder ordered pat s = ROk s' ->
  forall r T, eqT (run s' r T) (run s r T).
Proof.
  intros ordered pat s s' O H. unfold reorder, scan_order in H.
  destruct (scan_filter pat (loops s) [] false) as (f & E). rewrite E in H. cbn [app] in H.
  set (cur := filter (fun i : ivar => mem i pat) (loops s)) in *.
  set (pat' := if negb ordered && list_eqb cur pat then rev pat else pat) in *.
  destruct (f || negb (length cur =? length pat')) eqn:F; [discriminate|].
  apply orb_false_iff in F as [_ F]. apply negb_false_iff, Nat.eqb_eq in F.
  destruct (far cur pat' (Some 0) s) as [[s1|] [m1|]] eqn:Ef; try discriminate. injection H as <-.
  destruct (NoDup_dec Nat.eq_dec cur) as [ND|ND].
  - eapply (far_ok cur pat' s s1 (Some 0) (Some m1)); auto. apply NoDup_Permutation_bis; auto; [lia|].
    intros i I. apply filter_In in I as [_ I]. apply mem_In in I. unfold pat'. destruct (negb ordered && list_eqb cur pat); auto.
    apply in_rev. rewrite rev_involutive. auto.
  - destruct (far_unmatched cur pat' s s1 (Some 0) (Some m1)) as [-> _]; auto.
    + destruct cur; cbn; [|lia]. exfalso. apply ND. constructor.
    + intros r T. apply eqT_refl.
Qed.

(** *** Any permutation of a perfect nest is accepted *)
Lemma mem_filter_all : forall is pat, (forall i, In i is -> In i pat) -> filter (fun i : ivar => mem i pat) is = is.
Proof. induction is; cbn; intros; auto. destruct (mem_spec a pat); [|exfalso; auto]. f_equal. auto. Qed.
Lemma mem_filter_none : forall is pat, (forall i, In i is -> ~ In i pat) -> filter (fun i : ivar => mem i pat) is = [].
Proof. induction is; cbn; intros; auto. destruct (mem_spec a pat); [|auto]. exfalso. eapply H; eauto. Qed.

Lemma scan_nest : forall (is pat ls : list ivar), Permutation is pat -> (forall i, In i ls -> ~ In i pat) ->
  scan_order pat (is ++ ls) = (is, false).
Proof.
  intros is pat ls P N. unfold scan_order. rewrite fold_left_app.
  assert (G1 : forall l cur : list ivar, (forall i, In i l -> In i pat) -> fold_left (scan_step pat) l (cur, false) = (cur ++ l, false)).
  { induction l as [|i l IH]; intros cur H; cbn [fold_left]; [rewrite app_nil_r; auto|].
    unfold scan_step at 2. destruct (mem_spec i pat); [|exfalso; apply n; apply H; left; auto]. rewrite IH, <- app_assoc; auto. intros; apply H; right; auto. }
  rewrite G1 by (intros; eapply Permutation_in; eauto). cbn [app].
  induction ls as [|i l IH]; cbn [fold_left]; auto.
  unfold scan_step at 2. destruct (mem_spec i pat); [exfalso; eapply N; [left; auto|auto]|].
  rewrite (Permutation_length P), Nat.eqb_refl, andb_false_r. apply IH. intros; apply N; right; auto.
Qed.

Lemma far_nest : forall pat repl is k (s b : stmt), nest_of is s b -> is = skipn k pat -> k < length pat ->
  far pat repl (Some k) s = if Nat.eqb k 0 then (Some (foralls repl b), Some 0) else (Some b, Some (length pat)).
Proof.
  intros pat repl is k s b H. revert k. induction H as [b|an i is s b H IH]; intros k E L.
  - exfalso. pose proof (skipn_length k pat) as SL. rewrite <- E in SL. cbn in SL. lia.
  - rewrite (skipn_nth pat k L) in E. injection E as -> E.
    assert (SL : length is = length pat - S k) by (rewrite E; apply (skipn_length (S k))).
    cbn [far]. destruct (Nat.leb_spec (length pat) k); [lia|]. rewrite Nat.eqb_refl.
    destruct (Nat.ltb_spec (S k) (length pat)); cbn [andb].
    + replace (is_forall s) with true.
      2:{ destruct H; auto. exfalso. cbn in SL. lia. }
      cbn [negb]. rewrite (IH (S k)) by (auto; lia). cbn [Nat.eqb]. destruct (Nat.eqb k 0); auto.
    + rewrite far_done by lia. destruct is; [|cbn in SL; lia]. inversion H; subst.
      assert (S k = length pat) by lia. destruct (Nat.eqb k 0); auto. congruence.
Qed.
Lemma reorder_accepts : forall is pat (s b : stmt), nest_of is s b -> Permutation is pat -> is <> [] ->
  (forall i, In i (loops b) -> ~ In i pat) -> reorder true pat s = ROk (foralls pat b).
Proof.
  intros is pat s b H P NE N. pose proof (nest_loops _ _ _ H) as E7.
  unfold reorder. rewrite E7, scan_nest by auto. cbn [negb andb orb].
  rewrite (Permutation_length P), Nat.eqb_refl. cbn [negb].
  rewrite (far_nest is pat is 0 s b H); auto. destruct is; cbn; [congruence|lia].
Qed.
Lemma reorder_swaps : forall i j (s b : stmt), i <> j -> nest_of [i; j] s b ->
  (forall k, In k (loops b) -> k <> i /\ k <> j) ->
  reorder false [i; j] s = ROk (foralls [j; i] b) /\ reorder false [j; i] s = ROk (foralls [j; i] b).
Proof.
  intros i j s b Ne H N. pose proof (nest_loops _ _ _ H) as E7.
  split; unfold reorder.
  - rewrite E7, scan_nest; auto. 2:{ intros k K. destruct (N k K). cbn. intuition. }
    rewrite list_eqb_refl. cbn [negb andb orb length rev app Nat.eqb].
    rewrite (far_nest [i; j] [j; i] [i; j] 0 s b H) by (auto; cbn; lia). auto.
  - rewrite E7, scan_nest; [|apply perm_swap|intros k K; destruct (N k K); cbn; intuition].
    destruct (list_eqb_spec [i; j] [j; i]); [congruence|]. cbn [negb andb orb length rev app Nat.eqb].
    rewrite (far_nest [i; j] [j; i] [i; j] 0 s b H) by (auto; cbn; lia). auto.
Qed.
End P.
