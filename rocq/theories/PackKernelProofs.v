(** The generated pack kernel builds the same storage as [pack] does from rows in
    which every occurrence of a coordinate carries the total. *)
From Coq Require Import List Arith Lia Bool Sorting.Sorted Permutation Ring_theory Ring.
Import ListNotations.
From Verif Require Import Storage Eval StorageProofs PackKernel TensorSpec.
Local Arguments list_eq_dec : simpl never.

Section Proofs.
Context {V : Type}.
Variable R : ring_ops V.
Notation row := (@Storage.row V).
Notation rz := (r0 R).

(** ** Runs *)
Lemma unique_from_filter : forall l j, StronglySorted le l -> (forall x, In x l -> j <= x) ->
  unique_from j l = getUniqueEntries (filter (fun x => negb (x =? j)) l).
Proof.
  induction l as [|x l IH]; intros j S G; auto. inversion S; subst. cbn [unique_from filter].
  assert (GX := G x (or_introl eq_refl)).
  destruct (Nat.ltb_spec j x) as [L|L].
  - destruct (Nat.eqb_spec x j); [lia|]. cbn [negb getUniqueEntries]. f_equal. f_equal.
    symmetry. rewrite Forall_forall in H2. clear - H2 L. induction l as [|y l IH]; auto. cbn [filter].
    assert (x <= y) by (apply H2; simpl; auto). destruct (Nat.eqb_spec y j); [lia|]. cbn [negb]. f_equal. apply IH.
    intros z Hz. apply H2. simpl; auto.
  - assert (x = j) as -> by lia. rewrite Nat.eqb_refl. cbn [negb]. apply IH; auto. intros y Hy. apply G. simpl; auto.
Qed.

Lemma map_filter_head : forall j (b : list row),
  map row_head (filter (fun r => negb (row_head r =? j)) b) = filter (fun x => negb (x =? j)) (map row_head b).
Proof. induction b as [|r b IH]; auto. cbn [filter map]. destruct (row_head r =? j); cbn [negb map]; rewrite ?IH; auto. Qed.

Lemma in_unique : forall l x, In x (getUniqueEntries l) -> StronglySorted le l -> In x l.
Proof. intros l x H S. destruct (getUniqueEntries_spec l S) as [_ X]. apply X. auto. Qed.

Lemma runs_children : forall fuel (b : list row), length b <= fuel -> head_sorted b ->
  runs fuel b = map (fun j => (j, child b j)) (getUniqueEntries (map row_head b)).
Proof.
  induction fuel as [|fuel IH]; intros b L S.
  - destruct b; auto. simpl in L. lia.
  - destruct b as [|r b]; auto. cbn [runs]. set (j := row_head r).
    assert (S' := S). unfold head_sorted in S'. cbn [map] in S'. inversion S' as [|? ? SS SF]; subst.
    rewrite Forall_forall in SF.
    assert (G : forall x, In x (r :: b) -> j <= row_head x).
    { intros x [<-|Hx]; [unfold j; auto|]. unfold j. apply SF. apply in_map. auto. }
    rewrite scan_filter by auto. rewrite IH.
    + cbn [filter map]. fold j. rewrite Nat.eqb_refl. cbn [negb].
      cbn [getUniqueEntries map]. f_equal.
      { unfold child. cbn [filter]. fold j. rewrite Nat.eqb_refl. auto. }
      assert (GM : forall x, In x (map row_head b) -> j <= x).
      { intros x Hx. apply in_map_iff in Hx. destruct Hx as (y & <- & Hy). apply G. simpl. auto. }
      rewrite map_filter_head. rewrite <- (unique_from_filter _ j SS GM).
      apply map_ext_in. intros c Hc. f_equal.
      assert (c <> j).
      { rewrite (unique_from_filter _ j SS GM) in Hc.
        apply in_unique in Hc.
        - apply filter_In in Hc. destruct Hc as [_ Hc]. destruct (Nat.eqb_spec c j); auto; discriminate.
        - clear - SS. induction SS; simpl; [constructor|]. destruct (negb (a =? j)); auto. constructor; auto.
          rewrite Forall_forall in *. intros y Hy. apply filter_In in Hy. apply H. tauto. }
      unfold child. cbn [filter]. fold j. destruct (Nat.eqb_spec j c); [congruence|]. f_equal.
      apply filter_filter_eq. intros x Hx E. apply Nat.eqb_eq in E. destruct (Nat.eqb_spec (row_head x) j); auto. lia.
    + cbn [filter]. fold j. rewrite Nat.eqb_refl. cbn [negb]. simpl in L.
      assert (X : forall f (l : list row), length (filter f l) <= length l).
      { induction l; simpl; auto. destruct (f a); simpl; lia. }
      eapply Nat.le_trans; [apply X|]. lia.
    + apply SS_map_filter. auto.
Qed.

(** ** The state by levels *)
Fixpoint kspec (ap : bool) (fmt : list (kind * nat)) (bs : list (list row)) : @pstate V :=
  match fmt with
  | [] => ([], map (run_sum R) bs)
  | (KDense, d) :: fmt =>
      let (i, v) := kspec false fmt (kids (KDense, d) bs) in (([], []) :: i, v)
  | (KComp, d) :: fmt =>
      let counts := map (@length nat) (us bs) in
      let (i, v) := kspec true fmt (kids (KComp, d) bs) in
      ((0 :: (if ap then posl 0 counts else counts), concat (us bs)) :: i, v)
  end.

Definition slots (ap : bool) (fmt : list (kind * nat)) (bs : list (list row)) (k : nat) : @pstate V :=
  match ap, fmt with
  | true, (KComp, _) :: _ => kspec ap fmt bs
  | _, _ => kspec ap fmt (bs ++ repeat [] k)
  end.

Lemma kids_app : forall kd (a b : list (list row)), kids kd (a ++ b) = kids kd a ++ kids kd b.
Proof. intros. unfold kids. rewrite map_app, concat_app. auto. Qed.
Lemma kids_one : forall kd (b : list row), kids kd [b] = children (js_of kd b) b.
Proof. intros. unfold kids. simpl. apply app_nil_r. Qed.
Lemma kids_empty_dense : forall d n, kids (KDense, d) (repeat ([] : list row) n) = repeat [] (n * d).
Proof.
  intros d n. induction n; auto. simpl repeat. change ([] :: repeat [] n) with ([[]] ++ repeat ([] : list row) n).
  rewrite kids_app, IHn, kids_one. simpl Nat.mul. rewrite repeat_app. f_equal.
  unfold children, js_of. cbn [fst snd]. assert (X : forall a, map (child ([] : list row)) (seq a d) = repeat [] d).
  { clear. induction d; intros a; auto. cbn [seq map repeat]. f_equal. auto. }
  apply X.
Qed.
Lemma kids_empty_comp : forall d n, kids (KComp, d) (repeat ([] : list row) n) = [].
Proof. intros d n. induction n; auto. Qed.
Lemma us_app : forall (a b : list (list row)), us (a ++ b) = us a ++ us b.
Proof. intros. unfold us. apply map_app. Qed.
Lemma us_empty : forall n, us (repeat ([] : list row) n) = repeat [] n.
Proof. intros n. induction n; simpl; f_equal; auto. Qed.
Lemma concat_empty : forall A n, concat (repeat ([] : list A) n) = [].
Proof. induction n; auto. Qed.
Lemma lens_empty : forall n, map (@length nat) (repeat [] n) = repeat 0 n.
Proof. induction n; simpl; f_equal; auto. Qed.

Lemma open_ok : forall fmt n bs k, open_slots R false n fmt (kspec false fmt (bs ++ repeat [] k)) = kspec false fmt (bs ++ repeat [] (k + n)).
Proof.
  induction fmt as [|[[|] d] fmt IH]; intros n bs k; cbn [kspec open_slots fst snd].
  - f_equal. rewrite repeat_app, app_assoc, (map_app _ _ (repeat [] n)). f_equal.
    clear. induction n; simpl; f_equal; auto.
  - rewrite !kids_app, !kids_empty_dense. specialize (IH (n * d) (kids (KDense, d) bs) (k * d)).
    destruct (kspec false fmt (kids (KDense, d) bs ++ repeat [] (k * d))) as [i v] eqn:E. cbn [fst snd].
    rewrite IH, Nat.mul_add_distr_r. destruct (kspec _ _ _). auto.
  - rewrite !kids_app, !kids_empty_comp, !us_app, !us_empty, !concat_app, !concat_empty, !map_app, !lens_empty.
    destruct (kspec true fmt _) as [i v]. cbn [fst snd]. rewrite repeat_app.
    change (0 :: (map (@length nat) (us bs) ++ repeat 0 k)) with ((0 :: map (@length nat) (us bs)) ++ repeat 0 k).
    rewrite <- app_assoc. auto.
Qed.

Lemma open_slots_ok : forall ap fmt n bs k, open_slots R ap n fmt (slots ap fmt bs k) = slots ap fmt bs (k + n).
Proof.
  intros ap fmt n bs k. destruct ap; [|exact (open_ok fmt n bs k)].
  destruct fmt as [|[[|] d] fmt]; unfold slots.
  - exact (open_ok [] n bs k).
  - exact (open_ok ((KDense, d) :: fmt) n bs k).
  - cbn [kspec open_slots]. destruct (kspec true fmt _) as [i v]. auto.
Qed.

Lemma grew_ok : forall fmt ap bs bs2 c, In c bs2 -> valid fmt c -> c <> [] ->
  grew (appended fmt (fst (kspec ap fmt bs))) (appended fmt (fst (kspec ap fmt (bs ++ bs2)))) = true.
Proof.
  induction fmt as [|[[|] d] fmt IH]; intros ap bs bs2 c IN VA NE; auto; cbn [kspec].
  - rewrite kids_app. specialize (IH false (kids (KDense, d) bs) (kids (KDense, d) bs2)).
    destruct c as [|r c]; [congruence|].
    assert (W := valid_head_lt _ _ _ r VA (or_introl eq_refl)). simpl in W.
    specialize (IH (child (r :: c) (row_head r))).
    destruct (kspec false fmt (kids (KDense, d) bs)) as [i v]. destruct (kspec false fmt (kids (KDense, d) bs ++ kids (KDense, d) bs2)) as [i' v'].
    apply IH.
    + unfold kids. apply in_concat. exists (children (js_of (KDense, d) (r :: c)) (r :: c)). split; [apply in_map_iff; eauto|].
      unfold children, js_of. cbn [fst snd]. apply in_map. apply in_seq. lia.
    + eapply valid_child; eauto.
    + unfold child. cbn [filter]. rewrite Nat.eqb_refl. discriminate.
  - rewrite us_app, concat_app.
    destruct (kspec true fmt (kids (KComp, d) bs)) as [i v]. destruct (kspec true fmt (kids (KComp, d) (bs ++ bs2))) as [i' v'].
    cbn [fst snd appended grew]. apply Nat.ltb_lt. rewrite app_length.
    assert (0 < length (concat (us bs2))); [|lia].
    destruct c as [|r c]; [congruence|]. apply in_split in IN. destruct IN as (l1 & l2 & ->).
    rewrite us_app, concat_app, app_length. cbn [us map concat getUniqueEntries]. rewrite app_length. cbn [length]. lia.
Qed.

Lemma set_nth_app : forall A (a b : list A) x y, set_nth (length a) x (a ++ y :: b) = a ++ x :: b.
Proof. induction a; intros; simpl; f_equal; auto. Qed.

Lemma posl_app : forall a b s, posl s (a ++ b) = posl s a ++ posl (s + sum_list a) b.
Proof.
  induction a as [|x a IH]; intros b s; simpl; [f_equal; lia|]. f_equal. rewrite IH. do 2 f_equal. lia.
Qed.

Lemma child_nil : forall (b : list row) j, ~ In j (map row_head b) -> child b j = [].
Proof.
  intros b j N. unfold child. replace (filter (fun r => row_head r =? j) b) with (@nil row); auto.
  symmetry. induction b as [|r b IH]; auto. cbn [filter]. destruct (Nat.eqb_spec (row_head r) j) as [E|_].
  - exfalso. apply N. simpl. auto.
  - apply IH. intros X. apply N. simpl. auto.
Qed.

Lemma repeat_snoc : forall A (x : A) n, x :: repeat x n = repeat x n ++ [x].
Proof. induction n; simpl; f_equal; auto. Qed.

(** ** One position *)
Lemma levels_ok : forall fmt ap bs b k, valid fmt b ->
  pack_levels R ap fmt b (length bs) (slots ap fmt bs (S k)) = slots ap fmt (bs ++ [b]) k.
Proof.
  induction fmt as [|[[|] d] fmt IH]; intros ap bs b k VA.
  - assert (E : forall l j, slots ap [] l j = ([], map (run_sum R) l ++ repeat rz j)).
    { intros l j. destruct ap; unfold slots; cbn [kspec]; rewrite map_app; do 2 f_equal; clear; induction j; simpl; f_equal; auto. }
    rewrite !E. cbn [pack_levels fst snd]. f_equal. cbn [repeat].
    rewrite <- (map_length (run_sum R) bs). rewrite set_nth_app, map_app, <- app_assoc. auto.
  - assert (HS := valid_head_sorted _ _ _ VA).
    destruct (js_of_spec (KComp, d) fmt b) as [U1 U2]; [exact VA|]. unfold js_of in U1, U2. cbn [fst] in U1, U2.
    assert (U3 : forall j, In j (getUniqueEntries (map row_head b)) -> j < d /\ In j (map row_head b)).
    { intros j Hj. apply in_unique in Hj; [|exact HS]. split; auto. apply in_map_iff in Hj. destruct Hj as (r & <- & Hr).
      apply (valid_head_lt _ _ _ _ VA) in Hr. auto. }
    assert (E : forall l j, slots ap ((KDense, d) :: fmt) l j =
      let (i, v) := kspec false fmt (kids (KDense, d) l ++ repeat [] (j * d)) in (([], []) :: i, v)).
    { intros l j. destruct ap; unfold slots; cbn [kspec]; rewrite kids_app, kids_empty_dense; auto. }
    rewrite !E. clear E.
    assert (L : forall n a js pre m,
      StronglySorted lt js -> (forall j, In j js -> a <= j < a + n /\ In j (map row_head b)) ->
      (forall j, a <= j < a + n -> In j (map row_head b) -> In j js) ->
      length pre = length bs * d + a ->
      fold_left (fun st (x : nat * list row) => pack_levels R false fmt (snd x) (length bs * d + fst x) st)
        (map (fun j => (j, child b j)) js) (kspec false fmt (pre ++ repeat [] (n + m))) =
      kspec false fmt (pre ++ children (seq a n) b ++ repeat [] m)).
    { induction n as [|n IHn]; intros a js pre m SJ IN OUT LP.
      - assert (js = []) as -> by (destruct js as [|j js]; auto; specialize (IN j (or_introl eq_refl)); lia). auto.
      - cbn [seq]. unfold children. cbn [map]. fold (children (seq (S a) n) b).
        replace (pre ++ (child b a :: children (seq (S a) n) b) ++ repeat [] m)
          with ((pre ++ [child b a]) ++ children (seq (S a) n) b ++ repeat [] m) by (rewrite <- app_assoc; auto).
        destruct (in_dec Nat.eq_dec a (map row_head b)) as [H|H].
        + assert (HJ : In a js) by (apply OUT; auto; lia).
          assert (exists js', js = a :: js') as [js' ->].
          { destruct js as [|j js]; [destruct HJ|]. exists js. f_equal. destruct HJ as [->|HJ]; auto.
            inversion SJ; subst. rewrite Forall_forall in H3. specialize (H3 _ HJ). specialize (IN j (or_introl eq_refl)). lia. }
          cbn [map fold_left fst snd]. rewrite <- LP.
          assert (X := IH false pre (child b a) (n + m) (valid_child _ _ _ _ VA)). unfold slots in X.
          change (S n + m) with (S (n + m)). rewrite X. apply IHn.
          * inversion SJ; auto.
          * intros j Hj. assert (A := IN j (or_intror Hj)). inversion SJ; subst. rewrite Forall_forall in H3. specialize (H3 _ Hj).
            split; [lia|tauto].
          * intros j Hj HB. destruct (OUT j ltac:(lia) HB); auto. lia.
          * rewrite app_length. simpl. lia.
        + rewrite (child_nil b a H).
          replace (pre ++ repeat [] (S n + m)) with ((pre ++ [[]]) ++ repeat ([] : list row) (n + m)) by (rewrite <- app_assoc; auto).
          apply IHn; auto.
          * intros j Hj. destruct (IN j Hj) as [A B]. split; auto. destruct (Nat.eq_dec j a); [|lia]. subst. contradiction.
          * intros j Hj HB. apply OUT; auto. lia.
          * rewrite app_length. simpl. lia. }
    specialize (L d 0 (getUniqueEntries (map row_head b)) (kids (KDense, d) bs) (k * d) U1).
    cbn [pack_levels]. change (S k * d) with (d + k * d).
    destruct (kspec false fmt (kids (KDense, d) bs ++ repeat [] (d + k * d))) as [i v] eqn:EK. cbn [fst snd].
    rewrite (runs_children (length b) b (le_n _) HS). rewrite L.
    + rewrite kids_app, kids_one. unfold js_of. cbn [fst snd]. rewrite <- app_assoc. auto.
    + intros j Hj. apply U3 in Hj. split; [lia|tauto].
    + intros j Hj HB. apply in_map_iff in HB. destruct HB as (r & <- & Hr). auto.
    + rewrite kids_length. unfold js_of. cbn [fst snd]. clear. induction bs; simpl; auto. rewrite seq_length in *. lia.
  - assert (HS := valid_head_sorted _ _ _ VA).
    set (js := getUniqueEntries (map row_head b)).
    assert (L : forall js pre crd, (forall j, In j js -> In j (map row_head b)) -> length crd = length pre ->
      fold_left (fun (s : list nat * @pstate V) (x : nat * list row) =>
                     let (crd, st) := s in
                     let st' := open_slots R true 1 fmt st in
                     let st'' := pack_levels R true fmt (snd x) (length crd) st' in
                     (if grew (appended fmt (fst st)) (appended fmt (fst st''))
                      then crd ++ [fst x] else crd, st''))
        (map (fun j => (j, child b j)) js) (crd, kspec true fmt pre) = (crd ++ js, kspec true fmt (pre ++ children js b))).
    { clear js. induction js as [|j js IHj]; intros pre crd IN LC.
      - simpl. rewrite !app_nil_r. auto.
      - cbn [map fold_left fst snd].
        assert (K0 : forall l, kspec true fmt l = slots true fmt l 0).
        { intros l. unfold slots. destruct fmt as [|[[|] e] f]; cbn [repeat]; rewrite ?app_nil_r; auto. }
        assert (OS : open_slots R true 1 fmt (kspec true fmt pre) = slots true fmt pre 1).
        { rewrite K0. exact (open_slots_ok true fmt 1 pre 0). }
        rewrite OS, LC. rewrite (IH true pre (child b j) 0 (valid_child _ _ _ _ VA)).
        rewrite <- K0.
        assert (HJ : In j (map row_head b)) by (apply IN; simpl; auto).
        rewrite (grew_ok fmt true pre [child b j] (child b j)).
        + rewrite IHj.
          * rewrite <- !app_assoc. unfold children. auto.
          * intros x Hx. apply IN. simpl; auto.
          * rewrite !app_length. simpl. lia.
        + simpl; auto.
        + eapply valid_child; eauto.
        + apply in_map_iff in HJ. destruct HJ as (r & HE & HR). unfold child. intros E.
          assert (X : In (row_tail r) (map row_tail (filter (fun x => row_head x =? j) b))).
          { apply in_map. apply filter_In. split; auto. apply Nat.eqb_eq. auto. }
          rewrite E in X. destruct X. }
    assert (FIN : forall counts crd, length crd = sum_list counts -> posl 0 counts ++ [length (crd ++ js)] = posl 0 (counts ++ [length js])).
    { intros counts crd LC. rewrite posl_app. cbn [posl]. rewrite app_length, LC. auto. }
    specialize (L js (kids (KComp, d) bs) (concat (us bs))).
    assert (LC : length (concat (us bs)) = length (kids (KComp, d) bs)).
    { rewrite kids_length, length_concat_sum. f_equal. unfold us, js_of. rewrite map_map. auto. }
    assert (LS : length (concat (us bs)) = sum_list (map (@length nat) (us bs))) by apply length_concat_sum.
    assert (LJ : forall j, In j js -> In j (map row_head b)).
    { intros j Hj. apply in_unique in Hj; auto. }
    specialize (L LJ LC). cbv zeta in L.
    destruct ap; unfold slots; cbn [kspec].
    + destruct (kspec true fmt (kids (KComp, d) bs)) as [i v] eqn:EK. cbn [pack_levels fst snd].
      rewrite (runs_children (length b) b (le_n _) HS). fold js. unfold pstate in L |- *. rewrite L.
      rewrite kids_app, kids_one. unfold js_of. cbn [fst]. fold js.
      destruct (kspec true fmt (kids (KComp, d) bs ++ children js b)) as [i' v'].
      rewrite us_app, concat_app, map_app. cbn [us map concat]. fold js. rewrite app_nil_r.
      rewrite <- FIN with (crd := concat (us bs)) by auto. auto.
    + rewrite !kids_app, !kids_empty_comp, !app_nil_r.
      rewrite !us_app, !us_empty, !concat_app, !concat_empty, !map_app, !lens_empty, !app_nil_r.
      destruct (kspec true fmt (kids (KComp, d) bs)) as [i v] eqn:EK. cbn [pack_levels fst snd].
      rewrite (runs_children (length b) b (le_n _) HS). fold js. unfold pstate in L |- *. rewrite L.
      rewrite kids_one. unfold js_of. cbn [fst]. fold js.
      destruct (kspec true fmt (kids (KComp, d) bs ++ children js b)) as [i' v'].
      cbn [us map concat]. fold js. rewrite app_nil_r. do 3 f_equal.
      replace (length (concat (us bs) ++ js) - length (concat (us bs))) with (length js) by (rewrite app_length; lia). change (S k) with (1 + k). cbn [repeat plus].
      change (0 :: (map (@length nat) (us bs) ++ 0 :: repeat 0 k)) with ((0 :: map (@length nat) (us bs)) ++ 0 :: repeat 0 k).
      replace (length bs + 1) with (length (0 :: map (@length nat) (us bs))) by (cbn [length]; unfold us; rewrite !map_length; lia).
      rewrite set_nth_app. cbn [app]. rewrite <- app_assoc. auto.
Qed.

(** ** Against [pack] *)
Hypothesis HR : ring_theory (r0 R) (r1 R) (radd R) (rmul R) (rsub R) (ropp R) eq.
Add Ring VRing : HR.

Definition totalled (b : list row) : list row := map (fun r => (fst r, inserted_at R b (fst r))) b.

Lemma same_coords_eq : forall a b, same_coords a b = true <-> a = b.
Proof. intros a b. unfold same_coords. destruct (list_eq_dec Nat.eq_dec a b); split; congruence. Qed.

Lemma run_sum_values : forall b : list row, run_sum R b = sum_values R (map snd b).
Proof.
  assert (X : forall (b : list row) a, fold_left (fun acc r => radd R acc (snd r)) b a = radd R a (sum_values R (map snd b))).
  { induction b as [|r b IH]; intros a; cbn [fold_left map sum_values fold_right]; [ring|]. rewrite IH.
    unfold sum_values. ring. }
  intros [|r b]; auto. unfold run_sum. rewrite X. auto.
Qed.

Lemma totalled_heads : forall b, map row_head (totalled b) = map row_head b.
Proof. intros b. unfold totalled. rewrite map_map. auto. Qed.
Lemma totalled_us : forall bs, us (map totalled bs) = us bs.
Proof. intros bs. unfold us. rewrite map_map. apply map_ext. intros b. rewrite totalled_heads. auto. Qed.

Lemma child_inserted : forall b c cs, (forall r, In r b -> fst r <> []) ->
  inserted_at R (child b c) cs = inserted_at R b (c :: cs).
Proof.
  intros b c cs NE. unfold inserted_at, child. f_equal.
  induction b as [|r b IH]; auto. cbn [filter].
  assert (N := NE r (or_introl eq_refl)). specialize (IH (fun x H => NE x (or_intror H))).
  unfold row_head in *. destruct r as [[|x l] v]; [simpl in N; congruence|]. cbn [fst] in *.
  destruct (Nat.eqb_spec x c) as [->|D].
  - cbn [map filter]. unfold row_tail at 1. cbn [fst tl snd].
    replace (same_coords (c :: l) (c :: cs)) with (same_coords l cs).
    + destruct (same_coords l cs); cbn [map]; rewrite IH; auto.
    + unfold same_coords. destruct (list_eq_dec Nat.eq_dec l cs), (list_eq_dec Nat.eq_dec (c :: l) (c :: cs)); congruence.
  - replace (same_coords (x :: l) (c :: cs)) with false; auto.
    symmetry. destruct (same_coords (x :: l) (c :: cs)) eqn:E; auto. apply same_coords_eq in E. congruence.
Qed.

Lemma child_totalled : forall kd fmt b c, valid (kd :: fmt) b -> child (totalled b) c = totalled (child b c).
Proof.
  intros kd fmt b c VA. assert (NE := valid_nonempty _ _ _ VA).
  unfold totalled at 2. unfold child at 3. rewrite map_map.
  unfold child at 1. unfold totalled.
  assert (X : forall l : list row, (forall r, In r l -> In r b) ->
    map row_tail (filter (fun r => row_head r =? c) (map (fun r : row => (fst r, inserted_at R b (fst r))) l)) =
    map (fun x => (fst (row_tail x), inserted_at R (child b c) (fst (row_tail x)))) (filter (fun r => row_head r =? c) l)).
  { induction l as [|r l IH]; intros I; auto. cbn [map filter].
    change (row_head (fst r, inserted_at R b (fst r))) with (row_head r).
    specialize (IH (fun x H => I x (or_intror H))).
    destruct (Nat.eqb_spec (row_head r) c) as [E|_]; [|exact IH]. cbn [map]. rewrite IH. f_equal.
    assert (N := NE r (I r (or_introl eq_refl))). unfold row_tail. cbn [fst snd]. f_equal.
    rewrite child_inserted by auto. f_equal. unfold row_head in E. destruct (fst r); [congruence|]. cbn [tl]. congruence. }
  apply X. auto.
Qed.

Lemma kids_totalled : forall kd fmt bs, Forall (valid (kd :: fmt)) bs -> kids kd (map totalled bs) = map totalled (kids kd bs).
Proof.
  intros kd fmt bs VA. unfold kids. rewrite map_map, concat_map, map_map. f_equal. apply map_ext_in. intros b HB.
  rewrite Forall_forall in VA. specialize (VA b HB).
  replace (js_of kd (totalled b)) with (js_of kd b) by (unfold js_of; rewrite totalled_heads; auto).
  unfold children. rewrite map_map. apply map_ext. intros c. eapply child_totalled; eauto.
Qed.

Lemma valid_totalled : forall fmt b, valid fmt b -> valid fmt (totalled b).
Proof.
  intros fmt b [H1 H2]. split.
  - intros r Hr. unfold totalled in Hr. apply in_map_iff in Hr. destruct Hr as (x & <- & Hx). cbn [fst]. auto.
  - unfold totalled. rewrite map_map. cbn [fst]. exact H2.
Qed.

Lemma psums_posl : forall l s, prefix_sums s l = posl s l.
Proof. induction l as [|x l IH]; intros s; simpl; [auto|]. rewrite IH. reflexivity. Qed.

Lemma kspec_packed : forall fmt ap bs, Forall (valid fmt) bs ->
  (mk_levels fmt (finalize ap fmt (fst (kspec ap fmt bs))), snd (kspec ap fmt bs)) = packed fmt rz (map totalled bs).
Proof.
  induction fmt as [|[[|] d] fmt IH]; intros ap bs VA.
  - rewrite packed_nil. cbn [kspec fst snd mk_levels]. f_equal. rewrite map_map. apply map_ext_in. intros b HB.
    rewrite Forall_forall in VA. destruct (VA b HB) as [H1 _]. rewrite run_sum_values.
    destruct b as [|r b]; auto. cbn [totalled map]. cbn [snd]. unfold inserted_at.
    assert (E : forall x, In x (r :: b) -> fst x = []).
    { intros x Hx. specialize (H1 x Hx). unfold in_range, dims_of in H1. simpl in H1. inversion H1. auto. }
    f_equal. f_equal. rewrite (E r) by (simpl; auto).
    assert (X : forall l : list row, (forall x, In x l -> fst x = []) -> filter (fun r0 => same_coords (fst r0) []) l = l).
    { induction l as [|x l IHl]; intros HX; auto. cbn [filter]. rewrite (HX x (or_introl eq_refl)). replace (same_coords [] []) with true by reflexivity. f_equal. apply IHl.
      intros y Hy. apply HX. simpl; auto. }
    rewrite X; auto.
  - assert (VT : Forall (valid ((KDense, d) :: fmt)) (map totalled bs)).
    { rewrite Forall_forall in *. intros x Hx. apply in_map_iff in Hx. destruct Hx as (b & <- & Hb). apply valid_totalled. auto. }
    rewrite packed_dense by auto. rewrite (kids_totalled _ _ _ VA). rewrite <- (IH false) by (apply valid_kids; auto).
    cbn [kspec]. destruct (kspec false fmt (kids (KDense, d) bs)) as [i v]. auto.
  - assert (VT : Forall (valid ((KComp, d) :: fmt)) (map totalled bs)).
    { rewrite Forall_forall in *. intros x Hx. apply in_map_iff in Hx. destruct Hx as (b & <- & Hb). apply valid_totalled. auto. }
    rewrite packed_comp by auto. rewrite (kids_totalled _ _ _ VA). rewrite <- (IH true) by (apply valid_kids; auto).
    rewrite totalled_us.
    cbn [kspec]. destruct (kspec true fmt (kids (KComp, d) bs)) as [i v]. cbn [fst snd finalize mk_levels].
    destruct ap; [auto|]. rewrite psums_posl. auto.
Qed.

Lemma init_kspec : forall fmt ap, (init_indices fmt, []) = kspec ap fmt [].
Proof.
  induction fmt as [|[[|] d] fmt IH]; intros ap; auto; cbn [kspec].
  - unfold kids. cbn [map concat]. rewrite <- IH. auto.
  - unfold kids. cbn [map concat us]. rewrite <- IH. destruct ap; auto.
Qed.

Theorem pack_kernel_pack : forall fmt (rows : list row), packable (dims_of fmt) rows ->
  pack_kernel R fmt rows = pack fmt rz (totalled rows).
Proof.
  intros fmt rows VA. unfold pack_kernel. rewrite (init_kspec fmt true).
  assert (K0 : forall l, kspec true fmt l = slots true fmt l 0).
  { intros l. unfold slots. destruct fmt as [|[[|] e] f]; cbn [repeat]; rewrite ?app_nil_r; auto. }
  rewrite K0, open_slots_ok. change (0 + 1) with 1. change 0 with (@length (list row) []) at 1.
  rewrite (levels_ok fmt true [] rows 0 VA). rewrite <- K0. cbn [app].
  rewrite pack_packed. assert (X := kspec_packed fmt true [rows] ltac:(constructor; auto)). cbn [map] in X. rewrite <- X.
  destruct (kspec true fmt [rows]) as [i v]. auto.
Qed.

Lemma row_value_totalled : forall rows cs, row_value rz (totalled rows) cs = inserted_at R rows cs.
Proof.
  intros rows cs. unfold totalled.
  assert (X : forall l : list row,
    row_value rz (map (fun r : row => (fst r, inserted_at R rows (fst r))) l) cs =
    if existsb (fun r => same_coords (fst r) cs) l then inserted_at R rows cs else rz).
  { induction l as [|r l IH]; auto. cbn [map row_value fst snd existsb].
    destruct (list_eq_dec Nat.eq_dec (fst r) cs) as [E|N].
    - rewrite E. replace (same_coords cs cs) with true; auto. symmetry. apply same_coords_eq. auto.
    - replace (same_coords (fst r) cs) with false; auto.
      symmetry. destruct (same_coords (fst r) cs) eqn:S; auto. apply same_coords_eq in S. contradiction. }
  rewrite X. destruct (existsb (fun r : list nat * V => same_coords (fst r) cs) rows) eqn:E; auto. unfold inserted_at.
  replace (filter (fun r => same_coords (fst r) cs) rows) with (@nil row); auto.
  symmetry. clear X. induction rows as [|r rows IH]; auto. cbn [filter existsb] in *. destruct (same_coords (fst r) cs); auto. discriminate.
Qed.
End Proofs.
