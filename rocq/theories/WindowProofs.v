(** Proofs about windows and index sets. *)
From Coq Require Import List ZArith Lia Bool Sorted.
From Verif Require Import Outcome CSearch CSearchProofs Window WindowSpec.
Import ListNotations.
Open Scope Z_scope.

Lemma positions_cons : forall b e, b < e -> positions b e = b :: positions (b + 1) e.
Proof.
  intros b e H. unfold positions. replace (Z.to_nat (e - b)) with (S (Z.to_nat (e - (b + 1)))) by lia.
  simpl. f_equal; [lia|]. rewrite <- seq_shift, map_map. apply map_ext. intros; lia.
Qed.
Lemma positions_nil : forall b e, e <= b -> positions b e = [].
Proof. intros. unfold positions. replace (Z.to_nat (e - b)) with O by lia. reflexivity. Qed.
Lemma in_positions : forall b e p, In p (positions b e) <-> b <= p < e.
Proof.
  intros. unfold positions. rewrite in_map_iff. split.
  - intros (n & <- & H). apply in_seq in H. lia.
  - intros H. exists (Z.to_nat (p - b)). split; [lia|]. apply in_seq. lia.
Qed.
Lemma positions_split : forall b m e, b <= m <= e -> positions b e = positions b m ++ positions m e.
Proof.
  intros b m e H. remember (Z.to_nat (m - b)) as n eqn:E. revert b H E.
  induction n; intros b H E.
  - assert (b = m) by lia. subst b. rewrite (positions_nil m m) by lia. reflexivity.
  - rewrite (positions_cons b e), (positions_cons b m) by lia. simpl. f_equal. apply IHn; lia.
Qed.
Lemma filter_none : forall A P (l : list A), (forall x, In x l -> P x = false) -> filter P l = [].
Proof.
  induction l as [|x l IH]; simpl; intros H; auto. rewrite (H x) by auto. apply IH. auto.
Qed.

Definition sel lo hi stride crd := fun p => (lo <=? at_ crd p) && (at_ crd p <? hi) && ((at_ crd p - lo) mod stride =? 0).

(** The last coordinate the loop reaches. *)
Definition full_steps lo hi stride := lo + stride * ((hi - lo) / stride).

Lemma window_loop_spec : forall n crd lo hi stride p,
  0 < stride -> lo <= hi -> 0 <= p -> p + Z.of_nat n <= Z.of_nat (length crd) ->
  weak_on crd p (p + Z.of_nat n) -> (forall i, p <= i < p + Z.of_nat n -> lo <= at_ crd i) ->
  window_loop n crd lo hi stride p = Val (selected crd p (p + Z.of_nat n) lo (full_steps lo hi stride) stride).
Proof.
  induction n; intros crd lo hi stride p Hs Hl Hp Hn W G.
  - simpl. unfold selected. rewrite positions_nil by lia. reflexivity.
  - cbn [window_loop]. rewrite rd_ok by lia. cbn [obind].
    assert (GP := G p ltac:(lia)). set (c := at_ crd p) in *.
    rewrite Z.rem_mod_nonneg, !Z.quot_div_nonneg by lia.
    assert (REC : window_loop n crd lo hi stride (p + 1) = Val (selected crd (p + 1) (p + Z.of_nat (S n)) lo (full_steps lo hi stride) stride)).
    { replace (p + Z.of_nat (S n)) with (p + 1 + Z.of_nat n) in * by lia. apply IHn; try lia.
      - intros i j ? ? ?. apply W; lia. - intros i Hi. apply G. lia. }
    unfold selected. rewrite positions_cons by lia. cbn [filter].
    fold (sel lo (full_steps lo hi stride) stride crd) in *. fold c.
    replace (lo <=? c) with true by (symmetry; apply Z.leb_le; lia).
    pose proof (Z.div_mod (c - lo) stride ltac:(lia)) as DM. pose proof (Z.mod_pos_bound (c - lo) stride Hs) as MB.
    destruct (Z.eqb_spec ((c - lo) mod stride) 0) as [E|E]; cbn [negb].
    + rewrite E in DM. destruct (Z.geb_spec ((c - lo) / stride) ((hi - lo) / stride)) as [Q|Q].
      * replace (c <? full_steps lo hi stride) with false by (symmetry; apply Z.ltb_ge; unfold full_steps; nia).
        cbn [andb]. rewrite filter_none; auto. intros q Hq. apply in_positions in Hq.
        apply andb_false_iff. left. apply andb_false_iff. right. apply Z.ltb_ge.
        assert (c <= at_ crd q) by (apply W; lia). unfold full_steps. nia.
      * replace (c <? full_steps lo hi stride) with true by (symmetry; apply Z.ltb_lt; unfold full_steps; nia).
        cbn [andb map]. rewrite REC. reflexivity.
    + rewrite andb_false_r. rewrite REC. reflexivity.
Qed.

Lemma selected_from : forall crd b e lo hi stride r, first_geq crd b e lo r -> selected crd b e lo hi stride = selected crd r e lo hi stride.
Proof.
  intros crd b e lo hi stride r (R1 & R2 & R3). unfold selected. rewrite (positions_split b r e R1), filter_app.
  rewrite (filter_none _ _ (positions b r)); auto. intros p Hp. apply in_positions in Hp.
  assert (at_ crd p < lo) by (apply R2; lia). replace (lo <=? at_ crd p) with false; auto.
  symmetry. apply Z.leb_gt. lia.
Qed.

Lemma window_serial_spec : forall crd b e lo hi stride,
  0 <= b -> b < e -> e <= Z.of_nat (length crd) -> strict_on crd b e -> 0 < stride -> lo <= hi ->
  window_serial crd b e lo hi stride = Val (selected crd b e lo (full_steps lo hi stride) stride).
Proof.
  intros crd b e lo hi stride Hb He Hl St Hs Hw. unfold window_serial.
  destruct (search_after_spec crd b e lo Hb He Hl St) as (r & E & F). rewrite E. cbn [obind].
  rewrite (selected_from _ _ _ _ _ _ r F). destruct F as (F1 & F2 & F3).
  rewrite window_loop_spec; try lia.
  - replace (r + Z.of_nat (Z.to_nat (e - r))) with e by lia. reflexivity.
  - intros i j ? ? ?. assert (at_ crd i < at_ crd j) by (apply St; lia). lia.
  - intros i Hi. apply F3. lia.
Qed.

Lemma full_steps_exact : forall lo hi stride, 0 < stride -> (hi - lo) mod stride = 0 -> full_steps lo hi stride = hi.
Proof. intros. unfold full_steps. pose proof (Z.div_mod (hi - lo) stride ltac:(lia)). lia. Qed.

Lemma strided_loop_spec : forall n crd lo hi stride p,
  0 < stride -> 0 <= p -> p + Z.of_nat n <= Z.of_nat (length crd) ->
  (forall i, p <= i < p + Z.of_nat n -> lo <= at_ crd i < hi) ->
  strided_loop n crd lo stride p = Val (selected crd p (p + Z.of_nat n) lo hi stride).
Proof.
  induction n; intros crd lo hi stride p Hs Hp Hn G.
  - simpl. unfold selected. rewrite positions_nil by lia. reflexivity.
  - cbn [strided_loop]. rewrite rd_ok by lia. cbn [obind].
    assert (GP := G p ltac:(lia)). set (c := at_ crd p) in *.
    rewrite (IHn crd lo hi stride (p + 1)); try lia. 2: { intros i Hi. apply G. lia. }
    replace (p + 1 + Z.of_nat n) with (p + Z.of_nat (S n)) by lia. cbn [obind].
    unfold selected. rewrite (positions_cons p) by lia. cbn [filter]. fold c.
    rewrite Z.rem_mod_nonneg, Z.quot_div_nonneg by lia.
    replace (lo <=? c) with true by (symmetry; apply Z.leb_le; lia).
    replace (c <? hi) with true by (symmetry; apply Z.ltb_lt; lia). cbn [andb].
    destruct (Z.eqb_spec ((c - lo) mod stride) 0); reflexivity.
Qed.

Lemma window_parallel_spec : forall crd b e lo hi stride,
  0 <= b -> b < e -> e <= Z.of_nat (length crd) -> strict_on crd b e -> 0 < stride -> lo <= hi ->
  window_parallel crd b e lo hi stride = Val (selected crd b e lo hi stride).
Proof.
  intros crd b e lo hi stride Hb He Hl St Hs Hw. unfold window_parallel.
  destruct (search_after_spec crd b e lo Hb He Hl St) as (r & E & F).
  destruct (search_after_spec crd b e hi Hb He Hl St) as (q & E' & F'). rewrite E, E'. cbn [obind].
  rewrite (selected_from _ _ _ _ _ _ r F). destruct F as (F1 & F2 & F3). destruct F' as (F1' & F2' & F3').
  assert (RQ : r <= q).
  { destruct (Z_le_gt_dec r q); auto. assert (at_ crd q < lo) by (apply F2; lia). assert (hi <= at_ crd q) by (apply F3'; lia). lia. }
  rewrite (strided_loop_spec _ _ _ hi); try lia.
  - replace (r + Z.of_nat (Z.to_nat (q - r))) with q by lia. f_equal. unfold selected.
    rewrite (positions_split r q e) by lia. rewrite filter_app, map_app. rewrite (filter_none _ _ (positions q e)).
    { rewrite app_nil_r. reflexivity. }
    intros p Hp. apply in_positions in Hp. assert (hi <= at_ crd p) by (apply F3'; lia).
    apply andb_false_iff. left. apply andb_false_iff. right. apply Z.ltb_ge. lia.
  - intros i Hi. split; [apply F3; lia|apply F2'; lia].
Qed.

(** ** Index sets *)
Definition matches (A B : list Z) (bA eA bB eB : Z) : list (Z * Z) :=
  flat_map (fun p => map (fun k => (p, k)) (filter (fun k => at_ B k =? at_ A p) (positions bB eB))) (positions bA eA).

Lemma flat_map_none : forall X Y (f : X -> list Y) l, (forall x, In x l -> f x = []) -> flat_map f l = [].
Proof. induction l; simpl; intros H; auto. rewrite H by auto. apply IHl. auto. Qed.
Lemma flat_map_app' : forall X Y (f : X -> list Y) l l', flat_map f (l ++ l') = flat_map f l ++ flat_map f l'.
Proof. induction l; simpl; intros; auto. rewrite IHl, app_assoc. auto. Qed.
Lemma flat_map_ext_in : forall X Y (f g : X -> list Y) l, (forall x, In x l -> f x = g x) -> flat_map f l = flat_map g l.
Proof. induction l; simpl; intros H; auto. rewrite H, IHl; auto. Qed.

(** Positions of B whose coordinates are below all coordinates of A can be skipped,
    and vice versa. *)
Lemma matches_skip_B : forall A B bA eA bB m eB, bB <= m <= eB ->
  (forall p k, bA <= p < eA -> bB <= k < m -> at_ B k <> at_ A p) -> matches A B bA eA bB eB = matches A B bA eA m eB.
Proof.
  intros. unfold matches. apply flat_map_ext_in. intros p Hp. apply in_positions in Hp. f_equal.
  rewrite (positions_split bB m eB), filter_app by auto. rewrite filter_none; auto.
  intros k Hk. apply in_positions in Hk. apply Z.eqb_neq. auto.
Qed.
Lemma matches_skip_A : forall A B bA m eA bB eB, bA <= m <= eA ->
  (forall p k, bA <= p < m -> bB <= k < eB -> at_ B k <> at_ A p) -> matches A B bA eA bB eB = matches A B m eA bB eB.
Proof.
  intros. unfold matches. rewrite (positions_split bA m eA), flat_map_app' by auto. rewrite flat_map_none; auto.
  intros p Hp. apply in_positions in Hp. rewrite filter_none; auto. intros k Hk. apply in_positions in Hk. apply Z.eqb_neq. auto.
Qed.

Lemma indexset_loop_spec : forall fuel A B bA eA bB eB,
  0 <= bA -> 0 <= bB -> eA <= Z.of_nat (length A) -> eB <= Z.of_nat (length B) ->
  strict_on A bA eA -> strict_on B bB eB ->
  (Z.to_nat (eA - bA) + Z.to_nat (eB - bB) < fuel)%nat ->
  indexset_loop fuel A bA eA B bB eB = Val (matches A B bA eA bB eB).
Proof.
  induction fuel; intros A B bA eA bB eB HbA HbB HeA HeB SA SB Hf; [lia|].
  cbn [indexset_loop].
  destruct (Z.ltb_spec bA eA) as [LA|LA]; cbn [andb].
  2: { unfold matches. rewrite (positions_nil bA eA) by lia. reflexivity. }
  destruct (Z.ltb_spec bB eB) as [LB|LB].
  2: { unfold matches. rewrite (positions_nil bB eB) by lia. rewrite flat_map_none; auto. }
  rewrite !rd_ok by lia. cbn [obind]. set (a := at_ A bA). set (b := at_ B bB).
  assert (MA : forall i, bA < i < eA -> a < at_ A i) by (intros; apply SA; lia).
  assert (MB : forall i, bB < i < eB -> b < at_ B i) by (intros; apply SB; lia).
  destruct (Z.eqb_spec a (Z.max a b)) as [E1|E1]; destruct (Z.eqb_spec b (Z.max a b)) as [E2|E2]; cbn [andb].
  - assert (E : a = b) by lia. rewrite IHfuel; try lia.
    2: { intros i j ? ? ?; apply SA; lia. } 2: { intros i j ? ? ?; apply SB; lia. }
    cbn [obind]. f_equal. symmetry. unfold matches. rewrite (positions_cons bA eA) by lia. cbn [flat_map].
    rewrite (positions_cons bB eB) by lia. cbn [filter]. fold a b. rewrite E, Z.eqb_refl. cbn [map app].
    f_equal. rewrite filter_none. 2: { intros k Hk. apply in_positions in Hk. apply Z.eqb_neq. pose proof (MB k). lia. }
    cbn [map app]. apply flat_map_ext_in. intros p Hp. apply in_positions in Hp. cbn [filter]. fold b.
    replace (b =? at_ A p) with false; auto. symmetry. apply Z.eqb_neq. pose proof (MA p). lia.
  - destruct (gallop_spec A bA eA (Z.max a b)) as (rA & GA & FA1 & FA2 & FA3); auto; try lia. { apply strict_weak; auto. }
    destruct (gallop_spec B bB eB (Z.max a b)) as (rB & GB & FB1 & FB2 & FB3); auto; try lia. { apply strict_weak; auto. }
    rewrite GA. cbn [obind]. rewrite GB. cbn [obind].
    assert (rA = bA). { destruct (Z.eq_dec rA bA); auto. assert (at_ A bA < Z.max a b) by (apply FA2; lia). subst a b; lia. }
    assert (bB < rB). { destruct (Z_lt_ge_dec bB rB); auto. assert (Z.max a b <= at_ B bB) by (apply FB3; lia). subst a b; lia. }
    subst rA. rewrite IHfuel; try lia; auto. 2: { intros i j ? ? ?; apply SB; lia. }
    f_equal. symmetry. apply matches_skip_B; auto. intros p k Hp Hk. assert (at_ B k < Z.max a b) by (apply FB2; lia).
    assert (a <= at_ A p). { destruct (Z.eq_dec p bA); [subst; unfold a; lia|]. pose proof (MA p). lia. } lia.
  - destruct (gallop_spec A bA eA (Z.max a b)) as (rA & GA & FA1 & FA2 & FA3); auto; try lia. { apply strict_weak; auto. }
    destruct (gallop_spec B bB eB (Z.max a b)) as (rB & GB & FB1 & FB2 & FB3); auto; try lia. { apply strict_weak; auto. }
    rewrite GA. cbn [obind]. rewrite GB. cbn [obind].
    assert (rB = bB). { destruct (Z.eq_dec rB bB); auto. assert (at_ B bB < Z.max a b) by (apply FB2; lia). subst a b; lia. }
    assert (bA < rA). { destruct (Z_lt_ge_dec bA rA); auto. assert (Z.max a b <= at_ A bA) by (apply FA3; lia). subst a b; lia. }
    subst rB. rewrite IHfuel; try lia; auto. 2: { intros i j ? ? ?; apply SA; lia. }
    f_equal. symmetry. apply matches_skip_A; auto. intros p k Hp Hk. assert (at_ A p < Z.max a b) by (apply FA2; lia).
    assert (b <= at_ B k). { destruct (Z.eq_dec k bB); [subst; unfold b; lia|]. pose proof (MB k). lia. } lia.
  - exfalso. lia.
Qed.

Lemma indexset_merge_spec : forall A bA eA B, 0 <= bA -> eA <= Z.of_nat (length A) -> strict_on A bA eA ->
  strict_on B 0 (Z.of_nat (length B)) -> indexset_merge A bA eA B = Val (selected_by_set A bA eA B).
Proof.
  intros. unfold indexset_merge. rewrite indexset_loop_spec; auto; try lia.
Qed.

(** A sorted list of coordinates is packed unchanged. *)
Lemma indexset_crd_sorted : forall set, strict_on set 0 (Z.of_nat (length set)) -> indexset_crd set = set.
Proof.
  induction set as [|x l IH]; intros H; auto. unfold indexset_crd in *. cbn [fold_right]. rewrite IH.
  - destruct l as [|y r]; auto. simpl. assert (G := H 0 1). unfold at_ in G. simpl in G.
    destruct (Z.ltb_spec x y); auto. lia.
  - intros i j Hi Hj Hl. assert (G := H (i + 1) (j + 1)). unfold at_ in *.
    replace (Z.to_nat (i + 1)) with (S (Z.to_nat i)) in G by lia. replace (Z.to_nat (j + 1)) with (S (Z.to_nat j)) in G by lia.
    simpl in G. apply G; lia.
Qed.

(** A strictly increasing list is determined by its elements. *)
Lemma sorted_unique : forall l l' : list Z, StronglySorted Z.lt l -> StronglySorted Z.lt l' -> (forall x, In x l <-> In x l') -> l = l'.
Proof.
  induction l as [|x l IH]; intros [|y l'] S S' E; auto.
  - exfalso. apply (E y). cbn; auto.
  - exfalso. apply (E x). cbn; auto.
  - inversion S as [|? ? S1 F1]; inversion S' as [|? ? S2 F2]; subst. rewrite Forall_forall in F1, F2.
    assert (x = y). { assert (A := proj1 (E x)). assert (B := proj2 (E y)). cbn in A, B. destruct A as [A|A]; auto. destruct B as [B|B]; auto.
      apply F1 in B. apply F2 in A. lia. }
    subst y. f_equal. apply IH; auto. intros z. specialize (E z). cbn in E. split; intros I.
    + destruct E as [E _]. destruct E as [E|E]; auto. subst z. apply F1 in I. lia.
    + destruct E as [_ E]. destruct E as [E|E]; auto. subst z. apply F2 in I. lia.
Qed.
Lemma insert_crd_ok : forall x l, StronglySorted Z.lt l -> StronglySorted Z.lt (insert_crd x l) /\ forall y, In y (insert_crd x l) <-> x = y \/ In y l.
Proof.
  induction l as [|z l IH]; intros S; cbn [insert_crd]; [split; [repeat constructor|cbn; tauto]|].
  inversion S as [|? ? S1 F1]; subst. destruct (Z.ltb_spec x z).
  - split; [constructor; auto; constructor; auto; rewrite Forall_forall in *; intros y I; apply F1 in I; lia|cbn; tauto].
  - destruct (Z.eqb_spec x z) as [->|N]; [split; auto; cbn; intros; tauto|]. destruct (IH S1) as [A B]. split.
    + constructor; auto. rewrite Forall_forall in *. intros y I. apply B in I as [<-|I]; [lia|auto].
    + intros y. cbn. rewrite B. tauto.
Qed.
Lemma strict_sorted : forall l, strict_on l 0 (Z.of_nat (length l)) -> StronglySorted Z.lt l.
Proof.
  induction l as [|x l IH]; intros H; constructor.
  - apply IH. intros i j Hi Hj Hl. assert (G := H (i + 1) (j + 1)). unfold at_ in *.
    replace (Z.to_nat (i + 1)) with (S (Z.to_nat i)) in G by lia. replace (Z.to_nat (j + 1)) with (S (Z.to_nat j)) in G by lia.
    simpl in G. apply G; lia.
  - apply Forall_forall. intros y I. apply (In_nth _ _ 0) in I as (k & L & <-). assert (G := H 0 (Z.of_nat (S k))). unfold at_ in G.
    rewrite Nat2Z.id in G. simpl nth in G. apply G; cbn [length]; lia.
Qed.
Lemma indexset_crd_any : forall set set', strict_on set' 0 (Z.of_nat (length set')) -> (forall x, In x set <-> In x set') -> indexset_crd set = set'.
Proof.
  intros set set' S E. assert (K : forall l, StronglySorted Z.lt (indexset_crd l) /\ forall y, In y (indexset_crd l) <-> In y l).
  { induction l as [|x l [A B]]; [split; [constructor|cbn; tauto]|]. destruct (insert_crd_ok x _ A) as [C D]. split; [exact C|].
    intros y. change (indexset_crd (x :: l)) with (insert_crd x (indexset_crd l)). rewrite D, B. cbn. tauto. }
  destruct (K set) as [A B]. apply sorted_unique; auto. { apply strict_sorted; auto. } intros x. rewrite B. auto.
Qed.
