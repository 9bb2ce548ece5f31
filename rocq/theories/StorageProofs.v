From Coq Require Import List Arith Lia Bool Sorting.Sorted Permutation.
From Verif Require Import Storage.
Import ListNotations.
Local Arguments list_eq_dec : simpl never.

(** ** Specification vocabulary *)

(** Lexicographic order on coordinate tuples. *)
Fixpoint lexle (a b : list nat) : Prop :=
  match a, b with
  | x :: a, y :: b => x < y \/ (x = y /\ lexle a b)
  | [], _ => True
  | _ :: _, [] => False
  end.

Fixpoint lexlt (a b : list nat) : Prop :=
  match a, b with
  | x :: a, y :: b => x < y \/ (x = y /\ lexlt a b)
  | [], _ :: _ => True
  | _, [] => False
  end.

(** Coordinates within the dimensions. *)
Definition in_range (dims cs : list nat) : Prop := Forall2 (fun c d => c < d) cs dims.

(** Rows acceptable to [pack]: in-range coordinates, sorted lexicographically. *)
Definition packable {V} (dims : list nat) (rows : list (list nat * V)) : Prop :=
  (forall r, In r rows -> in_range dims (fst r)) /\
  StronglySorted lexle (map fst rows).

(** The value of the first row with coordinates [cs], or [fill]. *)
Fixpoint row_value {V} (fill : V) (rows : list (list nat * V)) (cs : list nat) : V :=
  match rows with
  | [] => fill
  | r :: rest => if list_eq_dec Nat.eq_dec (fst r) cs then snd r else row_value fill rest cs
  end.

(** Number of leading levels up to and including the last compressed one. *)
Fixpoint comp_depth (fmt : list (kind * nat)) : nat :=
  match fmt with
  | [] => 0
  | (k, _) :: fmt' =>
      match comp_depth fmt' with
      | S n => S (S n)
      | O => match k with KComp => 1 | KDense => 0 end
      end
  end.

Definition dims_of (fmt : list (kind * nat)) : list nat := map snd fmt.

(** ** Lists *)
Definition sum_list (l : list nat) : nat := fold_right Nat.add 0 l.

Lemma sum_list_app : forall a b, sum_list (a ++ b) = sum_list a + sum_list b.
Proof. induction a; simpl; intros; auto. rewrite IHa; lia. Qed.

Lemma SS_map_filter : forall (A : Type) (R : nat -> nat -> Prop) (f : A -> nat) p l,
  StronglySorted R (map f l) -> StronglySorted R (map f (filter p l)).
Proof.
  induction l; simpl; intros H; [constructor|].
  inversion H; subst. destruct (p a); simpl; auto.
  constructor; auto. rewrite Forall_forall in *. intros x Hx.
  rewrite in_map_iff in Hx. destruct Hx as (y & <- & Hy).
  apply filter_In in Hy. apply H3. apply in_map. tauto.
Qed.

Lemma filter_filter_eq : forall (A : Type) (p q : A -> bool) l,
  (forall x, In x l -> q x = true -> p x = true) -> filter q (filter p l) = filter q l.
Proof.
  induction l; simpl; intros; auto.
  destruct (p a) eqn:E; simpl.
  - destruct (q a); rewrite IHl; auto.
  - destruct (q a) eqn:E2; auto. rewrite H in E; auto. discriminate.
Qed.

(** concat of a list of lists: index arithmetic *)
Lemma nth_concat : forall (A : Type) (ls : list (list A)) p i d,
  p < length ls -> i < length (nth p ls []) ->
  nth (sum_list (map (@length A) (firstn p ls)) + i) (concat ls) d = nth i (nth p ls []) d.
Proof.
  induction ls; simpl; intros; [lia|].
  destruct p; simpl in *.
  - rewrite app_nth1 by lia. reflexivity.
  - rewrite app_nth2 by lia.
    replace (length a + sum_list (map (@length A) (firstn p ls)) + i - length a)
      with (sum_list (map (@length A) (firstn p ls)) + i) by lia.
    apply IHls; lia.
Qed.

Lemma length_concat_sum : forall (A : Type) (ls : list (list A)),
  length (concat ls) = sum_list (map (@length A) ls).
Proof. induction ls; simpl; auto. rewrite app_length, IHls. reflexivity. Qed.

Lemma sum_firstn_S : forall l p, p < length l ->
  sum_list (firstn (S p) l) = sum_list (firstn p l) + nth p l 0.
Proof.
  induction l; simpl; intros; [lia|]. destruct p; simpl; [lia|].
  specialize (IHl p ltac:(lia)). simpl in *. destruct l; simpl in *; lia.
Qed.

Lemma sum_firstn_le : forall l p, sum_list (firstn p l) <= sum_list l.
Proof.
  induction l; destruct p; simpl; try lia. specialize (IHl p). lia.
Qed.

(** every index of a concatenation decomposes *)
Lemma concat_index : forall (A : Type) (ls : list (list A)) q,
  q < length (concat ls) ->
  exists p i, p < length ls /\ i < length (nth p ls []) /\
              q = sum_list (map (@length A) (firstn p ls)) + i.
Proof.
  induction ls; simpl; intros; [lia|].
  rewrite app_length in H. destruct (lt_dec q (length a)).
  - exists 0, q. simpl. repeat split; lia.
  - destruct (IHls (q - length a)) as (p & i & H1 & H2 & H3); [lia|].
    exists (S p), i. simpl. repeat split; try lia; auto.
Qed.

(** ** scan and unique entries on sorted rows *)
Section PackProofs.
Context {V : Type}.
Notation row := (@row V).
Implicit Types (b : list row) (r : row).

Definition head_sorted b := StronglySorted le (map row_head b).

Lemma scan_filter : forall j b,
  head_sorted b -> (forall r, In r b -> j <= row_head r) ->
  scan j b = (filter (fun r => row_head r =? j) b, filter (fun r => negb (row_head r =? j)) b).
Proof.
  induction b; simpl; intros HS HG; auto.
  inversion HS; subst.
  destruct (Nat.eqb_spec (row_head a) j); simpl.
  - rewrite IHb; auto. 
  - assert (forall r, In r b -> row_head r <> j).
    { intros r Hr E. rewrite Forall_forall in H2.
      specialize (H2 (row_head r) (in_map _ _ _ Hr)).
      specialize (HG a (or_introl eq_refl)). lia. }
    f_equal.
    + clear - H. induction b; simpl; auto.
      destruct (Nat.eqb_spec (row_head a) j).
      * exfalso. apply (H a); simpl; auto.
      * apply IHb. intros; apply H; simpl; auto.
    + f_equal. clear - H. induction b; simpl; auto.
      destruct (Nat.eqb_spec (row_head a) j); simpl.
      * exfalso. apply (H a); simpl; auto.
      * f_equal. apply IHb. intros; apply H; simpl; auto.
Qed.

Definition child b j : list row := map row_tail (filter (fun r => row_head r =? j) b).
Definition children js b : list (list row) := map (child b) js.

Lemma pack_loop_children : forall D js b st,
  StronglySorted lt js -> head_sorted b ->
  (forall r, In r b -> In (row_head r) js) ->
  pack_loop D js b st = fold_left (fun st c => D c st) (children js b) st.
Proof.
  induction js; simpl; intros b st SJ SB IN; auto.
  inversion SJ; subst.
  rewrite scan_filter; auto.
  2:{ intros r Hr. destruct (IN r Hr) as [->|Hj]; auto.
      rewrite Forall_forall in H2. specialize (H2 _ Hj). lia. }
  rewrite IHjs; auto.
  - f_equal. unfold children. apply map_ext_in. intros j Hj. unfold child. f_equal.
    apply filter_filter_eq. intros r Hr E. apply Nat.eqb_eq in E. subst.
    rewrite Forall_forall in H2. specialize (H2 _ Hj).
    destruct (Nat.eqb_spec (row_head r) a); auto. lia.
  - apply SS_map_filter; auto.
  - intros r Hr. apply filter_In in Hr. destruct Hr as [Hr E].
    destruct (IN r Hr); auto. subst. rewrite Nat.eqb_refl in E. discriminate.
Qed.

Lemma unique_from_spec : forall l prev,
  StronglySorted le l -> (forall x, In x l -> prev <= x) ->
  StronglySorted lt (unique_from prev l) /\
  (forall x, In x (unique_from prev l) <-> In x l /\ prev < x).
Proof.
  induction l; simpl; intros prev HS HG.
  - split; [constructor|]. intros; tauto.
  - inversion HS; subst. rewrite Forall_forall in H2.
    destruct (Nat.ltb_spec prev a).
    + destruct (IHl a) as [S1 S2]; auto.
      split.
      * constructor; auto. rewrite Forall_forall. intros x Hx. apply S2 in Hx. lia.
      * intros x. simpl. rewrite S2. split; [intros [->|[? ?]]|intros [[->|?] ?]]; auto.
        -- split; auto. lia.
        -- specialize (H2 x H0). destruct (Nat.eq_dec a x); auto. right. split; auto. lia.
    + assert (a = prev) by (specialize (HG a (or_introl eq_refl)); lia). subst a.
      destruct (IHl prev) as [S1 S2]; auto.
      split; auto. intros x. rewrite S2. split; [intros [? ?]|intros [[->|?] ?]]; auto. lia.
Qed.

Lemma getUniqueEntries_spec : forall l,
  StronglySorted le l ->
  StronglySorted lt (getUniqueEntries l) /\ (forall x, In x (getUniqueEntries l) <-> In x l).
Proof.
  destruct l as [|a l]; intros HS; simpl.
  - split; [constructor|tauto].
  - inversion HS; subst. rewrite Forall_forall in H2.
    destruct (unique_from_spec l a) as [S1 S2]; auto. split.
    + constructor; auto. rewrite Forall_forall. intros x Hx. apply S2 in Hx. lia.
    + intros x. simpl. rewrite S2. split; [intros [?|[? ?]]|intros [?|?]]; auto.
      destruct (Nat.eq_dec a x); auto. right; split; auto. specialize (H2 x H). lia.
Qed.

Lemma unique_from_length : forall l p, length (unique_from p l) <= length l.
Proof.
  induction l; simpl; intros; auto.
  destruct (p <? a); simpl; [specialize (IHl a)|specialize (IHl p)]; lia.
Qed.

Lemma getUniqueEntries_length : forall l, length (getUniqueEntries l) <= length l.
Proof. destruct l; simpl; auto. apply le_n_S. apply unique_from_length. Qed.

(** ** The level-wise view of packTensor *)
Definition js_of (kd : kind * nat) b : list nat :=
  match fst kd with KDense => seq 0 (snd kd) | KComp => getUniqueEntries (map row_head b) end.

Definition packBlocks fmt (fill : V) (bs : list (list row)) (st : pstate) : pstate :=
  fold_left (fun st b => packTensor fmt fill b st) bs st.

Definition valid fmt b : Prop := packable (dims_of fmt) b.

Lemma lexle_heads : forall b, (forall r, In r b -> fst r <> []) ->
  StronglySorted lexle (map fst b) -> head_sorted b.
Proof.
  induction b; simpl; intros HN HS; [constructor|].
  inversion HS; subst. constructor.
  - apply IHb; auto.
  - rewrite Forall_forall in *. intros x Hx. apply in_map_iff in Hx.
    destruct Hx as (r & <- & Hr). specialize (H2 (fst r) (in_map _ _ _ Hr)).
    assert (N1 := HN a (or_introl eq_refl)). assert (N2 := HN r (or_intror Hr)).
    unfold row_head. destruct (fst a), (fst r); simpl in *; try congruence. lia.
Qed.

Lemma valid_nonempty : forall kd fmt b, valid (kd :: fmt) b -> forall r, In r b -> fst r <> [].
Proof.
  intros kd fmt b [H _] r Hr E. specialize (H r Hr). unfold in_range in H. rewrite E in H.
  simpl in H. inversion H.
Qed.

Lemma valid_head_sorted : forall kd fmt b, valid (kd :: fmt) b -> head_sorted b.
Proof.
  intros. apply lexle_heads. eapply valid_nonempty; eauto. apply H.
Qed.

Lemma valid_head_lt : forall kd fmt b r, valid (kd :: fmt) b -> In r b -> row_head r < snd kd.
Proof.
  intros kd fmt b r [H _] Hr. specialize (H r Hr). unfold row_head. inversion H; subst. simpl. assumption.
Qed.

Lemma js_of_spec : forall kd fmt b, valid (kd :: fmt) b ->
  StronglySorted lt (js_of kd b) /\ (forall r, In r b -> In (row_head r) (js_of kd b)).
Proof.
  intros [k d] fmt b H. unfold js_of; simpl. destruct k.
  - split.
    + clear. generalize 0. induction d; simpl; intros; constructor; auto.
      rewrite Forall_forall. intros x Hx. apply in_seq in Hx. lia.
    + intros. apply in_seq. apply (valid_head_lt _ _ _ _ H) in H0. simpl in H0. lia.
  - destruct (getUniqueEntries_spec (map row_head b)) as [S1 S2].
    { eapply valid_head_sorted; eauto. }
    split; auto. intros. apply S2. apply in_map. auto.
Qed.

Lemma valid_child : forall kd fmt b j, valid (kd :: fmt) b -> valid fmt (child b j).
Proof.
  intros kd fmt b j [H1 H2]. split.
  - intros r Hr. unfold child in Hr. apply in_map_iff in Hr. destruct Hr as (r0 & <- & Hr).
    apply filter_In in Hr. destruct Hr as [Hr _]. specialize (H1 _ Hr).
    unfold in_range, row_tail in *. simpl. destruct (fst r0); inversion H1; subst; assumption.
  - unfold child. revert H1 H2. induction b; simpl; intros; [constructor|].
    inversion H2; subst.
    destruct (Nat.eqb_spec (row_head a) j); simpl; auto.
    constructor; auto.
    rewrite Forall_forall in *. intros x Hx. rewrite map_map in Hx.
    apply in_map_iff in Hx. destruct Hx as (r & <- & Hr). apply filter_In in Hr.
    destruct Hr as [Hr E]. apply Nat.eqb_eq in E.
    specialize (H4 (fst r) (in_map _ _ _ Hr)).
    assert (A1 := H1 a (or_introl eq_refl)). assert (A2 := H1 r (or_intror Hr)).
    unfold in_range, row_tail, row_head in *. simpl.
    destruct (fst a), (fst r); inversion A1; inversion A2; subst. simpl in *.
    destruct H4 as [?|[_ ?]]; [lia|assumption].
Qed.

Fixpoint posl (s : nat) (ls : list nat) : list nat :=
  match ls with [] => [] | n :: ls => (s + n) :: posl (s + n) ls end.

Definition kids kd (bs : list (list row)) : list (list row) :=
  concat (map (fun b => children (js_of kd b) b) bs).

Definition us bs : list (list nat) := map (fun b : list row => getUniqueEntries (map row_head b)) bs.

Lemma valid_kids : forall kd fmt bs, Forall (valid (kd :: fmt)) bs -> Forall (valid fmt) (kids kd bs).
Proof.
  intros. unfold kids. rewrite Forall_forall in *. intros x Hx.
  apply in_concat in Hx. destruct Hx as (l & Hl & Hx). apply in_map_iff in Hl.
  destruct Hl as (b & <- & Hb). unfold children in Hx. apply in_map_iff in Hx.
  destruct Hx as (j & <- & _). eapply valid_child; eauto.
Qed.

Lemma packBlocks_app : forall fmt fill (a b : list (list row)) st,
  packBlocks fmt fill (a ++ b) st = packBlocks fmt fill b (packBlocks fmt fill a st).
Proof. intros. unfold packBlocks. apply fold_left_app. Qed.

Lemma packBlocks_dense : forall d fmt fill bs h tl vals,
  Forall (valid ((KDense, d) :: fmt)) bs ->
  packBlocks ((KDense, d) :: fmt) fill bs (h :: tl, vals) =
  let (i, v) := packBlocks fmt fill (kids (KDense, d) bs) (tl, vals) in (h :: i, v).
Proof.
  induction bs; intros h tl vals HV; [reflexivity|].
  inversion HV; subst.
  unfold packBlocks in *. simpl fold_left. cbn [fst snd].
  destruct (js_of_spec _ _ _ H1) as [J1 J2]. unfold js_of in J1, J2; simpl in J1, J2.
  rewrite pack_loop_children; auto. 2:{ eapply valid_head_sorted; eauto. }
  unfold kids. simpl map. simpl concat. rewrite fold_left_app.
  change (js_of (KDense, d) a) with (seq 0 d).
  destruct (fold_left (fun (st : pstate) c => packTensor fmt fill c st) (children (seq 0 d) a) (tl, vals)) as [i v] eqn:E.
  rewrite IHbs; auto.
Qed.

Lemma packBlocks_comp : forall d fmt fill bs pos crd tl vals,
  Forall (valid ((KComp, d) :: fmt)) bs ->
  packBlocks ((KComp, d) :: fmt) fill bs ((pos, crd) :: tl, vals) =
  let (i, v) := packBlocks fmt fill (kids (KComp, d) bs) (tl, vals) in
  ((pos ++ posl (length crd) (map (@length nat) (us bs)), crd ++ concat (us bs)) :: i, v).
Proof.
  induction bs; intros pos crd tl vals HV.
  - simpl. rewrite !app_nil_r. reflexivity.
  - inversion HV; subst.
    unfold packBlocks in *. simpl fold_left. cbn [fst snd].
    destruct (js_of_spec _ _ _ H1) as [J1 J2]. unfold js_of in J1, J2; simpl in J1, J2.
    rewrite pack_loop_children; auto. 2:{ eapply valid_head_sorted; eauto. }
    unfold kids. simpl map. simpl concat. rewrite fold_left_app.
    change (js_of (KComp, d) a) with (getUniqueEntries (map row_head a)).
    destruct (fold_left (fun (st : pstate) c => packTensor fmt fill c st)
      (children (getUniqueEntries (map row_head a)) a) (tl, vals)) as [i v] eqn:E.
    rewrite IHbs; auto. clear IHbs.
    fold (kids (KComp, d) bs).
    destruct (fold_left (fun (st : pstate) c => packTensor fmt fill c st) (kids (KComp, d) bs) (i, v)) as [i' v'].
    rewrite app_length. rewrite <- !app_assoc. reflexivity.
Qed.

Lemma packBlocks_nil : forall fill bs idx vals,
  packBlocks [] fill bs (idx, vals) =
  (idx, vals ++ map (fun b => match b with r :: _ => snd r | [] => fill end) bs).
Proof.
  unfold packBlocks. induction bs; simpl; intros.
  - rewrite app_nil_r; auto.
  - rewrite IHbs. rewrite <- app_assoc. reflexivity.
Qed.

Lemma nth_posl : forall ls s p, p < length ls ->
  nth p (posl s ls) 0 = s + sum_list (firstn (S p) ls).
Proof.
  induction ls; simpl; intros; [lia|]. destruct p; simpl.
  - lia.
  - rewrite IHls by lia. simpl. destruct ls; simpl in *; lia.
Qed.

Lemma nth_pos : forall ls p, p <= length ls -> nth p (0 :: posl 0 ls) 0 = sum_list (firstn p ls).
Proof.
  intros. destruct p; [reflexivity|]. change (nth p (posl 0 ls) 0 = sum_list (firstn (S p) ls)).
  rewrite nth_posl by lia. lia.
Qed.

Lemma length_posl : forall ls s, length (posl s ls) = length ls.
Proof. induction ls; simpl; intros; auto. Qed.

(** ** Lookup in the packed index *)
Lemma find_crd_spec : forall n crd c (b : nat),
  match find_crd crd c b n with
  | Some q => b <= q < b + n /\ q < length crd /\ nth q crd 0 = c /\
              (forall i, b <= i < q -> nth i crd 0 <> c)
  | None => b + n <= length crd -> forall i, b <= i < b + n -> nth i crd 0 <> c
  end.
Proof.
  induction n; simpl; intros.
  - intros; lia.
  - destruct (nth_error crd b) eqn:E.
    + assert (b < length crd) by (apply nth_error_Some; congruence).
      apply nth_error_nth with (d := 0) in E.
      destruct (Nat.eqb_spec n0 c).
      * subst. repeat split; auto; try lia.
      * specialize (IHn crd c (S b)). destruct (find_crd crd c (S b) n).
        -- destruct IHn as (A1 & A2 & A3 & A4). repeat split; auto; try lia.
           intros. destruct (Nat.eq_dec i b); [subst; lia|]. apply A4; lia.
        -- intros. destruct (Nat.eq_dec i b); [subst; lia|]. apply IHn; lia.
    + apply nth_error_None in E. intros; lia.
Qed.

Lemma row_value_child : forall kd fmt fill b c cs,
  valid (kd :: fmt) b ->
  row_value fill b (c :: cs) = row_value fill (child b c) cs.
Proof.
  intros kd fmt fill b c cs [H _]. induction b; simpl; auto.
  assert (Ha := H a (or_introl eq_refl)).
  unfold child in *. simpl. unfold row_head at 1.
  destruct (fst a) as [|x xs] eqn:Ea; [inversion Ha|].
  destruct (Nat.eqb_spec x c).
  - simpl. rewrite Ea; simpl. subst.
    destruct (list_eq_dec Nat.eq_dec (c :: xs) (c :: cs)), (list_eq_dec Nat.eq_dec xs cs); try congruence.
    rewrite IHb; auto. intros; apply H; simpl; auto.
  - destruct (list_eq_dec Nat.eq_dec (x :: xs) (c :: cs)); [congruence|].
    rewrite IHb; auto. intros; apply H; simpl; auto.
Qed.

Lemma row_value_nil_cs : forall fill b, (forall r, In r b -> fst r = []) ->
  row_value fill b [] = match b with r :: _ => snd r | [] => fill end.
Proof.
  destruct b; simpl; intros; auto. rewrite H by auto. destruct (list_eq_dec _ _ _); congruence.
Qed.

Lemma kids_index : forall kd bs p i,
  p < length bs -> i < length (js_of kd (nth p bs [])) ->
  nth (sum_list (map (fun b => length (js_of kd b)) (firstn p bs)) + i) (kids kd bs) []
  = child (nth p bs []) (nth i (js_of kd (nth p bs [])) 0).
Proof.
  intros. unfold kids.
  set (F := fun b => children (js_of kd b) b).
  assert (HL : forall b, length (F b) = length (js_of kd b)).
  { intros. unfold F, children. apply map_length. }
  assert (E : map (fun b => length (js_of kd b)) (firstn p bs) = map (@length _) (firstn p (map F bs))).
  { rewrite firstn_map, map_map. apply map_ext. intros; rewrite HL; auto. }
  rewrite E.
  assert (EN : nth p (map F bs) [] = F (nth p bs [])).
  { rewrite nth_indep with (d' := F []) by (rewrite map_length; auto). apply map_nth. }
  rewrite nth_concat.
  - rewrite EN. unfold F, children.
    rewrite nth_indep with (d' := child (nth p bs []) 0) by (rewrite map_length; auto).
    apply map_nth.
  - rewrite map_length; auto.
  - rewrite EN, HL; auto.
Qed.

Lemma kids_length : forall kd bs, length (kids kd bs) = sum_list (map (fun b => length (js_of kd b)) bs).
Proof.
  intros. unfold kids. rewrite length_concat_sum, map_map. f_equal. apply map_ext.
  intros; unfold children; apply map_length.
Qed.

Lemma sum_const : forall (A : Type) (f : A -> nat) d (l : list A),
  (forall x, f x = d) -> sum_list (map f l) = length l * d.
Proof. induction l; simpl; intros; auto. Qed.


Lemma in_range_cons : forall d dims c cs, in_range (d :: dims) (c :: cs) <-> c < d /\ in_range dims cs.
Proof.
  unfold in_range; split; intros.
  - inversion H; subst; auto.
  - destruct H; constructor; auto.
Qed.

Lemma comp_depth_pos_firstn : forall fmt (r cs : list nat),
  r = cs -> firstn (comp_depth fmt) r = firstn (comp_depth fmt) cs.
Proof. intros; subst; auto. Qed.

Definition stored fmt b cs : Prop :=
  comp_depth fmt = 0 \/
  exists r, In r b /\ firstn (comp_depth fmt) (fst r) = firstn (comp_depth fmt) cs.

Lemma stored_cons : forall k d fmt b c cs, valid ((k, d) :: fmt) b ->
  stored ((k, d) :: fmt) b (c :: cs) <->
  (match k with KDense => True | KComp => exists r, In r b /\ row_head r = c end) /\
  stored fmt (child b c) cs.
Proof.
  intros k d fmt b c cs HV. unfold stored. simpl.
  assert (HN := valid_nonempty _ _ _ HV).
  destruct (comp_depth fmt) as [|n] eqn:E.
  - destruct k.
    + split; auto.
    + split.
      * intros [H|(r & Hr & H)]; [discriminate|]. split; [|auto].
        exists r; split; auto. specialize (HN r Hr). unfold row_head.
        destruct (fst r); simpl in *; congruence.
      * intros [(r & Hr & H) _]. right. exists r; split; auto. specialize (HN r Hr).
        unfold row_head in H. destruct (fst r); simpl in *; congruence.
  - split.
    + intros [H|(r & Hr & H)]; [discriminate|].
      assert (N := HN r Hr). 
      assert (row_head r = c).
      { unfold row_head. destruct (fst r); simpl in *; congruence. }
      split.
      * destruct k; auto. exists r; auto.
      * right. exists (row_tail r). split.
        -- unfold child. apply in_map. apply filter_In. split; auto. apply Nat.eqb_eq; auto.
        -- unfold row_tail; simpl fst. destruct (fst r); [congruence|].
           cbn [tl]. rewrite (firstn_cons (S n) n0 l), (firstn_cons (S n) c cs) in H.
           injection H; auto.
    + intros [_ [H|(r & Hr & H)]]; [discriminate|].
      right. unfold child in Hr. apply in_map_iff in Hr. destruct Hr as (r0 & <- & Hr).
      apply filter_In in Hr. destruct Hr as [Hr E0]. apply Nat.eqb_eq in E0.
      exists r0. split; auto. assert (N := HN r0 Hr).
      unfold row_tail, row_head in *. destruct (fst r0) as [|x l]; [congruence|].
      cbn [tl fst] in H, E0. rewrite (firstn_cons (S n) x l), (firstn_cons (S n) c cs). congruence.
Qed.

Definition packed fmt fill bs : list level * list V :=
  let (idx, vals) := packBlocks fmt fill bs (init_indices fmt, []) in (mk_levels fmt idx, vals).

Lemma packed_dense : forall d fmt fill bs, Forall (valid ((KDense, d) :: fmt)) bs ->
  packed ((KDense, d) :: fmt) fill bs =
  let (ls, vals) := packed fmt fill (kids (KDense, d) bs) in (LDense d :: ls, vals).
Proof.
  intros. unfold packed. simpl init_indices. rewrite packBlocks_dense by auto.
  change (map _ fmt) with (init_indices fmt).
  destruct (packBlocks fmt fill _ _) as [i v]. reflexivity.
Qed.

Lemma packed_comp : forall d fmt fill bs, Forall (valid ((KComp, d) :: fmt)) bs ->
  packed ((KComp, d) :: fmt) fill bs =
  let (ls, vals) := packed fmt fill (kids (KComp, d) bs) in
  (LComp (0 :: posl 0 (map (@length nat) (us bs))) (concat (us bs)) :: ls, vals).
Proof.
  intros. unfold packed. simpl init_indices. rewrite packBlocks_comp by auto.
  change (map _ fmt) with (init_indices fmt).
  destruct (packBlocks fmt fill _ _) as [i v]. reflexivity.
Qed.

Lemma packed_nil : forall fill bs,
  packed [] fill bs = ([], map (fun b => match b with r :: _ => snd r | [] => fill end) bs).
Proof. intros. unfold packed. rewrite packBlocks_nil. reflexivity. Qed.

Lemma nth_us : forall bs p, p < length bs ->
  nth p (us bs) [] = getUniqueEntries (map row_head (nth p bs [])).
Proof.
  intros. unfold us. 
  rewrite nth_indep with (d' := getUniqueEntries (map row_head (@nil row))) by (rewrite map_length; auto).
  change (getUniqueEntries (map row_head (@nil row))) with ((fun b : list row => getUniqueEntries (map row_head b)) []).
  apply map_nth.
Qed.

Lemma us_lens : forall bs p,
  map (@length nat) (firstn p (us bs)) = map (fun b => length (js_of (KComp, 0) b)) (firstn p bs).
Proof. intros. unfold us. rewrite firstn_map, map_map. reflexivity. Qed.

Lemma pos_nth_us : forall bs p, p <= length bs ->
  nth p (0 :: posl 0 (map (@length nat) (us bs))) 0 = sum_list (map (@length nat) (firstn p (us bs))).
Proof.
  intros. rewrite nth_pos. 
  - rewrite firstn_map. reflexivity.
  - unfold us. rewrite !map_length. auto.
Qed.

Lemma pos_nth_us_S : forall bs p, p < length bs ->
  nth (S p) (0 :: posl 0 (map (@length nat) (us bs))) 0 =
  sum_list (map (@length nat) (firstn p (us bs))) + length (nth p (us bs) []).
Proof.
  intros. rewrite pos_nth_us by lia. rewrite <- !firstn_map. rewrite sum_firstn_S.
  - f_equal. change 0 with (length (@nil nat)). apply map_nth.
  - unfold us; rewrite !map_length; auto.
Qed.

Lemma find_crd_us : forall bs p c, p < length bs ->
  let pos := 0 :: posl 0 (map (@length nat) (us bs)) in
  match find_crd (concat (us bs)) c (nth p pos 0) (nth (S p) pos 0 - nth p pos 0) with
  | Some q => exists i, i < length (nth p (us bs) []) /\ nth i (nth p (us bs) []) 0 = c /\
                        q = sum_list (map (@length nat) (firstn p (us bs))) + i
  | None => ~ In c (nth p (us bs) [])
  end.
Proof.
  intros bs p c Hp pos.
  assert (HL : length (us bs) = length bs) by (unfold us; apply map_length).
  assert (E1 := pos_nth_us bs p ltac:(lia)). assert (E2 := pos_nth_us_S bs p Hp).
  fold pos in E1, E2. rewrite E1, E2.
  set (s := sum_list (map (@length nat) (firstn p (us bs)))) in *.
  set (n := length (nth p (us bs) [])) in *.
  replace (s + n - s) with n by lia.
  assert (B : s + n <= length (concat (us bs))).
  { rewrite length_concat_sum. 
    assert (X := sum_firstn_le (map (@length nat) (us bs)) (S p)).
    rewrite sum_firstn_S in X by (rewrite map_length; lia).
    rewrite firstn_map in X. change 0 with (length (@nil nat)) in X.
    rewrite map_nth in X. fold s n in X. lia. }
  assert (F := find_crd_spec n (concat (us bs)) c s).
  destruct (find_crd (concat (us bs)) c s n) as [q|].
  - destruct F as (F1 & F2 & F3 & F4). exists (q - s). split; [lia|]. split; [|lia].
    rewrite <- (nth_concat nat (us bs) p (q - s) 0) by (fold n; lia).
    fold s. replace (s + (q - s)) with q by lia. exact F3.
  - specialize (F B). intros Hin. apply (In_nth _ _ 0) in Hin. destruct Hin as (i & Hi & E).
    apply (F (s + i)); [fold n in Hi; lia|]. unfold s. rewrite nth_concat; auto. lia.
Qed.

Theorem packed_locate : forall fmt fill bs,
  Forall (valid fmt) bs ->
  let (ls, vals) := packed fmt fill bs in
  forall p cs, p < length bs -> in_range (dims_of fmt) cs ->
    (forall q, locate ls p cs = Some q ->
               q < length vals /\ nth q vals fill = row_value fill (nth p bs []) cs) /\
    (locate ls p cs <> None <-> stored fmt (nth p bs []) cs).
Proof.
  induction fmt as [|[k d] fmt IH]; intros fill bs HV.
  - rewrite packed_nil. intros p cs Hp HR. inversion HR; subst. simpl. split.
    + intros q E. inversion E; subst. rewrite map_length. split; auto.
      transitivity ((fun b : list row => match b with r :: _ => snd r | [] => fill end) (nth q bs [])).
      { rewrite <- (map_nth (fun b : list row => match b with r :: _ => snd r | [] => fill end)). reflexivity. }
      symmetry. apply row_value_nil_cs.
      intros r Hr. rewrite Forall_forall in HV. destruct (HV (nth q bs [])) as [H _].
      { apply nth_In; auto. }
      specialize (H r Hr). inversion H; auto.
    + unfold stored; simpl. split; auto. discriminate.
  - assert (HVp : forall p, p < length bs -> valid ((k, d) :: fmt) (nth p bs [])).
    { intros. rewrite Forall_forall in HV. apply HV. apply nth_In; auto. }
    destruct k.
    + rewrite packed_dense by auto.
      specialize (IH fill (kids (KDense, d) bs) (valid_kids _ _ _ HV)).
      destruct (packed fmt fill _) as [ls vals].
      intros p cs Hp HR. destruct cs as [|c cs]; [inversion HR|].
      simpl in HR. apply in_range_cons in HR. destruct HR as [Hc HR].
      simpl locate. rewrite (proj2 (Nat.ltb_lt c d)) by auto.
      assert (KL : length (kids (KDense, d) bs) = length bs * d).
      { rewrite kids_length. apply sum_const. intros; unfold js_of; simpl. apply seq_length. }
      assert (KI : nth (p * d + c) (kids (KDense, d) bs) [] = child (nth p bs []) c).
      { assert (X := kids_index (KDense, d) bs p c Hp). 
        unfold js_of in X; cbn [fst snd] in X. rewrite seq_length in X. specialize (X Hc).
        rewrite seq_nth in X by auto. simpl in X. rewrite <- X. f_equal.
        rewrite sum_const with (d := d) by auto.
        rewrite firstn_length. rewrite Nat.min_l by lia. reflexivity. }
      destruct (IH (p * d + c) cs) as [I1 I2]; auto.
      { rewrite KL. nia. }
      rewrite KI in I1, I2. split.
      * intros q E. rewrite (row_value_child (KDense, d) fmt); auto.
      * rewrite I2. rewrite stored_cons by auto. tauto.
    + rewrite packed_comp by auto.
      specialize (IH fill (kids (KComp, d) bs) (valid_kids _ _ _ HV)).
      destruct (packed fmt fill _) as [ls vals].
      intros p cs Hp HR. destruct cs as [|c cs]; [inversion HR|].
      simpl in HR. apply in_range_cons in HR. destruct HR as [Hc HR].
      cbn [locate].
      assert (F := find_crd_us bs p c Hp). cbv zeta in F.
      assert (EU := nth_us bs p Hp).
      destruct (getUniqueEntries_spec (map row_head (nth p bs []))) as [_ UE].
      { eapply valid_head_sorted. apply HVp; auto. }
      rewrite stored_cons by auto.
      destruct (find_crd _ c _ _) as [q|].
      * destruct F as (i & Hi & Ei & Eq).
        assert (KI : nth q (kids (KComp, d) bs) [] = child (nth p bs []) c).
        { assert (X := kids_index (KComp, d) bs p i Hp).
          unfold js_of in X; cbn [fst snd] in X. rewrite <- EU in X. specialize (X Hi).
          rewrite Ei in X. rewrite <- X. f_equal. rewrite Eq. f_equal.
          rewrite us_lens. reflexivity. }
        assert (Hq : q < length (kids (KComp, d) bs)).
        { rewrite kids_length. rewrite Eq.
          assert (X := sum_firstn_le (map (@length nat) (us bs)) (S p)).
          assert (HL : length (us bs) = length bs) by (unfold us; apply map_length).
          rewrite sum_firstn_S in X by (rewrite map_length; lia).
          rewrite firstn_map in X. change 0 with (length (@nil nat)) in X.
          rewrite map_nth in X.
          replace (sum_list (map (fun b => length (js_of (KComp, d) b)) bs))
            with (sum_list (map (@length nat) (us bs))).
          2:{ unfold us. rewrite map_map. reflexivity. }
          lia. }
        destruct (IH q cs) as [I1 I2]; auto.
        rewrite KI in I1, I2. split.
        -- intros q' E. rewrite (row_value_child (KComp, d) fmt); auto.
        -- rewrite I2. split; [|tauto]. intros; split; auto.
           assert (In c (nth p (us bs) [])) by (rewrite <- Ei; apply nth_In; auto).
           rewrite EU in H0. apply UE in H0. apply in_map_iff in H0.
           destruct H0 as (r & ? & ?). exists r; auto.
      * split; [discriminate|]. split; [congruence|]. intros [(r & Hr & E) _].
        exfalso. apply F. rewrite EU. apply UE. subst c. apply in_map; auto.
Qed.

Lemma SS_nth : forall l i j, StronglySorted lt l -> i < j -> j < length l -> nth i l 0 < nth j l 0.
Proof.
  induction l; simpl; intros; [lia|]. inversion H; subst.
  destruct i, j; try lia.
  - rewrite Forall_forall in H5. apply H5. apply nth_In. lia.
  - apply IHl; auto; lia.
Qed.

Theorem packed_wf : forall fmt fill bs,
  Forall (valid fmt) bs ->
  let (ls, vals) := packed fmt fill bs in
  wf_levels (length bs) ls (dims_of fmt) (length vals).
Proof.
  induction fmt as [|[k d] fmt IH]; intros fill bs HV.
  - rewrite packed_nil. simpl. apply map_length.
  - assert (HVp : forall p, p < length bs -> valid ((k, d) :: fmt) (nth p bs [])).
    { intros. rewrite Forall_forall in HV. apply HV. apply nth_In; auto. }
    destruct k.
    + rewrite packed_dense by auto.
      specialize (IH fill (kids (KDense, d) bs) (valid_kids _ _ _ HV)).
      destruct (packed fmt fill _) as [ls vals]. simpl. split; auto.
      rewrite kids_length in IH. rewrite sum_const with (d := d) in IH; auto.
      intros; unfold js_of; simpl. apply seq_length.
    + rewrite packed_comp by auto.
      specialize (IH fill (kids (KComp, d) bs) (valid_kids _ _ _ HV)).
      destruct (packed fmt fill _) as [ls vals].
      assert (HL : length (us bs) = length bs) by (unfold us; apply map_length).
      assert (LC : length (concat (us bs)) = length (kids (KComp, d) bs)).
      { rewrite kids_length, length_concat_sum. unfold us. rewrite map_map. reflexivity. }
      cbn [wf_levels dims_of map snd].
      split; [simpl; rewrite length_posl, map_length; lia|].
      split; [reflexivity|].
      split.
      { rewrite pos_nth_us by lia. rewrite length_concat_sum. rewrite <- HL, firstn_all. reflexivity. }
      split.
      { intros. rewrite pos_nth_us by lia. rewrite pos_nth_us_S by lia. lia. }
      assert (US : forall p, p < length bs -> 
                StronglySorted lt (nth p (us bs) []) /\ (forall x, In x (nth p (us bs) []) -> x < d)).
      { intros p Hp. rewrite nth_us by auto.
        destruct (getUniqueEntries_spec (map row_head (nth p bs []))) as [U1 U2].
        { eapply valid_head_sorted. apply HVp; auto. }
        split; auto. intros x Hx. apply U2 in Hx. apply in_map_iff in Hx.
        destruct Hx as (r & <- & Hr). eapply (valid_head_lt (KComp, d)); eauto. }
      split.
      { intros p i j Hp. rewrite pos_nth_us by lia. rewrite pos_nth_us_S by lia. intros.
        set (s := sum_list (map (@length nat) (firstn p (us bs)))) in *.
        replace i with (s + (i - s)) by lia. replace j with (s + (j - s)) by lia.
        unfold s. rewrite !nth_concat by (fold s; lia). fold s.
        apply SS_nth; try lia. apply US; auto. }
      split.
      { intros i Hi. apply concat_index in Hi. destruct Hi as (p & i' & Hp & Hi' & ->).
        rewrite nth_concat by auto. apply (US p); [lia|]. apply nth_In; auto. }
      rewrite LC. exact IH.
Qed.

(** ** Buffer size *)
Lemma filter_sum_le : forall (b : list row) js, NoDup js ->
  sum_list (map (fun j => length (filter (fun r => row_head r =? j) b)) js) <= length b.
Proof.
  induction b; simpl; intros js ND.
  - rewrite sum_const with (d := 0); auto. lia.
  - assert (X : forall js, NoDup js ->
      sum_list (map (fun j => length (if row_head a =? j then a :: filter (fun r => row_head r =? j) b
                      else filter (fun r => row_head r =? j) b)) js)
      <= (if in_dec Nat.eq_dec (row_head a) js then 1 else 0) +
         sum_list (map (fun j => length (filter (fun r => row_head r =? j) b)) js)).
    { clear. induction js; simpl; intros ND; [lia|]. inversion ND; subst. specialize (IHjs H2).
      destruct (Nat.eqb_spec (row_head a) a0); simpl in *.
      - subst. destruct (in_dec Nat.eq_dec (row_head a) js); [contradiction|].
        destruct (Nat.eq_dec (row_head a) (row_head a)); [|congruence]. lia.
      - destruct (Nat.eq_dec a0 (row_head a)); [congruence|].
        destruct (in_dec Nat.eq_dec (row_head a) js); lia. }
    specialize (X js ND). specialize (IHb js ND).
    destruct (in_dec Nat.eq_dec (row_head a) js); lia.
Qed.

Definition total (bs : list (list row)) : nat := sum_list (map (@length row) bs).

Lemma kids_total : forall kd fmt bs, Forall (valid (kd :: fmt)) bs -> total (kids kd bs) <= total bs.
Proof.
  intros kd fmt. unfold total, kids. induction bs; simpl; intros HV; auto.
  inversion HV; subst. specialize (IHbs H2).
  rewrite map_app, sum_list_app.
  assert (sum_list (map (@length row) (children (js_of kd a) a)) <= length a).
  { unfold children. rewrite map_map. 
    rewrite map_ext with (g := fun j => length (filter (fun r => row_head r =? j) a)).
    2:{ intros. unfold child. apply map_length. }
    apply filter_sum_le. destruct (js_of_spec _ _ _ H1) as [S1 _].
    clear - S1. induction S1; constructor; auto.
    intros Hin. rewrite Forall_forall in H. specialize (H a0 Hin). lia. }
  lia.
Qed.

Definition max_size_from (m n : nat) (fmt : list (kind * nat)) : nat :=
  fold_left (fun m kd => match fst kd with KDense => m * snd kd | KComp => n end) fmt m.

Lemma packed_max : forall fmt fill bs m n,
  Forall (valid fmt) bs -> length bs <= m -> total bs <= n ->
  length (snd (packed fmt fill bs)) <= max_size_from m n fmt.
Proof.
  induction fmt as [|[k d] fmt IH]; intros fill bs m n HV HM HN.
  - rewrite packed_nil. simpl. rewrite map_length. auto.
  - assert (HT := kids_total _ _ _ HV). destruct k.
    + rewrite packed_dense by auto.
      specialize (IH fill (kids (KDense, d) bs) (m * d) n (valid_kids _ _ _ HV)).
      destruct (packed fmt fill _) as [ls vals]. simpl in *. apply IH; [|lia].
      rewrite kids_length. rewrite sum_const with (d := d).
      * nia.
      * intros; unfold js_of; simpl. apply seq_length.
    + rewrite packed_comp by auto.
      specialize (IH fill (kids (KComp, d) bs) n n (valid_kids _ _ _ HV)).
      destruct (packed fmt fill _) as [ls vals]. simpl in *. apply IH; [|lia].
      rewrite kids_length. unfold total in HN.
      assert (sum_list (map (fun b => length (js_of (KComp, d) b)) bs) <= sum_list (map (@length row) bs)).
      { clear. induction bs; simpl; auto. unfold js_of at 1; simpl.
        assert (X := getUniqueEntries_length (map row_head a)). rewrite map_length in X. lia. }
      lia.
Qed.

(** ** Top-level statements about [pack] *)
Lemma pack_packed : forall fmt fill rows,
  pack fmt fill rows = let (ls, vals) := packed fmt fill [rows] in mkStorage ls vals.
Proof.
  intros. unfold pack, packed, packBlocks. simpl fold_left. 
  destruct (packTensor fmt fill rows (init_indices fmt, [])); reflexivity.
Qed.

End PackProofs.

Section Top.
Context {V : Type}.

Theorem pack_value_at : forall fmt (fill : V) (rows : list (@row V)) cs,
  packable (dims_of fmt) rows -> in_range (dims_of fmt) cs ->
  value_at fill (pack fmt fill rows) cs = row_value fill rows cs.
Proof.
  intros fmt fill rows cs HP HR. rewrite pack_packed.
  assert (X := packed_locate fmt fill [rows]).
  destruct (packed fmt fill [rows]) as [ls vals].
  destruct (X ltac:(constructor; auto) 0 cs) as [X1 X2]; auto.
  unfold value_at; simpl. simpl in X1, X2.
  destruct (locate ls 0 cs) as [q|].
  - apply X1; auto.
  - assert (~ stored fmt rows cs) by (rewrite <- X2; intros H; apply H; auto).
    symmetry. clear - H. induction rows; simpl; auto.
    destruct (list_eq_dec Nat.eq_dec (fst a) cs).
    + exfalso. apply H. right. exists a. split; simpl; auto. congruence.
    + apply IHrows. intros [E|(r & Hr & E)]; apply H; [left; auto|right; exists r; simpl; auto].
Qed.

Theorem pack_stored : forall fmt (fill : V) (rows : list (@row V)) cs,
  packable (dims_of fmt) rows -> in_range (dims_of fmt) cs ->
  (locate (st_levels (pack fmt fill rows)) 0 cs <> None <->
   comp_depth fmt = 0 \/
   exists r, In r rows /\ firstn (comp_depth fmt) (fst r) = firstn (comp_depth fmt) cs).
Proof.
  intros fmt fill rows cs HP HR. rewrite pack_packed.
  assert (X := packed_locate fmt fill [rows]).
  destruct (packed fmt fill [rows]) as [ls vals].
  destruct (X ltac:(constructor; auto) 0 cs) as [X1 X2]; auto.
Qed.

Theorem pack_wf : forall fmt (fill : V) (rows : list (@row V)),
  packable (dims_of fmt) rows -> wf_storage (dims_of fmt) (pack fmt fill rows).
Proof.
  intros fmt fill rows HP. rewrite pack_packed.
  assert (X := packed_wf fmt fill [rows] ltac:(constructor; auto)).
  destruct (packed fmt fill [rows]) as [ls vals]. exact X.
Qed.

Theorem pack_max_size : forall fmt (fill : V) (rows : list (@row V)),
  packable (dims_of fmt) rows ->
  length (st_vals (pack fmt fill rows)) <= max_size fmt (length rows).
Proof.
  intros fmt fill rows HP. rewrite pack_packed.
  assert (X := packed_max fmt fill [rows] 1 (length rows) ltac:(constructor; auto)).
  destruct (packed fmt fill [rows]) as [ls vals]. apply X; simpl; auto.
  unfold total; simpl. lia.
Qed.

(** ** Generic facts about well-formed indices *)
Lemma wf_getSize : forall ls n dims nv, wf_levels n ls dims nv ->
  fold_left (fun size l => match l with LDense d => size * d | LComp pos _ => nth size pos 0 end) ls n = nv.
Proof.
  induction ls as [|l ls IH]; simpl; intros n dims nv H.
  - destruct dims; [auto|contradiction].
  - destruct l, dims as [|dm dims]; try contradiction.
    + destruct H. apply IH with (dims := dims). auto.
    + destruct H as (_ & _ & H3 & _ & _ & _ & H). rewrite H3. eapply IH; eauto.
Qed.

Theorem wf_storage_getSize : forall dims (s : storage V),
  wf_storage dims s -> getSize (st_levels s) = length (st_vals s).
Proof. intros. eapply wf_getSize; eauto. Qed.

Lemma wf_pos_mono : forall (pos : list nat) n,
  (forall p, p < n -> nth p pos 0 <= nth (S p) pos 0) ->
  forall p q, p <= q -> q <= n -> nth p pos 0 <= nth q pos 0.
Proof.
  intros pos n H p q Hpq. induction Hpq; intros; auto.
  transitivity (nth m pos 0); [apply IHHpq; lia|apply H; lia].
Qed.

Theorem enum_locate : forall ls n dims nv p, wf_levels n ls dims nv -> p < n ->
  forall cs q, In (cs, q) (enum ls p) <-> (in_range dims cs /\ locate ls p cs = Some q).
Proof.
  induction ls as [|l ls IH]; intros n dims nv p H Hp cs q.
  - simpl in H. destruct dims; [|contradiction]. simpl. split.
    + intros [E|[]]. inversion E; subst. split; [constructor|auto].
    + intros [H1 H2]. inversion H1; subst. left; congruence.
  - destruct l, dims as [|dm dims]; simpl in H; try contradiction.
    + destruct H as [-> H]. simpl. rewrite in_flat_map. split.
      * intros (c & Hc & Hin). apply in_seq in Hc. apply in_map_iff in Hin.
        destruct Hin as ([cs' q'] & E & Hin). simpl in E. inversion E; subst.
        apply (IH _ _ _ _ H) in Hin; [|nia]. destruct Hin as [A B].
        split; [constructor; auto; lia|]. rewrite (proj2 (Nat.ltb_lt c dm)); auto. lia.
      * intros [A B]. destruct cs as [|c cs]; [inversion A|].
        inversion A; subst. exists c. split; [apply in_seq; lia|].
        rewrite (proj2 (Nat.ltb_lt c dm)) in B by auto.
        apply in_map_iff. exists (cs, q). split; auto.
        apply (IH _ _ _ _ H); [nia|]. split; auto.
    + destruct H as (P1 & P2 & P3 & P4 & P5 & P6 & H). simpl. rewrite in_flat_map.
      set (b := nth p pos 0) in *. set (e := nth (S p) pos 0) in *.
      assert (Hbe : b <= e) by (apply P4; auto).
      assert (Hec : e <= length crd).
      { rewrite <- P3. unfold e. apply (wf_pos_mono pos n); auto. }
      split.
      * intros (qq & Hq & Hin). apply in_seq in Hq. apply in_map_iff in Hin.
        destruct Hin as ([cs' q'] & E & Hin). simpl in E. inversion E; subst.
        apply (IH _ _ _ _ H) in Hin; [|lia]. destruct Hin as [A B].
        split; [constructor; auto; apply P6; lia|].
        assert (F := find_crd_spec (e - b) crd (nth qq crd 0) b).
        destruct (find_crd crd (nth qq crd 0) b (e - b)) as [q1|].
        -- destruct F as (F1 & F2 & F3 & F4).
           assert (q1 = qq).
           { destruct (lt_eq_lt_dec q1 qq) as [[?|?]|?]; auto.
             - specialize (P5 p q1 qq Hp). fold b e in P5. lia.
             - specialize (P5 p qq q1 Hp). fold b e in P5. lia. }
           subst. auto.
        -- exfalso. apply (F ltac:(lia) qq); [lia|auto].
      * intros [A B]. destruct cs as [|c cs]; [inversion A|]. inversion A; subst.
        assert (F := find_crd_spec (e - b) crd c b).
        destruct (find_crd crd c b (e - b)) as [q1|]; [|discriminate].
        destruct F as (F1 & F2 & F3 & F4).
        exists q1. split; [apply in_seq; lia|]. apply in_map_iff. exists (cs, q).
        split; [simpl; congruence|]. apply (IH _ _ _ _ H); auto.
Qed.

Lemma SS_app : forall (A : Type) (R : A -> A -> Prop) l1 l2,
  StronglySorted R l1 -> StronglySorted R l2 ->
  (forall x y, In x l1 -> In y l2 -> R x y) -> StronglySorted R (l1 ++ l2).
Proof.
  induction l1; simpl; intros; auto. inversion H; subst. constructor; auto.
  rewrite Forall_forall in *. intros x Hx. apply in_app_or in Hx. destruct Hx; auto.
Qed.

Lemma enum_block_sorted : forall (f : nat -> nat) (g : nat -> list (list nat * nat)) qs,
  StronglySorted (fun a b => f a < f b) qs ->
  (forall q, In q qs -> StronglySorted lexlt (map fst (g q))) ->
  StronglySorted lexlt
    (map fst (flat_map (fun q => map (fun e => (f q :: fst e, snd e)) (g q)) qs)).
Proof.
  induction qs; simpl; intros HS HG; [constructor|].
  inversion HS; subst. rewrite map_app. apply SS_app.
  - rewrite map_map. simpl. specialize (HG a (or_introl eq_refl)).
    clear - HG. induction (g a); simpl in *; [constructor|].
    inversion HG; subst. constructor; auto.
    rewrite Forall_forall in *. intros x Hx. apply in_map_iff in Hx.
    destruct Hx as (e & <- & He). simpl. right; split; auto. apply H2. apply in_map; auto.
  - apply IHqs; auto.
  - intros x y Hx Hy. rewrite map_map in Hx. apply in_map_iff in Hx. destruct Hx as (e & <- & He).
    apply in_map_iff in Hy. destruct Hy as (e' & <- & He'). apply in_flat_map in He'.
    destruct He' as (q & Hq & Hin). apply in_map_iff in Hin. destruct Hin as (e2 & <- & He2).
    simpl. left. rewrite Forall_forall in H2. auto.
Qed.

Theorem enum_sorted : forall ls n dims nv p, wf_levels n ls dims nv -> p < n ->
  StronglySorted lexlt (map fst (enum ls p)).
Proof.
  induction ls as [|l ls IH]; intros n dims nv p H Hp.
  - simpl. repeat constructor.
  - destruct l, dims as [|dm dims]; simpl in H; try contradiction.
    + destruct H as [-> H]. simpl.
      apply (enum_block_sorted (fun c => c)).
      * assert (forall n s, StronglySorted lt (seq s n)).
        { induction n0; simpl; intros; constructor; auto. rewrite Forall_forall.
          intros x Hx. apply in_seq in Hx. lia. }
        apply H0.
      * intros q Hq. apply in_seq in Hq. eapply IH; eauto. nia.
    + destruct H as (P1 & P2 & P3 & P4 & P5 & P6 & H). simpl.
      apply (enum_block_sorted (fun q => nth q crd 0)).
      * specialize (P5 p). 
        assert (X : forall k s, nth p pos 0 <= s -> s + k <= nth (S p) pos 0 ->
                 StronglySorted (fun a b => nth a crd 0 < nth b crd 0) (seq s k)).
        { induction k; simpl; intros; constructor; [apply IHk; lia|].
          rewrite Forall_forall. intros x Hx. apply in_seq in Hx. apply P5; lia. }
        apply X; auto. specialize (P4 p Hp). lia.
      * intros q Hq. apply in_seq in Hq. eapply IH; eauto.
        assert (nth (S p) pos 0 <= length crd).
        { rewrite <- P3. apply (wf_pos_mono pos n); auto. }
        lia.
Qed.

Lemma locate_lt : forall ls n dims nv p, wf_levels n ls dims nv -> p < n ->
  forall cs q, locate ls p cs = Some q -> q < nv.
Proof.
  induction ls as [|l ls IH]; intros n dims nv p H Hp cs q E.
  - simpl in H. destruct dims; [|contradiction]. subst. destruct cs; [|discriminate].
    simpl in E. congruence.
  - destruct l, dims as [|dm dims]; simpl in H; try contradiction.
    + destruct H as [-> H]. destruct cs as [|c cs]; [discriminate|]. simpl in E.
      destruct (Nat.ltb_spec c dm); [|discriminate].
      eapply IH; [eauto| |eauto]. nia.
    + destruct H as (P1 & P2 & P3 & P4 & P5 & P6 & H).
      destruct cs as [|c cs]; [discriminate|]. simpl in E.
      assert (F := find_crd_spec (nth (S p) pos 0 - nth p pos 0) crd c (nth p pos 0)).
      destruct (find_crd crd c _ _) as [q1|]; [|discriminate].
      destruct F as (F1 & F2 & F3 & F4). eapply IH; [eauto| |eauto]. auto.
Qed.

End Top.
