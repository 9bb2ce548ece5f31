(** Lemmas for C47. *)
From Coq Require Import List Sorted Permutation ZArith Bool Ascii Lia.
From Verif Require Import Parser Einsum EinsumSpec.
Import ListNotations.
Local Open Scope nat_scope.

Lemma has_spec c s : has c s = true <-> In c s.
Proof.
  unfold has. rewrite existsb_exists. split.
  - intros (x & H & E). apply Ascii.eqb_eq in E. subst. exact H.
  - intros H. exists c. split; auto. apply Ascii.eqb_refl.
Qed.
Lemma has_false c s : has c s = false <-> ~ In c s.
Proof. rewrite <- has_spec. destruct (has c s); split; congruence. Qed.
Lemma has_app c s t : has c (s ++ t) = has c s || has c t.
Proof. unfold has. apply existsb_app. Qed.
Lemma eqb_false a b : a <> b -> Ascii.eqb a b = false.
Proof. apply Ascii.eqb_neq. Qed.

Lemma alpha_symbol c : is_alpha c = has c symbols.
Proof. destruct c as [[] [] [] [] [] [] [] []]; vm_compute; reflexivity. Qed.
Lemma alpha_marks c : is_alpha c = true -> has c punctuation_marks = false.
Proof. destruct c as [[] [] [] [] [] [] [] []]; vm_compute; congruence. Qed.
Lemma alpha_neq c d : is_alpha c = true -> is_alpha d = false -> Ascii.eqb c d = false.
Proof. intros H1 H2. apply eqb_false. intros ->. congruence. Qed.
Lemma alpha_code c : is_alpha c = true -> 65 <= nat_of_ascii c.
Proof. destruct c as [[] [] [] [] [] [] [] []]; vm_compute; intros; try discriminate; lia. Qed.
Lemma letters_app s t : letters (s ++ t) <-> letters s /\ letters t.
Proof. apply Forall_app. Qed.
Lemma letters_in s c : letters s -> In c s -> is_alpha c = true.
Proof. unfold letters. rewrite Forall_forall. auto. Qed.

(** ** Texts without a character *)
Definition lacks (c : ascii) (s : text) := ~ In c s.
Lemma letters_lack c s : letters s -> is_alpha c = false -> lacks c s.
Proof. intros L H I. apply (letters_in _ _ L) in I. congruence. Qed.
Lemma lacks_app c s t : lacks c (s ++ t) <-> lacks c s /\ lacks c t.
Proof. unfold lacks. rewrite in_app_iff. tauto. Qed.
Lemma in_commas c l : In c (commas l) -> c = ","%char \/ In c (concat l).
Proof.
  induction l as [|s l IH]; [intros []|]. destruct l as [|t l].
  - cbn. rewrite app_nil_r. auto.
  - change (commas (s :: t :: l)) with (s ++ ","%char :: commas (t :: l)).
    change (concat (s :: t :: l)) with (s ++ concat (t :: l)). rewrite !in_app_iff. cbn [In].
    intros [H|[H|H]]; auto. apply IH in H. tauto.
Qed.
Lemma commas_in c l : In c (concat l) -> In c (commas l).
Proof.
  induction l as [|s l IH]; [intros []|]. destruct l as [|t l].
  - cbn. rewrite app_nil_r. auto.
  - change (commas (s :: t :: l)) with (s ++ ","%char :: commas (t :: l)).
    change (concat (s :: t :: l)) with (s ++ concat (t :: l)). rewrite !in_app_iff. cbn [In].
    intros [H|H]; auto.
Qed.
Lemma commas_join l : join [","%char] l = commas l.
Proof.
  induction l as [|s l IH]; auto. destruct l as [|t l]; auto.
  change (join [","%char] (s :: t :: l)) with (s ++ [","%char] ++ join [","%char] (t :: l)). rewrite IH. reflexivity.
Qed.

Lemma split_lacks s : lacks ","%char s -> forall b, split_commas b s = [b ++ s].
Proof.
  induction s as [|c s IH]; intros L b; cbn; [rewrite app_nil_r; reflexivity|].
  rewrite eqb_false by (intros ->; apply L; left; reflexivity).
  rewrite IH by (intros H; apply L; right; exact H). rewrite <- app_assoc. reflexivity.
Qed.
Lemma split_app s t : lacks ","%char s -> forall b, split_commas b (s ++ ","%char :: t) = (b ++ s) :: split_commas [] t.
Proof.
  induction s as [|c s IH]; intros L b; cbn; [rewrite app_nil_r; reflexivity|].
  rewrite eqb_false by (intros ->; apply L; left; reflexivity).
  rewrite IH by (intros H; apply L; right; exact H). rewrite <- app_assoc. reflexivity.
Qed.
Lemma split_commas_ok l : l <> [] -> Forall (lacks ","%char) l -> split_subscript_input (commas l) = l.
Proof.
  unfold split_subscript_input. induction l as [|s l IH]; [congruence|]. intros _ F.
  inversion_clear F as [|? ? L F']. destruct l as [|t l]; [apply split_lacks; exact L|].
  change (commas (s :: t :: l)) with (s ++ ","%char :: commas (t :: l)).
  rewrite split_app by exact L. rewrite IH by (auto; discriminate). reflexivity.
Qed.

Lemma arrow_lacks s : lacks "-"%char s -> forall b, split_arrow b s = piece (b ++ s).
Proof.
  induction s as [|c s IH]; intros L b; cbn [split_arrow]; [rewrite app_nil_r; reflexivity|].
  assert (E : Ascii.eqb c "-" = false) by (apply eqb_false; intros ->; apply L; left; reflexivity).
  rewrite E. cbn [andb]. assert (IH' : split_arrow (b ++ [c]) s = piece (b ++ c :: s)).
  { rewrite IH by (intros H; apply L; right; exact H). rewrite <- app_assoc. reflexivity. }
  destruct s; exact IH'.
Qed.
Lemma arrow_app s t : lacks "-"%char s -> lacks "-"%char t -> forall b,
  split_arrow b (s ++ arrow ++ t) = piece (b ++ s) ++ piece t.
Proof.
  intros L Lt. induction s as [|c s IH]; intros b.
  - cbn. rewrite app_nil_r, arrow_lacks by exact Lt. reflexivity.
  - assert (E : Ascii.eqb c "-" = false) by (apply eqb_false; intros ->; apply L; left; reflexivity).
    assert (IH' : split_arrow (b ++ [c]) (s ++ arrow ++ t) = piece (b ++ c :: s) ++ piece t).
    { rewrite IH by (intros H; apply L; right; exact H). rewrite <- app_assoc. reflexivity. }
    cbn [app split_arrow]. rewrite E. cbn [andb].
    destruct (s ++ arrow ++ t); exact IH'.
Qed.
Lemma has_arrow_lacks s : lacks "-"%char s -> has_arrow s = false.
Proof.
  induction s as [|c s IH]; intros L; auto. cbn [has_arrow].
  assert (E : Ascii.eqb c "-" = false) by (apply eqb_false; intros ->; apply L; left; reflexivity).
  rewrite E. cbn [andb orb]. destruct s; [reflexivity|]. apply IH. intros H; apply L; right; exact H.
Qed.
Lemma has_arrow_app s t : has_arrow (s ++ arrow ++ t) = true.
Proof.
  induction s as [|c s IH]; [reflexivity|]. cbn [app has_arrow].
  destruct (s ++ arrow ++ t) eqn:E; [destruct s; discriminate|]. rewrite IH. apply orb_true_r.
Qed.
Lemma dashes_lacks s : lacks "-"%char s -> dashes_ok s = true.
Proof.
  induction s as [|c s IH]; intros L; auto. cbn [dashes_ok].
  assert (E : Ascii.eqb c "-" = false) by (apply eqb_false; intros ->; apply L; left; reflexivity).
  rewrite E. cbn [andb negb]. destruct s; [reflexivity|]. apply IH. intros H; apply L; right; exact H.
Qed.
Lemma dashes_app s t : lacks "-"%char s -> lacks "-"%char t -> dashes_ok (s ++ arrow ++ t) = true.
Proof.
  intros L Lt. induction s as [|c s IH].
  - cbn [app arrow dashes_ok]. change (dashes_ok (">"%char :: t) = true). apply dashes_lacks.
    intros [H|H]; [discriminate|auto].
  - cbn [app dashes_ok].
    assert (E : Ascii.eqb c "-" = false) by (apply eqb_false; intros ->; apply L; left; reflexivity).
    rewrite E. cbn [andb negb].
    destruct (s ++ arrow ++ t); [reflexivity|]. apply IH. intros H; apply L; right; exact H.
Qed.
Lemma count_lacks c s : lacks c s -> count_occ ascii_dec s c = 0.
Proof. apply count_occ_not_In. Qed.
Lemma output_lacks s : lacks "-"%char s -> lacks ">"%char s -> expr_has_output s = EOk false.
Proof. intros L1 L2. unfold expr_has_output. rewrite dashes_lacks, !count_lacks by auto. reflexivity. Qed.
Lemma output_app s t : lacks "-"%char s -> lacks ">"%char s -> lacks "-"%char t -> lacks ">"%char t ->
  expr_has_output (s ++ arrow ++ t) = EOk true.
Proof.
  intros L1 L2 L3 L4. unfold expr_has_output. rewrite dashes_app, !count_occ_app by auto.
  rewrite (count_lacks _ s L1), (count_lacks _ s L2), (count_lacks _ t L3), (count_lacks _ t L4). reflexivity.
Qed.

Lemma find_dots_lacks s : lacks "."%char s -> find_dots s = None.
Proof.
  induction s as [|c s IH]; intros L; auto. cbn [find_dots].
  assert (E : Ascii.eqb c "." = false) by (apply eqb_false; intros ->; apply L; left; reflexivity).
  rewrite E. rewrite IH by (intros H; apply L; right; exact H).
  destruct s as [|? [|? ?]]; reflexivity.
Qed.
Lemma find_dots_app s t : lacks "."%char s -> find_dots (s ++ dots ++ t) = Some (s, t).
Proof.
  induction s as [|c s IH]; intros L; [reflexivity|]. cbn [app find_dots].
  assert (E : Ascii.eqb c "." = false) by (apply eqb_false; intros ->; apply L; left; reflexivity).
  rewrite E, IH by (intros H; apply L; right; exact H). cbn [andb].
  destruct (s ++ dots ++ t) as [|? [|? ?]]; reflexivity.
Qed.

(** ** The constructor *)
Lemma construct_ok s t : s <> [] -> without_spaces s = t ->
  Forall (fun c => is_alpha c = true \/ In c punctuation_marks) t -> construct s = EOk t.
Proof.
  intros N E F. unfold construct. destruct s as [|c s]; [congruence|].
  change (filter (fun c => negb (Ascii.eqb c space)) (c :: s)) with (without_spaces (c :: s)). rewrite E.
  replace (forallb _ t) with true; [reflexivity|]. symmetry. apply forallb_forall. intros x H.
  rewrite Forall_forall in F. destruct (F x H) as [A|A].
  - rewrite <- alpha_symbol, A. reflexivity.
  - apply orb_true_iff. right. apply has_spec. exact A.
Qed.

(** ** Sorting *)
Lemma insert_perm c s : Permutation (insert_char c s) (c :: s).
Proof.
  induction s as [|d s IH]; cbn; auto. destruct (_ <=? _); auto.
  rewrite IH. constructor.
Qed.
Lemma sort_perm s : Permutation (sort_chars s) s.
Proof. induction s as [|c s IH]; cbn; auto. rewrite insert_perm. constructor. exact IH. Qed.
Definition le_code (a b : ascii) := code a <= code b.
Lemma insert_sorted c s : StronglySorted le_code s -> StronglySorted le_code (insert_char c s).
Proof.
  induction 1 as [|d s S IH F]; cbn; [repeat constructor|].
  destruct (nat_of_ascii c <=? nat_of_ascii d) eqn:E.
  - apply Nat.leb_le in E. constructor; [constructor; auto|]. constructor; [exact E|].
    revert F. apply Forall_impl. intros a. unfold le_code, code. lia.
  - apply Nat.leb_gt in E. constructor; [exact IH|].
    rewrite Forall_forall in *. intros x H. apply (Permutation_in _ (insert_perm c s)) in H.
    destruct H as [<-|H]; [unfold le_code, code; lia|auto].
Qed.
Lemma sort_sorted s : StronglySorted le_code (sort_chars s).
Proof. induction s; cbn; [constructor|]. apply insert_sorted. auto. Qed.
Lemma sorted_filter f s : StronglySorted le_code s -> StronglySorted le_code (filter f s).
Proof.
  induction 1 as [|d s S IH F]; cbn; [constructor|]. destruct (f d); auto. constructor; auto.
  rewrite Forall_forall in *. intros x H. apply filter_In in H. apply F. tauto.
Qed.
Lemma code_inj a b : code a = code b -> a = b.
Proof. unfold code. intros E. rewrite <- (ascii_nat_embedding a), <- (ascii_nat_embedding b). congruence. Qed.
Lemma sorted_strict s : StronglySorted le_code s -> NoDup s -> StronglySorted (fun a b => code a < code b) s.
Proof.
  induction 1 as [|d s S IH F]; intros N; [constructor|]. inversion_clear N as [|? ? N1 N2]. constructor; auto.
  rewrite Forall_forall in *. intros x H. specialize (F x H). unfold le_code in F.
  destruct (Nat.eq_dec (code d) (code x)) as [E|E]; [|lia]. apply code_inj in E. congruence.
Qed.
Lemma sort_sorted_id s : StronglySorted le_code s -> sort_chars s = s.
Proof.
  induction 1 as [|d s S IH F]; auto. cbn. fold (sort_chars s). rewrite IH. destruct s as [|x s]; auto. cbn.
  inversion_clear F as [|? ? F1 F2]. unfold le_code, code in F1. apply Nat.leb_le in F1. rewrite F1. reflexivity.
Qed.
Lemma perm_count (s t : text) c : Permutation s t -> count_occ ascii_dec s c = count_occ ascii_dec t c.
Proof. intros P. apply Permutation_count_occ. exact P. Qed.
Lemma count_filter f s c : count_occ ascii_dec (filter f s) c = if f c then count_occ ascii_dec s c else 0.
Proof.
  induction s as [|d s IH]; cbn; [destruct (f c); reflexivity|].
  destruct (f d) eqn:F; cbn; destruct (ascii_dec d c) as [->|N]; rewrite IH; destruct (f c); congruence || reflexivity.
Qed.
Lemma unique_spec s c : In c (find_unique_indices s) <-> c <> "."%char /\ c <> ","%char /\ count_occ ascii_dec s c = 1.
Proof.
  unfold find_unique_indices. rewrite filter_In, Nat.eqb_eq, (perm_count _ _ c (sort_perm _)), count_filter.
  rewrite (count_occ_In ascii_dec), (perm_count _ _ c (sort_perm _)), count_filter.
  destruct (Ascii.eqb c ".") eqn:E1; [apply Ascii.eqb_eq in E1; cbn; split; [lia|tauto]|].
  destruct (Ascii.eqb c ",") eqn:E2; [apply Ascii.eqb_eq in E2; cbn; split; [lia|tauto]|].
  apply Ascii.eqb_neq in E1, E2. cbn. split; [intros []; auto|]. intros (_ & _ & ->). auto.
Qed.
Lemma unique_sorted s : StronglySorted (fun a b => code a < code b) (find_unique_indices s).
Proof.
  apply sorted_strict; [apply sorted_filter, sort_sorted|].
  apply (NoDup_count_occ ascii_dec). intros c. unfold find_unique_indices. rewrite count_filter.
  destruct (_ =? 1) eqn:E; [|lia]. apply Nat.eqb_eq in E. rewrite E. lia.
Qed.
Lemma sorted_le s : StronglySorted (fun a b => code a < code b) s -> StronglySorted le_code s.
Proof.
  induction 1 as [|d s S IH F]; constructor; auto. revert F. apply Forall_impl. unfold le_code. lia.
Qed.
Lemma count_commas l c : c <> ","%char -> count_occ ascii_dec (commas l) c = count_occ ascii_dec (concat l) c.
Proof.
  intros N. induction l as [|s l IH]; auto. destruct l as [|t l].
  - cbn. rewrite app_nil_r. reflexivity.
  - change (commas (s :: t :: l)) with (s ++ ","%char :: commas (t :: l)).
    change (concat (s :: t :: l)) with (s ++ concat (t :: l)). rewrite !count_occ_app, <- IH.
    rewrite count_occ_cons_neq by congruence. reflexivity.
Qed.
Lemma unique_commas l : letters (concat l) -> once l (find_unique_indices (commas l)).
Proof.
  intros L. split; [apply unique_sorted|]. intros c. rewrite unique_spec. split.
  - intros (_ & N & E). rewrite count_commas in E; auto.
  - intros E. assert (I : In c (concat l)) by (apply (count_occ_In ascii_dec); lia).
    apply (letters_in _ _ L) in I.
    assert (c <> ","%char) by (intros ->; discriminate). assert (c <> "."%char) by (intros ->; discriminate).
    rewrite count_commas; auto.
Qed.
Lemma sorted_ext (s t : text) : StronglySorted (fun a b => code a < code b) s -> StronglySorted (fun a b => code a < code b) t ->
  (forall c, In c s <-> In c t) -> s = t.
Proof.
  intros S. revert t. induction S as [|a s S IH F]; intros t T E.
  - destruct t as [|b t]; auto. destruct (proj2 (E b) (or_introl eq_refl)).
  - destruct T as [|b t T G]; [destruct (proj1 (E a) (or_introl eq_refl))|].
    rewrite Forall_forall in F, G.
    assert (a = b).
    { destruct (proj1 (E a) (or_introl eq_refl)) as [|Ha]; auto.
      destruct (proj2 (E b) (or_introl eq_refl)) as [|Hb]; auto.
      specialize (F _ Hb). specialize (G _ Ha). cbn in *. lia. }
    subst b. f_equal. apply IH; auto. intros c. split; intros H.
    + destruct (proj1 (E c) (or_intror H)) as [<-|]; auto. specialize (F _ H). cbn in F. lia.
    + destruct (proj2 (E c) (or_intror H)) as [<-|]; auto. specialize (G _ H). cbn in G. lia.
Qed.
Lemma once_unique l s t : once l s -> once l t -> s = t.
Proof. intros [S1 E1] [S2 E2]. apply sorted_ext; auto. intros c. rewrite E1, E2. tauto. Qed.

(** ** buildResult *)
Lemma shape_app m n c : shape_of (m ++ n) c = match shape_of m c with Some d => Some d | None => shape_of n c end.
Proof.
  unfold shape_of. induction m as [|p m IH]; auto. cbn. destruct (Ascii.eqb (fst p) c); auto.
Qed.
Lemma shape_none m c : shape_of m c = None <-> ~ In c (map fst m).
Proof.
  unfold shape_of. induction m as [|[a d] m IH]; cbn; [tauto|].
  destruct (Ascii.eqb a c) eqn:E; cbn.
  - apply Ascii.eqb_eq in E. split; [discriminate|]. intros H. exfalso. apply H. auto.
  - apply Ascii.eqb_neq in E. rewrite IH. tauto.
Qed.
Lemma shape_some m c d : shape_of m c = Some d -> first_dimension m c d.
Proof.
  unfold shape_of. induction m as [|[a e] m IH]; cbn; [discriminate|].
  destruct (Ascii.eqb a c) eqn:E; cbn.
  - apply Ascii.eqb_eq in E. subst. intros H. injection H as <-. exists [], m. auto.
  - apply Ascii.eqb_neq in E. intros H. destruct (IH H) as (l & r & -> & N). exists ((a, e) :: l), r. split; auto.
    cbn. tauto.
Qed.
Lemma small_key i keys : i < 65 -> letters keys -> has (ascii_of_nat (i mod 256)) keys = false.
Proof.
  intros Hi L. apply has_false. intros H. apply (letters_in _ _ L) in H. apply alpha_code in H.
  rewrite Nat.mod_small in H by lia. rewrite nat_ascii_embedding in H by lia. lia.
Qed.
Lemma map_fst_combine {A B} (s : list A) (d : list B) : length s = length d -> map fst (combine s d) = s.
Proof. revert d. induction s; intros [|? ?]; cbn; intros; try discriminate; f_equal; auto. Qed.
Lemma collect_modes_ok ms : forall i keys shapes, letters (map fst ms) -> i + length ms <= 65 -> letters keys -> letters (map fst shapes) ->
  exists keys' shapes', collect_modes i ms keys shapes = EOk (keys', shapes') /\ letters keys' /\ letters (map fst shapes') /\
    (forall c, has c keys' = has c keys || has c (map fst ms)) /\
    (forall c, shape_of shapes' c = shape_of (shapes ++ ms) c).
Proof.
  induction ms as [|[c d] ms IH]; intros i keys shapes L B Lk Ls; cbn [collect_modes].
  - exists keys, shapes. repeat split; auto; intros; cbn; rewrite ?orb_false_r, ?app_nil_r; auto.
  - cbn in L, B. inversion_clear L as [|? ? Lc L'].
    rewrite small_key by (auto; lia).
    assert (E : shape_of shapes (ascii_of_nat (i mod 256)) = None).
    { apply shape_none. apply has_false, small_key; auto; lia. }
    rewrite E.
    destruct (IH (S i) (if has c keys then keys else keys ++ [c]) (insert_shape shapes c d)) as (k & sh & -> & Lk' & Ls' & K & H); auto; [lia| | |].
    { destruct (has c keys); auto. apply letters_app. split; auto. repeat constructor; auto. }
    { unfold insert_shape. destruct (shape_of shapes c); auto. rewrite map_app. apply letters_app. split; auto. repeat constructor; auto. }
    exists k, sh. repeat split; auto.
    + intros x. rewrite K. cbn [map fst]. change (has x (c :: map fst ms)) with (Ascii.eqb x c || has x (map fst ms)).
      destruct (has c keys) eqn:Ec.
      * destruct (Ascii.eqb x c) eqn:Ex; auto. apply Ascii.eqb_eq in Ex. subst. rewrite Ec. reflexivity.
      * rewrite has_app. cbn. rewrite orb_false_r, orb_assoc. reflexivity.
    + intros x. rewrite H. unfold insert_shape. rewrite !shape_app. destruct (shape_of shapes c) eqn:Es.
      * destruct (shape_of shapes x) eqn:Ex; auto. unfold shape_of at 2. cbn. destruct (Ascii.eqb c x) eqn:Ecx; auto.
        apply Ascii.eqb_eq in Ecx. congruence.
      * rewrite shape_app. destruct (shape_of shapes x); auto. unfold shape_of at 1 3. cbn. destruct (Ascii.eqb c x); auto.
Qed.
Lemma collect_ok inputs : forall tensors keys shapes, letters (concat inputs) -> fits inputs tensors -> letters keys -> letters (map fst shapes) ->
  exists keys' shapes', collect inputs tensors keys shapes = EOk (keys', shapes') /\
    (forall c, has c keys' = has c keys || has c (concat inputs)) /\
    (forall c, shape_of shapes' c = shape_of (shapes ++ modes inputs tensors) c).
Proof.
  induction inputs as [|s ss IH]; intros tensors keys shapes L F Lk Ls; inversion F as [|? dims ? ts [E B] F']; subst.
  - exists keys, shapes. repeat split; auto; intros; cbn; rewrite ?orb_false_r, ?app_nil_r; auto.
  - cbn [collect]. rewrite E, Nat.eqb_refl. cbn in L. apply letters_app in L. destruct L as [L1 L2].
    destruct (collect_modes_ok (combine s dims) 0 keys shapes) as (k & sh & -> & Lk' & Ls' & K & H); auto.
    { rewrite map_fst_combine; auto. }
    { rewrite combine_length. lia. }
    cbn [ebind]. destruct (IH ts k sh L2 F' Lk' Ls') as (k2 & sh2 & -> & K2 & H2).
    exists k2, sh2. split; auto. split.
    + intros c. rewrite K2, K, map_fst_combine by auto. cbn [concat]. rewrite has_app, orb_assoc. reflexivity.
    + intros c. rewrite H2, !shape_app, H, shape_app. unfold modes. cbn [combine map concat fst snd]. rewrite shape_app.
      destruct (shape_of shapes c); auto.
Qed.
Lemma modes_fst inputs tensors : fits inputs tensors -> map fst (modes inputs tensors) = concat inputs.
Proof.
  induction 1 as [|s dims ss ts [E _] F IH]; auto. unfold modes in *. cbn. rewrite map_app, map_fst_combine, IH; auto.
Qed.
Lemma output_shape_ok keys shapes ms out : (forall c, In c out -> has c keys = true) ->
  (forall c, shape_of shapes c = shape_of ms c) -> incl out (map fst ms) ->
  exists sh, output_shape out keys shapes = EOk sh /\ Forall2 (first_dimension ms) out sh.
Proof.
  intros K H I. induction out as [|c out IH]; cbn; [eauto|].
  rewrite K by (left; auto). rewrite H. destruct (shape_of ms c) as [d|] eqn:E.
  - destruct IH as (sh & -> & F); [intros; apply K; right; auto|intros x Hx; apply I; right; auto|].
    exists (d :: sh). split; auto. constructor; auto. apply shape_some. exact E.
  - apply shape_none in E. destruct E. apply I. left. auto.
Qed.
Lemma Forall2_len {A B} (R : A -> B -> Prop) l m : Forall2 R l m -> length l = length m.
Proof. induction 1; cbn; auto. Qed.
Lemma build_ok inputs out tensors format : inputs <> [] -> letters (concat inputs) -> fits inputs tensors -> incl out (concat inputs) ->
  format = 0 \/ format = length out ->
  exists e, build_result (commas inputs) out tensors format = EOk e /\ means e inputs tensors out.
Proof.
  intros N L F I Fm. unfold build_result.
  rewrite split_commas_ok; auto.
  2:{ apply Forall_forall. intros s Hs. apply letters_lack; auto. apply Forall_forall. intros c Hc. apply (letters_in _ _ L). apply in_concat. eauto. }
  destruct (collect_ok inputs tensors [] [] L F) as (k & sh & -> & K & H); [constructor|constructor|]. cbn [ebind]. cbn [app] in H. cbn in K.
  replace (forallb _ (concat inputs)) with true by (symmetry; apply forallb_forall; intros c Hc; rewrite K; apply has_spec; exact Hc).
  destruct (output_shape_ok k sh (modes inputs tensors) out) as (shape & -> & FS); auto.
  { intros c Hc. rewrite K. apply has_spec. auto. }
  { rewrite modes_fst; auto. }
  cbn [ebind]. pose proof (Forall2_len _ _ _ FS) as E.
  replace (negb (format =? 0) && negb (format =? length shape)) with false.
  - eexists. split; [reflexivity|]. repeat split; auto.
  - symmetry. destruct Fm as [->| ->]; [reflexivity|]. rewrite <- E, Nat.eqb_refl. apply andb_false_r.
Qed.

(** ** parse *)
Lemma commas_lacks c l : letters (concat l) -> is_alpha c = false -> c <> ","%char -> lacks c (commas l).
Proof. intros L A N H. apply in_commas in H. destruct H as [H|H]; [auto|]. apply (letters_in _ _ L) in H. congruence. Qed.
Lemma forallb_has out s : incl out s -> forallb (fun c => has c s) out = true.
Proof. intros I. apply forallb_forall. intros c H. apply has_spec. auto. Qed.
Lemma fits_length inputs tensors : fits inputs tensors -> length inputs = length tensors.
Proof. apply Forall2_len. Qed.
Lemma letters_each l : letters (concat l) -> forall P : text -> Prop, (forall s, letters s -> P s) -> Forall P l.
Proof.
  intros L P H. apply Forall_forall. intros s Hs. apply H. apply Forall_forall. intros c Hc. apply (letters_in _ _ L). apply in_concat. eauto.
Qed.
(** The end of parse, from the expanded subscripts. *)
Definition finish (subscripts output : text) (tensors : list (list nat)) (format : nat) : eresult einsum :=
  let! (input_subs, output_subs) :=
    (if has_arrow subscripts then
       let temp := split_arrow [] subscripts in
       let! t := first_piece temp in
       EOk (t, second_piece temp output)
     else EOk (subscripts, find_unique_indices subscripts)) in
  if negb (forallb (fun c => has c input_subs) output_subs) then EError
  else if negb (length (split_subscript_input input_subs) =? length tensors) then EError
  else build_result input_subs output_subs tensors format.
Lemma finish_build inputs out tensors format : inputs <> [] -> letters (concat inputs) -> fits inputs tensors -> incl out (concat inputs) ->
  (if negb (forallb (fun c => has c (commas inputs)) out) then EError
   else if negb (length (split_subscript_input (commas inputs)) =? length tensors) then EError
   else build_result (commas inputs) out tensors format) = build_result (commas inputs) out tensors format.
Proof.
  intros N L F I. rewrite forallb_has by (intros c H; apply commas_in; auto).
  rewrite split_commas_ok by (auto; apply letters_each; auto; intros; apply letters_lack; auto).
  rewrite (fits_length _ _ F), Nat.eqb_refl. reflexivity.
Qed.
Lemma finish_arrow inputs out old tensors format : commas inputs <> [] -> letters (concat inputs) -> letters out -> fits inputs tensors ->
  incl out (concat inputs) -> (out = [] -> old = []) -> format = 0 \/ format = length out ->
  exists e, finish (commas inputs ++ arrow ++ out) old tensors format = EOk e /\ means e inputs tensors out.
Proof.
  intros N L Lo F I O Fm. unfold finish. rewrite has_arrow_app, arrow_app by (auto using letters_lack; apply commas_lacks; auto; discriminate).
  cbn [app]. assert (E : piece (commas inputs) = [commas inputs]) by (destruct (commas inputs); [congruence|reflexivity]).
  rewrite E. cbn [app first_piece ebind].
  replace (second_piece (commas inputs :: piece out) old) with out by (destruct out; cbn; auto; symmetry; auto).
  assert (inputs <> []) by (intros ->; apply N; reflexivity).
  rewrite finish_build by auto. apply build_ok; auto.
Qed.
Lemma once_incl inputs out : once inputs out -> incl out (concat inputs).
Proof. intros [_ H] c Hc. apply H in Hc. apply (count_occ_In ascii_dec). lia. Qed.
Lemma finish_implicit inputs old tensors format out : inputs <> [] -> letters (concat inputs) -> fits inputs tensors -> once inputs out ->
  format = 0 \/ format = length out ->
  exists e, finish (commas inputs) old tensors format = EOk e /\ means e inputs tensors out.
Proof.
  intros N L F O Fm. unfold finish. rewrite has_arrow_lacks by (apply commas_lacks; auto; discriminate).
  rewrite (once_unique _ _ _ (unique_commas inputs L) O). cbn [ebind].
  rewrite finish_build by auto using once_incl. apply build_ok; auto using once_incl.
Qed.
Lemma commas_valid l : letters (concat l) -> Forall (fun c => is_alpha c = true \/ In c punctuation_marks) (commas l).
Proof.
  intros L. apply Forall_forall. intros c H. apply in_commas in H. destruct H as [->|H]; [right; cbn; auto|left; eapply letters_in; eauto].
Qed.
Lemma letters_valid s : letters s -> Forall (fun c => is_alpha c = true \/ In c punctuation_marks) s.
Proof. apply Forall_impl. auto. Qed.

Lemma parse_explicit inputs out tensors format s : s <> [] -> commas inputs <> [] -> letters (concat inputs) -> letters out -> fits inputs tensors ->
  incl out (concat inputs) -> format = 0 \/ format = length out -> without_spaces s = commas inputs ++ arrow ++ out ->
  exists e, parse_einsum s tensors format = EOk e /\ means e inputs tensors out.
Proof.
  intros Ns N L Lo F I Fm E. unfold parse_einsum. rewrite (construct_ok s _ Ns E).
  2:{ apply Forall_app. split; [apply commas_valid; auto|]. repeat (constructor; [right; cbn; auto|]). apply letters_valid; auto. }
  cbn [ebind]. unfold parse_subscripts.
  assert (C : forall c, is_alpha c = false -> c <> ","%char -> lacks c (commas inputs)) by (intros; apply commas_lacks; auto).
  assert (D : forall c, is_alpha c = false -> lacks c out) by (intros; apply letters_lack; auto).
  rewrite output_app by (auto; apply C; reflexivity || discriminate). cbn [ebind].
  rewrite arrow_app by (auto; apply C; reflexivity || discriminate). cbn [app].
  assert (Ep : piece (commas inputs) = [commas inputs]) by (destruct (commas inputs); [congruence|reflexivity]).
  rewrite Ep. cbn [app first_piece ebind].
  assert (inputs <> []) by (intros ->; apply N; reflexivity).
  rewrite split_commas_ok by (auto; apply letters_each; auto; intros; apply letters_lack; auto).
  rewrite (fits_length _ _ F), Nat.eqb_refl. cbn [negb].
  replace (has "." (commas inputs ++ arrow ++ out)) with false.
  2:{ symmetry. apply has_false. intros H2. apply in_app_iff in H2. destruct H2 as [H2|H2]; [revert H2; apply C; reflexivity || discriminate|].
      apply in_app_iff in H2. destruct H2 as [H2|H2]; [cbn in H2; intuition discriminate|]. revert H2. apply D. reflexivity. }
  cbn [ebind]. fold (finish (commas inputs ++ arrow ++ out) (second_piece (commas inputs :: piece out) []) tensors format).
  apply finish_arrow; auto. intros ->. reflexivity.
Qed.
Lemma parse_implicit inputs out tensors format s : s <> [] -> inputs <> [] -> letters (concat inputs) -> fits inputs tensors ->
  once inputs out -> format = 0 \/ format = length out -> without_spaces s = commas inputs ->
  exists e, parse_einsum s tensors format = EOk e /\ means e inputs tensors out.
Proof.
  intros Ns N L F O Fm E. unfold parse_einsum. rewrite (construct_ok s _ Ns E) by (apply commas_valid; auto).
  cbn [ebind]. unfold parse_subscripts.
  assert (C : forall c, is_alpha c = false -> c <> ","%char -> lacks c (commas inputs)) by (intros; apply commas_lacks; auto).
  rewrite output_lacks by (apply C; reflexivity || discriminate). cbn [ebind].
  rewrite split_commas_ok by (auto; apply letters_each; auto; intros; apply letters_lack; auto).
  rewrite (fits_length _ _ F), Nat.eqb_refl. cbn [negb].
  replace (has "." (commas inputs)) with false by (symmetry; apply has_false, C; reflexivity || discriminate).
  cbn [ebind]. fold (finish (commas inputs) [] tensors format). apply finish_implicit; auto.
Qed.
