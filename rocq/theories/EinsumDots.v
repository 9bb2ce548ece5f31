(** Lemmas for C47: ellipses. *)
From Coq Require Import List Sorted Permutation ZArith Bool Ascii Lia.
From Verif Require Import Parser Einsum EinsumSpec EinsumProofs.
Import ListNotations.
Local Open Scope nat_scope.
Local Opaque symbols.

Lemma skipn_twice {A} (l : list A) m n : n <= m -> m <= length l ->
  skipn (length (skipn (length l - m) l) - n) (skipn (length l - m) l) = skipn (length l - n) l.
Proof.
  intros H1 H2. rewrite skipn_length.
  replace (length l - n) with ((length l - m) + (m - n)) by lia.
  replace (length l - (length l - m) - n) with (m - n) by lia.
  generalize (length l - m). intros k. clear. revert l. induction k as [|k IH]; intros l; [reflexivity|].
  destruct l; cbn; [rewrite skipn_nil; reflexivity|]. apply IH.
Qed.
Lemma filter_dots s : lacks "."%char s -> filter (fun c => negb (Ascii.eqb c ".")) s = s.
Proof.
  induction s as [|c s IH]; intros L; auto. cbn. rewrite eqb_false by (intros ->; apply L; left; auto). cbn. f_equal. apply IH. intros H; apply L; right; auto.
Qed.
Definition op_ok (o : operand) : Prop := letters (op_letters o).
Lemma op_parts o : op_ok o -> match snd o with None => letters (fst o) | Some a => letters (fst o) /\ letters a end.
Proof. unfold op_ok, op_letters. destruct (snd o); auto. apply letters_app. Qed.
Lemma op_text_lacks o c : op_ok o -> is_alpha c = false -> c <> "."%char -> lacks c (op_text o).
Proof.
  intros O A N. apply op_parts in O. unfold op_text. destruct (snd o) as [a|]; [|apply letters_lack; auto].
  destruct O as [O1 O2]. apply lacks_app. split; [apply letters_lack; auto|]. apply lacks_app. split; [|apply letters_lack; auto].
  intros H. cbn in H. destruct H as [H|[H|[H|[]]]]; congruence.
Qed.
Lemma op_text_in o c : In c (op_letters o) -> In c (op_text o).
Proof. unfold op_text, op_letters. destruct (snd o); auto. rewrite !in_app_iff. tauto. Qed.

Lemma expand_input_ok unused m o dims : op_ok o -> op_fits o dims -> missing o dims <= m -> m <= length unused ->
  expand_input unused (op_text o) (length dims) = EOk (expand (skipn (length unused - m) unused) o (missing o dims), missing o dims).
Proof.
  intros O [F _] H1 H2. pose proof (op_parts o O) as P. unfold expand_input, expand, missing in *. unfold op_text in *. destruct o as [b [a|]]; cbn [fst snd] in *.
  - destruct P as [Lb La]. assert (Db : lacks "."%char b) by (apply letters_lack; auto). assert (Da : lacks "."%char a) by (apply letters_lack; auto).
    replace (has "." (b ++ dots ++ a)) with true by (symmetry; apply has_spec; rewrite !in_app_iff; cbn; auto).
    rewrite !count_occ_app, (count_lacks _ b Db), (count_lacks _ a Da), find_dots_app by auto.
    change (count_occ ascii_dec dots "."%char) with 3. cbn [Nat.add Nat.eqb negb orb].
    unfold op_letters in *. cbn [fst snd] in *. rewrite app_length in *. rewrite !app_length. change (length dots) with 3.
    set (n := if (0 <? Z.of_nat (length dims))%Z then (Z.max (Z.of_nat (length dims)) 1 - (Z.of_nat (length b + (3 + length a)) - 3))%Z else 0%Z).
    assert (En : n = Z.of_nat (length dims - (length b + length a))).
    { unfold n. destruct (0 <? _)%Z eqn:E; [apply Z.ltb_lt in E|apply Z.ltb_ge in E]; lia. }
    rewrite En. destruct (Z.ltb_spec (Z.of_nat (length dims - (length b + length a))) 0); [lia|].
    destruct (Z.eqb_spec (Z.of_nat (length dims - (length b + length a))) 0) as [E0|E0].
    + replace (length dims - (length b + length a)) with 0 by lia.
      rewrite !filter_app, (filter_dots b Db), (filter_dots a Da). cbn [app]. rewrite Nat.sub_0_r, skipn_all. reflexivity.
    + rewrite Nat2Z.id. unfold last_chars. replace (length unused <? length dims - (length b + length a)) with false by (symmetry; apply Nat.ltb_ge; lia).
      cbn [ebind]. unfold replace_ellipse. rewrite find_dots_app by auto.
      rewrite skipn_twice by lia. reflexivity.
  - replace (has "." b) with false by (symmetry; apply has_false; apply letters_lack; auto). reflexivity.
Qed.
Lemma longest_cons o ops dims tensors : longest (o :: ops) (dims :: tensors) = Nat.max (missing o dims) (longest ops tensors).
Proof. reflexivity. Qed.
Lemma expand_inputs_ok unused m ops tensors : Forall op_ok ops -> Forall2 op_fits ops tensors -> longest ops tensors <= m -> m <= length unused ->
  expand_inputs unused (map op_text ops) tensors = EOk (expanded (skipn (length unused - m) unused) ops tensors, longest ops tensors).
Proof.
  intros O F H1 H2. revert O H1. induction F as [|o dims ops ts Fo F IH]; intros O H1; auto.
  inversion_clear O as [|? ? Oo O']. rewrite longest_cons in H1. cbn [map expand_inputs].
  rewrite (expand_input_ok unused m) by (auto; lia). cbn [ebind]. rewrite IH by (auto; lia). reflexivity.
Qed.

Lemma symbols_nodup : NoDup symbols.
Proof.
  apply (NoDup_count_occ ascii_dec). intros c. destruct c as [[] [] [] [] [] [] [] []]; vm_compute; lia.
Qed.
Lemma nodup_suffix {A} (l : list A) k : NoDup l -> NoDup (skipn k l).
Proof. intros N. revert k. induction N; intros [|k]; cbn; auto; constructor; auto. Qed.
Lemma pick used m : m <= length (unused_letters used) -> exists unused names, unused_letters used = unused /\
  m <= length unused /\ skipn (length unused - m) unused = names /\ length names = m /\ fresh names used.
Proof.
  intros B. exists (unused_letters used), (skipn (length (unused_letters used) - m) (unused_letters used)).
  split; [reflexivity|]. split; [exact B|]. split; [reflexivity|]. split; [rewrite skipn_length; lia|].
  assert (H : forall c, In c (skipn (length (unused_letters used) - m) (unused_letters used)) -> is_alpha c = true /\ ~ In c used).
  { intros c H. assert (I : In c (unused_letters used)).
    { rewrite <- (firstn_skipn (length (unused_letters used) - m) (unused_letters used)). apply in_app_iff. auto. }
    unfold unused_letters in I. apply filter_In in I. destruct I as [I1 I2]. split; [rewrite alpha_symbol; apply has_spec; auto|].
    apply negb_true_iff in I2. apply has_false. exact I2. }
  split; [|split].
  - apply nodup_suffix. apply NoDup_filter, symbols_nodup.
  - apply Forall_forall. intros c Hc. apply H in Hc. tauto.
  - intros c Hc. apply H in Hc. tauto.
Qed.

Lemma expanded_letters names ops tensors : Forall op_ok ops -> letters names -> letters (concat (expanded names ops tensors)).
Proof.
  intros O N. apply Forall_forall. intros c Hc. apply in_concat in Hc. destruct Hc as (s & Hs & Hc). unfold expanded in Hs.
  apply in_map_iff in Hs. destruct Hs as ((o & dims) & <- & Hp). apply in_combine_l in Hp. rewrite Forall_forall in O. specialize (O o Hp).
  apply op_parts in O. unfold expand in Hc. cbn [fst snd] in Hc. destruct (snd o) as [a|]; [|exact (letters_in _ _ O Hc)].
  destruct O as [O1 O2]. rewrite !in_app_iff in Hc. destruct Hc as [Hc|[Hc|Hc]]; [exact (letters_in _ _ O1 Hc)| |exact (letters_in _ _ O2 Hc)].
  apply (letters_in _ _ N). rewrite <- (firstn_skipn (length names - missing o dims) names). apply in_app_iff. auto.
Qed.
Lemma expanded_fits names ops tensors : Forall2 op_fits ops tensors -> longest ops tensors <= length names -> fits (expanded names ops tensors) tensors.
Proof.
  induction 1 as [|o dims ops ts [Fo Bd] F IH]; intros B; [constructor|]. rewrite longest_cons in B. unfold expanded. cbn [combine map fst snd].
  constructor; [|apply IH; lia]. split; auto. unfold expand, missing in *. unfold op_letters in *. destruct o as [b [a|]]; cbn [fst snd] in *; auto.
  rewrite app_length in *. rewrite !app_length, skipn_length. lia.
Qed.
Lemma expanded_count names ops tensors c : length ops = length tensors -> ~ In c names ->
  count_occ ascii_dec (concat (expanded names ops tensors)) c = count_occ ascii_dec (concat (map op_letters ops)) c.
Proof.
  intros E N. revert tensors E. induction ops as [|o ops IH]; intros [|dims ts] E; try discriminate; auto.
  unfold expanded. cbn [combine map concat fst snd]. rewrite !count_occ_app. f_equal; [|apply IH; cbn in E; congruence].
  unfold expand, op_letters. destruct (snd o) as [a|]; auto. rewrite !count_occ_app.
  rewrite (proj1 (count_occ_not_In ascii_dec (skipn _ names) c)); [lia|]. intros H. apply N.
  rewrite <- (firstn_skipn (length names - missing o dims) names). apply in_app_iff. auto.
Qed.
Lemma expanded_once names ops tensors : length ops = length tensors -> Forall op_ok ops -> letters names ->
  (forall c, In c names -> ~ In c (concat (map op_letters ops))) ->
  once (map op_letters ops) (filter (fun c => negb (has c names)) (find_unique_indices (commas (expanded names ops tensors)))).
Proof.
  intros E O N H. pose proof (unique_commas _ (expanded_letters names ops tensors O N)) as [S C]. split.
  - clear - S. induction S as [|d s S IH F]; cbn; [constructor|]. destruct (negb (has d names)); auto. constructor; auto.
    rewrite Forall_forall in *. intros x Hx. apply filter_In in Hx. apply F. tauto.
  - intros c. rewrite filter_In, C, negb_true_iff, has_false. split.
    + intros [Ec Nc]. rewrite expanded_count in Ec; auto.
    + intros Ec. assert (Nc : ~ In c names). { intros I. apply (H c I). apply (count_occ_In ascii_dec). lia. }
      rewrite expanded_count; auto.
Qed.
Lemma commas_empty names ops tensors : length ops = length tensors -> commas (map op_text ops) = [] -> commas (expanded names ops tensors) = [].
Proof.
  destruct ops as [|o [|o' ops]]; destruct tensors as [|d [|d' ts]]; cbn; try discriminate; auto.
  - intros _. unfold op_text, expand. destruct o as [b [a|]]; cbn; auto. destruct b; discriminate.
  - intros _ H. destruct (op_text o); discriminate.
Qed.

(** The common beginning. *)
Lemma ellipse_names unused n : n <= length unused ->
  (if 0 <? n then last_chars n unused else EOk []) = EOk (skipn (length unused - n) unused).
Proof.
  intros H. destruct (0 <? n) eqn:E; [apply Nat.ltb_lt in E|apply Nat.ltb_ge in E].
  - unfold last_chars. replace (length unused <? n) with false by (symmetry; apply Nat.ltb_ge; lia). reflexivity.
  - replace n with 0 by lia. rewrite Nat.sub_0_r, skipn_all. reflexivity.
Qed.
Lemma ops_lacks ops c : Forall op_ok ops -> is_alpha c = false -> c <> "."%char -> c <> ","%char -> lacks c (commas (map op_text ops)).
Proof.
  intros O A N1 N2 H. apply in_commas in H. destruct H as [H|H]; [auto|]. apply in_concat in H. destruct H as (s & Hs & H).
  apply in_map_iff in Hs. destruct Hs as (o & <- & Ho). rewrite Forall_forall in O. revert H. apply op_text_lacks; auto.
Qed.
Lemma ops_split ops : ops <> [] -> Forall op_ok ops -> split_subscript_input (commas (map op_text ops)) = map op_text ops.
Proof.
  intros N O. apply split_commas_ok; [destruct ops; [congruence|discriminate]|]. apply Forall_forall. intros s Hs.
  apply in_map_iff in Hs. destruct Hs as (o & <- & Ho). rewrite Forall_forall in O. apply op_text_lacks; auto; discriminate.
Qed.
Lemma op_text_valid o : op_ok o -> Forall (fun c => is_alpha c = true \/ In c punctuation_marks) (op_text o).
Proof.
  intros O. apply op_parts in O. unfold op_text. destruct (snd o); [|apply letters_valid; auto]. destruct O.
  apply Forall_app. split; [apply letters_valid; auto|]. repeat (constructor; [right; cbn; auto|]). apply letters_valid; auto.
Qed.
Lemma ops_valid ops : Forall op_ok ops -> Forall (fun c => is_alpha c = true \/ In c punctuation_marks) (commas (map op_text ops)).
Proof.
  intros O. apply Forall_forall. intros c H. apply in_commas in H. destruct H as [->|H]; [right; cbn; auto|].
  apply in_concat in H. destruct H as (s & Hs & H). apply in_map_iff in Hs. destruct Hs as (o & <- & Ho).
  rewrite Forall_forall in O. pose proof (op_text_valid o (O o Ho)) as V. rewrite Forall_forall in V. auto.
Qed.
Lemma used_in (c : ascii) s : In c s -> is_alpha c = true -> In c (filter (fun c => negb (has c punctuation_marks)) s).
Proof. intros H A. apply filter_In. split; auto. rewrite alpha_marks; auto. Qed.
Lemma ops_in ops c : In c (concat (map op_letters ops)) -> In c (commas (map op_text ops)).
Proof.
  intros H. apply commas_in. apply in_concat in H. destruct H as (s & Hs & H). apply in_map_iff in Hs. destruct Hs as (o & <- & Ho).
  apply in_concat. exists (op_text o). split; [apply in_map; auto|]. apply op_text_in. exact H.
Qed.
Lemma ops_letters_alpha ops c : Forall op_ok ops -> In c (concat (map op_letters ops)) -> is_alpha c = true.
Proof.
  intros O H. apply in_concat in H. destruct H as (s & Hs & H). apply in_map_iff in Hs. destruct Hs as (o & <- & Ho).
  rewrite Forall_forall in O. eapply letters_in; [apply (O o Ho)|exact H].
Qed.
Lemma dotted_in o : op_dotted o = true -> In "."%char (op_text o).
Proof. unfold op_dotted, op_text. destruct (snd o); [|discriminate]. intros _. rewrite !in_app_iff. cbn. auto. Qed.
Lemma dotted_ops ops : existsb op_dotted ops = true -> In "."%char (commas (map op_text ops)).
Proof.
  intros H. apply existsb_exists in H. destruct H as (o & Ho & D). apply commas_in, in_concat. exists (op_text o). split; [apply in_map; auto|].
  apply dotted_in. auto.
Qed.

Lemma filter_ext_len (f g : ascii -> bool) l : (forall c, In c l -> f c = g c) -> filter f l = filter g l.
Proof. intros H. induction l as [|c l IH]; auto. cbn. rewrite (H c (or_introl eq_refl)), IH; auto. intros; apply H; right; auto. Qed.
Lemma has_ext c s t : (In c s <-> In c t) -> has c s = has c t.
Proof.
  intros H. destruct (has c s) eqn:E.
  - symmetry. apply has_spec, H, has_spec, E.
  - symmetry. apply has_false. rewrite <- H. apply has_false, E.
Qed.
Lemma used_letters s used' : (forall c, is_alpha c = true -> (In c s <-> In c used')) ->
  filter (fun c => negb (has c (filter (fun c => negb (has c punctuation_marks)) s))) symbols = filter (fun c => negb (has c used')) symbols.
Proof.
  intros H. apply filter_ext_len. intros c Hc. f_equal. apply has_ext.
  assert (A : is_alpha c = true) by (rewrite alpha_symbol; apply has_spec; auto).
  rewrite filter_In, H by auto. split; [tauto|]. intros I. split; auto. rewrite alpha_marks; auto.
Qed.
Lemma op_text_letters o c : is_alpha c = true -> In c (op_text o) -> In c (op_letters o).
Proof.
  intros A. unfold op_text, op_letters. destruct (snd o); auto. rewrite !in_app_iff. intros [H|[H|H]]; auto.
  cbn in H. destruct H as [<-|[<-|[<-|[]]]]; discriminate.
Qed.
Lemma ops_text_letters ops c : is_alpha c = true -> (In c (commas (map op_text ops)) <-> In c (concat (map op_letters ops))).
Proof.
  intros A. split; [|apply ops_in]. intros H. apply in_commas in H. destruct H as [->|H]; [discriminate|].
  apply in_concat in H. destruct H as (s & Hs & H). apply in_map_iff in Hs. destruct Hs as (o & <- & Ho).
  apply in_concat. exists (op_letters o). split; [apply in_map; auto|]. apply op_text_letters; auto.
Qed.
Lemma text_no_dash ops out : Forall op_ok ops -> op_ok out -> forall c, is_alpha c = false -> c <> "."%char -> c <> ","%char -> lacks c (commas (map op_text ops)) /\ lacks c (op_text out).
Proof. intros. split; [apply ops_lacks; auto|apply op_text_lacks; auto]. Qed.

Lemma parse_dots_explicit ops out tensors format s :
  s <> [] -> Forall op_ok ops -> op_ok out -> Forall2 op_fits ops tensors ->
  existsb op_dotted (out :: ops) = true ->
  longest ops tensors <= length (unused_letters (concat (map op_letters (ops ++ [out])))) ->
  without_spaces s = commas (map op_text ops) ++ arrow ++ op_text out ->
  exists names, length names = longest ops tensors /\ fresh names (concat (map op_letters (ops ++ [out]))) /\
    (commas (expanded names ops tensors) <> [] ->
     (expand names out (longest ops tensors) = [] -> op_text out = []) ->
     incl (expand names out (longest ops tensors)) (concat (expanded names ops tensors)) ->
     format = 0 \/ format = length (expand names out (longest ops tensors)) ->
     exists e, parse_einsum s tensors format = EOk e /\
       means e (expanded names ops tensors) tensors (expand names out (longest ops tensors))).
Proof.
  intros Ns O Oo F D B E.
  set (used := concat (map op_letters (ops ++ [out]))) in *.
  pose proof (Forall2_len _ _ _ F) as Len.
  destruct (pick used (longest ops tensors) B) as (unused & names & Eu & Bu & En & Nn & Fr).
  exists names. split; [exact Nn|]. split; [exact Fr|]. intros N1 N2 I Fm.
  assert (N0 : commas (map op_text ops) <> []) by (intros H; apply N1; apply commas_empty; auto).
  assert (Nops : ops <> []) by (intros ->; apply N0; reflexivity).
  unfold parse_einsum. rewrite (construct_ok s _ Ns E).
  2:{ apply Forall_app. split; [apply ops_valid; auto|]. repeat (constructor; [right; cbn; auto|]). apply op_text_valid; auto. }
  cbn [ebind]. unfold parse_subscripts.
  pose proof (text_no_dash ops out O Oo) as TL.
  destruct (TL "-"%char eq_refl ltac:(discriminate) ltac:(discriminate)) as [TL1 TL2].
  destruct (TL ">"%char eq_refl ltac:(discriminate) ltac:(discriminate)) as [TL3 TL4].
  rewrite output_app by auto. cbn [ebind]. rewrite arrow_app by auto. cbn [app].
  assert (Ep : piece (commas (map op_text ops)) = [commas (map op_text ops)]) by (destruct (commas (map op_text ops)); [congruence|reflexivity]).
  rewrite Ep. cbn [app first_piece ebind]. rewrite ops_split by auto. rewrite map_length, Len, Nat.eqb_refl. cbn [negb].
  set (output := second_piece (commas (map op_text ops) :: piece (op_text out)) []).
  assert (Eo : output = op_text out) by (unfold output; destruct (op_text out); reflexivity).
  clearbody output. subst output.
  set (full := commas (map op_text ops) ++ arrow ++ op_text out).
  replace (has "." full) with true.
  2:{ symmetry. apply has_spec. unfold full. rewrite !in_app_iff. cbn in D. apply orb_true_iff in D. destruct D as [D|D].
      - right. right. apply dotted_in. exact D.
      - left. apply dotted_ops. exact D. }
  replace (filter (fun c => negb (has c (filter (fun c0 => negb (has c0 punctuation_marks)) full))) symbols) with unused.
  2:{ rewrite <- Eu. symmetry. apply used_letters. intros c A. unfold full, used. rewrite map_app, concat_app. cbn [map concat]. rewrite app_nil_r.
      rewrite !in_app_iff, <- ops_text_letters by auto. cbn [arrow In]. split.
      - intros [H|[[<-|[<-|[]]]|H]]; try discriminate; auto. right. apply op_text_letters; auto.
      - intros [H|H]; auto. right. right. apply op_text_in. exact H. }
  rewrite (expand_inputs_ok unused (longest ops tensors)) by auto. rewrite En. cbn [ebind].
  rewrite ellipse_names by exact Bu. rewrite En. cbn [ebind]. rewrite commas_join.
  replace (replace_ellipse (op_text out) names) with (expand names out (longest ops tensors)).
  2:{ unfold replace_ellipse, op_text, expand. apply op_parts in Oo. destruct out as [b [a|]]; cbn [fst snd] in *.
      - destruct Oo. rewrite find_dots_app by (apply letters_lack; auto). rewrite Nn, Nat.sub_diag. cbn [skipn]. reflexivity.
      - rewrite find_dots_lacks by (apply letters_lack; auto). reflexivity. }
  fold (finish (commas (expanded names ops tensors) ++ arrow ++ expand names out (longest ops tensors)) (op_text out) tensors format).
  apply finish_arrow; auto.
  - apply expanded_letters; auto. exact (proj1 (proj2 Fr)).
  - apply op_parts in Oo. unfold expand. destruct (snd out); auto. destruct Oo. apply letters_app. split; auto.
    apply letters_app. split; auto. rewrite Nn, Nat.sub_diag. cbn [skipn]. exact (proj1 (proj2 Fr)).
  - apply expanded_fits; auto. lia.
Qed.
Lemma parse_dots_implicit ops tensors format s out :
  s <> [] -> Forall op_ok ops -> Forall2 op_fits ops tensors ->
  existsb op_dotted ops = true ->
  longest ops tensors <= length (unused_letters (concat (map op_letters ops))) ->
  without_spaces s = commas (map op_text ops) -> once (map op_letters ops) out ->
  exists names, length names = longest ops tensors /\ fresh names (concat (map op_letters ops)) /\
    (commas (expanded names ops tensors) <> [] ->
     format = 0 \/ format = length (names ++ out) ->
     exists e, parse_einsum s tensors format = EOk e /\ means e (expanded names ops tensors) tensors (names ++ out)).
Proof.
  intros Ns O F D B E Oc.
  set (used := concat (map op_letters ops)) in *.
  pose proof (Forall2_len _ _ _ F) as Len.
  destruct (pick used (longest ops tensors) B) as (unused & names & Eu & Bu & En & Nn & Fr).
  exists names. split; [exact Nn|]. split; [exact Fr|]. intros N1 Fm.
  assert (N0 : commas (map op_text ops) <> []) by (intros H; apply N1; apply commas_empty; auto).
  assert (Nops : ops <> []) by (intros ->; apply N0; reflexivity).
  unfold parse_einsum. rewrite (construct_ok s _ Ns E) by (apply ops_valid; auto).
  cbn [ebind]. unfold parse_subscripts.
  rewrite output_lacks by (apply ops_lacks; auto; discriminate). cbn [ebind].
  rewrite ops_split by auto. rewrite map_length, Len, Nat.eqb_refl. cbn [negb].
  replace (has "." (commas (map op_text ops))) with true by (symmetry; apply has_spec, dotted_ops; auto).
  rewrite (used_letters _ used) by (intros; apply ops_text_letters; auto). fold (unused_letters used). rewrite Eu.
  rewrite (expand_inputs_ok unused (longest ops tensors)) by auto. rewrite En. cbn [ebind].
  rewrite ellipse_names by exact Bu. rewrite En. cbn [ebind]. rewrite commas_join.
  rewrite (sort_sorted_id (filter _ _)).
  2:{ apply sorted_filter, sorted_le, unique_sorted. }
  rewrite (once_unique _ _ _ (expanded_once names ops tensors Len O (proj1 (proj2 Fr)) (proj2 (proj2 Fr))) Oc).
  fold (finish (commas (expanded names ops tensors) ++ arrow ++ names ++ out) [] tensors format).
  assert (I : incl (names ++ out) (concat (expanded names ops tensors))).
  { intros c Hc. apply in_app_iff in Hc. destruct Hc as [Hc|Hc].
    - clear - Hc F Nn. unfold longest in Nn. revert Nn.
      assert (X : forall m, m = length names -> 0 < m -> list_max (map (fun p => missing (fst p) (snd p)) (combine ops tensors)) = m ->
                  exists p, In p (combine ops tensors) /\ missing (fst p) (snd p) = m).
      { clear. intros m _ Hm. induction (combine ops tensors) as [|p l IH]; cbn [map list_max fold_right]; [cbn; intros; lia|].
        fold (list_max (map (fun p => missing (fst p) (snd p)) l)). intros H.
        destruct (Nat.max_dec (missing (fst p) (snd p)) (list_max (map (fun p => missing (fst p) (snd p)) l))) as [M|M].
        - exists p. split; [left; auto|]. lia.
        - destruct IH as (q & Hq & Eq); [lia|]. exists q. split; [right; auto|auto]. }
      intros Nn. destruct (X (length names) eq_refl) as ((o & dims) & Hp & Em); [destruct names; [destruct Hc|cbn; lia]|lia|].
      apply in_concat. exists (expand names o (missing o dims)). split.
      + unfold expanded. apply in_map_iff. exists (o, dims). auto.
      + cbn [fst snd] in Em. rewrite Em. unfold expand. unfold missing in Em. destruct (snd o) as [a|].
        * rewrite Nat.sub_diag. cbn [skipn]. rewrite !in_app_iff. auto.
        * destruct names; [destruct Hc|discriminate].
    - assert (Nc : ~ In c names). { intros Hn. apply (proj2 (proj2 Fr) c Hn). apply once_incl in Oc. apply Oc. exact Hc. }
      apply (count_occ_In ascii_dec). rewrite expanded_count by auto. apply (proj2 Oc) in Hc. lia. }
  apply finish_arrow; auto.
  - apply expanded_letters; auto. exact (proj1 (proj2 Fr)).
  - apply letters_app. split; [exact (proj1 (proj2 Fr))|]. apply Forall_forall. intros c Hc. apply once_incl in Oc. apply Oc in Hc.
    eapply ops_letters_alpha; eauto.
  - apply expanded_fits; auto. lia.
Qed.

(** ** What is accepted *)
Lemma insert_incl m c d : incl (insert_shape m c d) (m ++ [(c, d)]).
Proof. unfold insert_shape. destruct (shape_of m c); intros x H; [apply in_app_iff; auto|exact H]. Qed.
Lemma collect_modes_incl ms : forall i keys shapes k sh, collect_modes i ms keys shapes = EOk (k, sh) -> incl sh (shapes ++ ms).
Proof.
  induction ms as [|[c d] ms IH]; intros i keys shapes k sh; cbn [collect_modes].
  - intros E. injection E as _ <-. rewrite app_nil_r. apply incl_refl.
  - destruct (shape_of shapes _) eqn:E1.
    + destruct (shape_of shapes c); [|discriminate]. destruct (_ =? _); [|discriminate].
      intros E x H. apply IH in E. apply E in H. apply in_app_iff in H. rewrite in_app_iff. cbn. tauto.
    + intros E x H. apply IH in E. apply E in H. apply in_app_iff in H. destruct H as [H|H].
      * apply insert_incl in H. rewrite in_app_iff in *. cbn in *. tauto.
      * rewrite in_app_iff. cbn. tauto.
Qed.
Lemma collect_incl inputs : forall tensors keys shapes k sh, collect inputs tensors keys shapes = EOk (k, sh) ->
  length inputs = length tensors ->
  Forall2 (fun s dims => length s = length dims) inputs tensors /\ incl sh (shapes ++ modes inputs tensors).
Proof.
  induction inputs as [|s ss IH]; intros [|dims ts] keys shapes k sh; cbn [collect]; try discriminate.
  - intros E _. injection E as _ <-. split; [constructor|]. cbn. rewrite app_nil_r. apply incl_refl.
  - destruct (length s =? length dims) eqn:El; [|discriminate]. apply Nat.eqb_eq in El.
    destruct (collect_modes 0 (combine s dims) keys shapes) as [[k1 sh1]| | |] eqn:E1; try discriminate. cbn [ebind].
    intros E Len. cbn in Len. destruct (IH _ _ _ _ _ E ltac:(lia)) as [F I]. split; [constructor; auto|].
    intros x H. apply I in H. apply in_app_iff in H. unfold modes in *. cbn [combine map concat fst snd]. rewrite !in_app_iff.
    destruct H as [H|H]; auto. apply (collect_modes_incl _ _ _ _ _ _ E1) in H. apply in_app_iff in H. tauto.
Qed.
Lemma shape_in m c d : shape_of m c = Some d -> In (c, d) m.
Proof. intros H. apply shape_some in H. destruct H as (l & r & -> & _). apply in_app_iff. cbn. auto. Qed.
Lemma output_shape_in out keys shapes sh : output_shape out keys shapes = EOk sh -> Forall2 (fun c d => In (c, d) shapes) out sh.
Proof.
  revert sh. induction out as [|c out IH]; intros sh; cbn [output_shape].
  - intros E. injection E as <-. constructor.
  - destruct (has c keys); [|discriminate]. destruct (shape_of shapes c) as [d|] eqn:E; [|discriminate].
    destruct (output_shape out keys shapes) as [ds| | |]; try discriminate. cbn. intros H. injection H as <-.
    constructor; auto. apply shape_in. exact E.
Qed.
Lemma build_accepts a b tensors format e : build_result a b tensors format = EOk e -> length (split_subscript_input a) = length tensors ->
  Forall2 (fun s dims => length s = length dims) (e_inputs e) tensors /\
  Forall2 (fun c d => In (c, d) (modes (e_inputs e) tensors)) (e_output e) (e_shape e).
Proof.
  unfold build_result. destruct (collect _ _ _ _) as [[k sh]| | |] eqn:E1; try discriminate. cbn [ebind].
  destruct (forallb _ _); [|discriminate]. destruct (output_shape b k sh) as [shape| | |] eqn:E2; try discriminate. cbn [ebind].
  destruct (_ && _); [discriminate|]. intros H Len. injection H as <-. cbn [e_inputs e_output e_shape].
  destruct (collect_incl _ _ _ _ _ _ E1 Len) as [F I]. split; auto. apply output_shape_in in E2.
  clear - E2 I. induction E2; constructor; auto.
Qed.
Lemma parse_accepts s tensors format e : parse_einsum s tensors format = EOk e ->
  Forall2 (fun s dims => length s = length dims) (e_inputs e) tensors /\
  Forall2 (fun c d => In (c, d) (modes (e_inputs e) tensors)) (e_output e) (e_shape e).
Proof.
  unfold parse_einsum. destruct (construct s) as [t| | |]; try discriminate. cbn [ebind]. unfold parse_subscripts.
  destruct (expr_has_output t) as [b| | |]; try discriminate. cbn [ebind].
  match goal with |- ebind ?r _ = _ -> _ => destruct r as [[inputs output]| | |]; try discriminate end. cbn [ebind].
  destruct (negb _); [discriminate|].
  match goal with |- ebind ?r _ = _ -> _ => destruct r as [full| | |]; try discriminate end. cbn [ebind].
  match goal with |- ebind ?r _ = _ -> _ => destruct r as [[i o]| | |]; try discriminate end. cbn [ebind].
  destruct (negb _); [discriminate|].
  destruct (length (split_subscript_input i) =? length tensors) eqn:E; [|discriminate]. cbn [negb]. apply Nat.eqb_eq in E.
  intros H. apply build_accepts in H; auto.
Qed.
Lemma first_dimension_consistent ms c d : (forall x y z, In (x, y) ms -> In (x, z) ms -> y = z) -> first_dimension ms c d ->
  forall d', In (c, d') ms -> d' = d.
Proof. intros H (l & r & E & _) d' I. apply (H c); auto. rewrite E. apply in_app_iff. cbn. auto. Qed.
(** ** Arrows of accepted strings *)
Lemma one_split (c : ascii) s : count_occ ascii_dec s c = 1 -> exists a b, s = a ++ c :: b /\ ~ In c a /\ ~ In c b.
Proof.
  induction s as [|d s IH]; cbn; [discriminate|]. destruct (ascii_dec d c) as [->|N].
  - intros H. exists [], s. cbn. repeat split; auto. apply (count_occ_not_In ascii_dec). lia.
  - intros H. destruct (IH H) as (a & b & -> & A & B). exists (d :: a), b. cbn. repeat split; auto. intros [E|E]; auto.
Qed.
Lemma dashes_end a d b : dashes_ok (a ++ "-"%char :: d :: b) = true -> d = ">"%char.
Proof.
  induction a as [|c a IH]; cbn [app].
  - cbn [dashes_ok]. intros H. apply andb_prop in H. destruct H as [H _].
    destruct (Ascii.eqb_spec d ">"%char) as [X|X]; [exact X|]. cbn in H. discriminate H.
  - intros H. apply IH. destruct a as [|c' a]; cbn [app] in *; cbn [dashes_ok] in H; apply andb_prop in H; apply H.
Qed.
Lemma parse_arrows s tensors format e : parse_einsum s tensors format = EOk e ->
  plain (without_spaces s) \/
  (exists a b, without_spaces s = a ++ arrow ++ b /\ plain a /\ plain b) \/
  (exists a b, without_spaces s = a ++ ">"%char :: b ++ ["-"%char] /\ plain a /\ plain b).
Proof.
  unfold parse_einsum. destruct (construct s) as [t| | |] eqn:C; try discriminate. cbn [ebind]. unfold parse_subscripts.
  assert (E : without_spaces s = t).
  { unfold construct in C. destruct s; [discriminate|]. destruct (forallb _ _); inversion C. reflexivity. }
  rewrite E. clear C E s.
  destruct (expr_has_output t) as [b| | |] eqn:H; try discriminate. intros _.
  unfold expr_has_output in H. destruct (dashes_ok t) eqn:D; [|discriminate].
  destruct (negb _ || _) eqn:N; [discriminate|]. apply orb_false_iff in N. destruct N as [N1 N2].
  apply negb_false_iff, Nat.eqb_eq in N1. apply Nat.ltb_ge in N2.
  destruct (Nat.eq_dec (count_occ ascii_dec t "-"%char) 1) as [O|O].
  - right. destruct (one_split _ _ O) as (a & c & -> & A & B).
    rewrite O in N1. rewrite count_occ_app in N1. cbn [count_occ] in N1.
    destruct (ascii_dec "-" ">") as [X|_]; [discriminate|].
    destruct c as [|d c].
    + right. cbn [count_occ] in N1. rewrite Nat.add_0_r in N1. destruct (one_split _ _ (eq_sym N1)) as (a1 & b1 & -> & A1 & B1).
      exists a1, b1. rewrite <- app_assoc. cbn. repeat split; auto; intros I; apply A; apply in_app_iff; cbn; auto.
    + left. apply dashes_end in D. subst d. exists a, c. split; [reflexivity|].
      cbn [count_occ] in N1. destruct (ascii_dec ">" ">") as [_|X]; [|congruence].
      repeat split; auto.
      * apply (count_occ_not_In ascii_dec). lia.
      * intros I. apply B. cbn. auto.
      * apply (count_occ_not_In ascii_dec). lia.
  - left. split; apply (count_occ_not_In ascii_dec); lia.
Qed.
