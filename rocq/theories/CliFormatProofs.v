(** Proofs about the options of the command line tool. *)
From Coq Require Import List ZArith Bool Ascii Lia.
Import ListNotations.
From Verif Require Import Parser ParserSpec ParserLex FileIO FileIOProofs FileIORB Formats CliFormat CliFormatSpec.
Local Open Scope nat_scope.

(** ** Splitting *)
Definition clean (sep : ascii) (s : text) : Prop := s <> [] /\ ~ In sep s.
Lemma split_run sep s : forall p r, ~ In sep s -> split sep p (s ++ r) = split sep (p ++ s) r.
Proof.
  induction s as [|c s IH]; intros p r H; [now rewrite app_nil_r|].
  cbn [app split]. destruct (Ascii.eqb c sep) eqn:E.
  - apply Ascii.eqb_eq in E. exfalso. apply H. now left.
  - rewrite IH by (intros I; apply H; now right). now rewrite <- app_assoc.
Qed.
Lemma split_one sep s : clean sep s -> split sep [] s = [s].
Proof.
  intros [N H]. rewrite <- (app_nil_r s) at 1. rewrite split_run by exact H.
  cbn [app split]. destruct s; congruence.
Qed.
Lemma split_sep sep s r : clean sep s -> split sep [] (s ++ sep :: r) = s :: split sep [] r.
Proof.
  intros [N H]. rewrite split_run by exact H. cbn [app split]. rewrite Ascii.eqb_refl.
  destruct s; congruence.
Qed.
Lemma split_join sep ps : Forall (clean sep) ps -> split sep [] (join [sep] ps) = ps.
Proof.
  induction ps as [|p ps IH]; intros F; [reflexivity|]. inversion F; subst.
  destruct ps as [|q ps]; [now apply split_one|].
  change (join [sep] (p :: q :: ps)) with (p ++ sep :: join [sep] (q :: ps)).
  rewrite split_sep by assumption. now rewrite IH.
Qed.
(** Where the first piece was *)
Lemma split_found sep s : forall p x rest, ~ In sep p -> split sep p s = x :: rest ->
  exists k r, p ++ s = repeat sep k ++ x ++ r /\ clean sep x /\
    (r = [] /\ rest = [] \/ exists r', r = sep :: r' /\ rest = split sep [] r').
Proof.
  induction s as [|c s IH]; intros p x rest P E; cbn [split] in E.
  - destruct p as [|a p]; [discriminate|]. injection E as <- <-.
    exists 0, []. split; [reflexivity|]. split; [split; [discriminate|exact P]|]. now left.
  - destruct (Ascii.eqb c sep) eqn:C.
    + apply Ascii.eqb_eq in C. subst c. destruct p as [|a p].
      * destruct (IH [] x rest (fun H => H) E) as (k & r & V & X & R).
        exists (S k), r. cbn in V |- *. split; [now f_equal|]. now split.
      * injection E as <- <-. exists 0, (sep :: s). split; [reflexivity|].
        split; [split; [discriminate|exact P]|]. right. now exists s.
    + destruct (IH (p ++ [c]) x rest) as (k & r & V & X & R).
      * rewrite in_app_iff. intros [H|[->|[]]]; [now apply P|]. rewrite Ascii.eqb_refl in C. discriminate.
      * exact E.
      * exists k, r. rewrite <- app_assoc in V. cbn in V. now split.
Qed.
Lemma split_empty sep k : split sep [] (repeat sep k) = [].
Proof. induction k as [|k IH]; [reflexivity|]. cbn. now rewrite Ascii.eqb_refl. Qed.

(** ** Numbers *)
Lemma digits_clean sep s : is_digit sep = false -> number s -> clean sep s.
Proof.
  intros D [N F]. split; [exact N|]. intros I. rewrite forallb_forall in F. rewrite (F _ I) in D. discriminate.
Qed.
Lemma numbers_commas zs : ints zs -> numbers (commas zs) = Ok zs.
Proof.
  intros F. unfold numbers, commas. rewrite split_join.
  - rewrite (collect_ok_ stoi (map print_Z zs) zs); [reflexivity|].
    induction F as [|z zs H F IH]; constructor; [now apply stoi_print|exact IH].
  - induction F as [|z zs H F IH]; constructor; [|exact IH].
    apply digits_clean; [reflexivity|]. apply print_nonneg. lia.
Qed.
Lemma commas_clean zs : zs <> [] -> ints zs -> clean ":" (commas zs).
Proof.
  intros N F. unfold commas. destruct zs as [|z zs]; [congruence|]. clear N.
  revert z F. induction zs as [|y zs IH]; intros z F; inversion F as [|? ? Hz F']; subst.
  - cbn [map join]. apply digits_clean; [reflexivity|]. apply print_nonneg. lia.
  - change (join [","%char] (map print_Z (z :: y :: zs)))
      with (print_Z z ++ ","%char :: join [","%char] (map print_Z (y :: zs))).
    destruct (IH y F') as [_ H]. destruct (digits_clean ":" (print_Z z) eq_refl) as [N1 H1].
    { apply print_nonneg. lia. }
    split; [destruct (print_Z z); discriminate|]. rewrite in_app_iff.
    intros [I|[I|I]]; [now apply H1|discriminate|now apply H].
Qed.

(** ** Letters *)
Lemma letter_mode c m : letter c m -> mode_of c = Some m.
Proof. destruct 1; reflexivity. Qed.
Lemma mode_letter c m : mode_of c = Some m -> letter c m.
Proof.
  intros H. unfold mode_of in H.
  repeat match type of H with
  | context [Ascii.eqb c ?x] =>
      let E := fresh in destruct (Ascii.eqb c x) eqn:E;
      [apply Ascii.eqb_eq in E; subst c; injection H as <-; constructor|]
  end.
  discriminate H.
Qed.
Lemma letters_modes ls ms : Forall2 letter ls ms -> modes_of ls = Some ms.
Proof.
  induction 1 as [|c m ls ms H F IH]; [reflexivity|]. cbn [modes_of].
  now rewrite (letter_mode c m H), IH.
Qed.
Lemma modes_letters ls : forall ms, modes_of ls = Some ms -> Forall2 letter ls ms.
Proof.
  induction ls as [|c ls IH]; cbn [modes_of]; intros ms E; [injection E as <-; constructor|].
  destruct (mode_of c) as [m|] eqn:M; [|discriminate].
  destruct (modes_of ls) as [ms'|]; [|discriminate]. injection E as <-.
  constructor; [now apply mode_letter|now apply IH].
Qed.
Lemma letter_not_colon c m : letter c m -> c <> ":"%char.
Proof. destruct 1; discriminate. Qed.
Lemma letters_clean ls ms : Forall2 letter ls ms -> ms <> [] -> clean ":" ls.
Proof.
  intros F N. split; [destruct F; congruence|]. clear N.
  induction F as [|c m ls ms H F IH]; [easy|]. intros [->|I]; [|now apply IH].
  now apply letter_not_colon in H.
Qed.
Lemma name_clean n : cli_name n -> clean ":" n.
Proof.
  intros [N F]. split; [exact N|]. intros I. rewrite forallb_forall in F. apply F in I. discriminate.
Qed.
Lemma wrong_letter ls c : In c ls -> (forall m, ~ letter c m) -> modes_of ls = None.
Proof.
  intros I H. destruct (modes_of ls) as [ms|] eqn:E; [|reflexivity]. exfalso.
  apply modes_letters in E. induction E as [|a m ls ms L E IH]; [easy|].
  destruct I as [->|I]; [now apply (H m)|now apply IH].
Qed.

(** ** Groups *)
Lemma group_ends gs : forall g pre i0 (cur : list impl),
  Forall (fun g => g <> []) gs ->
  group (pre ++ ends i0 ((cur ++ g) :: gs)) (i0 + length cur) (length pre) cur (g ++ concat gs)
  = Some ((cur ++ g) :: gs).
Proof.
  induction gs as [|g1 gs IH]; intros g; (induction g as [|m g IHg]; intros pre i0 cur F).
  - now rewrite app_nil_r.
  - cbn [app group]. rewrite nth_error_app2 by lia. rewrite Nat.sub_diag. cbn [ends nth_error].
    destruct (Z.eqb_spec (Z.of_nat (i0 + length cur)) (Z.of_nat (i0 + length (cur ++ m :: g)))) as [E|E].
    { rewrite app_length in E. cbn in E. lia. }
    specialize (IHg pre i0 (cur ++ [m]) F). rewrite app_length in IHg. cbn [length] in IHg.
    rewrite <- app_assoc in IHg. cbn [app] in IHg.
    replace (i0 + (length cur + 1)) with (S (i0 + length cur)) in IHg by lia. exact IHg.
  - inversion F as [|? ? N F']; subst. destruct g1 as [|m g1]; [congruence|].
    rewrite app_nil_r. cbn [concat app group]. rewrite nth_error_app2 by lia.
    rewrite Nat.sub_diag. cbn [ends nth_error]. rewrite Z.eqb_refl.
    specialize (IH g1 (pre ++ [Z.of_nat (i0 + length cur)]) (i0 + length cur) [m] F').
    rewrite app_length in IH. cbn [length app] in IH. rewrite <- app_assoc in IH. cbn [app] in IH.
    replace (length pre + 1) with (S (length pre)) in IH by lia.
    replace (i0 + length cur + 1) with (S (i0 + length cur)) in IH by lia.
    change (ends (i0 + length cur) ((m :: g1) :: gs)) with
      (Z.of_nat (i0 + length cur + length (m :: g1)) :: ends (i0 + length cur + length (m :: g1)) gs) in IH.
    cbn [length] in IH |- *. rewrite IH. reflexivity.
  - cbn [app group]. rewrite nth_error_app2 by lia. rewrite Nat.sub_diag. cbn [ends nth_error].
    destruct (Z.eqb_spec (Z.of_nat (i0 + length cur)) (Z.of_nat (i0 + length (cur ++ m :: g)))) as [E|E].
    { rewrite app_length in E. cbn in E. lia. }
    specialize (IHg pre i0 (cur ++ [m]) F). rewrite app_length in IHg. cbn [length] in IHg.
    rewrite <- app_assoc in IHg. cbn [app] in IHg.
    replace (i0 + (length cur + 1)) with (S (i0 + length cur)) in IHg by lia. exact IHg.
Qed.
Lemma group_inner gs last : forall g pre i0 (cur : list impl),
  Forall (fun g => g <> []) gs -> 2 <= length last ->
  group (pre ++ ends i0 ((cur ++ g) :: gs)) (i0 + length cur) (length pre) cur (g ++ concat (gs ++ [last]))
  = None.
Proof.
  induction gs as [|g1 gs IH]; intros g; (induction g as [|m g IHg]; intros pre i0 cur F L).
  - rewrite app_nil_r. destruct last as [|a [|b last]]; [cbn in L; lia|cbn in L; lia|].
    cbn [concat app group]. rewrite nth_error_app2 by lia.
    rewrite Nat.sub_diag. cbn [ends nth_error]. rewrite Z.eqb_refl.
    assert (N : nth_error (pre ++ [Z.of_nat (i0 + length cur)]) (S (length pre)) = None).
    { apply nth_error_None. rewrite app_length. cbn. lia. }
    cbn [nth_error] in N. rewrite N. reflexivity.
  - cbn [app group]. rewrite nth_error_app2 by lia. rewrite Nat.sub_diag. cbn [ends nth_error].
    destruct (Z.eqb_spec (Z.of_nat (i0 + length cur)) (Z.of_nat (i0 + length (cur ++ m :: g)))) as [E|E].
    { rewrite app_length in E. cbn in E. lia. }
    specialize (IHg pre i0 (cur ++ [m]) F L). rewrite app_length in IHg. cbn [length] in IHg.
    rewrite <- app_assoc in IHg. cbn [app] in IHg.
    replace (i0 + (length cur + 1)) with (S (i0 + length cur)) in IHg by lia. exact IHg.
  - inversion F as [|? ? N F']; subst. destruct g1 as [|m g1]; [congruence|].
    rewrite app_nil_r. cbn [concat app group]. rewrite nth_error_app2 by lia.
    rewrite Nat.sub_diag. cbn [ends nth_error]. rewrite Z.eqb_refl.
    specialize (IH g1 (pre ++ [Z.of_nat (i0 + length cur)]) (i0 + length cur) [m] F' L).
    rewrite app_length in IH. cbn [length app] in IH. rewrite <- app_assoc in IH. cbn [app] in IH.
    replace (length pre + 1) with (S (length pre)) in IH by lia.
    replace (i0 + length cur + 1) with (S (i0 + length cur)) in IH by lia.
    change (ends (i0 + length cur) ((m :: g1) :: gs)) with
      (Z.of_nat (i0 + length cur + length (m :: g1)) :: ends (i0 + length cur + length (m :: g1)) gs) in IH.
    cbn [length] in IH |- *. rewrite IH. reflexivity.
  - cbn [app group]. rewrite nth_error_app2 by lia. rewrite Nat.sub_diag. cbn [ends nth_error].
    destruct (Z.eqb_spec (Z.of_nat (i0 + length cur)) (Z.of_nat (i0 + length (cur ++ m :: g)))) as [E|E].
    { rewrite app_length in E. cbn in E. lia. }
    specialize (IHg pre i0 (cur ++ [m]) F L). rewrite app_length in IHg. cbn [length] in IHg.
    rewrite <- app_assoc in IHg. cbn [app] in IHg.
    replace (i0 + (length cur + 1)) with (S (i0 + length cur)) in IHg by lia. exact IHg.
Qed.
Lemma group_concat bs ms : forall i k cur ps, group bs i k cur ms = Some ps -> concat ps = cur ++ ms.
Proof.
  induction ms as [|m ms IH]; intros i k cur ps; cbn [group].
  - intros E. injection E as <-. reflexivity.
  - destruct (nth_error bs k) as [b|]; [|discriminate]. destruct (Z.eqb (Z.of_nat i) b).
    + destruct (group bs (S i) (S k) [m] ms) as [ps'|] eqn:G; [|discriminate].
      intros E. injection E as <-. cbn. now rewrite (IH _ _ _ _ G).
    + intros E. rewrite (IH _ _ _ _ E), <- app_assoc. reflexivity.
Qed.
Lemma concat_singles (ms : list impl) : concat (map (fun m => [m]) ms) = ms.
Proof. induction ms as [|m ms IH]; [reflexivity|]. cbn. now f_equal. Qed.
Lemma ends_ints (gs : list (list impl)) : forall from,
  (Z.of_nat (from + length (concat gs)) <= int_max)%Z -> ints (ends from gs).
Proof.
  induction gs as [|g gs IH]; intros from H; cbn [ends concat] in *; [constructor|]. rewrite app_length in H.
  constructor; [lia|]. apply IH. lia.
Qed.

(** ** The option -f *)
Section Format.
  Variables (n ls : text) (ms : list impl).
  Hypothesis Hn : cli_name n.
  Hypothesis Hl : Forall2 letter ls ms.
  Hypothesis Hm : ms <> [].
  Lemma format_two :
    format_option (colons [n; ls]) =
    Ok (n, {| cli_packs := map (fun m => [m]) ms; cli_ordering := map Z.of_nat (seq 0 (length ms)) |}).
  Proof.
    unfold format_option, colons. rewrite split_join.
    2: { repeat constructor; try apply (name_clean n Hn); apply (letters_clean ls ms Hl Hm). }
    cbn [length Nat.ltb Nat.leb]. rewrite (letters_modes ls ms Hl). unfold format_of.
    rewrite concat_singles, map_length, seq_length, Nat.eqb_refl. reflexivity.
  Qed.
  Lemma format_three o : ints o -> o <> [] ->
    format_option (colons [n; ls; commas o]) =
    if length ms =? length o
    then Ok (n, {| cli_packs := map (fun m => [m]) ms; cli_ordering := o |}) else Refused.
  Proof.
    intros I N. unfold format_option, colons. rewrite split_join.
    2: { constructor; [apply (name_clean n Hn)|]. constructor; [apply (letters_clean ls ms Hl Hm)|].
         constructor; [now apply commas_clean|constructor]. }
    cbn [length Nat.ltb Nat.leb]. rewrite (letters_modes ls ms Hl), numbers_commas by exact I.
    unfold format_of. rewrite concat_singles. now destruct (length ms =? length o).
  Qed.
  Lemma format_four o bs : ints o -> o <> [] -> ints bs -> bs <> [] ->
    format_option (colons [n; ls; commas o; commas bs]) =
    match group bs 0 0 [] ms with
    | None => Undefined
    | Some ps => if length ms =? length o
                 then Ok (n, {| cli_packs := ps; cli_ordering := o |}) else Refused
    end.
  Proof.
    intros I N Ib Nb. unfold format_option, colons. rewrite split_join.
    2: { constructor; [apply (name_clean n Hn)|]. constructor; [apply (letters_clean ls ms Hl Hm)|].
         constructor; [now apply commas_clean|]. constructor; [now apply commas_clean|constructor]. }
    cbn [length Nat.ltb Nat.leb]. rewrite (letters_modes ls ms Hl), !numbers_commas by assumption.
    destruct (group bs 0 0 [] ms) as [ps|] eqn:G; [|reflexivity].
    apply group_concat in G. cbn [app] in G. unfold format_of. rewrite G.
    now destruct (length ms =? length o).
  Qed.
End Format.

Lemma format_sound v n f : format_option v = Ok (n, f) ->
  exists k j ls r, v = repeat ":"%char k ++ n ++ ":"%char :: repeat ":"%char j ++ ls ++ r /\
    clean ":" n /\ clean ":" ls /\ (r = [] \/ exists r', r = ":"%char :: r') /\
    Forall2 letter ls (concat (cli_packs f)) /\ length (cli_ordering f) = length ls.
Proof.
  unfold format_option. destruct (split ":" [] v) as [|n' [|ls rest]] eqn:S; try discriminate.
  destruct (2 <? length rest); [discriminate|].
  destruct (modes_of ls) as [ms|] eqn:M; [|discriminate]. apply modes_letters in M.
  intros E.
  assert (K : exists ps o, concat ps = ms /\ format_of ps o = Ok f /\ n' = n).
  { destruct (match rest with [] => _ | modes :: _ => numbers modes end) as [o| | | |]; try discriminate.
    destruct rest as [|x [|y rest]].
    - destruct (format_of _ o) as [g| | | |] eqn:G; try discriminate. injection E as <- <-.
      exists (map (fun m => [m]) ms), o. now rewrite concat_singles.
    - destruct (format_of _ o) as [g| | | |] eqn:G; try discriminate. injection E as <- <-.
      exists (map (fun m => [m]) ms), o. now rewrite concat_singles.
    - destruct (numbers y) as [bs| | | |]; try discriminate.
      destruct (group bs 0 0 [] ms) as [ps|] eqn:P; [|discriminate].
      destruct (format_of _ o) as [g| | | |] eqn:G; try discriminate. injection E as <- <-.
      exists ps, o. split; [|now split]. now apply group_concat in P. }
  destruct K as (ps & o & C & G & ->). clear E. unfold format_of in G.
  destruct (length (concat ps) =? length o) eqn:L; [|discriminate]. injection G as <-.
  cbn [cli_packs cli_ordering]. apply Nat.eqb_eq in L.
  destruct (split_found ":" v [] n (ls :: rest) (fun H => H) S) as (k & r & V & Cn & [[_ R]|(r' & -> & R)]);
    [discriminate|].
  symmetry in R.
  destruct (split_found ":" r' [] ls rest (fun H => H) R) as (j & r2 & V2 & Cl & T).
  exists k, j, ls, r2. cbn [app] in V, V2. subst v r'.
  split; [reflexivity|]. split; [exact Cn|]. split; [exact Cl|].
  split; [destruct T as [[-> _]|(r' & -> & _)]; [now left|right; now exists r']|].
  rewrite C in *. split; [exact M|]. rewrite <- L. clear - M. induction M; cbn; congruence.
Qed.

(** ** The whole command line *)
Lemma text_eqb_refl s : text_eqb s s = true.
Proof. unfold text_eqb. now destruct (list_eq_dec ascii_dec s s). Qed.
Lemma find_app {A} n (l r : list (text * A)) :
  find n (l ++ r) = match find n l with Some a => Some a | None => find n r end.
Proof.
  induction l as [|[m a] l IH]; [reflexivity|]. cbn. now destruct (text_eqb n m).
Qed.
Lemma insert_keeps {A} n (a : A) x l : find n l = Some a -> find n (insert x l) = Some a.
Proof.
  intros H. unfold insert. destruct (find (fst x) l); [exact H|]. rewrite find_app, H. reflexivity.
Qed.
Lemma insert_new {A} n (a : A) l : find n l = None -> find n (insert (n, a) l) = Some a.
Proof.
  intros H. unfold insert. cbn [fst]. rewrite H, find_app, H. cbn. now rewrite text_eqb_refl.
Qed.
Lemma argument_keeps st a st' : argument st a = Ok st' ->
  (forall n f, find n (formats st) = Some f -> find n (formats st') = Some f) /\
  (forall n d, find n (dimensions st) = Some d -> find n (dimensions st') = Some d).
Proof.
  unfold argument. destruct (split "=" [] (one_dash a)) as [|nm rest]; [discriminate|].
  destruct (1 <? length rest); [discriminate|].
  set (v := match rest with [v] => v | _ => [] end). clearbody v.
  destruct (text_eqb nm _).
  - destruct (format_option v) as [x| | | |]; try discriminate. intros E. injection E as <-.
    cbn. split; [intros; now apply insert_keeps|auto].
  - destruct (text_eqb nm _).
    + destruct (dimension_option v) as [x| | | |]; try discriminate. intros E. injection E as <-.
      cbn. split; [auto|intros; now apply insert_keeps].
    + intros E. injection E as <-. now split.
Qed.
Lemma arguments_keep args : forall st st', arguments st args = Ok st' ->
  (forall n f, find n (formats st) = Some f -> find n (formats st') = Some f) /\
  (forall n d, find n (dimensions st) = Some d -> find n (dimensions st') = Some d).
Proof.
  induction args as [|a args IH]; cbn; intros st st' E; [injection E as <-; now split|].
  destruct (argument st a) as [s| | | |] eqn:A; try discriminate.
  destruct (argument_keeps st a s A) as [F D]. destruct (IH s st' E) as [F' D']. split; auto.
Qed.
Lemma arguments_app l : forall r st, arguments st (l ++ r) =
  match arguments st l with
  | Ok s => arguments s r
  | Report c => Report c | Refused => Refused | Thrown => Thrown | Undefined => Undefined
  end.
Proof.
  induction l as [|a l IH]; intros r st; [reflexivity|]. cbn. now destruct (argument st a).
Qed.
Lemma option_split (a b : ascii) (v : text) : a <> "="%char -> b <> "="%char -> clean "=" v ->
  split "=" [] ([a; b; "="%char] ++ v) = [[a; b]; v].
Proof.
  intros Ha Hb C. change ([a; b; "="%char] ++ v) with ([a; b] ++ "="%char :: v).
  rewrite split_sep; [now rewrite split_one|]. split; [discriminate|]. intros [H|[H|[]]]; congruence.
Qed.
Lemma argument_f st v x : clean "=" v -> format_option v = Ok x ->
  argument st (option_f v) = Ok {| formats := insert x (formats st); dimensions := dimensions st |}.
Proof.
  intros C E. unfold argument. change (one_dash (option_f v)) with (option_f v).
  unfold option_f. rewrite option_split by (discriminate || exact C).
  cbn [length Nat.ltb Nat.leb]. rewrite text_eqb_refl, E. reflexivity.
Qed.
Lemma argument_d st v x : clean "=" v -> dimension_option v = Ok x ->
  argument st (option_d v) = Ok {| formats := formats st; dimensions := insert x (dimensions st) |}.
Proof.
  intros C E. unfold argument. change (one_dash (option_d v)) with (option_d v).
  unfold option_d. rewrite option_split by (discriminate || exact C).
  cbn [length Nat.ltb Nat.leb]. change (text_eqb ["-"%char; "d"%char] ["-"%char; "f"%char]) with false.
  rewrite text_eqb_refl, E. reflexivity.
Qed.
