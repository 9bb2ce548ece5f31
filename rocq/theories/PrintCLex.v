(** Lemmas for C52: texts and their tokens. *)
From Coq Require Import String List Bool Ascii Arith Lia.
From Verif Require Import Parser PrintC PrintCSpec.
Import ListNotations.
Local Open Scope nat_scope.

Definition lexes (b : bool) (s : text) (ts : list ctoken) : Prop := forall n, length s < n -> clex n b s = Some ts.
Definition no_word (s : text) : Prop := match s with c :: _ => is_word c = false | [] => True end.
Definition follows (s : text) : Prop := match s with c :: _ => is_word c = false /\ c <> "."%char | [] => True end.
Lemma follows_word s : follows s -> no_word s.
Proof. destruct s; cbn; tauto. Qed.

Lemma lx_nil b : lexes b [] [].
Proof. intros [|n] H; [inversion H|reflexivity]. Qed.
Lemma lx_newline b s ts : lexes true s ts -> lexes b (ascii_of_nat 10 :: s) ts.
Proof. intros L [|n] H; [inversion H|]. cbn [clex]. change (is_newline (ascii_of_nat 10)) with true. cbn iota. apply L. cbn in H. lia. Qed.
Lemma lx_eol b s ts : lexes true s ts -> lexes b (eol ++ s) ts.
Proof. apply lx_newline. Qed.
Lemma lx_blank b s ts : lexes b s ts -> lexes b (" "%char :: s) ts.
Proof. intros L [|n] H; [inversion H|]. cbn [clex]. change (is_newline " ") with false. change (is_space " ") with true. cbn iota. apply L. cbn in H. lia. Qed.
Lemma lx_space b s ts : lexes b s ts -> lexes b (str " " ++ s) ts.
Proof. apply lx_blank. Qed.
Lemma lx_spaces b n s ts : lexes b s ts -> lexes b (spaces n ++ s) ts.
Proof. intros L. induction n as [|n IH]; auto. apply lx_blank, lx_blank. exact IH. Qed.

(** Characters *)
Definition ordinary (c : ascii) : bool := negb (is_newline c) && negb (is_space c) && negb (Ascii.eqb c "/") && negb (Ascii.eqb c "#").
Lemma letter_ordinary c : is_letter c = true -> ordinary c = true /\ is_word c = true.
Proof. destruct c as [[][][][][][][][]]; vm_compute; intros; try discriminate; auto. Qed.
Lemma digit_ordinary c : is_digit c = true -> ordinary c = true /\ is_word c = true /\ is_letter c = false.
Proof. destruct c as [[][][][][][][][]]; vm_compute; intros; try discriminate; auto. Qed.
Lemma ordinary_step n b c r : ordinary c = true -> clex (S n) b (c :: r) =
  if is_letter c then let '(w, t) := take_word (c :: r) in option_map (cons (KId w)) (clex n false t)
  else if is_digit c then let '(w, t) := take_num (c :: r) in option_map (cons (KNum w)) (clex n false t)
  else if Ascii.eqb c quote then match take_string r with Some (w, t) => option_map (cons (KStr w)) (clex n false t) | None => None end
  else match munch puncts (c :: r) with Some (p, t) => option_map (cons (KPunct p)) (clex n false t) | None => None end.
Proof.
  unfold ordinary. intros H. apply andb_true_iff in H. destruct H as [H H4]. apply andb_true_iff in H. destruct H as [H H3].
  apply andb_true_iff in H. destruct H as [H1 H2]. apply negb_true_iff in H1, H2, H3, H4.
  assert (E : forall p, strip ("/"%char :: p) (c :: r) = None).
  { intros p. cbn [strip]. rewrite Ascii.eqb_sym, H3. reflexivity. }
  cbn [clex]. rewrite H1, H2, H4, andb_false_r.
  change (str "/*") with ("/"%char :: str "*"). change (str "//") with ("/"%char :: str "/"). rewrite !E. reflexivity.
Qed.
Lemma take_word_app x s : forallb is_word x = true -> no_word s -> take_word (x ++ s) = (x, s).
Proof.
  intros H N. induction x as [|c x IH].
  - destruct s as [|c s]; [reflexivity|]. cbn in *. rewrite N. reflexivity.
  - cbn in *. apply andb_true_iff in H. destruct H as [-> H]. rewrite IH by auto. reflexivity.
Qed.
Definition wordlike (x : text) : Prop := match x with c :: _ => is_letter c = true | [] => False end /\ forallb is_word x = true.
Lemma lx_id b x s ts : wordlike x -> no_word s -> lexes false s ts -> lexes b (x ++ s) (KId x :: ts).
Proof.
  intros [H W] N L n Hn. destruct x as [|c x]; [destruct H|]. destruct n as [|n]; [inversion Hn|].
  destruct (letter_ordinary c H) as [O _].
  change ((c :: x) ++ s) with (c :: (x ++ s)). rewrite ordinary_step, H by auto.
  pose proof (take_word_app (c :: x) s W N) as E. change ((c :: x) ++ s) with (c :: (x ++ s)) in E. rewrite E.
  rewrite L; [reflexivity|]. cbn in Hn. rewrite app_length in Hn. lia.
Qed.
Lemma take_num_stop s : follows s -> take_num s = ([], s).
Proof.
  destruct s as [|c s]; [reflexivity|]. cbn [follows take_num]. intros [-> H].
  apply Ascii.eqb_neq in H. rewrite H. reflexivity.
Qed.
Lemma sign_not_exponent d : is_sign d = true -> is_exponent d = false.
Proof. destruct d as [[][][][][][][][]]; vm_compute; intros; try discriminate; auto. Qed.
Lemma take_num_app s : follows s -> forall n t, length t <= n -> take_num t = (t, []) -> is_exponent (last t "0"%char) = false -> take_num (t ++ s) = (t, s).
Proof.
  intros F. induction n as [|n IH]; intros t Hn T E.
  - destruct t; [|cbn in Hn; lia]. apply take_num_stop. auto.
  - destruct t as [|c t]; [apply take_num_stop; auto|]. cbn [take_num] in T.
    change ((c :: t) ++ s) with (c :: (t ++ s)). cbn [take_num].
    destruct (is_word c || Ascii.eqb c ".") eqn:W; [|discriminate T].
    destruct t as [|d t].
    + cbn [app]. cbn [last] in E. destruct s as [|d s]; [reflexivity|]. rewrite E. cbn [andb].
      rewrite (take_num_stop (d :: s) F). reflexivity.
    + change ((d :: t) ++ s) with (d :: (t ++ s)). destruct (is_exponent c && is_sign d) eqn:X.
      * destruct (take_num t) as [w r] eqn:Y. injection T as -> ->.
        rewrite IH; [cbn iota; rewrite ?X; reflexivity|cbn in Hn; lia|exact Y|]. destruct t as [|d' t]; [reflexivity|exact E].
      * destruct (take_num (d :: t)) as [w r] eqn:Y. injection T as -> ->.
        assert (Z : take_num ((d :: t) ++ s) = (d :: t, s)) by (apply IH; [cbn in Hn |- *; lia|exact Y|exact E]).
        change ((d :: t) ++ s) with (d :: (t ++ s)) in Z |- *. cbn iota. rewrite X, Z. reflexivity.
Qed.
Lemma lx_num b t s ts : numeral t -> follows s -> lexes false s ts -> lexes b (t ++ s) (KNum t :: ts).
Proof.
  intros (H & T & E) F L n Hn. destruct t as [|c t]; [destruct H|]. destruct n as [|n]; [inversion Hn|].
  destruct (digit_ordinary c H) as (O & _ & Lc). pose proof (take_num_app s F (length (c :: t)) (c :: t) (le_n _) T E) as X.
  change ((c :: t) ++ s) with (c :: (t ++ s)) in *. rewrite ordinary_step, Lc, H, X by auto.
  rewrite L; [reflexivity|]. cbn in Hn. rewrite app_length in Hn. lia.
Qed.
Lemma take_string_app w s : forallb (fun c => negb (Ascii.eqb c quote || is_newline c)) w = true -> take_string (w ++ quote :: s) = Some (w, s).
Proof.
  intros H. induction w as [|c w IH]; [cbn; reflexivity|]. cbn [forallb] in H. apply andb_true_iff in H. destruct H as [H W].
  apply negb_true_iff, orb_false_iff in H. destruct H as [H1 H2]. cbn [app take_string]. rewrite H1, H2, IH by auto. reflexivity.
Qed.
Lemma lx_str b w s ts : forallb (fun c => negb (Ascii.eqb c quote || is_newline c)) w = true -> lexes false s ts ->
  lexes b (quote :: w ++ quote :: s) (KStr w :: ts).
Proof.
  intros W L n Hn. destruct n as [|n]; [inversion Hn|]. rewrite ordinary_step by reflexivity.
  change (is_letter quote) with false. change (is_digit quote) with false. rewrite Ascii.eqb_refl. cbn iota.
  rewrite take_string_app by auto. rewrite L; [reflexivity|]. cbn in Hn. rewrite app_length in Hn. cbn in Hn. lia.
Qed.
(** Punctuators *)
Definition plain (c : ascii) : bool := negb (is_newline c) && negb (is_space c) && negb (Ascii.eqb c "#") && negb (is_letter c) && negb (is_digit c) && negb (Ascii.eqb c quote).
Lemma lx_punct b p s ts : match p with c :: _ => plain c = true | [] => False end ->
  strip (str "/*") (p ++ s) = None -> strip (str "//") (p ++ s) = None -> munch puncts (p ++ s) = Some (p, s) ->
  lexes false s ts -> lexes b (p ++ s) (KPunct p :: ts).
Proof.
  intros P C1 C2 M L n Hn. destruct p as [|c p]; [destruct P|]. destruct n as [|n]; [inversion Hn|].
  unfold plain in P. rewrite !andb_true_iff in P. destruct P as (((((P1 & P2) & P3) & P4) & P5) & P6).
  apply negb_true_iff in P1, P2, P3, P4, P5, P6. change ((c :: p) ++ s) with (c :: (p ++ s)) in *.
  cbn [clex]. rewrite P1, P2, C1, C2, P3, andb_false_r, P4, P5, P6, M. cbn iota.
  rewrite L; [reflexivity|]. cbn in Hn. rewrite app_length in Hn. lia.
Qed.
Definition solid : list text := map str ["("; ")"; "["; "]"; "{"; "}"; ","; ";"; ":"]%string.
Lemma lx_solid b p s ts : In p solid -> lexes false s ts -> lexes b (p ++ s) (KPunct p :: ts).
Proof.
  intros H L. apply lx_punct; auto; cbn in H; repeat (destruct H as [<-|H]; [reflexivity|]); destruct H.
Qed.
Lemma lx_op b o s ts : lexes false s ts -> lexes b (op_text o ++ str " " ++ s) (KPunct (op_text o) :: ts).
Proof. intros L. apply lx_punct; [destruct o; reflexivity..|]. apply lx_blank. exact L. Qed.
Lemma lx_assign b o s ts : lexes false s ts -> assigns o -> lexes b (assign_text o ++ str " " ++ s) (KPunct (assign_text o) :: ts).
Proof.
  intros L A. destruct o as [o|].
  - cbn in A. apply lx_punct; [repeat (destruct A as [<-|A]; [reflexivity|]); destruct A..|]. apply lx_blank. exact L.
  - apply lx_punct; try reflexivity. apply lx_blank. exact L.
Qed.
Lemma lx_incr b c s ts : In c (str ";)") -> lexes false (c :: s) ts -> lexes b (str "++" ++ c :: s) (KPunct (str "++") :: ts).
Proof. intros H L. apply lx_punct; auto; cbn in H; repeat (destruct H as [<-|H]; [reflexivity|]); destruct H. Qed.
Lemma lx_star b c s ts : In c (str ") ") -> lexes false (c :: s) ts -> lexes b (str "*" ++ c :: s) (KPunct (str "*") :: ts).
Proof. intros H L. apply lx_punct; auto; cbn in H; repeat (destruct H as [<-|H]; [reflexivity|]); destruct H. Qed.
(** The first character of an expression *)
Definition opens (c : ascii) : bool := is_letter c || is_digit c || existsb (Ascii.eqb c) (str "(-!").
Definition begins (s : text) : Prop := match s with c :: _ => opens c = true | [] => False end.
Definition minus (s : text) : bool := match s with c :: _ => Ascii.eqb c "-" | [] => false end.
Lemma lx_minus b s ts : begins s -> minus s = false -> lexes false s ts -> lexes b (str "-" ++ s) (KPunct (str "-") :: ts).
Proof.
  destruct s as [|c s]; [intros []|]. cbn [begins minus]. intros O M L.
  apply lx_punct; auto; destruct c as [[][][][][][][][]]; first [discriminate O|discriminate M|reflexivity].
Qed.
Lemma lx_not b s ts : begins s -> lexes false s ts -> lexes b (str "!" ++ s) (KPunct (str "!") :: ts).
Proof.
  destruct s as [|c s]; [intros []|]. cbn [begins]. intros O L.
  apply lx_punct; auto; destruct c as [[][][][][][][][]]; first [discriminate O|reflexivity].
Qed.
(** Comments and pragmas *)
Lemma skip_comment_app t s : has_end t = false -> skip_comment (t ++ " "%char :: "*"%char :: "/"%char :: s) = Some s.
Proof.
  induction t as [|c t IH]; intros H; [reflexivity|]. cbn [app skip_comment]. cbn [has_end] in H.
  destruct (strip (str "*/") (c :: t)) eqn:E; [discriminate|].
  assert (X : strip (str "*/") (c :: t ++ " "%char :: "*"%char :: "/"%char :: s) = None).
  { change (str "*/") with ["*"%char; "/"%char] in *. cbn [strip] in *. destruct (Ascii.eqb "*" c); [|reflexivity].
    destruct t as [|d t]; [reflexivity|]. cbn [app]. destruct (Ascii.eqb "/" d); [discriminate|reflexivity]. }
  rewrite X. apply IH. exact H.
Qed.
Lemma skip_comment_end s : skip_comment ("*"%char :: "/"%char :: s) = Some s.
Proof. reflexivity. Qed.
Lemma has_end_blank t : has_end t = false -> has_end (" "%char :: t) = false.
Proof. intros H. exact H. Qed.
Lemma lx_comment b t s ts : has_end t = false -> lexes b s ts -> lexes b (str "/* " ++ t ++ str " */" ++ s) ts.
Proof.
  intros H L n Hn. destruct n as [|n]; [inversion Hn|].
  change (str "/* " ++ t ++ str " */" ++ s) with ("/"%char :: "*"%char :: " "%char :: (t ++ " "%char :: "*"%char :: "/"%char :: s)) in *.
  cbn [clex]. change (is_newline "/") with false. change (is_space "/") with false. cbn iota.
  change (strip (str "/*") ("/"%char :: "*"%char :: " "%char :: (t ++ " "%char :: "*"%char :: "/"%char :: s))) with (Some (" "%char :: (t ++ " "%char :: "*"%char :: "/"%char :: s))).
  pose proof (skip_comment_app (" "%char :: t) s (has_end_blank t H)) as E. cbn [app] in E. cbv iota. rewrite E.
  apply L. cbn [length] in Hn. rewrite app_length in Hn. cbn [length] in Hn. lia.
Qed.
Lemma skip_line_app l s : forallb (fun c => negb (is_newline c)) l = true -> skip_line (l ++ eol ++ s) = eol ++ s.
Proof.
  intros H. induction l as [|c l IH]; [reflexivity|]. cbn [forallb] in H. apply andb_true_iff in H. destruct H as [H1 H].
  apply negb_true_iff in H1. cbn [app skip_line]. rewrite H1. apply IH. exact H.
Qed.
Lemma lx_pragma l s ts : pragma_line l -> lexes true s ts -> lexes true (l ++ eol ++ s) ts.
Proof.
  intros [H W] L n Hn. destruct l as [|c l]; [destruct H|]. subst c. destruct n as [|n]; [inversion Hn|].
  cbn [forallb] in W. apply andb_true_iff in W. destruct W as [_ W].
  change (("#"%char :: l) ++ eol ++ s) with ("#"%char :: (l ++ eol ++ s)) in *. cbn [clex].
  change (is_newline "#") with false. change (is_space "#") with false. cbn iota.
  change (strip (str "/*") ("#"%char :: l ++ eol ++ s)) with (@None text). change (strip (str "//") ("#"%char :: l ++ eol ++ s)) with (@None text). cbn iota.
  change (true && Ascii.eqb "#" "#") with true. cbn iota. rewrite skip_line_app by auto.
  apply (lx_eol true s ts L). cbn [length] in Hn. rewrite app_length in Hn. lia.
Qed.
Lemma lx_pragmas indent ls s ts : Forall pragma_line ls -> lexes true s ts -> lexes true (pragma_lines indent ls ++ s) ts.
Proof.
  intros F L. induction F as [|l ls P F IH]; auto. unfold pragma_lines in *. cbn [map concat].
  rewrite <- !app_assoc. apply lx_spaces, lx_pragma; auto.
Qed.
(** Types *)
Lemma type_words_wordlike : Forall wordlike type_words.
Proof. repeat constructor; vm_compute; reflexivity. Qed.
Lemma lx_type b ty s ts : is_type ty -> no_word s -> lexes false s ts -> lexes b (type_text ty ++ s) (map KId ty ++ ts).
Proof.
  intros [N I] W L. pose proof type_words_wordlike as F. rewrite Forall_forall in F. unfold type_text.
  revert b I N. induction ty as [|x ty IH]; intros b I N; [congruence|].
  assert (Wx : wordlike x) by (apply F, I; left; reflexivity).
  destruct ty as [|y ty]; [cbn; apply lx_id; auto|].
  change (join (str " ") (x :: y :: ty)) with (x ++ str " " ++ join (str " ") (y :: ty)). rewrite <- !app_assoc.
  cbn [map app]. apply lx_id; [auto|reflexivity|]. apply lx_space. apply IH; [intros z Hz; apply I; right; exact Hz|discriminate].
Qed.
Lemma name_wordlike x : name x -> wordlike x.
Proof. intros (A & B & _). split; auto. Qed.
