(** The lexer returns the tokens that were written, and the printed form of an
    expression is derived by the grammar. *)
From Coq Require Import List ZArith Lia Bool Ascii.
From Verif Require Import Parser ParserSpec ParserProofs.
Import ListNotations.
Local Open Scope nat_scope.

(** The lexer's state before the text [s]. *)
Definition tok (s : text) (t : token) (s' : text) : Prop :=
  get_token (fst (next s)) (snd (next s)) = (t, fst (next s'), snd (next s')).
Inductive lexes : text -> list token -> Prop :=
| L_eot : forall s s', tok s TEot s' -> lexes s [TEot]
| L_token : forall s t s' ts, tok s t s' -> t <> TEot -> t <> TDiverge -> length s' < length s -> lexes s' ts -> lexes s (t :: ts).
Lemma lexes_from s ts : lexes s ts -> forall n, length s < n -> lex_from n (fst (next s)) (snd (next s)) = ts.
Proof.
  induction 1 as [s s' T|s t s' ts T N1 N2 L X IH]; intros [|n] Ln; try lia; cbn [lex_from]; rewrite T; auto.
  rewrite IH by lia. destruct t; congruence.
Qed.
Lemma lexes_lex s ts : lexes (" "%char :: s) ts -> lex s = ts.
Proof. intros L. apply (lexes_from _ _ L). cbn [length]. lia. Qed.

Lemma byte c : code c < 256.
Proof. unfold code. apply nat_ascii_bounded. Qed.
Lemma in_between lo hi c : between lo hi c = true -> lo <= code c <= hi.
Proof. unfold between. intros H. apply andb_true_iff in H as [H1 H2]. apply Nat.leb_le in H1, H2. lia. Qed.
Lemma space_code c : is_space c = true -> code c <> 255.
Proof.
  unfold is_space. intros H. apply orb_true_iff in H as [H|H]; [apply in_between in H; lia|apply Nat.eqb_eq in H; lia].
Qed.
Lemma alpha_code c : is_alpha c = true -> code c <> 255 /\ 65 <= code c.
Proof. unfold is_alpha. intros H. apply orb_true_iff in H as [H|H]; apply in_between in H; lia. Qed.
Lemma digit_code c : is_digit c = true -> 48 <= code c <= 57.
Proof. apply in_between. Qed.
Lemma alnum_code c : is_alnum c = true -> code c <> 255.
Proof. unfold is_alnum. intros H. apply orb_true_iff in H as [H|H]; [apply alpha_code in H|apply digit_code in H]; lia. Qed.
Lemma next_cons c s : code c <> 255 -> next (c :: s) = (Some c, s).
Proof. intros N. cbn. destruct (Nat.eqb_spec (code c) 255); congruence. Qed.
Lemma alpha_not_space c : is_alpha c = true -> is_space c = false.
Proof.
  intros H. apply alpha_code in H. destruct (is_space c) eqn:E; auto. unfold is_space in E.
  apply orb_true_iff in E as [E|E]; [apply in_between in E|apply Nat.eqb_eq in E]; lia.
Qed.
Lemma digit_not_space c : is_digit c = true -> is_space c = false.
Proof.
  intros H. apply digit_code in H. destruct (is_space c) eqn:E; auto. unfold is_space in E.
  apply orb_true_iff in E as [E|E]; [apply in_between in E|apply Nat.eqb_eq in E]; lia.
Qed.
Lemma digit_not_alpha c : is_digit c = true -> is_alpha c = false.
Proof. intros H. apply digit_code in H. destruct (is_alpha c) eqn:E; auto. apply alpha_code in E. lia. Qed.

Lemma skip_none r : skip_space None r = (None, r).
Proof. destruct r; reflexivity. Qed.
Lemma skip_next c s : is_space c = true -> skip_space (Some c) s = skip_space (fst (next s)) (snd (next s)).
Proof.
  intros H. destruct s as [|d s]; cbn [skip_space next fst snd]; rewrite H; [rewrite ?skip_none; reflexivity|].
  destruct (code d =? 255); cbn [fst snd]; rewrite ?skip_none; reflexivity.
Qed.
Lemma skip_stop c s : is_space c = false -> skip_space (Some c) s = (Some c, s).
Proof. intros H. destruct s; cbn [skip_space]; rewrite H; reflexivity. Qed.
Lemma tok_space c s t s' : is_space c = true -> tok s t s' -> tok (c :: s) t s'.
Proof.
  unfold tok, get_token. intros H. rewrite next_cons by (apply space_code; auto). cbn [fst snd].
  rewrite skip_next by auto. auto.
Qed.
Lemma tok_end : tok [] TEot [].
Proof. reflexivity. Qed.

Lemma take_ok p id s r : (forall c, p c = true -> code c <> 255) -> forallb p s = true ->
  match r with c :: _ => p c = false | [] => True end -> take p id (s ++ r) = (id ++ s, fst (next r), snd (next r)).
Proof.
  intros P. revert id. induction s as [|c s IH]; cbn [forallb app take]; intros id A B.
  - rewrite app_nil_r. destruct r as [|c r]; cbn [take next fst snd]; auto. destruct (code c =? 255); auto. rewrite B. auto.
  - apply andb_true_iff in A as [A1 A2]. destruct (Nat.eqb_spec (code c) 255) as [E|E]; [apply P in A1; congruence|].
    rewrite A1, IH by auto. rewrite <- app_assoc. reflexivity.
Qed.
(** The text after a word or a number does not continue it. *)
Definition stops (r : text) : Prop := match r with c :: _ => is_alnum c = false /\ c <> "."%char | [] => True end.
Lemma tok_ident s r : name s -> stops r -> tok (s ++ r) (TIdent s) r.
Proof.
  intros (H & N1 & N2) St. destruct s as [|c s]; [contradiction|]. destruct H as (A & B).
  unfold tok, get_token. cbn [app]. rewrite next_cons by (apply alpha_code in A; lia). cbn [fst snd].
  rewrite skip_stop by (apply alpha_not_space; auto). rewrite A.
  rewrite take_ok by (try apply alnum_code; auto; destruct r; auto; apply St). cbn [app].
  unfold text_eqb. destruct (list_eq_dec ascii_dec (c :: s) str_complex); [congruence|].
  destruct (list_eq_dec ascii_dec (c :: s) str_Complex); [congruence|]. reflexivity.
Qed.
Lemma digit_255 c : is_digit c = true -> code c <> 255.
Proof. intros H. apply digit_code in H. lia. Qed.
Lemma stops_digit r : stops r -> match r with c :: _ => is_digit c = false | [] => True end.
Proof. destruct r; auto. intros (H & _). unfold is_alnum in H. apply orb_false_iff in H. tauto. Qed.
Lemma tok_int s r : number s -> stops r -> tok (s ++ r) (TInt s) r.
Proof.
  intros (N & A) St. destruct s as [|c s]; [congruence|]. cbn [forallb] in A. apply andb_true_iff in A as [A1 A2].
  unfold tok, get_token. cbn [app]. rewrite next_cons by (apply digit_255; auto). cbn [fst snd].
  rewrite skip_stop by (apply digit_not_space; auto). rewrite digit_not_alpha, A1 by auto.
  rewrite take_ok; [|apply digit_255|auto|apply stops_digit; auto]. cbn [app].
  destruct r as [|d r]; cbn [next fst snd]; auto. destruct (Nat.eqb_spec (code d) 255); auto.
  destruct St as (S1 & S2). destruct (Ascii.eqb_spec d "."); [congruence|].
  destruct (Ascii.eqb_spec d "u"); [subst; cbv in S1; discriminate|]. reflexivity.
Qed.
Lemma tok_uint s r : number s -> tok (s ++ "u"%char :: r) (TUint s) r.
Proof.
  intros (N & A). destruct s as [|c s]; [congruence|]. cbn [forallb] in A. apply andb_true_iff in A as [A1 A2].
  unfold tok, get_token. cbn [app]. rewrite next_cons by (apply digit_255; auto). cbn [fst snd].
  rewrite skip_stop by (apply digit_not_space; auto). rewrite digit_not_alpha, A1 by auto.
  rewrite take_ok; [|apply digit_255|auto|reflexivity]. cbn [app next fst snd]. cbn. reflexivity.
Qed.
Lemma tok_float s f r : number s -> forallb is_digit f = true -> stops r -> tok (s ++ "."%char :: f ++ r) (TFloat (s ++ "."%char :: f)) r.
Proof.
  intros (N & A) B St. destruct s as [|c s]; [congruence|]. cbn [forallb] in A. apply andb_true_iff in A as [A1 A2].
  unfold tok, get_token. cbn [app]. rewrite next_cons by (apply digit_255; auto). cbn [fst snd].
  rewrite skip_stop by (apply digit_not_space; auto). rewrite digit_not_alpha, A1 by auto.
  rewrite take_ok; [|apply digit_255|auto|reflexivity].
  change (fst (next ("."%char :: f ++ r))) with (Some "."%char). change (snd (next ("."%char :: f ++ r))) with (f ++ r).
  cbv beta iota. rewrite (Ascii.eqb_refl "."). rewrite take_ok; [|apply digit_255|auto|apply stops_digit; auto].
  cbn [app]. rewrite <- app_assoc. reflexivity.
Qed.
Lemma tok_punct c r : is_space c = false -> is_alpha c = false -> is_digit c = false -> code c <> 255 ->
  tok (c :: r) (punctuation c) r.
Proof.
  intros A B C D. unfold tok, get_token. rewrite next_cons by auto. cbn [fst snd]. rewrite skip_stop, B, C by auto. reflexivity.
Qed.
Lemma tok_written t s r : written t s -> stops r -> tok (s ++ r) t r /\ s <> [] /\ t <> TEot /\ t <> TDiverge.
Proof.
  intros W St. destruct W as [s N|s N|s N|s f N D| | | | | | | | | | |]; try (split; [apply tok_punct; (reflexivity || discriminate)|repeat split; discriminate]).
  - split; [apply tok_ident; auto|]. repeat split; try discriminate. intros ->. destruct N as [[] _].
  - split; [apply tok_int; auto|]. repeat split; try discriminate. apply N.
  - rewrite <- app_assoc. split; [apply tok_uint; auto|]. repeat split; try discriminate. destruct s; discriminate.
  - rewrite <- app_assoc. split; [apply tok_float; auto|]. repeat split; try discriminate. destruct s; discriminate.
Qed.
Lemma lexes_space w s ts : forallb is_space w = true -> lexes s ts -> lexes (w ++ s) ts.
Proof.
  induction w as [|c w IH]; cbn [forallb app]; auto. intros H L. apply andb_true_iff in H as [H1 H2]. specialize (IH H2 L).
  destruct IH as [u u' T|u t u' ts T N1 N2 Le X].
  - eapply L_eot. apply tok_space; eauto.
  - eapply L_token; eauto. { apply tok_space; eauto. } cbn. lia.
Qed.
Lemma lexes_token t s r ts : written t s -> stops r -> lexes r ts -> lexes (s ++ r) (t :: ts).
Proof.
  intros W St L. destruct (tok_written t s r W St) as (T & N & N1 & N2). eapply L_token; eauto.
  rewrite app_length. destruct s; [congruence|cbn; lia].
Qed.
Lemma space_stops c r : is_space c = true -> stops (c :: r).
Proof.
  intros H. cbn. destruct (is_alnum c) eqn:E.
  - unfold is_alnum in E. apply orb_true_iff in E as [E|E]; [apply alpha_not_space in E|apply digit_not_space in E]; congruence.
  - split; auto. intros ->. discriminate H.
Qed.
Lemma spaced_lexes ts s : spaced ts s -> lexes s (ts ++ [TEot]).
Proof.
  induction 1 as [w W|w t s ts r W Wr S IH R]; cbn [app].
  - rewrite <- (app_nil_r w). apply lexes_space; auto. eapply L_eot. apply tok_end.
  - apply lexes_space; auto. apply lexes_token; auto. destruct R as [->|(c & r' & -> & H)]; [exact I|apply space_stops; auto].
Qed.
Lemma lex_spaced ts s : spaced ts s -> lex s = ts ++ [TEot].
Proof. intros S. apply lexes_lex. apply (lexes_space [" "%char]); auto. apply spaced_lexes; auto. Qed.

(** *** Printed expressions. *)
Fixpoint var_tokens (vs : list text) : list token :=
  match vs with [] => [] | [v] => [TIdent v] | v :: vs => TIdent v :: TComma :: var_tokens vs end.
Definition wrap (b : bool) (ts : list token) : list token := if b then TLparen :: ts ++ [TRparen] else ts.
Definition access_tokens (s : text) (vs : list text) : list token :=
  TIdent s :: match vs with [] => [] | _ => wrap true (var_tokens vs) end.
Fixpoint tokens (parent : nat) (e : iexpr) : list token :=
  match e with
  | IAccess s vs => access_tokens s vs
  | IInt z | IUint z => [TInt (print_Z z)]
  | IFloat s | IComplex s => [TFloat s]
  | INeg a => TSub :: wrap (parent <? prec_neg) (tokens prec_neg a)
  | IAdd a b => wrap (parent <? prec_add) (tokens prec_add a ++ TAdd :: tokens prec_add b)
  | ISub a b => wrap (parent <? prec_add) (tokens prec_add a ++ TSub :: tokens prec_add b)
  | IMul a b => wrap (parent <? prec_mul) (tokens prec_mul a ++ TMul :: tokens prec_mul b)
  | IDiv a b => wrap (parent <? prec_mul) (tokens prec_mul a ++ TDiv :: tokens prec_mul b)
  end.
Ltac stop := first [exact I | split; [reflexivity|discriminate]].
Lemma lexes_char c r ts : written (punctuation c) [c] -> is_space c = false -> is_alpha c = false -> is_digit c = false -> code c <> 255 ->
  lexes r ts -> lexes (c :: r) (punctuation c :: ts).
Proof.
  intros W A B C D L. eapply L_token; [apply tok_punct; auto| | |cbn; lia|exact L]; intros E; rewrite E in W; inversion W.
Qed.
Ltac char := apply lexes_char; [constructor|reflexivity|reflexivity|reflexivity|discriminate|].
Lemma lexes_vars vs : vs <> [] -> Forall name vs -> forall r ts, stops r -> lexes r ts -> lexes (join [","%char] vs ++ r) (var_tokens vs ++ ts).
Proof.
  induction vs as [|v vs IH]; [congruence|]. intros _ F r ts St L. inversion F; subst. destruct vs as [|u vs].
  - cbn [join var_tokens app]. apply lexes_token; auto. constructor; auto.
  - change (join [","%char] (v :: u :: vs)) with (v ++ ","%char :: join [","%char] (u :: vs)).
    change (var_tokens (v :: u :: vs)) with (TIdent v :: TComma :: var_tokens (u :: vs)).
    rewrite <- app_assoc. cbn [app]. apply lexes_token; [constructor; auto|stop|]. char. apply IH; auto. discriminate.
Qed.
Lemma lexes_access s vs : name s -> Forall name vs -> forall r ts, stops r -> match r with c :: _ => c <> "("%char | [] => True end ->
  lexes r ts -> lexes (print_access s vs ++ r) (access_tokens s vs ++ ts).
Proof.
  intros N F r ts St P L. unfold print_access, access_tokens. destruct vs as [|v vs].
  - rewrite app_nil_r. cbn [app]. apply lexes_token; auto. constructor; auto.
  - rewrite <- app_assoc. cbn [app parens wrap]. apply lexes_token; [constructor; auto|stop|]. char.
    rewrite <- !app_assoc. apply lexes_vars; auto; [discriminate|stop|]. cbn [app]. char. auto.
Qed.
(** What follows an operand. *)
Definition after (r : text) : Prop := match r with c :: _ => c = " "%char \/ c = ")"%char | [] => True end.
Lemma after_stops r : after r -> stops r.
Proof. destruct r; auto. intros [->| ->]; stop. Qed.
Lemma digits_number n z : (0 <= z)%Z -> number (digits (S n) z).
Proof.
  intros Z0. split.
  - cbn. destruct (z <? 10)%Z; [discriminate|]. destruct (digits n (z / 10)); discriminate.
  - revert z Z0. induction (S n) as [|m IH]; intros z Z0; cbn [digits forallb]; auto. rewrite forallb_app. apply andb_true_iff. split.
    + destruct (z <? 10)%Z; auto. apply IH. apply Z.div_pos; lia.
    + cbn [forallb]. rewrite andb_true_r. pose proof (Z.mod_pos_bound z 10 ltac:(lia)) as B.
      unfold is_digit, between, code. rewrite nat_ascii_embedding by lia. apply andb_true_iff. split; apply Nat.leb_le; lia.
Qed.
Lemma digits_value : forall n z, (0 <= z < 2 ^ Z.of_nat n)%Z -> 0 < n -> decimal (digits n z) = z.
Proof.
  intros n z Z0 N. unfold decimal. revert z Z0 N. induction n as [|n IH]; intros z Z0 N; [lia|]. cbn [digits].
  rewrite fold_left_app. cbn [fold_left]. pose proof (Z.mod_pos_bound z 10 ltac:(lia)) as B.
  assert (E : digit (ascii_of_nat (48 + Z.to_nat (z mod 10))) = (z mod 10)%Z).
  { unfold digit, code. rewrite nat_ascii_embedding by lia. lia. }
  rewrite E. pose proof (Z.div_mod z 10 ltac:(lia)) as D.
  destruct (Z.ltb_spec z 10).
  - cbn. rewrite Z.mod_small by lia. lia.
  - assert (N2 : 0 < n). { destruct n; [|lia]. cbn in Z0. lia. }
    rewrite IH; [symmetry; exact D| |exact N2]. split; [apply Z.div_pos; lia|].
    replace (2 ^ Z.of_nat (S n))%Z with (2 * 2 ^ Z.of_nat n)%Z in Z0 by (rewrite Nat2Z.inj_succ, Z.pow_succ_r by lia; reflexivity).
    apply Z.div_lt_upper_bound; lia.
Qed.
Lemma print_nonneg z : (0 <= z)%Z -> number (print_Z z) /\ decimal (print_Z z) = z.
Proof.
  intros Z0. unfold print_Z. destruct (Z.ltb_spec z 0); [lia|]. split; [apply digits_number; auto|].
  apply digits_value; [|lia]. split; auto. rewrite Nat2Z.inj_succ, Z2Nat.id by apply Z.log2_nonneg.
  destruct (Z.eq_dec z 0) as [->|]; [reflexivity|]. apply Z.log2_spec. lia.
Qed.
Lemma lexes_wrap b s ts : (forall r us, after r -> lexes r us -> lexes (s ++ r) (ts ++ us)) ->
  forall r us, after r -> lexes r us -> lexes (parens b s ++ r) (wrap b ts ++ us).
Proof.
  intros H r us A L. destruct b; cbn [parens wrap]; auto. cbn [app]. rewrite <- !app_assoc. char. apply H; [right; reflexivity|].
  cbn [app]. char. auto.
Qed.
Lemma lexes_print : forall e, legible e -> forall parent r us, after r -> lexes r us -> lexes (print parent e ++ r) (tokens parent e ++ us).
Proof.
  assert (Bin : forall a b o p parent, (forall r us, after r -> lexes r us -> lexes (print p a ++ r) (tokens p a ++ us)) ->
            (forall r us, after r -> lexes r us -> lexes (print p b ++ r) (tokens p b ++ us)) ->
            written (punctuation o) [o] -> is_space o = false -> is_alpha o = false -> is_digit o = false -> code o <> 255 ->
            forall r us, after r -> lexes r us ->
            lexes (parens (parent <? p) (print p a ++ [" "%char; o; " "%char] ++ print p b) ++ r)
                  (wrap (parent <? p) (tokens p a ++ punctuation o :: tokens p b) ++ us)).
  { intros a b o p parent Ha Hb W S1 S2 S3 S4. apply lexes_wrap. intros r us A L. rewrite <- !app_assoc. apply Ha; [left; reflexivity|].
    cbn [app]. apply (lexes_space [" "%char]); auto. apply lexes_char; auto. apply (lexes_space [" "%char]); auto. }
  induction e as [s vs|z|z|s|s|a IHa|a IHa b IHb|a IHa b IHb|a IHa b IHb|a IHa b IHb]; intros Lg parent r us A L; cbn [legible] in Lg; try contradiction;
    cbn [print tokens].
  - destruct Lg. apply lexes_access; auto; [apply after_stops; auto|]. destruct r; auto. destruct A as [->| ->]; discriminate.
  - cbn [app]. apply lexes_token; auto; [|apply after_stops; auto]. constructor. apply print_nonneg. lia.
  - destruct Lg as (x & f & -> & N & F). cbn [app]. apply lexes_token; auto; [|apply after_stops; auto]. constructor; auto.
  - cbn [app]. char. apply lexes_wrap; auto.
  - destruct Lg. apply (Bin a b "+"%char); auto; constructor || discriminate.
  - destruct Lg. apply (Bin a b "-"%char); auto; constructor || discriminate.
  - destruct Lg. apply (Bin a b "*"%char); auto; constructor || discriminate.
  - destruct Lg. apply (Bin a b "/"%char); auto; constructor || discriminate.
Qed.
Lemma lex_print a : name (lhs_name a) -> Forall name (lhs_vars a) -> legible (rhs a) ->
  lex (print_assignment a) = access_tokens (lhs_name a) (lhs_vars a) ++
    (if accumulate a then [TAdd; TEq] else [TEq]) ++ tokens prec_top (rhs a) ++ [TEot].
Proof.
  intros N F Lg. apply lexes_lex. apply (lexes_space [" "%char]); auto. unfold print_assignment.
  assert (E : lexes (print prec_top (rhs a)) (tokens prec_top (rhs a) ++ [TEot])).
  { rewrite <- (app_nil_r (print _ _)). apply lexes_print; auto; [exact I|]. eapply L_eot. apply tok_end. }
  destruct (accumulate a); apply lexes_access; auto; try stop; try discriminate; cbn [app];
    (apply (lexes_space [" "%char]); auto; char; try char; apply (lexes_space [" "%char]); auto).
Qed.

(** *** The printed form is derived by the grammar. *)
Lemma var_tokens_ok vs : vs <> [] -> d_vars (var_tokens vs) vs.
Proof.
  induction vs as [|v vs IH]; [congruence|]. intros _. destruct vs as [|u vs]; [constructor|].
  change (var_tokens (v :: u :: vs)) with (TIdent v :: TComma :: var_tokens (u :: vs)). constructor. apply IH. discriminate.
Qed.
Lemma access_tokens_ok s vs : d_access (access_tokens s vs) s vs.
Proof. unfold access_tokens. destruct vs as [|v vs]; [constructor|]. cbn [wrap]. constructor. apply var_tokens_ok. discriminate. Qed.
Lemma int_ok z : (0 <= z < 2 ^ 63)%Z -> int_value (print_Z z) = z.
Proof. intros Z0. unfold int_value. destruct (print_nonneg z ltac:(lia)) as (_ & ->). lia. Qed.
Lemma tokens_ok : forall e, legible e -> to_the_left e ->
  d_factor (tokens prec_neg e) e /\ d_term (tokens prec_mul e) e /\ d_expr (tokens prec_add e) e /\ d_expr (tokens prec_top e) e /\
  (~ product e -> d_factor (tokens prec_mul e) e) /\ (~ sum e -> d_term (tokens prec_add e) e).
Proof.
  assert (At : forall ts e, d_factor ts e -> d_factor ts e /\ d_term ts e /\ d_expr ts e /\ d_expr ts e /\
            (~ product e -> d_factor ts e) /\ (~ sum e -> d_term ts e)) by (intros; repeat split; intros; auto 6 using D_paren, D_factor, D_term).
  assert (Su : forall ts e, d_expr ts e -> sum e -> d_factor (TLparen :: ts ++ [TRparen]) e /\ d_term (TLparen :: ts ++ [TRparen]) e /\ d_expr ts e /\ d_expr ts e /\
            (~ product e -> d_factor (TLparen :: ts ++ [TRparen]) e) /\ (~ sum e -> d_term ts e)).
  { intros; repeat split; intros; try tauto; auto 6 using D_paren, D_factor, D_term. }
  assert (Pr : forall ts e, d_term ts e -> product e -> d_factor (TLparen :: ts ++ [TRparen]) e /\ d_term ts e /\ d_expr ts e /\ d_expr ts e /\
            (~ product e -> d_factor ts e) /\ (~ sum e -> d_term ts e)).
  { intros; repeat split; intros; try tauto; auto 6 using D_paren, D_factor, D_term. }
  induction e as [s vs|z|z|s|s|a IHa|a IHa b IHb|a IHa b IHb|a IHa b IHb|a IHa b IHb]; intros Lg Lf; cbn [legible to_the_left] in Lg, Lf; try contradiction; cbn [tokens].
  - apply At. constructor. apply access_tokens_ok.
  - apply At. rewrite <- (int_ok z Lg) at 2. constructor.
  - apply At. constructor.
  - destruct (IHa Lg Lf) as (F & _). apply At. constructor. exact F.
  - destruct Lg as [La Lb], Lf as (Fa & Fb & Nb). destruct (IHa La Fa) as (_ & _ & Ea & _). destruct (IHb Lb Fb) as (_ & _ & _ & _ & _ & Tb).
    apply Su; [|exact I]. apply D_add; auto.
  - destruct Lg as [La Lb], Lf as (Fa & Fb & Nb). destruct (IHa La Fa) as (_ & _ & Ea & _). destruct (IHb Lb Fb) as (_ & _ & _ & _ & _ & Tb).
    apply Su; [|exact I]. apply D_sub; auto.
  - destruct Lg as [La Lb], Lf as (Fa & Fb & Nb). destruct (IHa La Fa) as (_ & Ta & _). destruct (IHb Lb Fb) as (_ & _ & _ & _ & Fcb & _).
    apply Pr; [|exact I]. apply D_mul; auto.
  - destruct Lg as [La Lb], Lf as (Fa & Fb & Nb). destruct (IHa La Fa) as (_ & Ta & _). destruct (IHb Lb Fb) as (_ & _ & _ & _ & Fcb & _).
    apply Pr; [|exact I]. apply D_div; auto.
Qed.

Section Regroup.
Variable V : Type.
Variable A : arithmetic V.
Hypothesis R : regroups A.
Notation val := (value_of A).
Lemma graft_sum ts b : d_expr ts b -> forall t1 a, d_expr t1 a ->
  exists c, d_expr (t1 ++ TAdd :: ts) c /\ val c = v_add A (val a) (val b).
Proof.
  induction 1 as [ts b T|t x u y D IH T|t x u y D IH T]; intros t1 a Da.
  - eexists. split; [apply D_add; eauto|reflexivity].
  - destruct (IH t1 a Da) as (c & Dc & Vc). exists (IAdd c y).
    replace (t1 ++ TAdd :: t ++ TAdd :: u) with ((t1 ++ TAdd :: t) ++ TAdd :: u) by (rewrite <- app_assoc; reflexivity).
    split; [apply D_add; auto|]. cbn [value_of]. rewrite Vc, (r_add_add A R). reflexivity.
  - destruct (IH t1 a Da) as (c & Dc & Vc). exists (ISub c y).
    replace (t1 ++ TAdd :: t ++ TSub :: u) with ((t1 ++ TAdd :: t) ++ TSub :: u) by (rewrite <- app_assoc; reflexivity).
    split; [apply D_sub; auto|]. cbn [value_of]. rewrite Vc, (r_add_sub A R). reflexivity.
Qed.
Lemma graft_product ts b : d_term ts b -> forall t1 a, d_term t1 a ->
  exists c, d_term (t1 ++ TMul :: ts) c /\ val c = v_mul A (val a) (val b).
Proof.
  induction 1 as [ts b T|t x u y D IH T|t x u y D IH T]; intros t1 a Da.
  - eexists. split; [apply D_mul; eauto|reflexivity].
  - destruct (IH t1 a Da) as (c & Dc & Vc). exists (IMul c y).
    replace (t1 ++ TMul :: t ++ TMul :: u) with ((t1 ++ TMul :: t) ++ TMul :: u) by (rewrite <- app_assoc; reflexivity).
    split; [apply D_mul; auto|]. cbn [value_of]. rewrite Vc, (r_mul_mul A R). reflexivity.
  - destruct (IH t1 a Da) as (c & Dc & Vc). exists (IDiv c y).
    replace (t1 ++ TMul :: t ++ TDiv :: u) with ((t1 ++ TMul :: t) ++ TDiv :: u) by (rewrite <- app_assoc; reflexivity).
    split; [apply D_div; auto|]. cbn [value_of]. rewrite Vc, (r_mul_div A R). reflexivity.
Qed.
Definition means (d : list token -> iexpr -> Prop) (ts : list token) (e : iexpr) : Prop := exists c, d ts c /\ val c = val e.
Lemma tokens_mean : forall e, legible e -> to_the_left_of_minus e ->
  means d_factor (tokens prec_neg e) e /\ means d_term (tokens prec_mul e) e /\ means d_expr (tokens prec_add e) e /\ means d_expr (tokens prec_top e) e /\
  (~ product e -> means d_factor (tokens prec_mul e) e) /\ (~ sum e -> means d_term (tokens prec_add e) e).
Proof.
  assert (At : forall ts e, means d_factor ts e -> means d_factor ts e /\ means d_term ts e /\ means d_expr ts e /\ means d_expr ts e /\
            (~ product e -> means d_factor ts e) /\ (~ sum e -> means d_term ts e)).
  { intros ts e (c & D & E). repeat split; intros; exists c; split; auto 6 using D_paren, D_factor, D_term. }
  assert (Su : forall ts e, means d_expr ts e -> sum e -> means d_factor (TLparen :: ts ++ [TRparen]) e /\ means d_term (TLparen :: ts ++ [TRparen]) e /\ means d_expr ts e /\ means d_expr ts e /\
            (~ product e -> means d_factor (TLparen :: ts ++ [TRparen]) e) /\ (~ sum e -> means d_term ts e)).
  { intros ts e (c & D & E) S. repeat split; intros; try tauto; exists c; split; auto 6 using D_paren, D_factor, D_term. }
  assert (Pr : forall ts e, means d_term ts e -> product e -> means d_factor (TLparen :: ts ++ [TRparen]) e /\ means d_term ts e /\ means d_expr ts e /\ means d_expr ts e /\
            (~ product e -> means d_factor ts e) /\ (~ sum e -> means d_term ts e)).
  { intros ts e (c & D & E) S. repeat split; intros; try tauto; exists c; split; auto 6 using D_paren, D_factor, D_term. }
  induction e as [s vs|z|z|s|s|a IHa|a IHa b IHb|a IHa b IHb|a IHa b IHb|a IHa b IHb]; intros Lg Lf; cbn [legible to_the_left_of_minus] in Lg, Lf; try contradiction; cbn [tokens].
  - apply At. eexists. split; [constructor; apply access_tokens_ok|reflexivity].
  - apply At. exists (IInt z). split; auto. rewrite <- (int_ok z Lg) at 2. constructor.
  - apply At. eexists. split; [constructor|reflexivity].
  - destruct (IHa Lg Lf) as ((c & F & E) & _). apply At. exists (INeg c). split; [constructor; exact F|cbn; congruence].
  - destruct Lg as [La Lb], Lf as (Fa & Fb). destruct (IHa La Fa) as (_ & _ & (ca & Da & Ea) & _). destruct (IHb Lb Fb) as (_ & _ & (cb & Db & Eb) & _).
    apply Su; [|exact I]. destruct (graft_sum _ _ Db _ _ Da) as (c & D & E). exists c. split; auto. cbn. congruence.
  - destruct Lg as [La Lb], Lf as (Fa & Fb & Nb). destruct (IHa La Fa) as (_ & _ & (ca & Da & Ea) & _). destruct (IHb Lb Fb) as (_ & _ & _ & _ & _ & Tb).
    destruct (Tb Nb) as (cb & Db & Eb). apply Su; [|exact I]. exists (ISub ca cb). split; [apply D_sub; auto|cbn; congruence].
  - destruct Lg as [La Lb], Lf as (Fa & Fb). destruct (IHa La Fa) as (_ & (ca & Da & Ea) & _). destruct (IHb Lb Fb) as (_ & (cb & Db & Eb) & _).
    apply Pr; [|exact I]. destruct (graft_product _ _ Db _ _ Da) as (c & D & E). exists c. split; auto. cbn. congruence.
  - destruct Lg as [La Lb], Lf as (Fa & Fb & Nb). destruct (IHa La Fa) as (_ & (ca & Da & Ea) & _). destruct (IHb Lb Fb) as (_ & _ & _ & _ & Fcb & _).
    destruct (Fcb Nb) as (cb & Db & Eb). apply Pr; [|exact I]. exists (IDiv ca cb). split; [apply D_div; auto|cbn; congruence].
Qed.
End Regroup.

Lemma parse_derived a e : name (lhs_name a) -> Forall name (lhs_vars a) -> legible (rhs a) -> d_expr (tokens prec_top (rhs a)) e ->
  parse (print_assignment a) = POk (Assignment (lhs_name a) (lhs_vars a) (accumulate a) e).
Proof.
  intros N F Lg D. unfold parse. rewrite lex_print by auto.
  assert (X : d_assign (access_tokens (lhs_name a) (lhs_vars a) ++ (if accumulate a then [TAdd; TEq] else [TEq]) ++ tokens prec_top (rhs a))
                (Assignment (lhs_name a) (lhs_vars a) (accumulate a) e)).
  { destruct (accumulate a); cbn [app]; constructor; auto; apply access_tokens_ok. }
  pose proof (assign_complete _ _ [TEot] X eq_refl I) as E. rewrite <- !app_assoc in E. rewrite E. reflexivity.
Qed.
