(** Schedules written by the grammar are read as written. *)
From Coq Require Import String List ZArith Lia Bool Ascii.
From Verif Require Import Parser ParserSpec ParserProofs ParserLex SchedStr SchedStrSpec.
Import ListNotations.
Local Open Scope nat_scope.

(** *** The lexer. *)
Lemma written_symbol t s : written t s -> symbol t = true ->
  exists c, s = [c] /\ t = punctuation c /\ is_space c = false /\ is_alpha c = false /\ is_digit c = false /\ code c <> 255.
Proof. intros W S. destruct W; try discriminate; (eexists; repeat split; try reflexivity; discriminate). Qed.
Lemma laid_out_lexes ts s : laid_out ts s -> lexes s (ts ++ [TEot]).
Proof.
  induction 1 as [w W|w t s ts r W Wr S IH R]; cbn [app].
  - rewrite <- (app_nil_r w). apply lexes_space; auto. eapply L_eot. apply tok_end.
  - apply lexes_space; auto. destruct R as [R|R].
    + destruct (written_symbol t s Wr R) as (c & -> & -> & H1 & H2 & H3 & H4). cbn [app]. apply lexes_char; auto.
    + apply lexes_token; auto.
Qed.
Lemma lex_laid_out ts s : laid_out ts s -> lex s = ts ++ [TEot].
Proof. intros S. apply lexes_lex. apply (lexes_space [" "%char]); auto. apply laid_out_lexes; auto. Qed.

Lemma laid_out_app ts s us r : laid_out ts s -> not_continued r -> laid_out us r -> laid_out (ts ++ us) (s ++ r).
Proof.
  intros L N R. induction L as [w W|w t s ts r' W Wr S IH C]; cbn [app].
  - destruct R as [w' W'|w' t s ts r' W' Wr S C].
    + apply L_end. rewrite forallb_app, W, W'. reflexivity.
    + rewrite (app_assoc w w' (s ++ r')). apply L_tok; auto. rewrite forallb_app, W, W'. reflexivity.
  - rewrite <- !app_assoc. apply L_tok; auto. destruct C as [C|C]; auto. right. destruct r'; auto.
Qed.
Lemma laid_out_sym t c ts r : written t [c] -> symbol t = true -> laid_out ts r -> laid_out (t :: ts) (c :: r).
Proof. intros W S L. apply (L_tok [] t [c] ts r); auto. Qed.
Lemma laid_out_word t x : written t x -> laid_out [t] x.
Proof. intros W. rewrite <- (app_nil_r x). apply (L_tok [] t x [] []); auto; [apply (L_end []); auto|right; exact I]. Qed.
Lemma spells_app ts x us y : spells ts x -> spells us y -> spells (ts ++ us) (x ++ y).
Proof. intros H. induction H; intros; cbn [app]; auto. rewrite <- app_assoc. constructor; auto. Qed.
Lemma spells_one t x : written t x -> spells [t] x.
Proof. intros W. rewrite <- (app_nil_r x). constructor; auto. constructor. Qed.

(** *** The loop. *)
Lemma plain_text t x : plain t = true -> written t x -> token_text t = x.
Proof. intros P W. destruct W; try discriminate; reflexivity. Qed.
Lemma plain_step t ts p k parsed cur el : plain t = true ->
  schedule_loop (t :: ts) p k parsed cur el = schedule_loop ts p k parsed cur (el ++ token_text t).
Proof. intros P. destruct t; try discriminate; reflexivity. Qed.
Lemma spells_split us vs x : spells (us ++ vs) x -> exists y z, x = y ++ z /\ spells us y /\ spells vs z.
Proof.
  revert x. induction us as [|t us IH]; intros x H; cbn [app] in H.
  - exists [], x. repeat split; auto. constructor.
  - inversion H; subst. destruct (IH _ H4) as (y & z & -> & A & B). exists (x0 ++ y), z. rewrite app_assoc. repeat split; auto. constructor; auto.
Qed.
Lemma bracketed_loop inside ts : bracketed inside ts -> forall x, spells ts x ->
  forall p k, 1 <= p -> (inside = true -> 2 <= p \/ 1 <= k) ->
  forall rest parsed cur el, schedule_loop (ts ++ rest) p k parsed cur el = schedule_loop rest p k parsed cur (el ++ x).
Proof.
  induction 1 as [inside|inside t ts P B IH|ts B IH|inside us ts B1 IH1 B2 IH2|inside us ts B1 IH1 B2 IH2];
    intros x Sp p k Hp Hi rest parsed cur el.
  - inversion Sp; subst. rewrite app_nil_r. reflexivity.
  - inversion Sp; subst. cbn [app]. rewrite plain_step by auto. rewrite (plain_text t x0) by auto.
    rewrite (IH r) by auto. rewrite <- app_assoc. reflexivity.
  - inversion Sp as [|t y us r W R]; subst. inversion W; subst. cbn [app].
    assert (E : schedule_loop (TComma :: ts ++ rest) p k parsed cur el = schedule_loop (ts ++ rest) p k parsed cur (el ++ txt ",")).
    { cbn [schedule_loop token_text]. destruct (Nat.ltb_spec 0 k); auto. destruct (Nat.eqb_spec p 0); [lia|].
      destruct (Nat.eqb_spec p 1); auto. destruct Hi; auto; lia. }
    rewrite E, (IH r) by auto. rewrite <- app_assoc. reflexivity.
  - inversion Sp as [|t y us' r W R]; subst. inversion W; subst. cbn [app].
    destruct (spells_split _ _ _ R) as (y & z & -> & Sy & Sz). inversion Sz as [|t2 y2 us2 r2 W2 R2]; subst. inversion W2; subst.
    cbn [schedule_loop]. destruct (Nat.eqb_spec p 0); [lia|]. rewrite <- app_assoc.
    rewrite (IH1 y Sy) by lia. cbn [app schedule_loop]. destruct (Nat.eqb_spec (S p) 0); [lia|].
    destruct (Nat.ltb_spec 1 (S p)); [|lia]. replace (S p - 1) with p by lia. rewrite (IH2 r2) by auto.
    f_equal. cbn [token_text]. rewrite <- !app_assoc. reflexivity.
  - inversion Sp as [|t y us' r W R]; subst. inversion W; subst. cbn [app].
    destruct (spells_split _ _ _ R) as (y & z & -> & Sy & Sz). inversion Sz as [|t2 y2 us2 r2 W2 R2]; subst. inversion W2; subst.
    cbn [schedule_loop]. rewrite <- app_assoc.
    rewrite (IH1 y Sy) by lia. cbn [app schedule_loop]. cbn [Nat.eqb]. replace (S k - 1) with k by lia. rewrite (IH2 r2) by auto.
    f_equal. cbn [token_text]. rewrite <- !app_assoc. reflexivity.
Qed.
Lemma head_loop ts : Forall (fun t => plain t = true) ts -> forall x, spells ts x ->
  forall p k rest parsed cur el, schedule_loop (ts ++ rest) p k parsed cur el = schedule_loop rest p k parsed cur (el ++ x).
Proof.
  induction 1 as [|t ts P B IH]; intros x S p k rest parsed cur el.
  - inversion S; subst. rewrite app_nil_r. reflexivity.
  - inversion S; subst. cbn [app]. rewrite plain_step by auto. rewrite (plain_text t x0) by auto.
    rewrite (IH r) by auto. rewrite <- app_assoc. reflexivity.
Qed.
Lemma args_loop us xs : d_args us xs -> forall rest parsed cur,
  schedule_loop (us ++ rest) 1 0 parsed cur [] = schedule_loop rest 1 0 parsed (cur ++ removelast xs) (last xs []).
Proof.
  induction 1 as [ts x B S|ts x us xs B S D IH]; intros rest parsed cur.
  - rewrite (bracketed_loop _ _ B x S) by (auto; discriminate). cbn [removelast last app]. rewrite app_nil_r. reflexivity.
  - rewrite <- app_assoc. cbn [app]. rewrite (bracketed_loop _ _ B x S) by (auto; discriminate). cbn [schedule_loop app].
    change (0 <? 0) with false. change (1 =? 0) with false. change (1 =? 1) with true. cbv iota.
    rewrite IH. assert (N : xs <> []) by (destruct D; discriminate). destruct xs as [|y xs]; [congruence|].
    change (removelast (x :: y :: xs)) with (x :: removelast (y :: xs)). change (last (x :: y :: xs) []) with (last (y :: xs) (@nil ascii)).
    rewrite <- app_assoc. reflexivity.
Qed.
Lemma directive_loop ts d : d_directive ts d -> forall rest parsed,
  schedule_loop (ts ++ rest) 0 0 parsed [] [] = schedule_loop rest 0 0 parsed (removelast d) (last d []).
Proof.
  intros D rest parsed. destruct D as [ts x F S|ts x us xs F S D].
  - rewrite (head_loop _ F x S). reflexivity.
  - rewrite <- !app_assoc. rewrite (head_loop _ F x S). cbn [app schedule_loop]. change (0 =? 0) with true. cbv iota.
    rewrite <- app_assoc. rewrite (args_loop _ _ D). cbn [app schedule_loop]. change (1 =? 0) with false. change (1 <? 1) with false. cbv iota.
    change (1 - 1) with 0. assert (N : xs <> []) by (destruct D; discriminate). destruct xs as [|y xs]; [congruence|]. reflexivity.
Qed.
(** What becomes of an empty last element. *)
Definition close (d : list text) : list (list text) :=
  match (match last d [] with [] => removelast d | _ => d end) with [] => [] | d => [d] end.
Lemma directive_ne ts d : d_directive ts d -> d <> [].
Proof. destruct 1; discriminate. Qed.
Lemma rebuild (d : list text) : d <> [] -> removelast d ++ [last d []] = d.
Proof. intros N. symmetry. apply app_removelast_last. auto. Qed.
Lemma schedule_general ts ds : d_schedule ts ds -> forall parsed,
  schedule_loop (ts ++ [TEot]) 0 0 parsed [] [] = SOk (parsed ++ removelast ds ++ close (last ds [])).
Proof.
  induction 1 as [ts d D|ts d us ds D S IH]; intros parsed.
  - rewrite (directive_loop _ _ D). cbn [schedule_loop negb Nat.eqb]. cbn [removelast last app]. unfold close.
    pose proof (rebuild d (directive_ne _ _ D)) as E. destruct (last d []) as [|c l] eqn:L.
    + destruct (removelast d); [rewrite app_nil_r|]; reflexivity.
    + rewrite E. destruct d; [destruct (directive_ne _ _ D); auto|reflexivity].
  - rewrite <- app_assoc. rewrite (directive_loop _ _ D). cbn [app schedule_loop]. change (0 <? 0) with false. change (0 =? 0) with true. cbv iota.
    rewrite (rebuild d (directive_ne _ _ D)). rewrite IH. assert (N : ds <> []) by (destruct S; discriminate). destruct ds as [|e ds]; [congruence|].
    change (removelast (d :: e :: ds)) with (d :: removelast (e :: ds)). change (last (d :: e :: ds) []) with (last (e :: ds) (@nil text)).
    rewrite <- !app_assoc. reflexivity.
Qed.
Lemma schedule_nonempty ts ds : d_schedule ts ds -> ds <> [] /\ last ds [] <> [].
Proof.
  induction 1 as [ts d D|ts d us ds D S IH]; (split; [discriminate|]).
  - cbn. eapply directive_ne; eauto.
  - destruct IH as (N & L). destruct ds; [congruence|]. exact L.
Qed.
Theorem schedule_read ts ds s : laid_out ts s -> d_schedule ts ds -> last (last ds []) [] <> [] -> ScheduleParser s = SOk ds.
Proof.
  intros L D N. unfold ScheduleParser. rewrite (lex_laid_out _ _ L), (schedule_general _ _ D). cbn [app]. f_equal.
  destruct (schedule_nonempty _ _ D) as (N1 & N2). unfold close. destruct (last (last ds []) []) eqn:E; [congruence|].
  destruct (last ds []) eqn:E2; [congruence|]. rewrite <- E2. symmetry. apply app_removelast_last. auto.
Qed.
Theorem schedule_drops ts ds s d : laid_out ts s -> d_schedule ts ds -> last ds [] = d ++ [[]] -> d <> [] ->
  ScheduleParser s = SOk (removelast ds ++ [d]).
Proof.
  intros L D E N. unfold ScheduleParser. rewrite (lex_laid_out _ _ L), (schedule_general _ _ D). cbn [app]. f_equal. f_equal.
  unfold close. rewrite E, last_last, removelast_last. destruct d; [congruence|reflexivity].
Qed.

(** *** What is accepted. *)
Definition nonneg (p k : nat) (ts : list token) : Prop :=
  forall a b, ts = a ++ b -> count is_rparen a <= p + count is_lparen a /\ count is_rcurly a <= k + count is_lcurly a.
Lemma nonneg_cons p k t ts p' k' :
  (if is_rparen t then 1 else 0) <= p + (if is_lparen t then 1 else 0) -> (if is_rcurly t then 1 else 0) <= k + (if is_lcurly t then 1 else 0) ->
  p' + (if is_rparen t then 1 else 0) = p + (if is_lparen t then 1 else 0) -> k' + (if is_rcurly t then 1 else 0) = k + (if is_lcurly t then 1 else 0) ->
  (nonneg p k (t :: ts) <-> nonneg p' k' ts).
Proof.
  intros H1 H2 H3 H4. split; intros N a b E.
  - specialize (N (t :: a) b). cbn [count app] in N. destruct N; [subst; auto|]. lia.
  - destruct a as [|u a]; cbn [app] in E.
    + cbn [count]. lia.
    + injection E as <- ->. specialize (N a b eq_refl). cbn [count]. lia.
Qed.
Lemma accepts_loop ts : forall p k parsed cur el, ~ In TDiverge ts -> ~ In TEot ts ->
  (exists r, schedule_loop (ts ++ [TEot]) p k parsed cur el = SOk r) <->
  (nonneg p k ts /\ count is_rparen ts = p + count is_lparen ts).
Proof.
  induction ts as [|t ts IH]; intros p k parsed cur el D E.
  - cbn [app schedule_loop count]. split.
    + destruct (Nat.eqb_spec p 0); cbn [negb]; intros (r & H); [|discriminate]. split; [|lia].
      intros a b Hab. symmetry in Hab. apply app_eq_nil in Hab as [-> ->]. cbn. lia.
    + intros (_ & H). replace p with 0 by lia. cbn. eauto.
  - assert (D' : ~ In TDiverge ts) by (intros X; apply D; right; auto).
    assert (E' : ~ In TEot ts) by (intros X; apply E; right; auto).
    assert (Step : forall p' k' parsed' cur' el',
       schedule_loop ((t :: ts) ++ [TEot]) p k parsed cur el = schedule_loop (ts ++ [TEot]) p' k' parsed' cur' el' ->
       (if is_rparen t then 1 else 0) <= p + (if is_lparen t then 1 else 0) -> (if is_rcurly t then 1 else 0) <= k + (if is_lcurly t then 1 else 0) ->
       p' + (if is_rparen t then 1 else 0) = p + (if is_lparen t then 1 else 0) -> k' + (if is_rcurly t then 1 else 0) = k + (if is_lcurly t then 1 else 0) ->
       (exists r, schedule_loop ((t :: ts) ++ [TEot]) p k parsed cur el = SOk r) <->
       (nonneg p k (t :: ts) /\ count is_rparen (t :: ts) = p + count is_lparen (t :: ts))).
    { intros p' k' parsed' cur' el' -> H1 H2 H3 H4. rewrite (IH p' k' parsed' cur' el' D' E'), (nonneg_cons p k t ts p' k') by auto.
      cbn [count]. split; intros (A & B); split; auto; lia. }
    assert (Bad : schedule_loop ((t :: ts) ++ [TEot]) p k parsed cur el = SError ->
       ~ ((if is_rparen t then 1 else 0) <= p + (if is_lparen t then 1 else 0) /\ (if is_rcurly t then 1 else 0) <= k + (if is_lcurly t then 1 else 0)) ->
       (exists r, schedule_loop ((t :: ts) ++ [TEot]) p k parsed cur el = SOk r) <->
       (nonneg p k (t :: ts) /\ count is_rparen (t :: ts) = p + count is_lparen (t :: ts))).
    { intros -> N. split; [intros (r & H); discriminate|]. intros (A & _). exfalso. apply N. specialize (A [t] ts eq_refl). cbn [count] in A. lia. }
    destruct t; try (eapply Step; [reflexivity|cbn; lia..]); try (destruct D; left; reflexivity); try (destruct E; left; reflexivity).
    + cbn [app schedule_loop] in *. destruct (0 <? k); [eapply Step; [reflexivity|cbn; lia..]|].
      destruct (p =? 0); [eapply Step; [reflexivity|cbn; lia..]|]. destruct (p =? 1); (eapply Step; [reflexivity|cbn; lia..]).
    + cbn [app schedule_loop] in *. destruct (p =? 0); (eapply Step; [reflexivity|cbn; lia..]).
    + cbn [app schedule_loop] in *. destruct (Nat.eqb_spec p 0); [apply Bad; [reflexivity|cbn; lia]|]. eapply Step; [reflexivity|cbn; lia..].
    + cbn [app schedule_loop] in *. destruct (Nat.eqb_spec k 0); [apply Bad; [reflexivity|cbn; lia]|]. eapply Step; [reflexivity|cbn; lia..].
Qed.

(** The lexer ends with the end of tokens or does not return. *)
Definition left (l : option ascii) (rest : text) : nat := match l with Some _ => 1 | None => 0 end + length rest.
Lemma next_left s : left (fst (next s)) (snd (next s)) <= length s.
Proof. destruct s as [|c s]; cbn; auto. destruct (code c =? 255); cbn; lia. Qed.
Lemma skip_left : forall rest l, left (fst (skip_space l rest)) (snd (skip_space l rest)) <= left l rest.
Proof.
  induction rest as [|d rest IH]; intros [c|]; cbn [skip_space]; try (cbn; lia).
  - destruct (is_space c); cbn; lia.
  - destruct (is_space c); [|cbn; lia]. etransitivity; [apply IH|]. pose proof (next_left (d :: rest)) as N.
    unfold left in *. cbn [next fst snd length] in *. destruct (code d =? 255); cbn in *; lia.
Qed.
Lemma take_left p : forall rest id, left (snd (fst (take p id rest))) (snd (take p id rest)) <= length rest.
Proof.
  induction rest as [|c rest IH]; intros id; cbn [take]; [cbn; lia|].
  destruct (code c =? 255); [cbn; lia|]. destruct (p c); [|cbn; lia]. etransitivity; [apply IH|]. cbn. lia.
Qed.
Lemma take_complex_left : forall rest id id' rest', take_complex id rest = Some (id', rest') -> length rest' < length rest.
Proof.
  induction rest as [|c rest IH]; intros id id' rest'; cbn [take_complex]; [discriminate|].
  destruct (c =? ")")%char; [intros [= _ ->]; cbn; lia|]. intros H. apply IH in H. cbn. lia.
Qed.
Lemma get_token_left l rest t l' rest' : get_token l rest = (t, l', rest') -> t <> TEot -> t <> TDiverge -> left l' rest' < left l rest.
Proof.
  intros H N1 N2. unfold get_token in H. pose proof (skip_left rest l) as SL. destruct (skip_space l rest) as [[c|] r]; cbn [fst snd] in SL; [|congruence].
  assert (X : left l' rest' <= length r); [|unfold left in *; lia].
  destruct (is_alpha c).
  - pose proof (take_left is_alnum r [c]) as T. destruct (take is_alnum [c] r) as [[id q] r2]. cbn [fst snd] in T.
    destruct (text_eqb id str_complex || text_eqb id str_Complex).
    + destruct (take_complex _ r2) as [[id' r3]|] eqn:TC; injection H as <- <- <-; [|congruence].
      apply take_complex_left in TC. pose proof (next_left r3). unfold left in *. lia.
    + injection H as <- <- <-. lia.
  - destruct (is_digit c).
    + pose proof (take_left is_digit r [c]) as T. destruct (take is_digit [c] r) as [[id q] r2]. cbn [fst snd] in T.
      destruct q as [d|]; [|injection H as <- <- <-; lia].
      destruct (d =? ".")%char.
      * pose proof (take_left is_digit r2 (id ++ [d])) as T2. destruct (take is_digit (id ++ [d]) r2) as [[id2 q2] r3]. cbn [fst snd] in T2.
        injection H as <- <- <-. unfold left in *. lia.
      * destruct (d =? "u")%char; injection H as <- <- <-; [|lia]. pose proof (next_left r2). unfold left in *. lia.
    + injection H as <- <- <-. apply next_left.
Qed.
Lemma lex_from_ends : forall n l rest, left l rest < n ->
  exists ts t, lex_from n l rest = ts ++ [t] /\ (t = TEot \/ t = TDiverge) /\ ~ In TEot ts /\ ~ In TDiverge ts.
Proof.
  induction n as [|n IH]; intros l rest H; [lia|]. cbn [lex_from]. destruct (get_token l rest) as [[t l'] rest'] eqn:G.
  assert (X : t = TEot \/ t = TDiverge \/ (t <> TEot /\ t <> TDiverge)) by (destruct t; auto; right; right; split; discriminate).
  destruct X as [->|[->|[N1 N2]]].
  - exists [], TEot. cbn. tauto.
  - exists [], TDiverge. cbn. tauto.
  - destruct (IH l' rest') as (ts & u & E & O & A & B). { pose proof (get_token_left _ _ _ _ _ G N1 N2). lia. }
    exists (t :: ts), u. split; [|split; [auto|cbn; split; intros [X|X]; congruence || auto]].
    rewrite E. destruct t; try reflexivity; congruence.
Qed.
Lemma lex_ends s : exists ts t, lex s = ts ++ [t] /\ (t = TEot \/ t = TDiverge) /\ ~ In TEot ts /\ ~ In TDiverge ts.
Proof. unfold lex. apply lex_from_ends. cbn. lia. Qed.
