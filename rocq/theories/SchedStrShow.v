(** Scheduling commands that are written out are read back. *)
From Coq Require Import String List ZArith Lia Bool Ascii.
From Verif Require Import Parser ParserSpec ParserProofs ParserLex SchedStr SchedStrSpec SchedStrProofs.
Import ListNotations.
Local Open Scope nat_scope.

Lemma nonneg_end p k ts : nonneg p k (ts ++ [TEot]) <-> nonneg p k ts.
Proof.
  split; intros N a b E.
  - apply (N a (b ++ [TEot])). rewrite E, app_assoc. reflexivity.
  - destruct b as [|t b] using rev_ind.
    + rewrite app_nil_r in E. subst a. specialize (N ts [] ltac:(rewrite app_nil_r; reflexivity)).
      assert (C : forall q, count q (ts ++ [TEot]) = count q ts + (if q TEot then 1 else 0)).
      { intros q. clear. induction ts; cbn [app count]; lia. }
      rewrite !C. cbn [is_rparen is_lparen is_rcurly is_lcurly]. lia.
    + rewrite app_assoc in E. apply app_inj_tail in E as [E _]. apply (N _ _ E).
Qed.
Lemma count_end q ts : count q (ts ++ [TEot]) = count q ts + (if q TEot then 1 else 0).
Proof. induction ts; cbn [app count]; lia. Qed.
Theorem accepts s : ~ In TDiverge (lex s) ->
  ((exists r, ScheduleParser s = SOk r) <->
   (forall a b, lex s = a ++ b -> count is_rparen a <= count is_lparen a /\ count is_rcurly a <= count is_lcurly a) /\
   count is_rparen (lex s) = count is_lparen (lex s)).
Proof.
  intros ND. unfold ScheduleParser. destruct (lex_ends s) as (ts & t & E & O & A & B). rewrite E in *.
  destruct O as [->| ->]; [|destruct ND; apply in_or_app; right; left; reflexivity].
  rewrite accepts_loop by auto. rewrite !count_end. cbn [is_rparen is_lparen]. rewrite !Nat.add_0_r. cbn [Nat.add].
  rewrite <- nonneg_end. reflexivity.
Qed.
Lemma loop_diverges ts : forall p k parsed cur el, ~ In TDiverge ts -> schedule_loop ts p k parsed cur el <> SDiverge.
Proof.
  induction ts as [|t ts IH]; intros p k parsed cur el N.
  - cbn. destruct (p =? 0); discriminate.
  - assert (N' : ~ In TDiverge ts) by (intros X; apply N; right; auto).
    destruct t; cbn [schedule_loop]; auto; repeat (match goal with |- context [if ?b then _ else _] => destruct b end; auto); try discriminate.
    destruct N. left. reflexivity.
Qed.
Lemma finish_ok (parsed : list (list text)) (cur : list text) (el : text) : Forall (fun d : list text => d <> []) parsed ->
  Forall (fun d : list text => d <> []) (match (match el with [] => cur | _ => cur ++ [el] end) with [] => parsed | _ => parsed ++ [match el with [] => cur | _ => cur ++ [el] end] end).
Proof.
  intros P. destruct (match el with [] => cur | _ => cur ++ [el] end); auto. apply Forall_app. split; auto. constructor; auto. discriminate.
Qed.
Lemma loop_empty ts : forall p k parsed cur el r, (parsed = [] \/ Forall (fun d => d <> []) parsed) ->
  schedule_loop ts p k parsed cur el = SOk r -> Forall (fun d => d <> []) r.
Proof.
  induction ts as [|t ts IH]; intros p k parsed cur el r P E.
  - assert (P' : Forall (fun d : list text => d <> []) parsed) by (destruct P as [->|]; auto).
    cbn in E. destruct (p =? 0); [|discriminate]. cbn in E. injection E as <-.
    apply finish_ok; auto.
  - assert (P' : Forall (fun d : list text => d <> []) parsed) by (destruct P as [->|]; auto).
    assert (Fin : schedule_loop [] p k parsed cur el = SOk r -> Forall (fun d : list text => d <> []) r).
    { cbn. destruct (p =? 0); [|discriminate]. cbn. intros [= <-]. apply finish_ok; auto. }
    destruct t; try (apply Fin; exact E); clear Fin; cbn [schedule_loop] in E; eauto;
      repeat (match type of E with context [if ?b then _ else _] => destruct b end; eauto); try discriminate.
    apply IH in E; auto. right. apply Forall_app. split; auto. constructor; auto. destruct cur; discriminate.
Qed.

(** *** Arguments. *)
Definition argument (x : text) : Prop := exists ts, bracketed false ts /\ spells ts x /\ laid_out ts x.
Lemma laid_out_then ts s t c us r : laid_out ts s -> written t [c] -> symbol t = true -> is_alnum c = false -> c <> "."%char ->
  laid_out us r -> laid_out (ts ++ t :: us) (s ++ c :: r).
Proof. intros L W S A N R. apply laid_out_app; auto; [cbn; auto|]. apply laid_out_sym; auto. Qed.
Lemma args_shown xs : xs <> [] -> Forall argument xs -> exists us, d_args us xs /\ laid_out us (join (txt ",") xs).
Proof.
  induction xs as [|x xs IH]; [congruence|]. intros _ F. inversion F as [|? ? (ts & B & S & L) F']; subst. destruct xs as [|y xs].
  - exists ts. split; [constructor; auto|exact L].
  - destruct (IH ltac:(discriminate) F') as (us & D & Lu). exists (ts ++ TComma :: us). split; [constructor; auto|].
    change (join (txt ",") (x :: y :: xs)) with (x ++ ","%char :: join (txt ",") (y :: xs)).
    apply laid_out_then; auto; try discriminate. constructor.
Qed.
Lemma directive_shown h xs : name h -> xs <> [] -> Forall argument xs ->
  exists us, d_directive us (h :: xs) /\ laid_out us (show_directive h xs).
Proof.
  intros N E F. destruct (args_shown xs E F) as (us & D & L). exists ([TIdent h] ++ TLparen :: us ++ [TRparen]). split.
  - apply D_call; auto. apply spells_one. constructor; auto.
  - unfold show_directive. cbn [txt list_ascii_of_string]. apply laid_out_then; try solve [constructor | reflexivity | discriminate]; [apply laid_out_word; constructor; auto|].
    apply laid_out_then; try solve [constructor | reflexivity | discriminate]; auto. apply (L_end []). reflexivity.
Qed.
Lemma schedule_shown (ds : list (text * list text)) : ds <> [] -> Forall (fun d => name (fst d) /\ snd d <> [] /\ Forall argument (snd d)) ds ->
  exists us, d_schedule us (map (fun d => fst d :: snd d) ds) /\ laid_out us (join (txt ",") (map (fun d => show_directive (fst d) (snd d)) ds)).
Proof.
  induction ds as [|d ds IH]; [congruence|]. intros _ F. inversion F as [|? ? (N & E & A) F']; subst.
  destruct (directive_shown _ _ N E A) as (ts & D & L). destruct ds as [|e ds].
  - exists ts. split; [apply D_one; auto|exact L].
  - destruct (IH ltac:(discriminate) F') as (us & D' & L'). exists (ts ++ TComma :: us). split; [apply D_more; auto|].
    change (join (txt ",") (map (fun d => show_directive (fst d) (snd d)) (d :: e :: ds)))
      with (show_directive (fst d) (snd d) ++ ","%char :: join (txt ",") (map (fun d => show_directive (fst d) (snd d)) (e :: ds))).
    apply laid_out_then; auto; try discriminate. constructor.
Qed.
Lemma show_read (ds : list (text * list text)) : ds <> [] -> Forall (fun d => name (fst d) /\ snd d <> [] /\ Forall argument (snd d)) ds ->
  Forall (fun d => last (snd d) [] <> []) ds ->
  ScheduleParser (join (txt ",") (map (fun d => show_directive (fst d) (snd d)) ds)) = SOk (map (fun d => fst d :: snd d) ds).
Proof.
  intros N F E. destruct (schedule_shown ds N F) as (us & D & L). apply (schedule_read us); auto.
  clear D L us. induction ds as [|d ds IH]; [congruence|]. inversion F as [|? ? (G1 & G2 & G3) F']; inversion E as [|? ? E1 E3]; subst. destruct ds as [|e ds].
  - cbn [map last]. destruct (snd d) as [|x xs] eqn:E2; [congruence|]. unfold text in *; rewrite E2 in E1; exact E1.
  - apply IH; auto. discriminate.
Qed.

Lemma name_argument x : name x -> argument x.
Proof. intros N. exists [TIdent x]. repeat split; [repeat constructor|apply spells_one; constructor; auto|apply laid_out_word; constructor; auto]. Qed.
Lemma name_nonempty x : name x -> x <> [].
Proof. intros [H _] ->. exact H. Qed.
Lemma size_argument n : size_t n -> argument (print_Z n).
Proof.
  intros H. destruct (print_nonneg n ltac:(unfold size_t in H; lia)) as (N & _). exists [TInt (print_Z n)].
  repeat split; [repeat constructor|apply spells_one; constructor; auto|apply laid_out_word; constructor; auto].
Qed.
Lemma name_by s : (match s with c :: r => is_alpha c && forallb is_alnum r | [] => false end) &&
  negb (text_eqb s str_complex) && negb (text_eqb s str_Complex) = true -> name s.
Proof.
  intros H. apply andb_true_iff in H as [H H3]. apply andb_true_iff in H as [H H2]. apply negb_true_iff in H2, H3. unfold text_eqb in *. split; [|split].
  - destruct s; [discriminate|]. apply andb_true_iff in H. exact H.
  - intros ->. destruct (list_eq_dec ascii_dec str_complex str_complex); congruence.
  - intros ->. destruct (list_eq_dec ascii_dec str_Complex str_Complex); congruence.
Qed.
Ltac known := apply name_by; vm_compute; reflexivity.

Lemma list_spells vs : Forall name vs -> spells (var_tokens vs) (join (txt ",") vs) /\ laid_out (var_tokens vs) (join (txt ",") vs) /\ bracketed true (var_tokens vs).
Proof.
  induction vs as [|v vs IH]; intros F.
  - repeat split; [constructor|apply (L_end []); reflexivity|constructor].
  - inversion F as [|? ? N F']; subst. destruct (IH F') as (S & L & B). destruct vs as [|u vs].
    + repeat split; [apply spells_one; constructor; auto|apply laid_out_word; constructor; auto|repeat constructor].
    + change (var_tokens (v :: u :: vs)) with ([TIdent v] ++ TComma :: var_tokens (u :: vs)).
      change (join (txt ",") (v :: u :: vs)) with (v ++ ","%char :: join (txt ",") (u :: vs)).
      split; [|split].
      * apply spells_app; [apply spells_one; constructor; auto|]. apply (S_cons TComma (txt ",")); auto. constructor.
      * apply laid_out_then; try solve [constructor | reflexivity | discriminate]; auto. apply laid_out_word; constructor; auto.
      * cbn [app]. apply B_plain; [reflexivity|]. apply B_comma; auto.
Qed.
Lemma list_argument vs : Forall name vs -> argument (show_list vs).
Proof.
  intros F. destruct (list_spells vs F) as (S & L & B). exists (TLcurly :: var_tokens vs ++ [TRcurly]). split; [|split].
  - apply B_curly; auto. constructor.
  - unfold show_list. apply (S_cons TLcurly (txt "{")); [constructor|]. apply spells_app; auto. apply (spells_one TRcurly). constructor.
  - unfold show_list. cbn [txt list_ascii_of_string app]. apply laid_out_sym; try solve [constructor | reflexivity].
    apply laid_out_then; try solve [constructor | reflexivity | discriminate]; auto. apply (L_end []). reflexivity.
Qed.
Lemma vars_loop vs : Forall name vs -> vs <> [] -> forall k rest parsed, 1 <= k ->
  varlist_loop (var_tokens vs ++ rest) k parsed [] = varlist_loop rest k (parsed ++ removelast vs) (last vs []).
Proof.
  induction vs as [|v vs IH]; [congruence|]. intros F _ k rest parsed K. inversion F; subst. destruct vs as [|u vs].
  - cbn [var_tokens app varlist_loop token_text removelast last]. rewrite app_nil_r. reflexivity.
  - change (var_tokens (v :: u :: vs)) with (TIdent v :: TComma :: var_tokens (u :: vs)). cbn [app varlist_loop token_text].
    destruct (Nat.ltb_spec 0 k); [|lia]. rewrite IH by (auto; discriminate).
    change (removelast (v :: u :: vs)) with (v :: removelast (u :: vs)). rewrite <- app_assoc. reflexivity.
Qed.
Theorem list_read vs : vs <> [] -> Forall name vs -> varListParser (show_list vs) = SOk vs.
Proof.
  intros N F. destruct (list_spells vs F) as (S & L & B). unfold varListParser.
  assert (LO : laid_out (TLcurly :: var_tokens vs ++ [TRcurly]) (show_list vs)).
  { unfold show_list. cbn [txt list_ascii_of_string app]. apply laid_out_sym; try solve [constructor | reflexivity].
    apply laid_out_then; try solve [constructor | reflexivity | discriminate]; auto. apply (L_end []). reflexivity. }
  rewrite (lex_laid_out _ _ LO). cbn [app varlist_loop]. rewrite <- app_assoc, vars_loop by auto. cbn [app varlist_loop].
  change (1 =? 0) with false. change (1 =? 1) with true. cbv iota. change (1 - 1) with 0. cbn [negb Nat.eqb].
  f_equal. symmetry. apply app_removelast_last. auto.
Qed.
Theorem single_read v : name v -> varListParser v = SOk [v].
Proof.
  intros N. unfold varListParser. rewrite (lex_laid_out [TIdent v] v) by (apply laid_out_word; constructor; auto).
  cbn [app varlist_loop token_text negb Nat.eqb]. destruct v; auto. destruct N as [[] _].
Qed.

(** *** Expressions. *)
Definition kept (t : token) : Prop := match t with TUint _ | TComplex _ => False | _ => True end.
Lemma bracketed_app inside ts us : bracketed inside ts -> bracketed inside us -> bracketed inside (ts ++ us).
Proof.
  induction 1; intros; cbn [app]; rewrite <- ?app_assoc; cbn [app]; [auto|apply B_plain; auto|apply B_comma; auto|apply B_paren; auto|apply B_curly; auto].
Qed.
Lemma vars_bracketed ts vs : d_vars ts vs -> bracketed true ts.
Proof. induction 1; [repeat constructor|]. apply B_plain; auto. apply B_comma; auto. Qed.
Lemma access_bracketed ts s vs inside : d_access ts s vs -> bracketed inside ts.
Proof.
  destruct 1 as [s ts vs D|s ts vs D|s v|s]; repeat (apply B_plain; [reflexivity|]); try apply B_nil.
  - apply B_paren; [eapply vars_bracketed; eauto|apply B_nil].
  - apply B_curly; [eapply vars_bracketed; eauto|apply B_nil].
Qed.
Lemma expr_bracketed :
  (forall ts e, d_factor ts e -> Forall kept ts -> forall inside, bracketed inside ts) /\
  (forall ts e, d_term ts e -> Forall kept ts -> forall inside, bracketed inside ts) /\
  (forall ts e, d_expr ts e -> Forall kept ts -> forall inside, bracketed inside ts).
Proof.
  assert (Bin : forall t t1 t2, plain t = true -> (Forall kept t1 -> forall i, bracketed i t1) -> (Forall kept t2 -> forall i, bracketed i t2) ->
            Forall kept (t1 ++ t :: t2) -> forall i, bracketed i (t1 ++ t :: t2)).
  { intros t t1 t2 P H1 H2 F i. apply Forall_app in F as [F1 F2]. inversion F2; subst. apply bracketed_app; auto. apply B_plain; auto. }
  apply d_ind; intros; auto; try solve [eapply Bin; eauto].
  - eapply access_bracketed; eauto.
  - repeat constructor.
  - exfalso. inversion H; subst. assumption.
  - repeat constructor.
  - exfalso. inversion H; subst. assumption.
  - inversion H0; subst. match goal with F : Forall kept (_ ++ _) |- _ => apply Forall_app in F as [F1 F2] end. apply B_paren; auto. constructor.
  - inversion H0; subst. apply B_plain; auto.
Qed.
Lemma expression_argument x : expression_text x -> argument x.
Proof.
  intros (ts & e & D & L & S & K). exists ts. repeat split; auto. apply expr_bracketed with (1 := D). exact K.
Qed.

(** *** Numbers. *)
Lemma leading_number s : forallb is_digit s = true -> leading_digits s = s.
Proof. induction s as [|c s IH]; cbn; auto. intros H. apply andb_true_iff in H as [-> H]. rewrite IH; auto. Qed.
Lemma scan_printed n : size_t n -> scan_size (print_Z n) = Some n.
Proof.
  intros H. unfold size_t in H. destruct (print_nonneg n ltac:(lia)) as ((N & D) & E). unfold scan_size.
  destruct (print_Z n) as [|c s] eqn:P; [congruence|].
  assert (C : is_digit c = true) by (cbn in D; apply andb_true_iff in D; tauto).
  destruct (Ascii.eqb_spec c "-"); [subst; discriminate|]. destruct (Ascii.eqb_spec c "+"); [subst; discriminate|].
  rewrite leading_number by exact D. rewrite E. destruct (Z.leb_spec (2 ^ 64) n); [lia|]. reflexivity.
Qed.

(** *** Commands. *)
Definition head_args (c : command) : text * list text :=
  match c with
  | CPos i ipos t => (txt "pos", [i; ipos; t])
  | CFuse i j f => (txt "fuse", [i; j; f])
  | CSplit i i1 i2 n => (txt "split", [i; i1; i2; print_Z n])
  | CDivide i i1 i2 n => (txt "divide", [i; i1; i2; print_Z n])
  | CPrecompute e i iw w => (txt "precompute", [e; show_list i; show_list iw; w])
  | CReorder vs => (txt "reorder", vs)
  | CMergeby i s => (txt "mergeby", [i; txt (match s with TwoFinger => "TwoFinger" | Gallop => "Gallop" end)])
  | CBound i i1 n b => (txt "bound", [i; i1; print_Z n; show_bound b])
  | CUnroll i n => (txt "unroll", [i; print_Z n])
  | CParallelize i u r => (txt "parallelize", [i; show_unit u; show_race r])
  | CAssemble t s sep => (txt "assemble", [t; txt (match s with Append => "Append" | Insert => "Insert" end); txt (if sep then "true" else "false")])
  end.
Lemma shown c : show_command c = show_directive (fst (head_args c)) (snd (head_args c)).
Proof. destruct c; reflexivity. Qed.
Lemma head_args_ok c : proper_command c ->
  name (fst (head_args c)) /\ snd (head_args c) <> [] /\ Forall argument (snd (head_args c)) /\ last (snd (head_args c)) [] <> [].
Proof.
  intros P. split; [destruct c; known|].
  assert (K : forall z, size_t z -> print_Z z <> []) by (intros z H; apply print_nonneg; unfold size_t in H; lia).
  destruct c; cbn [proper_command head_args snd last] in *; decompose [and] P;
    try (split; [discriminate|]; split;
      [repeat (apply Forall_cons || apply Forall_nil); auto using name_argument, size_argument, list_argument, expression_argument;
       apply name_argument; match goal with |- name ?x => try (destruct strategy); try (destruct type); try (destruct unit); try (destruct separately_schedulable); known end
      |auto using name_nonempty; try (destruct strategy); try (destruct type); try (destruct unit); try (destruct separately_schedulable); discriminate]).
  (* reorder *)
  split; [intros ->; cbn in *; lia|]. split; [eapply Forall_impl; [|eassumption]; apply name_argument|].
  assert (X : vars <> []) by (intros ->; cbn in *; lia).
  rewrite Forall_forall in H0. apply name_nonempty, H0. destruct (exists_last X) as (l & a & ->). rewrite last_last. apply in_or_app. right. left. reflexivity.
Qed.
Ltac decide_texts := repeat match goal with |- context [text_eqb (txt ?a) (txt ?b)] =>
  let v := eval vm_compute in (text_eqb (txt a) (txt b)) in change (text_eqb (txt a) (txt b)) with v; cbv iota end.
Lemma command_read c : proper_command c -> command_of (fst (head_args c) :: snd (head_args c)) = SOk c.
Proof.
  intros P. destruct c; cbn [head_args fst snd proper_command] in *; decompose [and] P; clear P; unfold command_of; decide_texts;
    rewrite ?scan_printed, ?list_read by auto; cbn [checked sbind]; try reflexivity.
  - destruct vars as [|a [|b vars]]; cbn in *; try lia. reflexivity.
  - destruct strategy; reflexivity.
  - destruct type; reflexivity.
  - destruct unit, strategy; reflexivity.
  - destruct strategy, separately_schedulable; reflexivity.
Qed.
Lemma commands_read cs : Forall proper_command cs -> commands_of (map (fun c => fst (head_args c) :: snd (head_args c)) cs) = SOk cs.
Proof.
  induction 1 as [|c cs P F IH]; auto. cbn [map commands_of]. rewrite command_read by auto. cbn [sbind]. rewrite IH. reflexivity.
Qed.
Theorem schedule_option_read cs : cs <> [] -> Forall proper_command cs -> schedule_option (show_schedule cs) = SOk cs.
Proof.
  intros N F. unfold schedule_option, show_schedule.
  replace (map show_command cs) with (map (fun d => show_directive (fst d) (snd d)) (map head_args cs)).
  2:{ rewrite map_map. apply map_ext. intros c. symmetry. apply shown. }
  rewrite show_read.
  - cbn [sbind]. rewrite map_map. destruct cs; [congruence|]. apply commands_read. auto.
  - destruct cs; [congruence|discriminate].
  - apply Forall_map. eapply Forall_impl; [|exact F]. intros c P. destruct (head_args_ok c P) as (H1 & H2 & H3 & _). auto.
  - apply Forall_map. eapply Forall_impl; [|exact F]. intros c P. apply (head_args_ok c P).
Qed.

(** *** Short forms, and what is refused. *)
Lemma directive_option h xs c : name h -> xs <> [] -> Forall argument xs -> last xs [] <> [] ->
  command_of (h :: xs) = SOk c -> schedule_option (show_directive h xs) = SOk [c].
Proof.
  intros N E F La C. unfold schedule_option.
  pose proof (show_read [(h, xs)] ltac:(discriminate) ltac:(constructor; [auto|constructor]) ltac:(constructor; [auto|constructor])) as R.
  cbn [map join fst snd] in R. rewrite R. cbn [sbind commands_of]. rewrite C. reflexivity.
Qed.
Lemma short_assemble t s : name t ->
  schedule_option (show_directive (txt "assemble") [t; txt (match s with Append => "Append" | Insert => "Insert" end)]) = SOk [CAssemble t s false].
Proof.
  intros N. apply directive_option.
  - known.
  - discriminate.
  - constructor; [now apply name_argument|]. constructor; [|constructor]. apply name_argument. destruct s; known.
  - destruct s; discriminate.
  - unfold command_of; decide_texts. destruct s; reflexivity.
Qed.
Lemma short_precompute e i iw : expression_text e -> i <> [] -> Forall name i -> iw <> [] -> Forall name iw ->
  schedule_option (show_directive (txt "precompute") [e; show_list i; show_list iw]) = SOk [CPrecompute e i iw (txt "workspace")].
Proof.
  intros X N F N' F'. apply directive_option.
  - known.
  - discriminate.
  - constructor; [now apply expression_argument|]. constructor; [now apply list_argument|]. constructor; [now apply list_argument|constructor].
  - discriminate.
  - unfold command_of; decide_texts. rewrite !list_read by auto. reflexivity.
Qed.
Lemma text_eqb_true a b : text_eqb a b = true -> a = b.
Proof. unfold text_eqb. destruct (list_eq_dec ascii_dec a b); congruence. Qed.
Lemma command_admits head args c : command_of (head :: args) = SOk c -> exists h, head = txt h /\ admits h (length args).
Proof.
  assert (Four : forall (P : list text -> Prop), P [] -> (forall a, P [a]) -> (forall a b, P [a; b]) -> (forall a b d, P [a; b; d]) ->
    (forall a b d e, P [a; b; d; e]) -> (forall a b d e f r, P (a :: b :: d :: e :: f :: r)) -> P args).
  { intros P H0 H1 H2 H3 H4 H5. destruct args as [|a [|b [|d [|e [|f r]]]]]; auto. }
  unfold command_of, admits. cbv beta iota.
  repeat match goal with
  | |- (if text_eqb head (txt ?h) then _ else _) = _ -> _ =>
      let E := fresh in destruct (text_eqb head (txt h)) eqn:E;
      [apply text_eqb_true in E; intros C; exists h; split; [exact E|]; clear E; revert C; clear head; pattern args; apply Four;
       intros; try discriminate; solve [left; cbn; tauto | right; split; [reflexivity | cbn; lia]]
      |clear E]
  end; discriminate.
Qed.
Lemma commands_admit ds cs : commands_of ds = SOk cs -> Forall (fun d => exists h args, d = txt h :: args /\ admits h (length args)) ds.
Proof.
  revert cs. induction ds as [|d ds IH]; intros cs; [constructor|]. cbn [commands_of].
  destruct (command_of d) as [c| |] eqn:C; cbn [sbind]; try discriminate.
  destruct (commands_of ds) as [r| |] eqn:R; cbn [sbind]; try discriminate. intros _. constructor; [|exact (IH r eq_refl)].
  destruct d as [|head args]; [discriminate|]. destruct (command_admits head args c C) as (h & -> & A). exists h, args. auto.
Qed.
