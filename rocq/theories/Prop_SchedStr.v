(** C55: schedules written on the command line. *)
From Coq Require Import String List ZArith Lia Bool Ascii.
From Verif Require Import Parser ParserSpec ParserProofs ParserLex SchedStr SchedStrSpec SchedStrProofs SchedStrShow.
Import ListNotations.
Local Open Scope nat_scope.

(** A schedule of the grammar, with any nesting of brackets and any white space, is read
    as the directives it consists of, each with its name and arguments. *)
Theorem C55_reads : forall ts s ds, laid_out ts s -> d_schedule ts ds -> last (last ds []) [] <> [] -> ScheduleParser s = SOk ds.
Proof. intros. eapply schedule_read; eauto. Qed.
Print Assumptions C55_reads.

(** A string is accepted exactly when the round brackets are balanced and no closing brace
    comes before its opening one; all others are refused. *)
Theorem C55_accepts : forall s, ~ In TDiverge (lex s) ->
  ((exists r, ScheduleParser s = SOk r) <->
   (forall a b, lex s = a ++ b -> count is_rparen a <= count is_lparen a /\ count is_rcurly a <= count is_lcurly a) /\
   count is_rparen (lex s) = count is_lparen (lex s)) /\
  ScheduleParser s <> SDiverge.
Proof. intros s N. split; [apply accepts; auto|]. apply loop_diverges. auto. Qed.
Print Assumptions C55_accepts.

(** White space between tokens makes no difference, also where the grammar is not met. *)
Theorem C55_white_space : forall ts s s', laid_out ts s -> laid_out ts s' -> ScheduleParser s = ScheduleParser s'.
Proof. intros ts s s' L L'. unfold ScheduleParser. rewrite (lex_laid_out _ _ L), (lex_laid_out _ _ L'). reflexivity. Qed.
Print Assumptions C55_white_space.

(** Every directive has a name (the code that carries them out looks at it). *)
Theorem C55_directives : forall s ds, ScheduleParser s = SOk ds -> Forall (fun d => d <> []) ds.
Proof. intros s ds. apply loop_empty. auto. Qed.
Print Assumptions C55_directives.

(** A list of variables in braces, or a single variable, is read as these. *)
Theorem C55_lists : forall vs, vs <> [] -> Forall name vs ->
  varListParser (show_list vs) = SOk vs /\ forall v, vs = [v] -> varListParser v = SOk [v].
Proof. intros vs N F. split; [apply list_read; auto|]. intros v ->. apply single_read. inversion F; auto. Qed.
Print Assumptions C55_lists.

(** Writing any sequence of scheduling commands and giving it to the -s option carries out
    these commands. *)
Theorem C55_commands : forall cs, cs <> [] -> Forall proper_command cs -> schedule_option (show_schedule cs) = SOk cs.
Proof. exact schedule_option_read. Qed.
Print Assumptions C55_commands.
(** What may be left out: results are not assembled separately, and the workspace is
    called workspace. *)
Theorem C55_short_forms :
  (forall t s, name t ->
     schedule_option (show_directive (txt "assemble") [t; txt (match s with Append => "Append" | Insert => "Insert" end)])
     = SOk [CAssemble t s false]) /\
  (forall e i iw, expression_text e -> i <> [] -> Forall name i -> iw <> [] -> Forall name iw ->
     schedule_option (show_directive (txt "precompute") [e; show_list i; show_list iw]) = SOk [CPrecompute e i iw (txt "workspace")]).
Proof. split; [exact short_assemble | exact short_precompute]. Qed.
Print Assumptions C55_short_forms.
(** Unknown commands, and commands with too few or too many arguments, are refused. *)
Theorem C55_refused : forall s ds cs, ScheduleParser s = SOk ds -> schedule_option s = SOk cs ->
  Forall (fun d => exists h args, d = txt h :: args /\ admits h (length args)) ds.
Proof.
  intros s ds cs P. unfold schedule_option. rewrite P. cbn [sbind]. destruct ds; [discriminate|]. apply commands_admit.
Qed.
Print Assumptions C55_refused.
Example C55_refused_case : schedule_option (txt "reorder(i)") = SError /\ schedule_option (txt "split(i,i0,i1)") = SError.
Proof. split; vm_compute; reflexivity. Qed.
(** All of them, if pos names operands. *)
Theorem C55_applied : forall operands cs,
  (forall i ipos t, In (CPos i ipos t) cs -> In t operands) -> applied operands cs = cs.
Proof.
  intros operands cs H. unfold applied. induction cs as [|c cs IH]; auto. cbn [filter].
  rewrite IH by (intros; eapply H; right; eauto). destruct c; auto. specialize (H i ipos tensor (or_introl eq_refl)).
  replace (existsb (text_eqb tensor) operands) with true; auto. symmetry. apply existsb_exists. exists tensor. split; auto.
  unfold text_eqb. destruct (list_eq_dec ascii_dec tensor tensor); congruence.
Qed.
Print Assumptions C55_applied.

(** *** Examples *)
Definition read (s : string) : sresult (list (list string)) :=
  match ScheduleParser (txt s) with SOk ds => SOk (map (map string_of_list_ascii) ds) | SError => SError | SDiverge => SDiverge end.
Example C55_example :
  read "split(i, i0, i1, 16), precompute(A(i,j)*x(j), {i,j}, {iw , jw})" =
  SOk [["split"; "i"; "i0"; "i1"; "16"]; ["precompute"; "A(i,j)*x(j)"; "{i,j}"; "{iw,jw}"]]%string.
Proof. vm_compute. reflexivity. Qed.
(** The hypotheses of C55_reads. *)
Definition ex_tokens : list token :=
  [TIdent (txt "pos"); TLparen; TIdent (txt "B"); TLparen; TIdent (txt "i"); TComma; TIdent (txt "j"); TRparen; TComma; TIdent (txt "k"); TRparen].
Example C55_reads_case : laid_out ex_tokens (txt "pos (B(i, j),k)") /\ d_schedule ex_tokens [[txt "pos"; txt "B(i,j)"; txt "k"]].
Proof.
  assert (N : forall x, In x (map txt ["pos"; "B"; "i"; "j"; "k"]%string) -> name x).
  { intros x H. cbn in H. decompose [or] H; subst; try known. contradiction. }
  assert (W : forall x, In x (map txt ["pos"; "B"; "i"; "j"; "k"]%string) -> written (TIdent x) x) by (intros; constructor; auto).
  assert (Sp : forall t x, written t x -> spells [t] x) by (intros; apply spells_one; auto).
  split.
  - unfold ex_tokens.
    apply (L_tok [] _ (txt "pos")); [reflexivity|apply W; cbn; auto| |right; cbn; split; [reflexivity|discriminate]].
    apply (L_tok (txt " ") _ (txt "(")); [reflexivity|constructor| |auto].
    apply (L_tok [] _ (txt "B")); [reflexivity|apply W; cbn; auto| |right; cbn; split; [reflexivity|discriminate]].
    apply (L_tok [] _ (txt "(")); [reflexivity|constructor| |auto].
    apply (L_tok [] _ (txt "i")); [reflexivity|apply W; cbn; auto| |right; cbn; split; [reflexivity|discriminate]].
    apply (L_tok [] _ (txt ",")); [reflexivity|constructor| |auto].
    apply (L_tok (txt " ") _ (txt "j")); [reflexivity|apply W; cbn; auto| |right; cbn; split; [reflexivity|discriminate]].
    apply (L_tok [] _ (txt ")")); [reflexivity|constructor| |auto].
    apply (L_tok [] _ (txt ",")); [reflexivity|constructor| |auto].
    apply (L_tok [] _ (txt "k")); [reflexivity|apply W; cbn; auto 6| |right; cbn; split; [reflexivity|discriminate]].
    apply (L_tok [] _ (txt ")")); [reflexivity|constructor| |auto].
    apply (L_end []). reflexivity.
  - apply D_one.
    apply (D_call [TIdent (txt "pos")] (txt "pos")
             [TIdent (txt "B"); TLparen; TIdent (txt "i"); TComma; TIdent (txt "j"); TRparen; TComma; TIdent (txt "k")]).
    + repeat constructor.
    + apply Sp, W. cbn. auto.
    + apply (D_args [TIdent (txt "B"); TLparen; TIdent (txt "i"); TComma; TIdent (txt "j"); TRparen] (txt "B(i,j)") [TIdent (txt "k")] [txt "k"]).
      * apply B_plain; [reflexivity|]. apply (B_paren false [TIdent (txt "i"); TComma; TIdent (txt "j")] []); [|apply B_nil].
        apply B_plain; [reflexivity|]. apply B_comma. apply B_plain; [reflexivity|apply B_nil].
      * repeat first [apply S_nil | apply (S_cons _ (txt "B")); [apply W; cbn; auto|] | apply (S_cons _ (txt "i")); [apply W; cbn; auto|]
          | apply (S_cons _ (txt "j")); [apply W; cbn; auto|] | apply (S_cons _ [_]); [constructor|]].
      * constructor; [apply B_plain; [reflexivity|apply B_nil]|]. apply Sp, W. cbn. auto 6.
Qed.
Definition ex_commands : list command :=
  [CSplit (txt "i") (txt "i0") (txt "i1") 16; CPrecompute (txt "B(i,j)*c(j)") [txt "i1"; txt "j"] [txt "iw"; txt "jw"] (txt "w");
   CReorder [txt "i0"; txt "j"; txt "i1"]; CParallelize (txt "i0") CPUThread NoRaces; CAssemble (txt "A") Insert true;
   CBound (txt "j") (txt "jb") (2 ^ 40) MaxExact].
Example C55_commands_case : Forall proper_command ex_commands /\
  string_of_list_ascii (show_schedule ex_commands) =
  "split(i,i0,i1,16),precompute(B(i,j)*c(j),{i1,j},{iw,jw},w),reorder(i0,j,i1),parallelize(i0,CPUThread,NoRaces),assemble(A,Insert,true),bound(j,jb,1099511627776,MaxExact)"%string.
Proof.
  split; [|vm_compute; reflexivity].
  assert (F : expression_text (txt "B(i,j)*c(j)")).
  { exists [TIdent (txt "B"); TLparen; TIdent (txt "i"); TComma; TIdent (txt "j"); TRparen; TMul; TIdent (txt "c"); TLparen; TIdent (txt "j"); TRparen].
    exists (IMul (IAccess (txt "B") [txt "i"; txt "j"]) (IAccess (txt "c") [txt "j"])).
    assert (W : forall s, In s ["B"; "i"; "j"; "c"]%string -> written (TIdent (txt s)) (txt s)).
    { intros s H. constructor. cbn in H. decompose [or] H; subst; try known. contradiction. }
    split; [|split; [|split]].
    - apply D_term. apply (D_mul [TIdent (txt "B"); TLparen; TIdent (txt "i"); TComma; TIdent (txt "j"); TRparen]).
      + apply D_factor, D_access. apply (D_parens (txt "B") [TIdent (txt "i"); TComma; TIdent (txt "j")]). repeat constructor.
      + apply D_access. apply (D_parens (txt "c") [TIdent (txt "j")]). constructor.
    - repeat match goal with
      | |- laid_out [] _ => apply (L_end []); reflexivity
      | |- laid_out (TIdent (txt ?s) :: _) _ => apply (L_tok [] _ (txt s)); [reflexivity|apply W; cbn; auto| |right; cbn; split; [reflexivity|discriminate]]
      | |- laid_out (_ :: _) _ => apply (L_tok [] _ [_]); [reflexivity|constructor| |left; reflexivity]
      end.
    - repeat match goal with
      | |- spells [] _ => apply S_nil
      | |- spells (TIdent (txt ?s) :: _) _ => apply (S_cons _ (txt s)); [apply W; cbn; auto|]
      | |- spells (_ :: _) _ => apply (S_cons _ [_]); [constructor|]
      end.
    - repeat constructor. }
  unfold ex_commands. repeat (apply Forall_cons || apply Forall_nil); cbn [proper_command];
    repeat match goal with |- _ /\ _ => split | |- Forall _ _ => constructor | |- name _ => known | |- size_t _ => unfold size_t; lia end;
    auto; try discriminate; try (cbn; lia).
Qed.
(** Both sides of C55_accepts occur. *)
Example C55_accepts_cases : read "a(b(c),d)" = SOk [["a"; "b(c)"; "d"]]%string /\ read "a(b" = SError /\ read "a)(b" = SError /\ read "a({b}})" = SError.
Proof. vm_compute. auto. Qed.

(** *** Findings *)
(** An empty argument at the very end is dropped, and only there. *)
Theorem C55_empty_last_refuted :
  (forall ts s ds d, laid_out ts s -> d_schedule ts ds -> last ds [] = d ++ [[]] -> d <> [] -> ScheduleParser s = SOk (removelast ds ++ [d])) /\
  read "reorder(i,j,)" = SOk [["reorder"; "i"; "j"]]%string /\
  read "reorder(i,j,),fuse(a,b,c)" = SOk [["reorder"; "i"; "j"; ""]; ["fuse"; "a"; "b"; "c"]]%string.
Proof. split; [intros; eapply schedule_drops; eauto|]. vm_compute. auto. Qed.
Print Assumptions C55_empty_last_refuted.
(** What follows the closing bracket of a directive is taken into its last argument: a
    missing comma goes unnoticed, and the factor of this split becomes 16. *)
Theorem C55_trailing_text_refuted :
  schedule_option (txt "split(i,i0,i1,1)6") = SOk [CSplit (txt "i") (txt "i0") (txt "i1") 16] /\
  read "reorder(i)(j)" = SOk [["reorder"; "i"; "j"]]%string /\
  schedule_option (txt "unroll(i,4)fuse(i,j,f)") = SError /\
  read "unroll(i,4)fuse(i,j,f)" = SOk [["unroll"; "i"; "4fuse"; "i"; "j"; "f"]]%string.
Proof. vm_compute. auto. Qed.
Print Assumptions C55_trailing_text_refuted.
(** A brace that is not closed is not reported; it swallows the following directives. *)
Theorem C55_unclosed_brace_refuted :
  read "precompute(a,{i,iw)" = SOk [["precompute"; "a"; "{i,iw"]]%string /\
  read "x({i),fuse(i,j,f)" = SOk [["x"; "{i,fuse"; "i,j,f"]]%string.
Proof. vm_compute. auto. Qed.
Print Assumptions C55_unclosed_brace_refuted.
(** Sizes: what follows the digits is ignored, and negative sizes become huge. *)
Theorem C55_sizes_refuted :
  (forall n junk, size_t n -> match junk with c :: _ => is_digit c = false | [] => True end -> scan_size (print_Z n ++ junk) = Some n) /\
  schedule_option (txt "unroll(i,-4)") = SOk [CUnroll (txt "i") (2 ^ 64 - 4)] /\
  schedule_option (txt "unroll(i,0x10)") = SOk [CUnroll (txt "i") 0] /\
  schedule_option (txt "split(i,a,b,1e3)") = SOk [CSplit (txt "i") (txt "a") (txt "b") 1] /\
  schedule_option (txt "unroll(i,2.5)") = SOk [CUnroll (txt "i") 2].
Proof.
  split; [|vm_compute; auto]. intros n junk H J. unfold size_t in H. destruct (print_nonneg n ltac:(lia)) as ((N & D) & E). unfold scan_size.
  assert (L : leading_digits (print_Z n ++ junk) = print_Z n).
  { clear N E H. induction (print_Z n) as [|c s IH]; cbn [app leading_digits forallb] in *.
    - destruct junk as [|c junk]; auto. cbn. rewrite J. reflexivity.
    - apply andb_true_iff in D as [-> D]. rewrite IH; auto. }
  destruct (print_Z n) as [|c s] eqn:P; [congruence|].
  assert (C : is_digit c = true) by (cbn in D; apply andb_true_iff in D; tauto). cbn [app] in *.
  destruct (Ascii.eqb_spec c "-"); [subst; discriminate|]. destruct (Ascii.eqb_spec c "+"); [subst; discriminate|].
  rewrite L, E. destruct (Z.leb_spec (2 ^ 64) n); [lia|]. reflexivity.
Qed.
Print Assumptions C55_sizes_refuted.
(** Characters that are not in the language become the word error, the suffix of unsigned
    scalars and the word complex are lost, and a word complex without bracket after it
    does not return. *)
Theorem C55_scalars_refuted :
  read "fuse(i,j,f.g)" = SOk [["fuse"; "i"; "j"; "ferrorg"]]%string /\
  read "precompute(B(i)*2u,i,j)" = SOk [["precompute"; "B(i)*2"; "i"; "j"]]%string /\
  read "precompute(complex(1,2)*a,i,j)" = SOk [["precompute"; "(1,2)*a"; "i"; "j"]]%string /\
  read "fuse(i,j,complex" = SDiverge.
Proof. vm_compute. auto. Qed.
Print Assumptions C55_scalars_refuted.
(** An empty list is a list of one variable without a name. *)
Theorem C55_empty_list_refuted : varListParser (txt "{}") = SOk [[]].
Proof. vm_compute. reflexivity. Qed.
Print Assumptions C55_empty_list_refuted.
(** pos with a tensor that is not an operand is skipped without an error. *)
Theorem C55_pos_refuted : forall operands i ipos t, ~ In t operands -> applied operands [CPos i ipos t] = [].
Proof.
  intros operands i ipos t N. cbn. destruct (existsb (text_eqb t) operands) eqn:E; auto. apply existsb_exists in E as (u & H & E).
  unfold text_eqb in E. destruct (list_eq_dec ascii_dec t u); [subst; contradiction|discriminate].
Qed.
Print Assumptions C55_pos_refuted.
