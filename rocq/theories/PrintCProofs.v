(** Lemmas for C52: the text of a statement is read as the statement. *)
From Coq Require Import String List Bool Ascii Arith Lia.
From Verif Require Import Parser PrintC PrintCSpec PrintCLex PrintCExpr.
Import ListNotations.
Local Open Scope nat_scope.

Section Induction.
Variable P : pstmt -> Prop.
Hypothesis H_decl : forall ty ptr x e, P (SVarDecl ty ptr x e).
Hypothesis H_assign : forall a l r, P (SAssign a l r).
Hypothesis H_store : forall a arr i d, P (SStore a arr i d).
Hypothesis H_for : forall pr ty x a b c s, P s -> P (SFor pr ty x a b c s).
Hypothesis H_while : forall pr c s, P s -> P (SWhile pr c s).
Hypothesis H_if : forall c t e, P t -> match e with Some e => P e | None => True end -> P (SIf c t e).
Hypothesis H_case : forall cs a, Forall (fun cb => P (snd cb)) cs -> P (SCase cs a).
Hypothesis H_switch : forall e cs, Forall (fun cb => P (snd cb)) cs -> P (SSwitch e cs).
Hypothesis H_block : forall ss, Forall P ss -> P (SBlock ss).
Hypothesis H_scope : forall s, P s -> P (SScope s).
Hypothesis H_alloc : forall a b ty x n, P (SAllocate a b ty x n).
Hypothesis H_free : forall e, P (SFree e).
Hypothesis H_comment : forall t, P (SComment t).
Hypothesis H_blank : P SBlankLine.
Hypothesis H_continue : P SContinue.
Hypothesis H_break : P SBreak.
Hypothesis H_print : forall f es, P (SPrint f es).
Hypothesis H_sort : forall es, P (SSort es).
Fixpoint pstmt_ind' (s : pstmt) : P s :=
  let fix go (ss : list pstmt) : Forall P ss :=
    match ss with [] => Forall_nil _ | s :: ss => Forall_cons _ (pstmt_ind' s) (go ss) end in
  let fix go2 (cs : list (pexpr * pstmt)) : Forall (fun cb => P (snd cb)) cs :=
    match cs with [] => Forall_nil _ | cb :: cs => Forall_cons _ (pstmt_ind' (snd cb)) (go2 cs) end in
  match s with
  | SVarDecl ty ptr x e => H_decl ty ptr x e
  | SAssign a l r => H_assign a l r
  | SStore a arr i d => H_store a arr i d
  | SFor pr ty x a b c s => H_for pr ty x a b c s (pstmt_ind' s)
  | SWhile pr c s => H_while pr c s (pstmt_ind' s)
  | SIf c t e => H_if c t e (pstmt_ind' t) (match e with Some e => pstmt_ind' e | None => I end)
  | SCase cs a => H_case cs a (go2 cs)
  | SSwitch e cs => H_switch e cs (go2 cs)
  | SBlock ss => H_block ss (go ss)
  | SScope s => H_scope s (pstmt_ind' s)
  | SAllocate a b ty x n => H_alloc a b ty x n
  | SFree e => H_free e
  | SComment t => H_comment t
  | SBlankLine => H_blank
  | SContinue => H_continue
  | SBreak => H_break
  | SPrint f es => H_print f es
  | SSort es => H_sort es
  end.
End Induction.

Ltac wl := split; vm_compute; reflexivity.
Lemma lx_end b r tr : lexes true r tr -> lexes b (str ";" ++ eol ++ r) (punct ";" ++ tr).
Proof. intros L. apply lx_solid; [in_list|]. apply lx_eol. exact L. Qed.
Lemma lx_close b r tr : lexes true r tr -> lexes b (str ");" ++ eol ++ r) (punct ")" ++ punct ";" ++ tr).
Proof. intros L. apply (lx_solid b (str ")")); [in_list|]. apply lx_end. exact L. Qed.
Lemma lx_brace b r tr : lexes true r tr -> lexes b (str "}" ++ eol ++ r) (punct "}" ++ tr).
Proof. intros L. apply lx_solid; [in_list|]. apply lx_eol. exact L. Qed.
Lemma lx_open b r tr : lexes true r tr -> lexes b (str ") {" ++ eol ++ r) (punct ")" ++ punct "{" ++ tr).
Proof. intros L. apply (lx_solid b (str ")")); [in_list|]. apply lx_blank. apply (lx_solid false (str "{")); [in_list|]. apply lx_eol. exact L. Qed.
Lemma lx_sopen b r tr : lexes true r tr -> lexes b (str " {" ++ eol ++ r) (punct "{" ++ tr).
Proof. intros L. apply lx_blank. apply (lx_solid b (str "{")); [in_list|]. apply lx_eol. exact L. Qed.
Lemma lx_if b r tr : lexes false r tr -> lexes b (str "if (" ++ r) (keyword "if" ++ punct "(" ++ tr).
Proof. intros L. apply (lx_id b (str "if")); [wl|reflexivity|]. apply lx_blank. apply (lx_solid false (str "(")); [in_list|exact L]. Qed.
Lemma lx_while b r tr : lexes false r tr -> lexes b (str "while (" ++ r) (keyword "while" ++ punct "(" ++ tr).
Proof. intros L. apply (lx_id b (str "while")); [wl|reflexivity|]. apply lx_blank. apply (lx_solid false (str "(")); [in_list|exact L]. Qed.
Lemma lx_for b r tr : lexes false r tr -> lexes b (str "for (" ++ r) (keyword "for" ++ punct "(" ++ tr).
Proof. intros L. apply (lx_id b (str "for")); [wl|reflexivity|]. apply lx_blank. apply (lx_solid false (str "(")); [in_list|exact L]. Qed.
Lemma lx_switch b r tr : lexes false r tr -> lexes b (str "switch (" ++ r) (keyword "switch" ++ punct "(" ++ tr).
Proof. intros L. apply (lx_id b (str "switch")); [wl|reflexivity|]. apply lx_blank. apply (lx_solid false (str "(")); [in_list|exact L]. Qed.
Lemma lx_else b r tr : lexes true r tr -> lexes b (str "else {" ++ eol ++ r) (keyword "else" ++ punct "{" ++ tr).
Proof. intros L. apply (lx_id b (str "else")); [wl|reflexivity|]. apply lx_sopen. exact L. Qed.
Lemma lx_else_if b r tr : lexes false r tr -> lexes b (str "else if (" ++ r) (keyword "else" ++ keyword "if" ++ punct "(" ++ tr).
Proof. intros L. apply (lx_id b (str "else")); [wl|reflexivity|]. apply lx_blank. apply lx_if. exact L. Qed.
Lemma lx_equals b r tr : lexes false r tr -> lexes b (str " = " ++ r) (punct "=" ++ tr).
Proof. intros L. apply lx_blank. apply (lx_assign b None); [exact L|exact I]. Qed.
Lemma lx_fn b f r tr : name f -> lexes false r tr -> lexes b (f ++ str "(" ++ r) (KId f :: punct "(" ++ tr).
Proof. intros N L. apply lx_id; [apply name_wordlike; auto|reflexivity|]. apply lx_solid; [in_list|exact L]. Qed.
Lemma follows_end r : follows (str ";" ++ r). Proof. split; [reflexivity|discriminate]. Qed.
Lemma follows_close r : follows (str ");" ++ r). Proof. split; [reflexivity|discriminate]. Qed.
Lemma follows_open r : follows (str ") {" ++ r). Proof. split; [reflexivity|discriminate]. Qed.
Lemma follows_paren r : follows (str ")" ++ r). Proof. split; [reflexivity|discriminate]. Qed.
Lemma follows_comma r : follows (str ", " ++ r). Proof. split; [reflexivity|discriminate]. Qed.
Lemma follows_equals r : follows (str " = " ++ r). Proof. split; [reflexivity|discriminate]. Qed.

Lemma d_items_app ts cs us ds : d_items ts cs -> d_items us ds -> d_items (ts ++ us) (cs ++ ds).
Proof.
  intros A B. induction A; cbn [app]; auto; rewrite <- app_assoc; [apply D_items_decl|eapply D_items_stmt]; eauto.
Qed.
Lemma d_items_one b ts c : d_stmt b ts c -> d_items ts [c].
Proof. intros H. rewrite <- (app_nil_r ts). eapply D_items_stmt; [exact H|constructor]. Qed.

Section Stmts.
Variable same : pexpr -> pexpr -> bool.
Variable simplify : bool.
Hypothesis same_eq : forall a b, same a b = true -> a = b.
Notation print := (print_stmt same simplify).

Definition reads_line (s : text) (ts : list ctoken) : Prop := forall r tr, lexes true r tr -> lexes true (s ++ r) (ts ++ tr).
Definition is_block (c : cstmt) : bool := match c with CBlock _ => true | _ => false end.
Definition single (s : pstmt) : Prop :=
  match s with SVarDecl _ _ _ _ | SComment _ | SBlankLine | SScope _ | SCase [] _ | SBlock _ => False | _ => True end.
Definition ok1 (indent p : nat) (s : pstmt) : Prop :=
  exists ts cs, reads_line (fst (print indent p s)) ts /\ d_items ts cs /\ map normal cs = meant_stmt s /\
    (single s -> exists c, cs = [c] /\ is_block c = false /\ d_stmt false ts c /\ (else_follows s -> d_stmt true ts c)).
Definition ok (s : pstmt) : Prop := printable_stmt s -> forall indent p, ok1 indent p s.
Lemma ok_one indent p s ts c : reads_line (fst (print indent p s)) ts -> d_stmt false ts c -> (else_follows s -> d_stmt true ts c) ->
  meant_stmt s = [normal c] -> is_block c = false -> ok1 indent p s.
Proof. intros R D E M B. exists ts, [c]. split; auto. split; [eapply d_items_one; eauto|]. split; [auto|]. intros _. exists c. auto. Qed.
Lemma ok_both indent p s ts c : reads_line (fst (print indent p s)) ts -> (forall b, d_stmt b ts c) ->
  meant_stmt s = [normal c] -> is_block c = false -> ok1 indent p s.
Proof. intros R D M B. apply ok_one with (ts := ts) (c := c); auto. Qed.
Lemma braced_normal c : is_block c = false -> braced (normal c) = CBlock [normal c].
Proof. destruct c as [| [o|] | | | | | | | | |]; cbn; auto; discriminate. Qed.

Lemma is_one_meant e : is_one e = true -> meant e = one.
Proof. destruct e as [[] t| | | | | | | | | | | |]; try discriminate. unfold is_one, text_eqb. destruct (list_eq_dec ascii_dec t (str "1")) as [->|]; [reflexivity|discriminate]. Qed.
(** Assignments *)
Lemma rhs_ok l r : printable r ->
  exists ts, (forall b u tu, lexes true u tu -> lexes b (fst (print_rhs same simplify l r) ++ str ";" ++ eol ++ u) (ts ++ punct ";" ++ tu)) /\
    follows (fst (print_rhs same simplify l r) ++ str ";") /\
    forall tl, d_post tl (meant l) -> exists c, d_simple (tl ++ ts) c /\ normal c = CAssign None (meant l) (meant r) /\ is_block c = false.
Proof.
  intros Pr.
  assert (Plain : exists ts, (forall b u tu, lexes true u tu -> lexes b (fst (let '(s, q) := print_expr p_top r in (str " = " ++ s, q)) ++ str ";" ++ eol ++ u) (ts ++ punct ";" ++ tu)) /\
    follows (fst (let '(s, q) := print_expr p_top r in (str " = " ++ s, q)) ++ str ";") /\
    forall tl, d_post tl (meant l) -> exists c, d_simple (tl ++ ts) c /\ normal c = CAssign None (meant l) (meant r) /\ is_block c = false).
  { destruct (expr_good r Pr p_top) as (ts & R & D & _). destruct (print_expr p_top r) as [s q]. cbn [fst] in *.
    exists (punct "=" ++ ts). split; [|split; [apply follows_equals|]].
    - intros b u tu L. rewrite <- ?app_assoc. apply lx_equals. apply R; [apply follows_end|]. apply lx_end. exact L.
    - intros tl Dl. exists (CAssign None (meant l) (meant r)). split; [|split; reflexivity]. apply (D_assign None); [exact I|exact Dl|exact D]. }
  assert (Comp : forall o a b, r = PBin o a b -> In o [Add; Mul; BitOr] -> a = l -> exists ts,
    (forall b' u tu, lexes true u tu -> lexes b' (fst (let '(s, q) := print_expr p_top b in (str " " ++ op_text o ++ str "= " ++ s, q)) ++ str ";" ++ eol ++ u) (ts ++ punct ";" ++ tu)) /\
    follows (fst (let '(s, q) := print_expr p_top b in (str " " ++ op_text o ++ str "= " ++ s, q)) ++ str ";") /\
    forall tl, d_post tl (meant l) -> exists c, d_simple (tl ++ ts) c /\ normal c = CAssign None (meant l) (meant r) /\ is_block c = false).
  { intros o a b -> Io ->. destruct Pr as [_ Pb]. destruct (expr_good b Pb p_top) as (ts & R & D & _). destruct (print_expr p_top b) as [s q]. cbn [fst] in *.
    assert (As : assigns (Some o)) by (cbn in *; intuition).
    exists ([KPunct (assign_text (Some o))] ++ ts). split; [|split; [apply follows_blank|]].
    - intros b' u tu L. rewrite <- ?app_assoc. apply lx_blank.
      replace (op_text o ++ str "= " ++ s ++ str ";" ++ eol ++ u) with (assign_text (Some o) ++ str " " ++ s ++ str ";" ++ eol ++ u)
        by (unfold assign_text; rewrite <- !app_assoc; reflexivity).
      apply lx_assign; [|exact As]. apply R; [apply follows_end|]. apply lx_end. exact L.
    - intros tl Dl. exists (CAssign (Some o) (meant l) (meant b)). split; [|split; reflexivity]. apply D_assign; auto. }
  unfold print_rhs. destruct simplify; [|exact Plain].
  destruct r as [| | | | |o a b| | | | | | |]; try exact Plain.
  destruct o; try exact Plain; (destruct (same a l) eqn:E; [|exact Plain]); apply same_eq in E.
  - destruct (is_one b) eqn:E1.
    + apply is_one_meant in E1. exists (punct "++"). split; [|split; [split; [reflexivity|discriminate]|]].
      * intros b' u tu L. cbn [fst]. apply (lx_incr b' ";"%char (eol ++ u)); [cbn; auto|]. apply lx_end. exact L.
      * intros tl Dl. exists (CIncr (meant l)). split; [apply D_incr; exact Dl|]. split; [|reflexivity]. cbn [normal meant]. rewrite E1, E. reflexivity.
    + apply (Comp Add a b); auto. cbn. auto.
  - apply (Comp Mul a b); auto. cbn. auto.
  - apply (Comp BitOr a b); auto. cbn. auto.
Qed.
Lemma lx_atomic indent atomic b s ts : (atomic = true -> b = true) -> lexes b s ts -> lexes b (atomic_lines indent atomic ++ s) ts.
Proof.
  destruct atomic; [intros ->; auto|]; intros.
  - apply lx_pragmas; auto. repeat constructor.
  - exact H0.
Qed.
Lemma assign_ok indent p atomic l r : printable l -> location l -> printable r ->
  exists ts c, (forall b u tu, (atomic = true -> b = true) -> lexes true u tu -> lexes b (fst (print_assign same simplify indent p atomic l r) ++ u) (ts ++ tu)) /\
    (forall b, d_stmt b ts c) /\ normal c = CAssign None (meant l) (meant r) /\ is_block c = false.
Proof.
  intros Pl Ll Pr. destruct (expr_good l Pl p) as (tl & Rl & _ & _ & _ & _ & Dl). specialize (Dl Ll).
  destruct (rhs_ok l r Pr) as (tr & Rr & Fr & Dr). destruct (Dr tl Dl) as (c & D & N & B).
  unfold print_assign. destruct (print_expr p l) as [s q]. destruct (print_rhs same simplify l r) as [t q']. cbn [fst] in *.
  exists ((tl ++ tr) ++ punct ";"), c. split; [|split; [intros b; apply D_simple; exact D|auto]].
  intros b u tu A L. rewrite <- ?app_assoc. apply lx_atomic; auto. apply lx_spaces. apply Rl.
  - destruct t as [|ch t]; [split; [reflexivity|discriminate]|exact Fr].
  - apply Rr. exact L.
Qed.
(** Blocks *)
Lemma block_ok ss : Forall ok ss -> all printable_stmt ss -> forall indent p,
  exists ts cs, reads_line (fst (print_block print indent p ss)) ts /\ d_items ts cs /\ map normal cs = flat_map meant_stmt ss.
Proof.
  intros F. induction F as [|s ss O F IH]; intros A indent p.
  - exists [], []. split; [intros r tr L; exact L|]. split; [constructor|reflexivity].
  - destruct A as [A1 A]. destruct (O A1 indent p) as (ts & cs & R & D & M & _). cbn [print_block].
    destruct (print indent p s) as [t q]. destruct (IH A indent q) as (ts' & cs' & R' & D' & M'). destruct (print_block print indent q ss) as [u r]. cbn [fst] in *.
    exists (ts ++ ts'), (cs ++ cs'). split; [|split; [apply d_items_app; auto|rewrite map_app, M, M'; reflexivity]].
    intros x tx L. rewrite <- !app_assoc. apply R, R'. exact L.
Qed.
(** A body between braces *)
Lemma body_ok s : ok s -> printable_stmt s -> forall indent p, exists ts cs,
  reads_line (fst (print indent p s)) ts /\ (forall b, d_stmt b (punct "{" ++ ts ++ punct "}") (CBlock cs)) /\ normal (CBlock cs) = CBlock (meant_stmt s).
Proof.
  intros O P indent p. destruct (O P indent p) as (ts & cs & R & D & M & _). exists ts, cs. split; auto. split; [intros b; apply D_block; exact D|].
  cbn [normal]. rewrite M. reflexivity.
Qed.
(** The clauses after the first *)
Lemma clauses_ok always cs : Forall (fun cb => ok (snd cb)) cs -> all (fun '(c, b) => printable c /\ printable_stmt b) cs -> forall indent p,
  exists ts, (forall r tr, lexes false r tr -> lexes false (fst (print_clauses print indent always false p cs) ++ r) (ts ++ tr)) /\
    (cs = [] /\ ts = [] \/
     exists te c, cs <> [] /\ ts = keyword "else" ++ te /\ chain meant_stmt always cs = Some (braced (normal c)) /\
       d_stmt false te c /\ (always = true -> d_stmt true te c)).
Proof.
  intros F. induction F as [|[c b] cs O F IH]; intros A indent p.
  - exists []. split; [intros r tr L; exact L|left; auto].
  - destruct A as [[Pc Pb] A]. cbn [snd] in O.
    destruct cs as [|cb cs]; [destruct always|].
    + (* else *)
      destruct (body_ok b O Pb (S indent) p) as (ts & ds & R & D & M). cbn [print_clauses negb orb]. destruct (print (S indent) p b) as [t q]. cbn [fst] in *.
      exists (keyword "else" ++ punct "{" ++ ts ++ punct "}"). split.
      * intros r tr L. rewrite <- ?app_assoc. cbn [app]. apply lx_eol, lx_spaces.
        apply lx_else. rewrite <- ?app_assoc. apply R. apply lx_spaces. apply lx_solid; [in_list|exact L].
      * right. exists (punct "{" ++ ts ++ punct "}"), (CBlock ds). split; [discriminate|]. split; [reflexivity|]. split; [cbn [chain]; rewrite M; reflexivity|]. split; auto.
    + (* the last else if *)
      destruct (expr_good c Pc p_top) as (tc & Rc & Dc & _). cbn [print_clauses negb orb]. destruct (print_expr p_top c) as [s q]. cbn [fst] in *.
      destruct (body_ok b O Pb (S indent) q) as (ts & ds & R & D & M). destruct (print (S indent) q b) as [t q']. cbn [fst] in *.
      exists (keyword "else" ++ keyword "if" ++ punct "(" ++ tc ++ punct ")" ++ punct "{" ++ ts ++ punct "}"). split.
      * intros r tr L. rewrite <- ?app_assoc. cbn [app]. apply lx_eol, lx_spaces.
        apply lx_else_if. rewrite <- ?app_assoc. apply Rc; [apply follows_paren|]. apply lx_open. rewrite <- ?app_assoc. apply R. apply lx_spaces. apply lx_solid; [in_list|exact L].
      * right. exists (keyword "if" ++ punct "(" ++ tc ++ punct ")" ++ punct "{" ++ ts ++ punct "}"), (CIf (meant c) (CBlock ds) None).
        split; [discriminate|]. split; [reflexivity|]. split; [cbn [chain normal option_map braced] in *; rewrite M; reflexivity|].
        split; [|discriminate]. eapply D_if with (closed := true); [eapply d_le; [apply lvl_8|exact Dc]|apply D].
    + (* else if before others *)
      destruct (expr_good c Pc p_top) as (tc & Rc & Dc & _).
      change (print_clauses print indent always false p ((c, b) :: cb :: cs)) with
        (let '(h, q) := let '(c, q) := print_expr p_top c in (str "else if (" ++ c ++ str ")", q) in
         let '(b, r) := print (S indent) q b in
         let '(t, r') := print_clauses print indent always false r (cb :: cs) in
         (eol ++ spaces indent ++ h ++ str " {" ++ eol ++ b ++ spaces indent ++ str "}" ++ t, r')).
      destruct (print_expr p_top c) as [s q]. cbn [fst] in *.
      destruct (body_ok b O Pb (S indent) q) as (ts & ds & R & D & M). destruct (print (S indent) q b) as [t q'].
      destruct (IH A indent q') as (te & Re & [[X _]|(te' & ce & _ & E & Ch & De & De')]); [discriminate X|].
      destruct (print_clauses print indent always false q' (cb :: cs)) as [u q'']. cbn [fst] in *.
      exists (keyword "else" ++ keyword "if" ++ punct "(" ++ tc ++ punct ")" ++ (punct "{" ++ ts ++ punct "}") ++ te). split.
      * intros r tr L. rewrite <- ?app_assoc. cbn [app]. apply lx_eol, lx_spaces.
        apply lx_else_if. rewrite <- ?app_assoc. apply Rc; [apply follows_paren|]. apply lx_open. rewrite <- ?app_assoc. apply R. apply lx_spaces.
        apply lx_solid; [in_list|]. apply Re. exact L.
      * right. exists (keyword "if" ++ punct "(" ++ tc ++ punct ")" ++ (punct "{" ++ ts ++ punct "}") ++ te), (CIf (meant c) (CBlock ds) (Some ce)).
        split; [discriminate|]. split; [reflexivity|].
        split; [change (chain meant_stmt always ((c, b) :: cb :: cs)) with (Some (CBlock [CIf (meant c) (CBlock (meant_stmt b)) (chain meant_stmt always (cb :: cs))]));
                cbn [normal option_map braced] in *; rewrite Ch, <- M; reflexivity|].
        rewrite E. split; [|intros Al]; apply D_if_else; auto; (eapply d_le; [apply lvl_8|exact Dc]).
Qed.
Lemma cases_ok cs : Forall (fun cb => ok (snd cb)) cs -> all (fun '(c, b) => printable c /\ printable_stmt b) cs -> forall indent p,
  exists ts ds, reads_line (fst (print_cases print indent p cs)) ts /\ d_cases ts ds /\
    map (fun '(c, s) => (c, normal s)) ds = map (fun '(c, b) => (meant c, CBlock (meant_stmt b ++ [CBreak]))) cs.
Proof.
  intros F. induction F as [|[c b] cs O F IH]; intros A indent p.
  - exists [], []. split; [intros r tr L; exact L|]. split; [constructor|reflexivity].
  - destruct A as [[Pc Pb] A]. cbn [snd] in O. destruct (expr_good c Pc p_top) as (tc & Rc & Dc & _). cbn [print_cases]. destruct (print_expr p_top c) as [s q]. cbn [fst] in *.
    destruct (O Pb (S (S indent)) q) as (ts & ds & R & D & M & _). destruct (print (S (S indent)) q b) as [t q'].
    destruct (IH A indent q') as (ts' & ds' & R' & D' & M'). destruct (print_cases print indent q' cs) as [u q'']. cbn [fst] in *.
    exists (keyword "case" ++ tc ++ punct ":" ++ (punct "{" ++ (ts ++ keyword "break" ++ punct ";") ++ punct "}") ++ ts'), ((meant c, CBlock (ds ++ [CBreak])) :: ds').
    split; [|split].
    + intros r tr L. rewrite <- ?app_assoc. apply lx_spaces. apply (lx_id true (str "case")); [wl|reflexivity|]. apply lx_blank. rewrite <- ?app_assoc.
      apply Rc; [split; [reflexivity|discriminate]|]. apply (lx_solid false (str ":")); [in_list|]. apply lx_sopen. apply R. apply lx_eol, lx_spaces.
      apply (lx_id true (str "break")); [wl|reflexivity|]. apply lx_end. apply lx_spaces. apply lx_brace. apply R'. exact L.
    + eapply D_cases_cons with (closed := true); [eapply d_le; [apply lvl_8|exact Dc]| |exact D']. apply D_block. apply d_items_app; [exact D|].
      apply d_items_one with (b := true). apply D_break.
    + cbn [map normal]. rewrite map_app, M, M'. reflexivity.
Qed.

Lemma stmt_ok : forall s, ok s.
Proof.
  induction s using pstmt_ind'; intros Pr indent p; cbn [printable_stmt] in Pr.
  - (* declarations *)
    destruct Pr as (Ty & Nx & Pe). destruct (expr_good e Pe p_top) as (ts & R & D & _). unfold ok1. cbn [print_stmt]. destruct (print_expr p_top e) as [s q]. cbn [fst] in *.
    exists (map KId ty ++ (if ptr then punct "*" ++ keyword "restrict" else []) ++ [KId x] ++ punct "=" ++ ts ++ punct ";"), [CDecl ty ptr x (meant e)].
    split; [|split; [|split; [reflexivity|intros []]]].
    + intros r tr L. rewrite <- ?app_assoc. apply lx_spaces.
      assert (X : lexes false (str " " ++ x ++ str " = " ++ s ++ str ";" ++ eol ++ r) ([KId x] ++ punct "=" ++ ts ++ punct ";" ++ tr)).
      { apply lx_blank. apply lx_id; [apply name_wordlike; auto|reflexivity|]. apply lx_equals. apply R; [apply follows_end|]. apply lx_end. exact L. }
      apply lx_type; [auto|destruct ptr; reflexivity|]. destruct ptr; [|exact X].
      apply (lx_star false " "%char); [cbn; auto|]. apply lx_blank. apply (lx_id false (str "restrict")); [wl|reflexivity|]. exact X.
    + rewrite <- (app_nil_r (map KId ty ++ _)). apply D_items_decl; [|constructor]. apply D_decl; auto. apply not_reserved. auto.
  - (* assignments *)
    destruct Pr as (Pl & Ll & Prr). destruct (assign_ok indent p a l r Pl Ll Prr) as (ts & c & R & D & N & B).
    apply ok_both with (ts := ts) (c := c); auto; [|cbn [meant_stmt]; rewrite N; reflexivity]. intros u tu L. apply R; auto.
  - (* stores *)
    destruct Pr as (Pa & La & Pi & Pd). destruct (expr_good arr Pa p) as (ta & Ra & _ & _ & _ & _ & Da). specialize (Da La).
    destruct (expr_good i Pi p_top) as (ti & Ri & Di & _). destruct (expr_good d Pd p_top) as (td & Rd & Dd & _).
    apply ok_both with (ts := ((ta ++ punct "[" ++ ti ++ punct "]") ++ punct "=" ++ td) ++ punct ";") (c := CAssign None (CIndex (meant arr) (meant i)) (meant d)); try reflexivity.
    + cbn [print_stmt]. destruct (print_expr p arr) as [s1 q1]. destruct (print_expr p_top i) as [s2 q2]. destruct (print_expr p_top d) as [s3 q3]. cbn [fst] in *.
      intros r tr L. rewrite <- ?app_assoc. apply lx_atomic; auto. apply lx_spaces. apply Ra; [split; [reflexivity|discriminate]|]. apply lx_solid; [in_list|].
      apply Ri; [split; [reflexivity|discriminate]|]. apply (lx_solid false (str "]")); [in_list|]. apply lx_equals. apply Rd; [apply follows_end|]. apply lx_end. exact L.
    + intros b. apply D_simple. apply (D_assign None); [exact I| |exact Dd]. apply D_index; auto.
  - (* for loops *)
    destruct Pr as (Fp & Ty & Nx & Pa & Pb & Pc & Ps). destruct (expr_good a Pa p) as (ta & Ra & Da & _). destruct (expr_good b Pb p_bottom) as (tb & Rb & Db & _).
    unfold ok1. cbn [print_stmt]. unfold print_for_header. destruct (print_expr p a) as [s1 q1]. destruct (print_expr p_bottom b) as [s2 q2]. cbn [fst] in Ra, Rb.
    assert (U : exists tu cu, (forall r tr, lexes false (str ")" ++ r) tr -> lexes false (fst (if is_one c then (str "++", q2) else let '(u, r) := print_expr q2 c in (str " += " ++ u, r)) ++ str ")" ++ r) (tu ++ tr)) /\
       no_word (fst (if is_one c then (str "++", q2) else let '(u, r) := print_expr q2 c in (str " += " ++ u, r)) ++ str ")") /\
       d_simple ([KId x] ++ tu) cu /\ normal cu = CAssign None (CId x) (CBin Add (CId x) (meant c))).
    { assert (Dx : d_post [KId x] (CId x)) by (apply D_id, not_reserved; auto). destruct (is_one c) eqn:E.
      - exists (punct "++"), (CIncr (CId x)). split; [intros r tr L; apply (lx_incr false ")"%char r); [cbn; auto|exact L]|]. split; [reflexivity|]. split; [apply D_incr; auto|].
        cbn [normal]. rewrite (is_one_meant c E). reflexivity.
      - destruct (expr_good c Pc q2) as (tc & Rc & Dc & _). destruct (print_expr q2 c) as [s3 q3]. cbn [fst] in *.
        exists ([KPunct (assign_text (Some Add))] ++ tc), (CAssign (Some Add) (CId x) (meant c)). split.
        + intros r tr L. rewrite <- ?app_assoc. apply lx_blank. apply (lx_assign false (Some Add)); [|cbn; auto]. apply Rc; [apply follows_paren|exact L].
        + split; [reflexivity|]. split; [|reflexivity]. apply D_assign; [cbn; auto|exact Dx|eapply d_le; [apply lvl_8|exact Dc]]. }
    destruct U as (tu & cu & Ru & Nu & Du & Mu).
    destruct (if is_one c then (str "++", q2) else let '(u, r) := print_expr q2 c in (str " += " ++ u, r)) as [s3 q3]. cbn [fst] in Ru, Nu.
    destruct (body_ok s IHs Ps (S indent) q3) as (ts & ds & R & D & M).
    assert (O : reads_line (pragma_lines indent pr ++ spaces indent ++
        (str "for (" ++ type_text ty ++ str " " ++ x ++ str " = " ++ s1 ++ str "; " ++ x ++ str " < " ++ s2 ++ str "; " ++ x ++ s3 ++ str ") {" ++ eol) ++
        fst (print (S indent) q3 s) ++ spaces indent ++ str "}" ++ eol)
      (keyword "for" ++ punct "(" ++ (map KId ty ++ [KId x] ++ punct "=" ++ ta ++ punct ";") ++ ([KId x] ++ [KPunct (op_text Lt)] ++ tb) ++ punct ";" ++ ([KId x] ++ tu) ++ punct ")" ++ punct "{" ++ ts ++ punct "}")).
    { intros r tr L. rewrite <- ?app_assoc. apply lx_pragmas; auto. apply lx_spaces. apply lx_for. apply lx_type; [auto|reflexivity|]. apply lx_blank.
      apply lx_id; [apply name_wordlike; auto|reflexivity|]. apply lx_equals. apply Ra; [split; [reflexivity|discriminate]|]. apply (lx_solid false (str ";")); [in_list|]. apply lx_blank.
      apply lx_id; [apply name_wordlike; auto|reflexivity|]. apply lx_blank. apply (lx_op false Lt). apply Rb; [split; [reflexivity|discriminate]|].
      apply (lx_solid false (str ";")); [in_list|]. apply lx_blank. apply lx_id; [apply name_wordlike; auto| |].
      - destruct s3; [reflexivity|exact Nu].
      - apply (Ru (str " {" ++ eol ++ _)). apply lx_open. apply R. apply lx_spaces. apply lx_brace. exact L. }
    destruct (print (S indent) q3 s) as [t q4] eqn:Ep. cbn [fst] in *.
    assert (Ds : forall b', d_stmt b' (keyword "for" ++ punct "(" ++ (map KId ty ++ [KId x] ++ punct "=" ++ ta ++ punct ";") ++ ([KId x] ++ [KPunct (op_text Lt)] ++ tb) ++ punct ";" ++ ([KId x] ++ tu) ++ punct ")" ++ punct "{" ++ ts ++ punct "}")
      (CFor ty x (meant a) (CBin Lt (CId x) (meant b)) cu (CBlock ds))).
    { intros b'. apply D_for; auto; [apply not_reserved; auto|eapply d_le; [apply lvl_8|exact Da]|].
      eapply d_le with (n := 3); [lia|]. apply D_bin; [reflexivity| |eapply d_le; [|exact Db]; cbn; lia]. eapply d_le with (n := 0); [lia|]. apply D_post, D_id, not_reserved. auto. }
    eexists; exists [CFor ty x (meant a) (CBin Lt (CId x) (meant b)) cu (CBlock ds)]. split; [exact O|]. split; [eapply d_items_one; apply (Ds true)|].
    split; [cbn [map normal meant_stmt braced] in *; rewrite Mu; rewrite M; reflexivity|]. intros _. eexists. split; [reflexivity|]. split; [reflexivity|]. split; auto.
  - (* while loops *)
    destruct Pr as (Fp & Pc & Ps). destruct (expr_good c Pc p_top) as (tc & Rc & Dc & _).
    destruct (body_ok s IHs Ps (S indent) (snd (print_expr p_top c))) as (ts & ds & R & D & M).
    apply ok_both with (ts := keyword "while" ++ punct "(" ++ tc ++ punct ")" ++ punct "{" ++ ts ++ punct "}") (c := CWhile (meant c) (CBlock ds)); try reflexivity.
    + cbn [print_stmt]. destruct (print_expr p_top c) as [s1 q1]. cbn [snd] in R. destruct (print (S indent) q1 s) as [t q2]. cbn [fst] in *.
      intros r tr L. rewrite <- ?app_assoc. apply lx_pragmas; auto. apply lx_spaces. apply lx_while. apply Rc; [apply follows_open|]. apply lx_open. apply R.
      apply lx_spaces. apply lx_brace. exact L.
    + intros b. apply D_while; auto.
    + cbn [normal meant_stmt braced] in *. rewrite M. reflexivity.
  - (* if *)
    destruct Pr as (Pc & Pt & Bt & Pe). destruct (expr_good c Pc p_top) as (tc & Rc & Dc & _). unfold ok1. cbn [print_stmt]. destruct (print_expr p_top c) as [s1 q1]. cbn [fst] in *.
    set (branch := match s with
        | SBlock _ => let '(b, r) := print (S indent) q1 s in (str " {" ++ eol ++ b ++ spaces indent ++ str "}", r)
        | SAssign atomic lhs rhs => let '(b, r) := print_assign same simplify 0 q1 atomic lhs rhs in (str " " ++ b, r)
        | _ => let '(b, r) := print (S indent) q1 s in (eol ++ b, r)
        end).
    assert (T : exists tt ct, (forall r tr, lexes true r tr -> lexes false (fst branch ++ eol ++ r) (tt ++ tr)) /\ d_stmt false tt ct /\ (else_follows s -> d_stmt true tt ct) /\
      braced (normal ct) = CBlock (meant_stmt s)).
    { assert (Single : single s -> (forall a l r, s <> SAssign a l r) -> (let '(b, r) := print (S indent) q1 s in (eol ++ b, r)) = branch -> exists tt ct, (forall r tr, lexes true r tr -> lexes false (fst branch ++ eol ++ r) (tt ++ tr)) /\ d_stmt false tt ct /\
        (else_follows s -> d_stmt true tt ct) /\ braced (normal ct) = CBlock (meant_stmt s)).
      { intros Si _ <-. destruct (IHs Pt (S indent) q1) as (ts & cs & R & D & M & S1). destruct (S1 Si) as (ct & -> & B & D1 & D2). exists ts, ct.
        destruct (print (S indent) q1 s) as [t q2]. cbn [fst] in *. split; [|split; auto; split; auto; rewrite braced_normal by auto; rewrite <- M; reflexivity].
        intros r tr L. rewrite <- ?app_assoc. apply lx_eol. apply R. apply lx_eol. exact L. }
      destruct s; cbn [bare] in Bt; try contradiction; try (apply Single; [exact I|discriminate|reflexivity]).
      - subst atomic. subst branch. destruct Pt as (Pl & Ll & Prr). destruct (assign_ok 0 q1 false lhs rhs Pl Ll Prr) as (ts & ct & R & D & N & B). exists ts, ct.
        destruct (print_assign same simplify 0 q1 false lhs rhs) as [t q2]. cbn [fst] in *. split; [|split; auto; split; auto; rewrite braced_normal by auto; cbn [meant_stmt]; rewrite N; reflexivity].
        intros r tr L. rewrite <- ?app_assoc. apply lx_blank. apply R; [discriminate|]. apply lx_eol. exact L.
      - destruct clauses as [|cb cs]; [destruct Bt|]. apply Single; [exact I|discriminate|reflexivity].
      - destruct (body_ok _ IHs Pt (S indent) q1) as (ts & ds & R & D & M). subst branch. destruct (print (S indent) q1 (SBlock contents)) as [t q2]. cbn [fst] in *.
        exists (punct "{" ++ ts ++ punct "}"), (CBlock ds). split; [|split; auto; split; auto; rewrite M; reflexivity].
        intros r tr L. rewrite <- ?app_assoc. apply lx_sopen. apply R. apply lx_spaces. apply lx_brace. exact L. }
    clearbody branch. destruct T as (tt & ct & Rt & Dt & Dt' & Mt). destruct branch as [t q2]. cbn [fst] in Rt. destruct e as [e|].
    + destruct Pe as [El Pe]. destruct (body_ok e H Pe (S indent) q2) as (te & de & Re & De & Me). destruct (print (S indent) q2 e) as [u q3]. cbn [fst] in *.
      assert (Ds : forall b, d_stmt b (keyword "if" ++ punct "(" ++ tc ++ punct ")" ++ tt ++ keyword "else" ++ (punct "{" ++ te ++ punct "}")) (CIf (meant c) ct (Some (CBlock de))))
        by (intros b; apply D_if_else; auto).
      eexists; exists [CIf (meant c) ct (Some (CBlock de))]. split; [|split; [eapply d_items_one; apply (Ds true)|]].
      * intros r tr L. rewrite <- ?app_assoc. apply lx_spaces. apply lx_if. apply Rc; [apply follows_paren|]. apply lx_solid; [in_list|].
        rewrite <- ?app_assoc. apply Rt. apply lx_spaces. apply lx_else. rewrite <- ?app_assoc. apply Re. apply lx_spaces. apply lx_brace. exact L.
      * split; [cbn [map normal option_map meant_stmt braced] in *; rewrite Mt, Me; reflexivity|]. intros _. eexists. split; [reflexivity|]. split; [reflexivity|]. split; auto.
    + assert (Ds : d_stmt false (keyword "if" ++ punct "(" ++ tc ++ punct ")" ++ tt) (CIf (meant c) ct None)) by (eapply D_if; eauto).
      eexists; exists [CIf (meant c) ct None]. split; [|split; [eapply d_items_one; exact Ds|]].
      * cbn [fst]. intros r tr L. rewrite <- ?app_assoc. apply lx_spaces. apply lx_if. apply Rc; [apply follows_paren|]. apply lx_solid; [in_list|].
        rewrite <- ?app_assoc. apply Rt. exact L.
      * split; [cbn [map normal option_map meant_stmt] in *; rewrite Mt; reflexivity|]. intros _. eexists. split; [reflexivity|]. split; [reflexivity|]. split; [exact Ds|intros []].
  - (* case *)
    destruct cs as [|[c b] cs].
    + exists [], []. split; [intros r tr L; apply lx_eol; exact L|]. split; [constructor|]. split; [reflexivity|intros []].
    + destruct Pr as [[Pc Pb] Pr]. inversion H as [|? ? O F]; subst. cbn [snd] in O. destruct (expr_good c Pc p_top) as (tc & Rc & Dc & _).
      unfold ok1. cbn [print_stmt print_clauses]. destruct (print_expr p_top c) as [s q]. cbn [fst] in *.
      destruct (body_ok b O Pb (S indent) q) as (ts & ds & R & D & M). destruct (print (S indent) q b) as [t q'].
      destruct (clauses_ok a cs F Pr indent q') as (te & Re & X). destruct (print_clauses print indent a false q' cs) as [u q'']. cbn [fst] in *.
      assert (Rd : reads_line (([] ++ spaces indent ++ (str "if (" ++ s ++ str ")") ++ str " {" ++ eol ++ t ++ spaces indent ++ str "}" ++ u) ++ eol)
         (keyword "if" ++ punct "(" ++ tc ++ punct ")" ++ (punct "{" ++ ts ++ punct "}") ++ te)).
      { intros r tr L. rewrite <- ?app_assoc. cbn [app]. apply lx_spaces. apply lx_if. rewrite <- ?app_assoc. apply Rc; [apply follows_paren|]. apply lx_open. rewrite <- ?app_assoc. apply R. apply lx_spaces.
        apply lx_solid; [in_list|]. apply Re. apply lx_eol. exact L. }
      destruct X as [[-> ->]|(te' & ce & Ne & -> & Ch & De & De')].
      * assert (Ds : d_stmt false (keyword "if" ++ punct "(" ++ tc ++ punct ")" ++ (punct "{" ++ ts ++ punct "}") ++ []) (CIf (meant c) (CBlock ds) None))
          by (rewrite app_nil_r; eapply D_if with (closed := true); auto).
        eexists; exists [CIf (meant c) (CBlock ds) None]. split; [exact Rd|]. split; [eapply d_items_one; exact Ds|].
        split; [cbn [map normal option_map meant_stmt braced chain] in *; rewrite M; reflexivity|]. intros _. eexists. split; [reflexivity|]. split; [reflexivity|]. split; [exact Ds|].
        cbn [else_follows length]. lia.
      * assert (Ds : forall b', (d_stmt b' te' ce) -> d_stmt b' (keyword "if" ++ punct "(" ++ tc ++ punct ")" ++ (punct "{" ++ ts ++ punct "}") ++ keyword "else" ++ te') (CIf (meant c) (CBlock ds) (Some ce)))
          by (intros b' X; apply D_if_else; auto).
        eexists; exists [CIf (meant c) (CBlock ds) (Some ce)]. split; [exact Rd|]. split; [eapply d_items_one; apply (Ds _ De)|].
        split; [cbn [map normal option_map meant_stmt braced] in *; rewrite Ch, M; reflexivity|]. intros _. eexists. split; [reflexivity|]. split; [reflexivity|]. split; [apply Ds; auto|].
        cbn [else_follows]. intros [Al _]. apply Ds. auto.
  - (* switch *)
    destruct Pr as [Pe Pr]. destruct (expr_good e Pe p) as (te & Re & De & _). destruct (cases_ok cs H Pr indent (snd (print_expr p e))) as (ts & ds & R & D & M).
    apply ok_both with (ts := keyword "switch" ++ punct "(" ++ te ++ punct ")" ++ punct "{" ++ ts ++ punct "}") (c := CSwitch (meant e) ds); try reflexivity.
    + cbn [print_stmt]. destruct (print_expr p e) as [s q]. cbn [snd] in R. destruct (print_cases print indent q cs) as [t q2]. cbn [fst] in *.
      intros r tr L. rewrite <- ?app_assoc. apply lx_spaces. apply lx_switch. apply Re; [apply follows_open|]. apply lx_open. apply R. apply lx_spaces. apply lx_brace. exact L.
    + intros b. apply D_switch; auto. eapply d_le; [apply lvl_8|exact De].
    + cbn [normal meant_stmt]. rewrite M. reflexivity.
  - (* blocks *)
    destruct (block_ok ss H Pr indent p) as (ts & cs & R & D & M). exists ts, cs. split; [exact R|]. split; auto. split; [exact M|intros []].
  - destruct (IHs Pr (S indent) p) as (ts & cs & R & D & M & _). exists ts, cs. split; [exact R|]. split; auto. split; [exact M|intros []].
  - (* allocations *)
    destruct Pr as (Ty & Nx & Pn). destruct (expr_good n Pn (prec Mul)) as (tn & Rn & Dn & _).
    set (tz := (keyword "sizeof" ++ punct "(" ++ map KId ty ++ punct ")") ++ [KPunct (op_text Mul)] ++ tn).
    assert (Dz : d_expr 8 tz (CBin Mul (CSizeof ty) (meant n))).
    { eapply d_le with (n := 1); [lia|]. apply D_bin; [reflexivity|apply D_up, D_sizeof; auto|exact Dn]. }
    assert (Dx : d_post [KId x] (CId x)) by (apply D_id, not_reserved; auto).
    set (tc := if a then KId (str "realloc") :: punct "(" ++ ([KId x] ++ punct "," ++ tz) ++ punct ")"
               else if b then KId (str "calloc") :: punct "(" ++ ([KNum (str "1")] ++ punct "," ++ tz) ++ punct ")"
               else KId (str "malloc") :: punct "(" ++ tz ++ punct ")").
    set (cc := if a then CCall (str "realloc") [CId x; CBin Mul (CSizeof ty) (meant n)] else if b then CCall (str "calloc") [one; CBin Mul (CSizeof ty) (meant n)] else CCall (str "malloc") [CBin Mul (CSizeof ty) (meant n)]).
    assert (Dc : d_post tc cc).
    { subst tc cc. destruct a; [|destruct b]; apply D_call; try (apply not_reserved; first [apply name_realloc|apply name_calloc|apply name_malloc]); apply D_some.
      - apply D_cons; [eapply d_le with (n := 0); [lia|apply D_post; exact Dx]|apply D_one; exact Dz].
      - apply D_cons; [eapply d_le with (n := 0); [lia|apply D_post, D_num]|apply D_one; exact Dz].
      - apply D_one; exact Dz. }
    apply ok_both with (ts := ([KId x] ++ punct "=" ++ (punct "(" ++ map KId ty ++ stars true ++ punct ")" ++ tc)) ++ punct ";") (c := CAssign None (CId x) (CCast ty true cc)); try reflexivity.
    + cbn [print_stmt]. destruct (print_expr (prec Mul) n) as [s q]. cbn [fst] in *. intros r tr L. rewrite <- ?app_assoc. apply lx_spaces.
      apply lx_id; [apply name_wordlike; auto|reflexivity|]. apply (lx_equals false (str "(" ++ _)). apply lx_solid; [in_list|]. apply lx_type; [auto|reflexivity|].
      apply (lx_star false ")"%char); [cbn; auto|]. apply (lx_solid false (str ")")); [in_list|].
      assert (Z : lexes false (str "sizeof(" ++ type_text ty ++ str ") * " ++ s ++ str ");" ++ eol ++ r) (tz ++ punct ")" ++ punct ";" ++ tr)).
      { unfold tz. rewrite <- ?app_assoc. apply (lx_id false (str "sizeof")); [wl|reflexivity|]. apply (lx_solid false (str "(")); [in_list|]. apply lx_type; [auto|reflexivity|].
        apply (lx_solid false (str ")")); [in_list|]. apply lx_blank. apply (lx_op false Mul). apply Rn; [apply follows_close|]. apply lx_close. exact L. }
      pose proof Z as Z'. rewrite (app_assoc tz) in Z'.
      unfold tc. destruct a; [|destruct b]; rewrite <- ?app_assoc.
      * apply (lx_fn false (str "realloc")); [apply name_realloc|]. rewrite <- ?app_assoc. apply lx_id; [apply name_wordlike; auto|reflexivity|]. apply (lx_solid false (str ",")); [in_list|]. apply lx_blank. first [exact Z|exact Z'].
      * apply (lx_fn false (str "calloc")); [apply name_calloc|]. rewrite <- ?app_assoc. apply (lx_num false (str "1")); [repeat split|split; [reflexivity|discriminate]|]. apply (lx_solid false (str ",")); [in_list|]. apply lx_blank. first [exact Z|exact Z'].
      * apply (lx_fn false (str "malloc")); [apply name_malloc|]. first [exact Z|exact Z'].
    + intros b'. apply D_simple. apply (D_assign None); [exact I|exact Dx|]. eapply d_le with (n := 0); [lia|]. apply D_cast; auto. apply D_post. exact Dc.
  - (* free *)
    destruct (expr_good e Pr p_top) as (ts & R & D & _).
    apply ok_both with (ts := (keyword "free" ++ punct "(" ++ ts ++ punct ")") ++ punct ";") (c := CDo (CCall (str "free") [meant e])); try reflexivity.
    + cbn [print_stmt]. destruct (print_expr p_top e) as [s q]. cbn [fst] in *. intros r tr L. rewrite <- ?app_assoc. apply lx_spaces.
      apply (lx_fn true (str "free")); [apply name_free|]. rewrite <- ?app_assoc. apply R; [apply follows_close|]. apply lx_close. exact L.
    + intros b. apply D_simple, D_do. eapply d_le with (n := 0); [lia|]. apply D_post, D_call; [apply not_reserved, name_free|]. apply D_some, D_one. exact D.
  - exists [], []. split; [|split; [constructor|split; [reflexivity|intros []]]]. cbn [print_stmt fst]. intros r tr L. rewrite <- ?app_assoc. apply lx_spaces. apply lx_comment; auto. apply lx_eol. exact L.
  - exists [], []. split; [|split; [constructor|split; [reflexivity|intros []]]]. intros r tr L. apply lx_eol. exact L.
  - apply ok_both with (ts := keyword "continue" ++ punct ";") (c := CContinue); try reflexivity; [|intros; apply D_continue].
    cbn [print_stmt fst]. intros r tr L. rewrite <- ?app_assoc. apply lx_spaces. apply (lx_id true (str "continue")); [wl|reflexivity|]. apply lx_end. exact L.
  - apply ok_both with (ts := keyword "break" ++ punct ";") (c := CBreak); try reflexivity; [|intros; apply D_break].
    cbn [print_stmt fst]. intros r tr L. rewrite <- ?app_assoc. apply lx_spaces. apply (lx_id true (str "break")); [wl|reflexivity|]. apply lx_end. exact L.
  - (* printf *)
    destruct Pr as [Pf Pe].
    assert (X : exists ta, (forall r tr, lexes false (str ")" ++ r) tr -> lexes false (fst (match es with [] => ([], p) | _ => let '(t, q) := accept_join print_expr (str ", ") p es in (str ", " ++ t, q) end) ++ str ")" ++ r) (ta ++ tr)) /\
      d_list ([KStr f] ++ ta) (CStr f :: map meant es)).
    { assert (Df : d_expr 8 [KStr f] (CStr f)) by (eapply d_le with (n := 0); [lia|apply D_post, D_str]). destruct es as [|e es].
      - exists []. split; [intros r tr L; exact L|apply D_one; exact Df].
      - destruct (join_good (e :: es)) with (p := p) as (ta & Ra & Da & _); auto; [apply Forall_forall; intros; apply expr_good|discriminate|].
        destruct (accept_join print_expr (str ", ") p (e :: es)) as [t q]. cbn [fst] in *. exists (punct "," ++ ta). split; [|apply D_cons; auto].
        intros r tr L. rewrite <- ?app_assoc. apply (lx_solid false (str ",")); [in_list|]. apply lx_blank. apply Ra; [apply follows_paren|exact L]. }
    destruct X as (ta & Ra & Da).
    apply ok_both with (ts := (keyword "printf" ++ punct "(" ++ ([KStr f] ++ ta) ++ punct ")") ++ punct ";") (c := CDo (CCall (str "printf") (CStr f :: map meant es))); try reflexivity.
    + cbn [print_stmt]. destruct (match es with [] => ([], p) | _ => let '(t, q) := accept_join print_expr (str ", ") p es in (str ", " ++ t, q) end) as [t q]. cbn [fst] in *.
      intros r tr L. rewrite <- ?app_assoc. apply lx_spaces. apply (lx_fn true (str "printf")); [apply name_printf|]. rewrite <- ?app_assoc.
      apply lx_str; auto. apply (Ra (str ";" ++ eol ++ r)). apply lx_close. exact L.
    + intros b. apply D_simple, D_do. eapply d_le with (n := 0); [lia|]. apply D_post, D_call; [apply not_reserved, name_printf|]. apply D_some. exact Da.
  - (* qsort *)
    destruct Pr as [Ne Pe]. destruct (join_good es) with (p := p_call) as (ta & Ra & Da & _); auto; [apply Forall_forall; intros; apply expr_good|].
    assert (Dl : d_list (ta ++ punct "," ++ [KId (str "cmp")]) (map meant es ++ [CId (str "cmp")])).
    { clear Ra Ne Pe. induction Da; cbn [app].
      - apply D_cons; auto. apply D_one. eapply d_le with (n := 0); [lia|]. apply D_post, D_id, not_reserved, name_cmp.
      - rewrite <- !app_assoc. apply D_cons; auto. }
    apply ok_both with (ts := (keyword "qsort" ++ punct "(" ++ (ta ++ punct "," ++ [KId (str "cmp")]) ++ punct ")") ++ punct ";") (c := CDo (CCall (str "qsort") (map meant es ++ [CId (str "cmp")]))); try reflexivity.
    + cbn [print_stmt]. destruct (accept_join print_expr (str ", ") p_call es) as [t q]. cbn [fst] in *. intros r tr L. rewrite <- ?app_assoc. apply lx_spaces.
      apply (lx_fn true (str "qsort")); [apply name_qsort|]. rewrite <- ?app_assoc. apply Ra; [apply follows_comma|]. apply (lx_solid false (str ",")); [in_list|]. apply lx_blank.
      apply (lx_id false (str "cmp")); [wl|reflexivity|]. apply lx_close. exact L.
    + intros b. apply D_simple, D_do. eapply d_le with (n := 0); [lia|]. apply D_post, D_call; [apply not_reserved, name_qsort|]. apply D_some. exact Dl.
Qed.
End Stmts.
