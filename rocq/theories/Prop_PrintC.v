(** C52: generated code is printed as the program that is meant. *)
From Coq Require Import String List Bool Ascii Arith Lia.
From Verif Require Import Parser PrintC PrintCSpec PrintCLex PrintCExpr PrintCProofs PrintCParse PrintCUnique.
Import ListNotations.
Local Open Scope nat_scope.

(** The text of an expression is an expression of C and can only be read as the one that is
    meant, whatever was printed before it. *)
Theorem C52_expressions : forall e p, printable e ->
  exists ts, c_tokens (fst (print_expr p e)) = Some ts /\ d_expr 8 ts (meant e) /\ forall c, d_expr 8 ts c -> c = meant e.
Proof.
  intros e p P. destruct (expr_good e P p) as (ts & R & D & _). exists ts.
  assert (D8 : d_expr 8 ts (meant e)) by (eapply d_le; [apply lvl_8|exact D]). split; [|split; [exact D8|intros c H; eapply expr_unique; eauto]].
  pose proof (R true [] [] I (lx_nil false)) as L. rewrite !app_nil_r in L. apply L. lia.
Qed.
Print Assumptions C52_expressions.

(** The text of a statement is a sequence of declarations and statements of C, which can only
    be read as the ones that are meant.  ([same] is equality of addresses.) *)
Theorem C52_statements : forall same simplify s indent p, (forall a b, same a b = true -> a = b) -> printable_stmt s ->
  exists ts, c_tokens (fst (print_stmt same simplify indent p s)) = Some ts /\ (exists cs, d_items ts cs) /\
    forall cs, d_items ts cs -> map normal cs = meant_stmt s.
Proof.
  intros same simplify s indent p H P. destruct (stmt_ok same simplify H s P indent p) as (ts & cs & R & D & M & _). exists ts.
  split; [|split; [exists cs; exact D|intros cs' D'; rewrite (items_unique ts cs' cs D' D); exact M]].
  pose proof (R [] [] (lx_nil true)) as L. rewrite !app_nil_r in L. apply L. lia.
Qed.
Print Assumptions C52_statements.

(** Tokens can be read in one way only. *)
Theorem C52_unambiguous : forall ts, (forall e e', d_expr 8 ts e -> d_expr 8 ts e' -> e = e') /\ (forall cs cs', d_items ts cs -> d_items ts cs' -> cs = cs').
Proof. intros ts. split; [apply expr_unique|apply items_unique]. Qed.
Print Assumptions C52_unambiguous.

(** *** A kernel and its text *)
Definition v (x : string) : pexpr := PVar (str x).
Definition num (n : string) : pexpr := PLit false (str n).
Definition int32 : list text := [str "int32_t"].
Definition same_text (a b : pexpr) : bool := match a, b with PVar x, PVar y => text_eqb x y | _, _ => false end.
Lemma same_text_eq a b : same_text a b = true -> a = b.
Proof. destruct a, b; try discriminate. cbn. intros H. apply teqb_eq in H. subst. reflexivity. Qed.
Definition kernel : pstmt :=
  SFor [str "#pragma omp parallel for schedule(runtime)"] int32 (str "i") (num "0") (v "n") (num "1")
    (SBlock [SVarDecl int32 false (str "p") (PBin Add (PBin Mul (v "i") (v "n")) (v "j"));
             SIf (PBin Lt (v "p") (PCast int32 (PNeg false (PBin Sub (v "n") (PBin Sub (v "i") (num "1"))))))
               (SAssign false (v "s") (PBin Add (v "s") (PBin Mul (PLoad (v "b") (v "p")) (PBin Add (v "x") (num "2.0")))))
               (Some (SBlock [SStore true (v "a") (v "p") (PMin false [v "x"; v "y"; num "0"]); SComment (str "done"); SContinue]));
             SCase [(PBin Eq (v "i") (v "j"), SAssign false (v "k") (PBin Add (v "k") (num "1"))); (PLit false (str "true"), SBreak)] true]).
Local Ltac nm := apply dec_name; [split; vm_compute; reflexivity|vm_compute; reflexivity].
Local Ltac nu := repeat split.
Local Ltac ty := split; [discriminate|intros w [<-|[]]; vm_compute; auto 10].
Example C52_kernel_ok : printable_stmt kernel.
Proof. cbn [kernel printable_stmt printable all v num bare else_follows array location starts_minus]. repeat (first [nm|ty|left; nu; fail|right; nm|discriminate|exact I|split|constructor]). all: try (left; nu). all: try reflexivity. Qed.
Example C52_kernel : fst (print_stmt same_text true 0 p_bottom kernel) = concat (map (fun l => str l ++ eol)
  ["#pragma omp parallel for schedule(runtime)";
   "for (int32_t i = 0; i < n; i++) {";
   "  int32_t p = i * n + j;";
   "  if (p < (int32_t)-(n - (i - 1))) s += b[p] * (x + 2.0);";
   "";
   "  else {";
   "    #pragma omp atomic";
   "    a[p] = TACO_MIN(x,TACO_MIN(y,0));";
   "    /* done */";
   "    continue;";
   "  }";
   "  if (i == j) {";
   "    k++;";
   "  }";
   "  else {";
   "    break;";
   "  }";
   "}"]%string).
Proof. vm_compute. reflexivity. Qed.
(** What it means: the inner differences keep their grouping, += and ++ are sums. *)
Example C52_kernel_meant : exists ts, c_tokens (fst (print_stmt same_text true 0 p_bottom kernel)) = Some ts /\ exists cs, d_items ts cs /\ map normal cs = meant_stmt kernel.
Proof.
  destruct (C52_statements same_text true kernel 0 p_bottom same_text_eq C52_kernel_ok) as (ts & T & (cs & D) & M). exists ts. split; [exact T|]. exists cs. split; [exact D|apply M; exact D].
Qed.

(** *** What is printed wrongly *)
(** Tokens that are in no program that is printed on purpose *)
Definition stray : list ctoken := [KPunct (str "--"); KPunct (str "#")].
Definition clean (ts : list ctoken) : Prop := Forall (fun t => ~ In t stray) ts.
Lemma clean_app a b : clean a -> clean b -> clean (a ++ b). Proof. intros. apply Forall_app. auto. Qed.
Lemma clean_words ty : clean (map KId ty). Proof. apply Forall_forall. intros t H. apply in_map_iff in H. destruct H as (x & <- & _). intros [H|[H|[]]]; discriminate H. Qed.
Lemma clean_one t : ~ In t stray -> clean [t]. Proof. repeat constructor. auto. Qed.
Lemma clean_cons t ts : ~ In t stray -> clean ts -> clean (t :: ts). Proof. constructor; auto. Qed.
Ltac stray_no := let K := fresh "K" in intros [K|[K|[]]]; discriminate K.
Ltac cl := repeat first [assumption|apply clean_app|apply clean_words|apply Forall_nil|apply clean_cons; [stray_no|]].
Lemma clean_expr : (forall n ts e, d_expr n ts e -> clean ts) /\ (forall ts e, d_post ts e -> clean ts) /\ (forall ts es, d_args ts es -> clean ts) /\ (forall ts es, d_list ts es -> clean ts).
Proof.
  apply d_mut; intros; cl.
  - apply clean_one. destruct o; stray_no.
  - destruct ptr; cl.
Qed.
Lemma clean_simple ts s : d_simple ts s -> clean ts.
Proof.
  pose proof clean_expr as (C1 & C2 & _). destruct 1; cl; try (eapply C1; eassumption); try (eapply C2; eassumption).
  apply clean_one. destruct o as [[]|]; stray_no.
Qed.
Lemma clean_stmt : (forall b ts s, d_stmt b ts s -> clean ts) /\ (forall ts ss, d_items ts ss -> clean ts) /\ (forall ts cs, d_cases ts cs -> clean ts).
Proof.
  pose proof clean_expr as (C1 & _). apply s_mut; intros; cl; try (eapply C1; eassumption); try (eapply clean_simple; eassumption).
  destruct H as [ty ptr x te e]. cl; [destruct ptr; cl|eapply C1; eassumption].
Qed.

(** Finding: the negation of a negation is printed as a decrement: A(i) = -(-B(i)) becomes
    A_vals[i] = --B_vals[i];, which changes B. *)
Definition negation : pexpr := PNeg false (PNeg false (PLoad (v "B_vals") (v "i"))).
Theorem C52_negation_refuted : forall p,
  fst (print_expr p negation) = str "--B_vals[i]" /\
  exists ts, c_tokens (fst (print_expr p negation)) = Some (KPunct (str "--") :: ts) /\ forall c, ~ d_expr 8 (KPunct (str "--") :: ts) c.
Proof.
  intros p. split; [reflexivity|]. eexists. split; [vm_compute; reflexivity|]. intros c D. apply clean_expr in D. inversion D as [|? ? N]. apply N. left. reflexivity.
Qed.
Print Assumptions C52_negation_refuted.
(** so is that of a negative literal *)
Theorem C52_negative_literal_refuted : forall p,
  exists ts, c_tokens (fst (print_expr p (PNeg false (PLit true (str "3"))))) = Some ts /\ forall c, ~ d_expr 8 ts c.
Proof.
  intros p. eexists. split; [vm_compute; reflexivity|]. intros c D. apply clean_expr in D. inversion D as [|? ? N]. apply N. left. reflexivity.
Qed.
Print Assumptions C52_negative_literal_refuted.

(** Finding: a complex literal in a product has no parentheses: x * (1.0 + 2.0i) is read as
    (x * 1.0) + 2.0i. *)
Definition scaled : pexpr := PBin Mul (v "x") (PComplex false (str "1.0") false (str "2.0")).
Definition scaled_read : pexpr := PBin Add (PBin Mul (v "x") (num "1.0")) (PBin Mul (v "I") (num "2.0")).
Theorem C52_complex_refuted : exists ts,
  c_tokens (fst (print_expr p_top scaled)) = Some ts /\ d_expr 8 ts (meant scaled_read) /\ meant scaled_read <> meant scaled /\ ~ d_expr 8 ts (meant scaled).
Proof.
  assert (P : printable scaled_read) by (cbn [scaled_read printable v num]; repeat split; first [nm|left; nu]).
  destruct (C52_expressions scaled_read p_top P) as (ts & T & D & U). exists ts.
  split; [etransitivity; [|exact T]; vm_compute; reflexivity|]. split; [exact D|]. assert (N : meant scaled_read <> meant scaled) by discriminate. split; [exact N|].
  intros D'. apply N. symmetry. apply U. exact D'.
Qed.
Print Assumptions C52_complex_refuted.

(** Finding: the branches of if have no braces unless they are blocks, so the else of an outer
    if is read as that of an inner one. *)
Definition s1 : pstmt := SStore false (v "a") (v "i") (num "1").
Definition s2 : pstmt := SStore false (v "a") (v "i") (num "2").
Definition outer : pstmt := SIf (v "c") (SIf (v "d") s1 None) (Some s2).
Definition inner : pstmt := SIf (v "c") (SIf (v "d") s1 (Some s2)) None.
Lemma inner_ok : printable_stmt inner.
Proof. cbn [inner s1 s2 printable_stmt printable v num bare else_follows location]. repeat split; first [nm|left; nu]. Qed.
Theorem C52_else_refuted : forall simplify, exists ts,
  c_tokens (fst (print_stmt same_text simplify 0 p_bottom outer)) = Some ts /\ (exists cs, d_items ts cs) /\
  (forall cs, d_items ts cs -> map normal cs = meant_stmt inner) /\ meant_stmt inner <> meant_stmt outer.
Proof.
  intros simplify. destruct (C52_statements same_text simplify inner 0 p_bottom same_text_eq inner_ok) as (ts & T & E & U). exists ts.
  split; [etransitivity; [|exact T]; destruct simplify; vm_compute; reflexivity|]. split; [exact E|]. split; [exact U|discriminate].
Qed.
Print Assumptions C52_else_refuted.

(** Finding: the pragma of an atomic assignment that is a branch is printed on the line of
    the if, where it is no pragma. *)
Definition guarded : pstmt := SIf (v "c") (SAssign true (v "s") (PBin Add (v "s") (v "x"))) None.
Theorem C52_atomic_refuted : forall simplify, exists ts,
  c_tokens (fst (print_stmt same_text simplify 0 p_bottom guarded)) = Some ts /\ forall cs, ~ d_items ts cs.
Proof.
  intros simplify. destruct simplify; eexists; (split; [vm_compute; reflexivity|]); intros cs D; apply clean_stmt in D;
    do 4 (inversion D as [|? ? _ D']; subst; clear D; rename D' into D); inversion D as [|? ? N]; apply N; right; left; reflexivity.
Qed.
Print Assumptions C52_atomic_refuted.
