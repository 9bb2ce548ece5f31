(** C43: the parser of index expressions. *)
From Coq Require Import String List ZArith Lia Bool Ascii Qcanon.
From Verif Require Import Parser ParserSpec ParserProofs ParserLex.
Import ListNotations.
Local Open Scope nat_scope.

(** What the parser accepts begins with an assignment of the grammar, and the result is
    that assignment. *)
Theorem C43_sound : forall s a, parse s = POk a -> exists ts rest, lex s = ts ++ rest /\ d_assign ts a.
Proof.
  intros s a. unfold parse, parse_tokens. intros E.
  assert (X : exists n r, parse_assign n (lex s) = POk (a, r)).
  { exists (4 * length (lex s) + 8). revert E. destruct (lex s) as [|t ts]; [discriminate|].
    intros E. assert (E2 : (let* (b, _) := parse_assign (4 * length (t :: ts) + 8) (t :: ts) in POk b) = POk a) by (destruct t; auto; discriminate).
    destruct (parse_assign _ (t :: ts)) as [[b r]| | | |]; cbn in E2; try discriminate. injection E2 as ->. eauto. }
  destruct X as (n & r & X). destruct (assign_sound _ _ _ _ X) as (t1 & -> & D). eauto.
Qed.
Print Assumptions C43_sound.

(** Every assignment of the grammar is accepted, and gives its expression. *)
Theorem C43_complete : forall s ts a, lex s = ts ++ [TEot] -> d_assign ts a -> parse s = POk a.
Proof.
  intros s ts a E D. unfold parse. rewrite E, (assign_complete ts a [TEot] D eq_refl I). reflexivity.
Qed.
Print Assumptions C43_complete.

(** So the grammar is unambiguous. *)
Theorem C43_unambiguous : forall ts a b, d_assign ts a -> d_assign ts b -> a = b.
Proof.
  intros ts a b D1 D2. pose proof (assign_complete ts a [TEot] D1 eq_refl I) as E.
  rewrite (assign_complete ts b [TEot] D2 eq_refl I) in E. injection E as <-. reflexivity.
Qed.
Print Assumptions C43_unambiguous.

(** The parser's recursion ends. *)
Theorem C43_terminates : forall s, parse s <> PFuel.
Proof. exact parse_total. Qed.
Print Assumptions C43_terminates.

(** Tokens written with white space between them are read back. *)
Theorem C43_lexer : forall ts s, spaced ts s -> lex s = ts ++ [TEot].
Proof. exact lex_spaced. Qed.
Print Assumptions C43_lexer.

(** Printing an assignment and parsing it gives it back: any nesting. *)
Theorem C43_round_trip : forall a, name (lhs_name a) -> Forall name (lhs_vars a) -> legible (rhs a) -> to_the_left (rhs a) ->
  parse (print_assignment a) = POk a.
Proof.
  intros a N F L T. destruct (tokens_ok (rhs a) L T) as (_ & _ & _ & D & _).
  rewrite (parse_derived a (rhs a)); auto. destruct a; reflexivity.
Qed.
Print Assumptions C43_round_trip.

(** When only right operands of subtractions and divisions are restricted, the result is
    regrouped, with the same value. *)
Theorem C43_round_trip_value : forall V (A : arithmetic V), regroups A -> forall a,
  name (lhs_name a) -> Forall name (lhs_vars a) -> legible (rhs a) -> to_the_left_of_minus (rhs a) ->
  exists e, parse (print_assignment a) = POk (Assignment (lhs_name a) (lhs_vars a) (accumulate a) e) /\
    value_of A e = value_of A (rhs a).
Proof.
  intros V A R a N F L T. destruct (tokens_mean V A R (rhs a) L T) as (_ & _ & _ & (e & D & E) & _).
  exists e. split; auto. apply parse_derived; auto.
Qed.
Print Assumptions C43_round_trip_value.

(** *** Examples *)
Definition str := list_ascii_of_string.
Notation "'x' s" := (IAccess (str s) []) (at level 5, only parsing).
Notation access s vs := (IAccess (str s) (map str vs)).
Example C43_example :
  parse (str "A(i,j) = B_{i,k} * C(k,j)/2 + -(d - e_i) - 0.5 * 3u") =
  POk (Assignment (str "A") (map str ["i"; "j"]%string) false
    (ISub (IAdd (IDiv (IMul (access "B" ["i"; "k"]%string) (access "C" ["k"; "j"]%string)) (IInt 2))
                (INeg (ISub (access "d" []) (access "e" ["i"]%string))))
          (IMul (IFloat (str "0.5")) (IUint 3)))).
Proof. vm_compute. reflexivity. Qed.
Definition ex_assignment : assignment :=
  Assignment (str "A") (map str ["i"; "j"]%string) true
    (ISub (IMul (IAdd (access "B" ["i"; "k"]%string) (IInt 10)) (INeg (IDiv (access "c" []) (IFloat (str "0.25")))))
          (IMul (INeg (INeg (IInt 7))) (ISub (IInt 1) (access "d" []))))%string.
Example C43_round_trip_example :
  (name (lhs_name ex_assignment) /\ Forall name (lhs_vars ex_assignment) /\ legible (rhs ex_assignment) /\ to_the_left (rhs ex_assignment)) /\
  print_assignment ex_assignment = str "A(i,j) += (B(i,k) + 10) * -(c / 0.25) - --7 * (1 - d)".
Proof.
  split; [|vm_compute; reflexivity].
  assert (N : forall s, match s with c :: r => is_alpha c && forallb is_alnum r | [] => false end = true ->
            text_eqb s str_complex = false -> text_eqb s str_Complex = false -> name s).
  { intros s H1 H2 H3. unfold text_eqb in *. split; [|split].
    - destruct s; [discriminate|]. apply andb_true_iff in H1. exact H1.
    - intros ->. vm_compute in H2. discriminate.
    - intros ->. vm_compute in H3. discriminate. }
  repeat match goal with |- _ /\ _ => split end; cbn [lhs_name lhs_vars rhs ex_assignment map legible to_the_left];
    repeat match goal with |- _ /\ _ => split | |- Forall _ _ => constructor | |- True => exact I end;
    try (apply N; vm_compute; reflexivity); try lia; try (cbn; tauto).
  exists (str "0"), (str "25"). split; [reflexivity|]. split; [|reflexivity]. split; [discriminate|reflexivity].
Qed.
Example C43_spaced_example : spaced [TIdent (str "a"); TEq; TInt (str "12"); TUnderscore; TFloat (str "3.5")] (str "a  = 12 _ 3.5 ").
Proof.
  assert (N : number (str "12") /\ number (str "3")) by (split; split; [discriminate|reflexivity|discriminate|reflexivity]).
  apply (Sp_token [] _ (str "a")); [reflexivity| | |right; eexists; eexists; split; reflexivity].
  { constructor. repeat split; discriminate. }
  apply (Sp_token (str "  ") _ (str "=")); [reflexivity|constructor| |right; eexists; eexists; split; reflexivity].
  apply (Sp_token (str " ") _ (str "12")); [reflexivity|constructor; apply N| |right; eexists; eexists; split; reflexivity].
  apply (Sp_token (str " ") _ (str "_")); [reflexivity|constructor| |right; eexists; eexists; split; reflexivity].
  apply (Sp_token (str " ") _ (str "3.5")); [reflexivity|apply (W_float (str "3") (str "5")); [apply N|reflexivity]| |right; eexists; eexists; split; reflexivity].
  apply (Sp_end (str " ")). reflexivity.
Qed.

(** The rational numbers regroup. *)
Definition rationals : arithmetic Qc :=
  Build_arithmetic Qc (fun e => match e with IInt z => Q2Qc (QArith_base.inject_Z z) | _ => Q2Qc (QArith_base.inject_Z 0) end) Qcopp Qcplus Qcminus Qcmult Qcdiv.
Example C43_rationals_regroup : regroups rationals.
Proof. split; intros; cbn; unfold Qcdiv; ring. Qed.

(** *** Findings *)
(** Whatever follows a complete assignment is ignored. *)
Theorem C43_trailing_input_refuted : forall s ts a rest, lex s = ts ++ rest -> d_assign ts a ->
  continues (current rest) = false -> parse s = POk a.
Proof.
  intros s ts a rest E D C. unfold parse. rewrite E, (assign_complete ts a rest D C); [reflexivity|].
  destruct rest as [|[] rest]; try exact I. discriminate C.
Qed.
Print Assumptions C43_trailing_input_refuted.
(** In particular exponents: 1.5e-3 is read as 1.5. *)
Theorem C43_exponent_refuted :
  parse (str "a = 1.5e-3") = POk (Assignment (str "a") [] false (IFloat (str "1.5"))) /\
  parse (str "a = 1.5e-3 * b") = POk (Assignment (str "a") [] false (IFloat (str "1.5"))) /\
  parse (str "a = b ) + c") = parse (str "a = b").
Proof. vm_compute. auto. Qed.
Print Assumptions C43_exponent_refuted.
(** A missing parenthesis at the end is an internal error, not a parse error. *)
Theorem C43_unclosed_refuted : parse (str "a = (b + c") = PInternal /\ parse (str "a = (b + c]") = PError.
Proof. vm_compute. auto. Qed.
Print Assumptions C43_unclosed_refuted.
(** The lexer does not return from an unterminated complex scalar. *)
Theorem C43_complex_refuted : parse (str "a = b + complex(1.0, 2.0") = PDiverge /\ parse (str "complex = 1") = PDiverge.
Proof. vm_compute. auto. Qed.
Print Assumptions C43_complex_refuted.
(** The byte 255 ends the input. *)
Theorem C43_byte_255_refuted :
  parse (str "a = b" ++ [ascii_of_nat 255] ++ str " + c") = parse (str "a = b").
Proof. vm_compute. reflexivity. Qed.
Print Assumptions C43_byte_255_refuted.
(** The printer leaves out the parentheses of right operands: a - (b - c) is printed as
    a - b - c and read back as (a - b) - c, another value; and a / (b * c). *)
Theorem C43_printer_refuted :
  parse (print_assignment (Assignment (str "r") [] false (ISub (access "a" []) (ISub (access "b" []) (access "c" [])))))
    = POk (Assignment (str "r") [] false (ISub (ISub (access "a" []) (access "b" [])) (access "c" []))) /\
  parse (print_assignment (Assignment (str "r") [] false (IDiv (access "a" []) (IMul (access "b" []) (access "c" [])))))
    = POk (Assignment (str "r") [] false (IMul (IDiv (access "a" []) (access "b" [])) (access "c" []))).
Proof. vm_compute. auto. Qed.
Print Assumptions C43_printer_refuted.
(** Scalars: unsigned and negative ones are read back as others, complex ones not at all,
    and out of range ones are replaced by the largest. *)
Theorem C43_scalars_refuted :
  parse (print_assignment (Assignment (str "r") [] false (IUint 3))) = POk (Assignment (str "r") [] false (IInt 3)) /\
  parse (print_assignment (Assignment (str "r") [] false (IInt (-3)))) = POk (Assignment (str "r") [] false (INeg (IInt 3))) /\
  parse (print_assignment (Assignment (str "r") [] false (IComplex (str "(1,2)")))) = PError /\
  parse (str "r = 9223372036854775808") = POk (Assignment (str "r") [] false (IInt (2 ^ 63 - 1))).
Proof. vm_compute. auto. Qed.
Print Assumptions C43_scalars_refuted.
