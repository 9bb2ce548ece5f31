(** The index expression lexer and parser: /repo/src/parser/lexer.cpp and parser.cpp,
    and the printer of index expressions, /repo/src/index_notation/index_notation_printer.cpp. *)
From Coq Require Import List ZArith Lia Bool Ascii.
Import ListNotations.
Local Open Scope nat_scope.

Definition text := list ascii.
Definition text_eqb (a b : text) : bool := if list_eq_dec ascii_dec a b then true else false.
Definition code (c : ascii) : nat := nat_of_ascii c.
Definition between (lo hi : nat) (c : ascii) : bool := (lo <=? code c) && (code c <=? hi).
(** The classification of characters in the C locale. *)
Definition is_space (c : ascii) : bool := between 9 13 c || (code c =? 32).
Definition is_digit (c : ascii) : bool := between 48 57 c.
Definition is_alpha (c : ascii) : bool := between 65 90 c || between 97 122 c.
Definition is_alnum (c : ascii) : bool := is_alpha c || is_digit c.

(** Tokens, lexer.h 9-28, with the text that getIdentifier returns at them. *)
Inductive token :=
| TIdent (s : text) | TInt (s : text) | TUint (s : text) | TFloat (s : text) | TComplex (s : text)
| TComma | TLparen | TRparen | TUnderscore | TLcurly | TRcurly | TAdd | TSub | TMul | TDiv | TEq
| TEot | TError
| TDiverge.     (* getToken does not return *)

(** getNextChar, lexer.cpp 172-177: characters are bytes converted to int as signed
    char, so that byte 255 cannot be told from EOF.  [None] is EOF. *)
Definition next (rest : text) : option ascii * text :=
  match rest with
  | [] => (None, [])
  | c :: rest => (if code c =? 255 then None else Some c, rest)
  end.
(** while (p(lastChar = getNextChar())) identifier += lastChar; *)
Fixpoint take (p : ascii -> bool) (id : text) (rest : text) : text * option ascii * text :=
  match rest with
  | [] => (id, None, [])
  | c :: rest' =>
      if code c =? 255 then (id, None, rest')
      else if p c then take p (id ++ [c]) rest' else (id, Some c, rest')
  end.
(** 25-33: the text of a complex scalar up to the parenthesis; without one the loop
    does not end. *)
Fixpoint take_complex (id : text) (rest : text) : option (text * text) :=
  match rest with
  | [] => None
  | c :: rest' =>
      if (c =? ")")%char then Some (id ++ [c], rest')
      else take_complex (if is_space c then id else id ++ [c]) rest'
  end.
Fixpoint skip_space (last : option ascii) (rest : text) : option ascii * text :=
  match last, rest with
  | Some c, d :: rest' => if is_space c then skip_space (fst (next rest)) rest' else (last, rest)
  | Some c, [] => if is_space c then (None, []) else (last, rest)
  | None, _ => (None, rest)
  end.
Definition punctuation (c : ascii) : token :=
  if (c =? ",")%char then TComma else if (c =? "(")%char then TLparen else if (c =? ")")%char then TRparen
  else if (c =? "_")%char then TUnderscore else if (c =? "{")%char then TLcurly else if (c =? "}")%char then TRcurly
  else if (c =? "+")%char then TAdd else if (c =? "-")%char then TSub else if (c =? "*")%char then TMul
  else if (c =? "/")%char then TDiv else if (c =? "=")%char then TEq else TError.
Definition str_complex : text := ["c";"o";"m";"p";"l";"e";"x"]%char.
Definition str_Complex : text := ["C";"o";"m";"p";"l";"e";"x"]%char.
(** The byte that converting EOF to char gives. *)
Definition eof_char : ascii := ascii_of_nat 255.
(** getToken, 11-97. *)
Definition get_token (last : option ascii) (rest : text) : token * option ascii * text :=
  match skip_space last rest with
  | (None, rest) => (TEot, fst (next rest), snd (next rest))
  | (Some c, rest) =>
      if is_alpha c then
        let '(id, last, rest) := take is_alnum [c] rest in
        if text_eqb id str_complex || text_eqb id str_Complex then
          match take_complex [match last with Some c => c | None => eof_char end] rest with
          | None => (TDiverge, None, [])
          | Some (id, rest) => (TComplex id, fst (next rest), snd (next rest))
          end
        else (TIdent id, last, rest)
      else if is_digit c then
        let '(id, last, rest) := take is_digit [c] rest in
        match last with
        | Some d =>
            if (d =? ".")%char then let '(id, last, rest) := take is_digit (id ++ [d]) rest in (TFloat id, last, rest)
            else if (d =? "u")%char then (TUint id, fst (next rest), snd (next rest))
            else (TInt id, last, rest)
        | None => (TInt id, last, rest)
        end
      else (punctuation c, fst (next rest), snd (next rest))
  end.
(** The tokens up to the first end of tokens, or the first one that is never returned.
    Simplification: the lexer runs ahead of the parser. *)
Fixpoint lex_from (fuel : nat) (last : option ascii) (rest : text) : list token :=
  match fuel with
  | O => []
  | S n =>
      let '(t, last, rest) := get_token last rest in
      match t with TEot => [TEot] | TDiverge => [TDiverge] | _ => t :: lex_from n last rest end
  end.
(** Each token takes a character. *)
Definition lex (s : text) : list token := lex_from (2 + length s) (Some " "%char) s.

(** Index expressions; the texts of floating point and complex scalars are kept. *)
Inductive iexpr :=
| IAccess (name : text) (vars : list text)
| IInt (z : Z) | IUint (z : Z) | IFloat (s : text) | IComplex (s : text)
| INeg (a : iexpr) | IAdd (a b : iexpr) | ISub (a b : iexpr) | IMul (a b : iexpr) | IDiv (a b : iexpr).
Record assignment := Assignment { lhs_name : text; lhs_vars : list text; accumulate : bool; rhs : iexpr }.

(** Results: a value, a ParseError, an internal error (tokenString of the end of
    tokens, lexer.cpp 161-165), no return, or the model's fuel is exhausted. *)
Inductive presult (A : Type) := POk (a : A) | PError | PInternal | PDiverge | PFuel.
Arguments POk {A}. Arguments PError {A}. Arguments PInternal {A}. Arguments PDiverge {A}. Arguments PFuel {A}.
Definition pbind {A B} (r : presult A) (f : A -> presult B) : presult B :=
  match r with POk a => f a | PError => PError | PInternal => PInternal | PDiverge => PDiverge | PFuel => PFuel end.
Notation "'let*' x := r 'in' k" := (pbind r (fun x => k)) (at level 200, x pattern, r at level 100, k at level 200, right associativity).

(** The current token is the first; nextToken, parser.cpp 419-421. *)
Definition next_token (ts : list token) : presult (list token) :=
  match tl ts with TDiverge :: _ => PDiverge | ts' => POk ts' end.
Definition current (ts : list token) : token := hd TEot ts.
(** Same kind of token. *)
Definition same_kind (a b : token) : bool :=
  match a, b with
  | TIdent _, TIdent _ | TInt _, TInt _ | TUint _, TUint _ | TFloat _, TFloat _ | TComplex _, TComplex _
  | TComma, TComma | TLparen, TLparen | TRparen, TRparen | TUnderscore, TUnderscore | TLcurly, TLcurly
  | TRcurly, TRcurly | TAdd, TAdd | TSub, TSub | TMul, TMul | TDiv, TDiv | TEq, TEq | TEot, TEot | TError, TError => true
  | _, _ => false
  end.
(** consume, 410-417. *)
Definition consume (expected : token) (ts : list token) : presult (list token) :=
  if same_kind (current ts) expected then next_token ts
  else match current ts with TEot => PInternal | _ => PError end.

(** value >> int_value: out of range gives the largest value. *)
Definition digit (c : ascii) : Z := (Z.of_nat (code c) - 48)%Z.
Definition decimal (s : text) : Z := fold_left (fun z c => 10 * z + digit c)%Z s 0%Z.
Definition int_value (s : text) : Z := Z.min (decimal s) (2 ^ 63 - 1).
Definition uint_value (s : text) : Z := Z.min (decimal s) (2 ^ 64 - 1).

(** parseVar, 366-373. *)
Definition parse_var (ts : list token) : presult (text * list token) :=
  match current ts with
  | TIdent s => let* ts := consume (TIdent s) ts in POk (s, ts)
  | _ => PError
  end.
(** The loop of parseVarList, 356-364. *)
Fixpoint parse_vars (fuel : nat) (vars : list text) (ts : list token) : presult (list text * list token) :=
  match fuel with
  | O => PFuel
  | S n =>
      match current ts with
      | TComma => let* ts := consume TComma ts in let* (v, ts) := parse_var ts in parse_vars n (vars ++ [v]) ts
      | _ => POk (vars, ts)
      end
  end.
Definition parse_varlist (fuel : nat) (ts : list token) : presult (list text * list token) :=
  let* (v, ts) := parse_var ts in parse_vars fuel [v] ts.
(** parseAccess, 287-354: the syntax, not the tensors. *)
Definition parse_access (fuel : nat) (ts : list token) : presult (text * list text * list token) :=
  match current ts with
  | TIdent s =>
      let* ts := consume (TIdent s) ts in
      match current ts with
      | TUnderscore =>
          let* ts := consume TUnderscore ts in
          match current ts with
          | TLcurly => let* ts := consume TLcurly ts in
                       let* (vs, ts) := parse_varlist fuel ts in
                       let* ts := consume TRcurly ts in POk (s, vs, ts)
          | _ => let* (v, ts) := parse_var ts in POk (s, [v], ts)
          end
      | TLparen => let* ts := consume TLparen ts in
                   let* (vs, ts) := parse_varlist fuel ts in
                   let* ts := consume TRparen ts in POk (s, vs, ts)
      | _ => POk (s, [], ts)
      end
  | _ => PError
  end.
(** parseFinal, 245-281. *)
Definition parse_final (fuel : nat) (ts : list token) : presult (iexpr * list token) :=
  match current ts with
  | TComplex s => let* ts := consume (TComplex s) ts in POk (IComplex s, ts)
  | TInt s => let* ts := consume (TInt s) ts in POk (IInt (int_value s), ts)
  | TUint s => let* ts := consume (TUint s) ts in POk (IUint (uint_value s), ts)
  | TFloat s => let* ts := consume (TFloat s) ts in POk (IFloat s, ts)
  | _ => let* (s, vs, ts) := parse_access fuel ts in POk (IAccess s vs, ts)
  end.
(** parseExpr 186-204, parseTerm 206-226, parseFactor 228-243; the loops as functions. *)
Fixpoint parse_expr (fuel : nat) (ts : list token) : presult (iexpr * list token) :=
  match fuel with O => PFuel | S n => let* (e, ts) := parse_term n ts in expr_loop n e ts end
with expr_loop (fuel : nat) (e : iexpr) (ts : list token) : presult (iexpr * list token) :=
  match fuel with
  | O => PFuel
  | S n =>
      match current ts with
      | TAdd => let* ts := consume TAdd ts in let* (t, ts) := parse_term n ts in expr_loop n (IAdd e t) ts
      | TSub => let* ts := consume TSub ts in let* (t, ts) := parse_term n ts in expr_loop n (ISub e t) ts
      | _ => POk (e, ts)
      end
  end
with parse_term (fuel : nat) (ts : list token) : presult (iexpr * list token) :=
  match fuel with O => PFuel | S n => let* (e, ts) := parse_factor n ts in term_loop n e ts end
with term_loop (fuel : nat) (e : iexpr) (ts : list token) : presult (iexpr * list token) :=
  match fuel with
  | O => PFuel
  | S n =>
      match current ts with
      | TMul => let* ts := consume TMul ts in let* (t, ts) := parse_factor n ts in term_loop n (IMul e t) ts
      | TDiv => let* ts := consume TDiv ts in let* (t, ts) := parse_factor n ts in term_loop n (IDiv e t) ts
      | _ => POk (e, ts)
      end
  end
with parse_factor (fuel : nat) (ts : list token) : presult (iexpr * list token) :=
  match fuel with
  | O => PFuel
  | S n =>
      match current ts with
      | TLparen => let* ts := consume TLparen ts in
                   let* (e, ts) := parse_expr n ts in
                   let* ts := consume TRparen ts in POk (e, ts)
      | TSub => let* ts := consume TSub ts in let* (e, ts) := parse_factor n ts in POk (INeg e, ts)
      | _ => parse_final n ts
      end
  end.
(** parseAssign, 68-83; what follows the expression is not looked at. *)
Definition parse_assign (fuel : nat) (ts : list token) : presult (assignment * list token) :=
  let* (s, vs, ts) := parse_access fuel ts in
  let* (acc, ts) := match current ts with
                    | TAdd => let* ts := consume TAdd ts in POk (true, ts)
                    | _ => POk (false, ts)
                    end in
  let* ts := consume TEq ts in
  let* (e, ts) := parse_expr fuel ts in
  POk (Assignment s vs acc e, ts).
(** The constructor (which gets the first token) and parse(), 44-62. *)
Definition parse_tokens (ts : list token) : presult (assignment * list token) :=
  match ts with
  | TDiverge :: _ => PDiverge
  | _ => parse_assign (4 * length ts + 8) ts
  end.
Definition parse (s : text) : presult assignment := let* (a, _) := parse_tokens (lex s) in POk a.

(** *** The printer, index_notation_printer.cpp 21-29, 36-83, 85-102, 113-142. *)
Definition prec_neg := 3.  Definition prec_mul := 5.  Definition prec_add := 6.  Definition prec_top := 20.
Fixpoint digits (fuel : nat) (z : Z) : text :=
  match fuel with
  | O => []
  | S n => (if (z <? 10)%Z then [] else digits n (z / 10)) ++ [ascii_of_nat (48 + Z.to_nat (z mod 10))]
  end.
Definition print_Z (z : Z) : text :=
  if (z <? 0)%Z then "-"%char :: digits (S (Z.to_nat (Z.log2 (- z)))) (- z) else digits (S (Z.to_nat (Z.log2 z))) z.
Fixpoint join (sep : text) (xs : list text) : text :=
  match xs with [] => [] | [x] => x | x :: xs => x ++ sep ++ join sep xs end.
Definition parens (b : bool) (s : text) : text := if b then "("%char :: s ++ [")"%char] else s.
Definition print_access (name : text) (vars : list text) : text :=
  name ++ match vars with [] => [] | _ => parens true (join [","%char] vars) end.
Fixpoint print (parent : nat) (e : iexpr) : text :=
  match e with
  | IAccess s vs => print_access s vs
  | IInt z | IUint z => print_Z z
  | IFloat s | IComplex s => s
  | INeg a => "-"%char :: parens (parent <? prec_neg) (print prec_neg a)
  | IAdd a b => parens (parent <? prec_add) (print prec_add a ++ [" "; "+"; " "]%char ++ print prec_add b)
  | ISub a b => parens (parent <? prec_add) (print prec_add a ++ [" "; "-"; " "]%char ++ print prec_add b)
  | IMul a b => parens (parent <? prec_mul) (print prec_mul a ++ [" "; "*"; " "]%char ++ print prec_mul b)
  | IDiv a b => parens (parent <? prec_mul) (print prec_mul a ++ [" "; "/"; " "]%char ++ print prec_mul b)
  end.
(** visit(const AssignmentNode* ), 200-220. *)
Definition print_assignment (a : assignment) : text :=
  print_access (lhs_name a) (lhs_vars a) ++
  (if accumulate a then [" "; "+"; "="; " "]%char else [" "; "="; " "]%char) ++ print prec_top (rhs a).
