(** Printing of generated C code: src/ir/ir_printer.cpp and the parts of it that
    src/codegen/codegen_c.cpp overrides. *)
From Coq Require Import String List Bool Ascii Arith.
From Verif Require Import Parser.
Import ListNotations.
Local Open Scope nat_scope.
Definition str (s : string) : text := list_ascii_of_string s.
Definition eol : text := [ascii_of_nat 10].

(** Expressions (ir.h 100-520).  A variable or a property is the name that varMap has for
    it (codegen_c.cpp 368-380, 497-501).  A literal is its sign and the text of its
    magnitude (ir_printer.cpp 61-123; the text of a floating point number is that of
    util::toString, or 0.0 for both zeros).  A type is the words that it is printed with
    (type.cpp 113-123).  BinOp, which prints any texts around its operands, is left out. *)
Inductive binop := Add | Sub | Mul | Div | Rem | BitAnd | BitOr | Eq | Neq | Gt | Lt | Gte | Lte | And | Or.
Inductive pexpr :=
| PLit (negative : bool) (magnitude : text)
| PComplex (re_negative : bool) (re : text) (im_negative : bool) (im : text)
| PVar (x : text)
| PNeg (boolean : bool) (a : pexpr)
| PSqrt (a : pexpr)
| PBin (o : binop) (a b : pexpr)
| PMin (float : bool) (args : list pexpr)
| PMax (args : list pexpr)
| PCast (type : list text) (a : pexpr)
| PCall (f : text) (args : list pexpr)
| PLoad (arr loc : pexpr)
| PMalloc (size : pexpr)
| PSizeof (type : list text).

(** ir_printer.h 78-100: Precedence *)
Definition prec (o : binop) : nat :=
  match o with
  | Mul | Div | Rem => 5
  | Add | Sub => 6
  | Gt | Lt | Gte | Lte => 9
  | Eq | Neq => 10
  | BitAnd | BitOr => 11
  | And => 14
  | Or => 15
  end.
Definition p_bottom := 0.
Definition p_call := 2.
Definition p_load := 2.
Definition p_cast := 3.
Definition p_neg := 3.
Definition p_top := 20.
(** ir_printer.cpp 153-232 *)
Definition op_text (o : binop) : text :=
  match o with
  | Add => str "+" | Sub => str "-" | Mul => str "*" | Div => str "/" | Rem => str "%"
  | BitAnd => str "&" | BitOr => str "|" | Eq => str "==" | Neq => str "!="
  | Gt => str ">" | Lt => str "<" | Gte => str ">=" | Lte => str "<="
  | And => str "&&" | Or => str "||"
  end.
(** ir_printer.cpp 658-679 *)
Definition needs_parentheses (precedence parent : nat) : bool :=
  (parent <=? precedence) || ((precedence =? prec And) && (parent =? prec Or)).
Definition sign (negative : bool) : text := if negative then str "-" else [].
Definition type_text (type : list text) : text := join (str " ") type.

(** acceptJoin, ir_printer.cpp 21-31, with what is printed between and the state of
    parentPrecedence *)
Section Join.
Variable print : nat -> pexpr -> text * nat.
Fixpoint accept_join (sep : text) (p : nat) (es : list pexpr) : text * nat :=
  match es with
  | [] => ([], p)
  | e :: es =>
      let '(s, q) := print p e in
      match es with
      | [] => (s, q)
      | _ => let '(t, r) := accept_join sep q es in (s ++ sep ++ t, r)
      end
  end.
(** codegen_c.cpp 503-534: f(a,f(b,c)) *)
Fixpoint accept_nested (f : text) (p : nat) (es : list pexpr) : text * nat :=
  match es with
  | [] => ([], p)
  | [e] => print p e
  | e :: es =>
      let '(s, q) := print p e in
      let '(t, r) := accept_nested f q es in (f ++ str "(" ++ s ++ str "," ++ t ++ str ")", r)
  end.
End Join.
(** ir_printer.cpp 61-253, 355-375, codegen_c.cpp 497-573.  [p] is parentPrecedence, which
    is set and not restored: the second component is what it is afterwards.
    Simplification: no operands of a minimum, which is undefined, print nothing. *)
Fixpoint print_expr (p : nat) (e : pexpr) : text * nat :=
  match e with
  | PLit n t => (sign n ++ t, p)
  | PComplex rn re i_n im => (sign rn ++ re ++ str " + I*" ++ sign i_n ++ im, p)
  | PVar x => (x, p)
  | PNeg b a => let '(s, q) := print_expr p_neg a in ((if b then str "!" else str "-") ++ s, q)
  | PSqrt a => let '(s, q) := print_expr p a in (str "sqrt(" ++ s ++ str ")", q)
  | PBin o a b =>
      let '(s, _) := print_expr (prec o) a in
      let '(t, r) := print_expr (prec o) b in
      (parens (needs_parentheses (prec o) p) (s ++ str " " ++ op_text o ++ str " " ++ t), r)
  | PMin f args => accept_nested print_expr (if f then str "fmin" else str "TACO_MIN") p args
  | PMax args => accept_nested print_expr (str "TACO_MAX") p args
  | PCast ty a => let '(s, q) := print_expr p_cast a in (str "(" ++ type_text ty ++ str ")" ++ s, q)
  | PCall f args => let '(s, q) := accept_join print_expr (str ", ") p_call args in (f ++ str "(" ++ s ++ str ")", q)
  | PLoad a i =>
      let '(s, _) := print_expr p_load a in
      let '(t, r) := print_expr p_load i in
      (s ++ str "[" ++ t ++ str "]", r)
  | PMalloc a => let '(s, q) := print_expr p_top a in (str "malloc(" ++ s ++ str ")", q)
  | PSizeof ty => (str "sizeof(" ++ type_text ty ++ str ")", p)
  end.

(** Statements (ir.h 520-850); the bodies of loops and branches are in a Scope (ir.cpp
    590-690), which [SScope] is elsewhere.  A loop carries the pragma lines that are printed
    before it (codegen_c.cpp 382-450, 484-495).  [atomic] is use_atomics.  Yield and Function are
    left out. *)
Inductive pstmt :=
| SVarDecl (type : list text) (ptr : bool) (x : text) (rhs : pexpr)
| SAssign (atomic : bool) (lhs rhs : pexpr)
| SStore (atomic : bool) (arr loc data : pexpr)
| SFor (pragma : list text) (type : list text) (x : text) (start stop inc : pexpr) (body : pstmt)
| SWhile (pragma : list text) (cond : pexpr) (body : pstmt)
| SIf (cond : pexpr) (then_ : pstmt) (else_ : option pstmt)
| SCase (clauses : list (pexpr * pstmt)) (always_match : bool)
| SSwitch (control : pexpr) (cases : list (pexpr * pstmt))
| SBlock (contents : list pstmt)
| SScope (s : pstmt)
| SAllocate (is_realloc clear : bool) (type : list text) (var : text) (size : pexpr)
| SFree (var : pexpr)
| SComment (t : text)
| SBlankLine
| SContinue
| SBreak
| SPrint (fmt : text) (params : list pexpr)
| SSort (args : list pexpr).

Section Stmts.
(** Expr equality is that of addresses; a literal of an integral type and value 1. *)
Variable same : pexpr -> pexpr -> bool.
Variable simplify : bool.
Definition is_one (e : pexpr) : bool := match e with PLit false t => text_eqb t (str "1") | _ => false end.
Fixpoint spaces (n : nat) : text := match n with O => [] | S n => str "  " ++ spaces n end.
Definition pragma_lines (indent : nat) (ls : list text) : text := concat (map (fun l => spaces indent ++ l ++ eol) ls).
Definition atomic_lines (indent : nat) (atomic : bool) : text :=
  pragma_lines indent (if atomic then [str "#pragma omp atomic"] else []).

(** The right hand side of an assignment with its operator: ir_printer.cpp 486-524 *)
Definition print_rhs (lhs rhs : pexpr) : text * nat :=
  let plain := let '(s, q) := print_expr p_top rhs in (str " = " ++ s, q) in
  if simplify then
    match rhs with
    | PBin Add a b =>
        if same a lhs then
          if is_one b then (str "++", p_top) else let '(s, q) := print_expr p_top b in (str " += " ++ s, q)
        else plain
    | PBin Mul a b => if same a lhs then let '(s, q) := print_expr p_top b in (str " *= " ++ s, q) else plain
    | PBin BitOr a b => if same a lhs then let '(s, q) := print_expr p_top b in (str " |= " ++ s, q) else plain
    | _ => plain
    end
  else plain.
(** ir_printer.cpp 483-529, codegen_c.cpp 575-581 *)
Definition print_assign (indent p : nat) (atomic : bool) (lhs rhs : pexpr) : text * nat :=
  let '(l, _) := print_expr p lhs in
  let '(r, q) := print_rhs lhs rhs in
  (atomic_lines indent atomic ++ spaces indent ++ l ++ r ++ str ";" ++ eol, q).
(** for (type x = start; x < stop; x++): codegen_c.cpp 452-476 *)
Definition print_for_header (p : nat) (type : list text) (x : text) (start stop inc : pexpr) : text * nat :=
  let '(s, _) := print_expr p start in
  let '(t, q) := print_expr p_bottom stop in
  let '(u, r) := if is_one inc then (str "++", q) else let '(u, r) := print_expr q inc in (str " += " ++ u, r) in
  (str "for (" ++ type_text type ++ str " " ++ x ++ str " = " ++ s ++ str "; " ++ x ++ str " < " ++ t ++ str "; " ++ x ++ u ++ str ") {" ++ eol, r).

(** Sequences of clauses and statements, with the printer of statements *)
Section Sequences.
Variable print : nat -> nat -> pstmt -> text * nat.
(** ir_printer.cpp 296-324 *)
Fixpoint print_clauses (indent : nat) (always_match first : bool) (p : nat) (cs : list (pexpr * pstmt)) : text * nat :=
  match cs with
  | [] => ([], p)
  | (c, b) :: rest =>
      let '(h, q) :=
        if first then let '(c, q) := print_expr p_top c in (str "if (" ++ c ++ str ")", q)
        else if negb (match rest with [] => true | _ => false end) || negb always_match
             then let '(c, q) := print_expr p_top c in (str "else if (" ++ c ++ str ")", q)
             else (str "else", p) in
      let '(b, r) := print (S indent) q b in
      let '(t, r') := print_clauses indent always_match false r rest in
      ((if first then [] else eol) ++ spaces indent ++ h ++ str " {" ++ eol ++ b ++ spaces indent ++ str "}" ++ t, r')
  end.
(** ir_printer.cpp 333-348 *)
Fixpoint print_cases (indent p : nat) (cs : list (pexpr * pstmt)) : text * nat :=
  match cs with
  | [] => ([], p)
  | (c, b) :: rest =>
      let '(c, q) := print_expr p_top c in
      let '(b, r) := print (S (S indent)) q b in
      let '(t, r') := print_cases indent r rest in
      (spaces (S indent) ++ str "case " ++ c ++ str ": {" ++ eol ++ b ++ eol ++
       spaces (S (S indent)) ++ str "break;" ++ eol ++ spaces (S indent) ++ str "}" ++ eol ++ t, r')
  end.
(** ir_printer.cpp 436-438 *)
Fixpoint print_block (indent p : nat) (ss : list pstmt) : text * nat :=
  match ss with
  | [] => ([], p)
  | s :: ss => let '(t, q) := print indent p s in let '(u, r) := print_block indent q ss in (t ++ u, r)
  end.
End Sequences.
(** ir_printer.cpp 255-353, 377-608, codegen_c.cpp 350-362, 428-591 *)
Fixpoint print_stmt (indent p : nat) (s : pstmt) : text * nat :=
  let indented := spaces indent in
  match s with
  | SVarDecl ty ptr x rhs =>
      let '(r, q) := print_expr p_top rhs in
      (indented ++ type_text ty ++ (if ptr then str "* restrict" else []) ++ str " " ++ x ++ str " = " ++ r ++ str ";" ++ eol, q)
  | SAssign atomic lhs rhs => print_assign indent p atomic lhs rhs
  | SStore atomic arr loc data =>
      let '(a, _) := print_expr p arr in
      let '(l, _) := print_expr p_top loc in
      let '(d, q) := print_expr p_top data in
      (atomic_lines indent atomic ++ indented ++ a ++ str "[" ++ l ++ str "] = " ++ d ++ str ";" ++ eol, q)
  | SFor pragma ty x start stop inc body =>
      let '(h, q) := print_for_header p ty x start stop inc in
      let '(b, r) := print_stmt (S indent) q body in
      (pragma_lines indent pragma ++ indented ++ h ++ b ++ indented ++ str "}" ++ eol, r)
  | SWhile pragma cond body =>
      let '(c, q) := print_expr p_top cond in
      let '(b, r) := print_stmt (S indent) q body in
      (pragma_lines indent pragma ++ indented ++ str "while (" ++ c ++ str ") {" ++ eol ++ b ++ indented ++ str "}" ++ eol, r)
  | SIf cond then_ else_ =>
      let '(c, q) := print_expr p_top cond in
      let '(t, r) :=
        match then_ with
        | SBlock _ => let '(b, r) := print_stmt (S indent) q then_ in (str " {" ++ eol ++ b ++ indented ++ str "}", r)
        | SAssign atomic lhs rhs => let '(b, r) := print_assign 0 q atomic lhs rhs in (str " " ++ b, r)
        | _ => let '(b, r) := print_stmt (S indent) q then_ in (eol ++ b, r)
        end in
      match else_ with
      | Some e =>
          let '(b, r') := print_stmt (S indent) r e in
          (indented ++ str "if (" ++ c ++ str ")" ++ t ++ eol ++ indented ++ str "else {" ++ eol ++ b ++ indented ++ str "}" ++ eol, r')
      | None => (indented ++ str "if (" ++ c ++ str ")" ++ t ++ eol, r)
      end
  | SCase clauses always_match =>
      let '(t, r) := print_clauses print_stmt indent always_match true p clauses in
      (t ++ eol, r)
  | SSwitch control cases =>
      let '(c, q) := print_expr p control in
      let '(t, r) := print_cases print_stmt indent q cases in
      (indented ++ str "switch (" ++ c ++ str ") {" ++ eol ++ t ++ indented ++ str "}" ++ eol, r)
  | SBlock contents => print_block print_stmt indent p contents
  | SScope s => print_stmt (S indent) p s
  | SAllocate is_realloc clear ty var size =>
      let '(n, _) := print_expr (prec Mul) size in
      (indented ++ var ++ str " = (" ++ type_text ty ++ str "*)" ++
       (if is_realloc then str "realloc(" ++ var ++ str ", " else if clear then str "calloc(1, " else str "malloc(") ++
       str "sizeof(" ++ type_text ty ++ str ") * " ++ n ++ str ");" ++ eol, p_top)
  | SFree var => let '(v, q) := print_expr p_top var in (indented ++ str "free(" ++ v ++ str ");" ++ eol, q)
  | SComment t => (indented ++ str "/* " ++ t ++ str " */" ++ eol, p)
  | SBlankLine => (eol, p)
  | SContinue => (indented ++ str "continue;" ++ eol, p)
  | SBreak => (indented ++ str "break;" ++ eol, p)
  | SPrint fmt params =>
      let '(t, q) := match params with [] => ([], p) | _ => let '(t, q) := accept_join print_expr (str ", ") p params in (str ", " ++ t, q) end in
      (indented ++ str "printf(" ++ str """" ++ fmt ++ str """" ++ t ++ str ");" ++ eol, q)
  | SSort args => let '(t, q) := accept_join print_expr (str ", ") p_call args in (indented ++ str "qsort(" ++ t ++ str ", cmp);" ++ eol, q)
  end.
End Stmts.
