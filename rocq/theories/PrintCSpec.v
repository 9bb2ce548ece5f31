(** What a C compiler reads: the tokens and the grammar of C, as far as generated code goes,
    and the program that is meant. *)
From Coq Require Import String List Bool Ascii Arith.
From Verif Require Import Parser PrintC.
Import ListNotations.
Local Open Scope nat_scope.

(** *** Tokens (C99 6.4): the longest sequence of characters that is one; comments and
    preprocessor lines are skipped.  (Numbers that begin with a point, character constants
    and escapes in strings are left out: they are not printed.) *)
Inductive ctoken := KId (x : text) | KNum (n : text) | KStr (s : text) | KPunct (p : text).
Definition is_letter (c : ascii) : bool := is_alpha c || Ascii.eqb c "_".
Definition is_word (c : ascii) : bool := is_letter c || is_digit c.
Definition is_newline (c : ascii) : bool := Ascii.eqb c (ascii_of_nat 10).
Definition quote : ascii := ascii_of_nat 34.
Definition puncts : list text := map str
  ["..."; "<<="; ">>="; "->"; "++"; "--"; "<<"; ">>"; "<="; ">="; "=="; "!="; "&&"; "||"; "*="; "/="; "%="; "+="; "-="; "&="; "^="; "|="; "##";
   "["; "]"; "("; ")"; "{"; "}"; "."; "&"; "*"; "+"; "-"; "~"; "!"; "/"; "%"; "<"; ">"; "^"; "|"; "?"; ":"; ";"; "="; ","; "#"]%string.
Fixpoint strip (p s : text) : option text :=
  match p, s with
  | [], _ => Some s
  | a :: p, b :: s => if Ascii.eqb a b then strip p s else None
  | _ :: _, [] => None
  end.
(** The first of a list that the text begins with; longer ones are first. *)
Fixpoint munch (ps : list text) (s : text) : option (text * text) :=
  match ps with
  | [] => None
  | p :: ps => match strip p s with Some r => Some (p, r) | None => munch ps s end
  end.
Fixpoint take_word (s : text) : text * text :=
  match s with
  | c :: r => if is_word c then let '(w, t) := take_word r in (c :: w, t) else ([], s)
  | [] => ([], [])
  end.
(** Numbers (6.4.8): letters, digits and points, and a sign after an exponent letter *)
Definition is_exponent (c : ascii) : bool := existsb (Ascii.eqb c) (str "eEpP").
Definition is_sign (c : ascii) : bool := Ascii.eqb c "+" || Ascii.eqb c "-".
Fixpoint take_num (s : text) : text * text :=
  match s with
  | c :: r =>
      if is_word c || Ascii.eqb c "." then
        match r with
        | d :: r' =>
            if is_exponent c && is_sign d then let '(w, t) := take_num r' in (c :: d :: w, t)
            else let '(w, t) := take_num r in (c :: w, t)
        | [] => ([c], [])
        end
      else ([], s)
  | [] => ([], [])
  end.
Fixpoint take_string (s : text) : option (text * text) :=
  match s with
  | c :: r => if Ascii.eqb c quote then Some ([], r) else if is_newline c then None
              else option_map (fun '(w, t) => (c :: w, t)) (take_string r)
  | [] => None
  end.
Fixpoint skip_line (s : text) : text := match s with c :: r => if is_newline c then s else skip_line r | [] => [] end.
Fixpoint skip_comment (s : text) : option text :=
  match s with
  | [] => None
  | c :: r => match strip (str "*/") s with Some t => Some t | None => skip_comment r end
  end.
(** [bol]: nothing but white space has been on the line yet *)
Fixpoint clex (fuel : nat) (bol : bool) (s : text) : option (list ctoken) :=
  match fuel with
  | O => None
  | S n =>
      match s with
      | [] => Some []
      | c :: r =>
          if is_newline c then clex n true r
          else if is_space c then clex n bol r
          else match strip (str "/*") s with
          | Some t => match skip_comment t with Some u => clex n bol u | None => None end
          | None =>
          match strip (str "//") s with
          | Some t => clex n bol (skip_line t)
          | None =>
              if bol && Ascii.eqb c "#" then clex n bol (skip_line r)
              else if is_letter c then let '(w, t) := take_word s in option_map (cons (KId w)) (clex n false t)
              else if is_digit c then let '(w, t) := take_num s in option_map (cons (KNum w)) (clex n false t)
              else if Ascii.eqb c quote then
                match take_string r with Some (w, t) => option_map (cons (KStr w)) (clex n false t) | None => None end
              else match munch puncts s with
                   | Some (p, t) => option_map (cons (KPunct p)) (clex n false t)
                   | None => None
                   end
          end
          end
      end
  end.
Definition c_tokens (s : text) : option (list ctoken) := clex (S (length s)) true s.

(** *** Programs *)
Inductive cexpr :=
| CNum (n : text) | CId (x : text) | CStr (s : text)
| CMinus (a : cexpr) | CNot (a : cexpr) | CBin (o : binop) (a b : cexpr)
| CCast (type : list text) (ptr : bool) (a : cexpr) | CSizeof (type : list text)
| CIndex (a i : cexpr) | CCall (f : text) (args : list cexpr).
Inductive cstmt :=
| CDecl (type : list text) (ptr : bool) (x : text) (e : cexpr)
| CAssign (o : option binop) (l r : cexpr)          (* l = r, l += r *)
| CIncr (l : cexpr)                                 (* l++ *)
| CDo (e : cexpr)
| CIf (c : cexpr) (s : cstmt) (e : option cstmt)
| CWhile (c : cexpr) (s : cstmt)
| CFor (type : list text) (x : text) (start cond : cexpr) (update : cstmt) (s : cstmt)
| CSwitch (e : cexpr) (cases : list (cexpr * cstmt))
| CBlock (ss : list cstmt)
| CContinue | CBreak.

(** *** The grammar (C99 6.5 - 6.8) *)
Definition type_words : list text := map str
  ["bool"; "int8_t"; "int16_t"; "int32_t"; "int64_t"; "int128_t"; "uint8_t"; "uint16_t"; "uint32_t"; "uint64_t"; "uint128_t";
   "float"; "double"; "complex"]%string.
Definition keywords : list text := map str
  ["auto"; "break"; "case"; "char"; "const"; "continue"; "default"; "do"; "else"; "enum"; "extern"; "for"; "goto"; "if"; "inline"; "int"; "long";
   "register"; "restrict"; "return"; "short"; "signed"; "sizeof"; "static"; "struct"; "switch"; "typedef"; "union"; "unsigned"; "void"; "volatile";
   "while"]%string.
Definition reserved : list text := keywords ++ type_words.
Definition is_type (ty : list text) : Prop := ty <> [] /\ incl ty type_words.
Definition punct (s : string) : list ctoken := [KPunct (str s)].
Definition keyword (s : string) : list ctoken := [KId (str s)].
Definition stars (ptr : bool) : list ctoken := if ptr then punct "*" else [].
(** 1 multiplicative, 2 additive, 3 relational, 4 equality, 5 and, 6 or, 7 logical and,
    8 logical or; 0 stands for the operands of these (cast expressions). *)
Definition level (o : binop) : nat :=
  match o with
  | Mul | Div | Rem => 1 | Add | Sub => 2 | Gt | Lt | Gte | Lte => 3 | Eq | Neq => 4
  | BitAnd => 5 | BitOr => 6 | And => 7 | Or => 8
  end.
Inductive d_expr : nat -> list ctoken -> cexpr -> Prop :=
| D_up n ts e : d_expr n ts e -> d_expr (S n) ts e
| D_bin o n ta a tb b : level o = S n -> d_expr (S n) ta a -> d_expr n tb b ->
    d_expr (S n) (ta ++ [KPunct (op_text o)] ++ tb) (CBin o a b)
| D_minus ts a : d_expr 0 ts a -> d_expr 0 (punct "-" ++ ts) (CMinus a)
| D_not ts a : d_expr 0 ts a -> d_expr 0 (punct "!" ++ ts) (CNot a)
| D_cast ty ptr ts a : is_type ty -> d_expr 0 ts a -> d_expr 0 (punct "(" ++ map KId ty ++ stars ptr ++ punct ")" ++ ts) (CCast ty ptr a)
| D_sizeof ty : is_type ty -> d_expr 0 (keyword "sizeof" ++ punct "(" ++ map KId ty ++ punct ")") (CSizeof ty)
| D_post ts e : d_post ts e -> d_expr 0 ts e
with d_post : list ctoken -> cexpr -> Prop :=
| D_num n : d_post [KNum n] (CNum n)
| D_id x : ~ In x reserved -> d_post [KId x] (CId x)
| D_str s : d_post [KStr s] (CStr s)
| D_paren ts e : d_expr 8 ts e -> d_post (punct "(" ++ ts ++ punct ")") e
| D_index ta a ti i : d_post ta a -> d_expr 8 ti i -> d_post (ta ++ punct "[" ++ ti ++ punct "]") (CIndex a i)
| D_call f ts args : ~ In f reserved -> d_args ts args -> d_post (KId f :: punct "(" ++ ts ++ punct ")") (CCall f args)
with d_args : list ctoken -> list cexpr -> Prop :=
| D_none : d_args [] []
| D_some ts es : d_list ts es -> d_args ts es
with d_list : list ctoken -> list cexpr -> Prop :=
| D_one ts e : d_expr 8 ts e -> d_list ts [e]
| D_cons ts e ts' es : d_expr 8 ts e -> d_list ts' es -> d_list (ts ++ punct "," ++ ts') (e :: es).
(** Compound assignment *)
Definition assign_text (o : option binop) : text := match o with None => str "=" | Some o => op_text o ++ str "=" end.
Definition assigns (o : option binop) : Prop := match o with None => True | Some o => In o [Add; Sub; Mul; Div; Rem; BitAnd; BitOr] end.
Inductive d_simple : list ctoken -> cstmt -> Prop :=
| D_assign o tl l tr r : assigns o -> d_post tl l -> d_expr 8 tr r -> d_simple (tl ++ [KPunct (assign_text o)] ++ tr) (CAssign o l r)
| D_incr tl l : d_post tl l -> d_simple (tl ++ punct "++") (CIncr l)
| D_do te e : d_expr 8 te e -> d_simple te (CDo e).
Inductive d_decl : list ctoken -> cstmt -> Prop :=
| D_decl ty (ptr : bool) x te e : is_type ty -> ~ In x reserved -> d_expr 8 te e ->
    d_decl (map KId ty ++ (if ptr then punct "*" ++ keyword "restrict" else []) ++ [KId x] ++ punct "=" ++ te ++ punct ";") (CDecl ty ptr x e).
(** [closed] statements can be followed by else: an else belongs to the nearest if. *)
Inductive d_stmt : bool -> list ctoken -> cstmt -> Prop :=
| D_simple closed ts s : d_simple ts s -> d_stmt closed (ts ++ punct ";") s
| D_if closed tc c ts s : d_expr 8 tc c -> d_stmt closed ts s ->
    d_stmt false (keyword "if" ++ punct "(" ++ tc ++ punct ")" ++ ts) (CIf c s None)
| D_if_else closed tc c ts s te e : d_expr 8 tc c -> d_stmt true ts s -> d_stmt closed te e ->
    d_stmt closed (keyword "if" ++ punct "(" ++ tc ++ punct ")" ++ ts ++ keyword "else" ++ te) (CIf c s (Some e))
| D_while closed tc c ts s : d_expr 8 tc c -> d_stmt closed ts s ->
    d_stmt closed (keyword "while" ++ punct "(" ++ tc ++ punct ")" ++ ts) (CWhile c s)
| D_for closed ty x tstart start tcond cond tu u ts s : is_type ty -> ~ In x reserved -> d_expr 8 tstart start -> d_expr 8 tcond cond -> d_simple tu u ->
    d_stmt closed ts s ->
    d_stmt closed (keyword "for" ++ punct "(" ++ (map KId ty ++ [KId x] ++ punct "=" ++ tstart ++ punct ";") ++ tcond ++ punct ";" ++ tu ++ punct ")" ++ ts)
      (CFor ty x start cond u s)
| D_switch closed te e tcs cs : d_expr 8 te e -> d_cases tcs cs ->
    d_stmt closed (keyword "switch" ++ punct "(" ++ te ++ punct ")" ++ punct "{" ++ tcs ++ punct "}") (CSwitch e cs)
| D_block closed ts ss : d_items ts ss -> d_stmt closed (punct "{" ++ ts ++ punct "}") (CBlock ss)
| D_continue closed : d_stmt closed (keyword "continue" ++ punct ";") CContinue
| D_break closed : d_stmt closed (keyword "break" ++ punct ";") CBreak
with d_items : list ctoken -> list cstmt -> Prop :=
| D_items_nil : d_items [] []
| D_items_decl td d ts ss : d_decl td d -> d_items ts ss -> d_items (td ++ ts) (d :: ss)
| D_items_stmt closed t s ts ss : d_stmt closed t s -> d_items ts ss -> d_items (t ++ ts) (s :: ss)
with d_cases : list ctoken -> list (cexpr * cstmt) -> Prop :=
| D_cases_nil : d_cases [] []
| D_cases_cons closed te e t s ts cs : d_expr 8 te e -> d_stmt closed t s -> d_cases ts cs ->
    d_cases (keyword "case" ++ te ++ punct ":" ++ t ++ ts) ((e, s) :: cs).

(** *** The program that is meant *)
Definition atom (t : text) : cexpr := match t with c :: _ => if is_digit c then CNum t else CId t | [] => CId t end.
Definition literal (negative : bool) (t : text) : cexpr := if negative then CMinus (atom t) else atom t.
(** f(a, f(b, c)) *)
Fixpoint nested (f : text) (es : list cexpr) : cexpr :=
  match es with [] => CId [] | [e] => e | e :: es => CCall f [e; nested f es] end.
Fixpoint meant (e : pexpr) : cexpr :=
  match e with
  | PLit n t => literal n t
  | PComplex rn re i_n im => CBin Add (literal rn re) (CBin Mul (CId (str "I")) (literal i_n im))
  | PVar x => CId x
  | PNeg b a => if b then CNot (meant a) else CMinus (meant a)
  | PSqrt a => CCall (str "sqrt") [meant a]
  | PBin o a b => CBin o (meant a) (meant b)
  | PMin f args => nested (if f then str "fmin" else str "TACO_MIN") (map meant args)
  | PMax args => nested (str "TACO_MAX") (map meant args)
  | PCast ty a => CCast ty false (meant a)
  | PCall f args => CCall f (map meant args)
  | PLoad a i => CIndex (meant a) (meant i)
  | PMalloc a => CCall (str "malloc") [meant a]
  | PSizeof ty => CSizeof ty
  end.
Definition one : cexpr := CNum (str "1").
Definition call_ (f : string) (args : list cexpr) : cstmt := CDo (CCall (str f) args).
(** A case is if, else if, ..., and else for the last clause if one always matches. *)
Section Chain.
Variable body : pstmt -> list cstmt.
Fixpoint chain (always : bool) (cs : list (pexpr * pstmt)) : option cstmt :=
  match cs with
  | [] => None
  | (c, b) :: rest =>
      Some (match rest, always with
            | [], true => CBlock (body b)
            | _, _ => CBlock [CIf (meant c) (CBlock (body b)) (chain always rest)]
            end)
  end.
End Chain.
Fixpoint meant_stmt (s : pstmt) : list cstmt :=
  match s with
  | SVarDecl ty ptr x e => [CDecl ty ptr x (meant e)]
  | SAssign _ l r => [CAssign None (meant l) (meant r)]
  | SStore _ a i d => [CAssign None (CIndex (meant a) (meant i)) (meant d)]
  | SFor _ ty x start stop inc b =>
      [CFor ty x (meant start) (CBin Lt (CId x) (meant stop)) (CAssign None (CId x) (CBin Add (CId x) (meant inc))) (CBlock (meant_stmt b))]
  | SWhile _ c b => [CWhile (meant c) (CBlock (meant_stmt b))]
  | SIf c t e => [CIf (meant c) (CBlock (meant_stmt t)) (option_map (fun e => CBlock (meant_stmt e)) e)]
  | SCase [] _ => []
  | SCase ((c, b) :: rest) always => [CIf (meant c) (CBlock (meant_stmt b)) (chain meant_stmt always rest)]
  | SSwitch e cs => [CSwitch (meant e) (map (fun '(c, b) => (meant c, CBlock (meant_stmt b ++ [CBreak]))) cs)]
  | SBlock ss => flat_map meant_stmt ss
  | SScope s => meant_stmt s
  | SAllocate is_realloc clear ty x n =>
      let size := CBin Mul (CSizeof ty) (meant n) in
      [CAssign None (CId x) (CCast ty true
         (if is_realloc then CCall (str "realloc") [CId x; size]
          else if clear then CCall (str "calloc") [one; size] else CCall (str "malloc") [size]))]
  | SFree v => [call_ "free" [meant v]]
  | SComment _ | SBlankLine => []
  | SContinue => [CContinue]
  | SBreak => [CBreak]
  | SPrint fmt es => [call_ "printf" (CStr fmt :: map meant es)]
  | SSort es => [call_ "qsort" (map meant es ++ [CId (str "cmp")])]
  end.
(** l += r is l = l + r, l++ is l = l + 1, and a branch s is { s }. *)
Definition braced (s : cstmt) : cstmt := match s with CBlock _ => s | _ => CBlock [s] end.
Fixpoint normal (s : cstmt) : cstmt :=
  match s with
  | CAssign (Some o) l r => CAssign None l (CBin o l r)
  | CIncr l => CAssign None l (CBin Add l one)
  | CIf c s e => CIf c (braced (normal s)) (option_map (fun e => braced (normal e)) e)
  | CWhile c s => CWhile c (braced (normal s))
  | CFor ty x a b u s => CFor ty x a b (normal u) (braced (normal s))
  | CSwitch e cs => CSwitch e (map (fun '(c, s) => (c, normal s)) cs)
  | CBlock ss => CBlock (map normal ss)
  | _ => s
  end.

(** *** What can be printed *)
Definition name (x : text) : Prop :=
  match x with c :: _ => is_letter c = true | [] => False end /\ forallb is_word x = true /\ ~ In x reserved.
(** A number: it begins with a digit, is a number as a whole, and ends in no exponent letter. *)
Definition numeral (t : text) : Prop :=
  match t with c :: _ => is_digit c = true | [] => False end /\ take_num t = (t, []) /\ is_exponent (last t "0"%char) = false.
Fixpoint starts_minus (e : pexpr) : bool :=
  match e with
  | PLit n _ => n
  | PNeg b _ => negb b
  | PMin _ [a] | PMax [a] => starts_minus a
  | _ => false
  end.
(** Operands of subscripts *)
Definition array (e : pexpr) : Prop := match e with PVar _ | PCall _ _ | PLoad _ _ | PBin _ _ _ => True | _ => False end.
Definition location (e : pexpr) : Prop := match e with PVar _ | PCall _ _ | PLoad _ _ => True | _ => False end.
Section All.
Context {A : Type} (P : A -> Prop).
Fixpoint all (l : list A) : Prop := match l with [] => True | x :: l => P x /\ all l end.
End All.
Fixpoint printable (e : pexpr) : Prop :=
  match e with
  | PLit _ t => numeral t \/ name t
  | PComplex _ _ _ _ => False
  | PVar x => name x
  | PNeg b a => printable a /\ (b = false -> starts_minus a = false)
  | PSqrt a | PMalloc a => printable a
  | PBin _ a b => printable a /\ printable b
  | PMin _ args | PMax args => args <> [] /\ all printable args
  | PCast ty a => is_type ty /\ printable a
  | PCall f args => name f /\ all printable args
  | PLoad a i => printable a /\ printable i /\ array a
  | PSizeof ty => is_type ty
  end.
(** Statements that may stand after if without braces, and that else may follow *)
Definition bare (s : pstmt) : Prop :=
  match s with
  | SVarDecl _ _ _ _ | SComment _ | SBlankLine | SScope _ | SCase [] _ => False
  | SAssign atomic _ _ => atomic = false
  | _ => True
  end.
Definition else_follows (s : pstmt) : Prop :=
  match s with
  | SIf _ _ None => False
  | SCase cs always => always = true /\ 2 <= length cs
  | _ => True
  end.
Definition pragma_line (l : text) : Prop := match l with c :: _ => c = "#"%char | [] => False end /\ forallb (fun c => negb (is_newline c)) l = true.
Fixpoint has_end (s : text) : bool := match s with [] => false | _ :: r => match strip (str "*/") s with Some _ => true | None => has_end r end end.
Fixpoint printable_stmt (s : pstmt) : Prop :=
  match s with
  | SVarDecl ty _ x e => is_type ty /\ name x /\ printable e
  | SAssign _ l r => printable l /\ location l /\ printable r
  | SStore _ a i d => printable a /\ location a /\ printable i /\ printable d
  | SFor pragma ty x a b c s => Forall pragma_line pragma /\ is_type ty /\ name x /\ printable a /\ printable b /\ printable c /\ printable_stmt s
  | SWhile pragma c s => Forall pragma_line pragma /\ printable c /\ printable_stmt s
  | SIf c t e => printable c /\ printable_stmt t /\ bare t /\
      match e with Some e => else_follows t /\ printable_stmt e | None => True end
  | SCase cs _ => all (fun '(c, b) => printable c /\ printable_stmt b) cs
  | SSwitch e cs => printable e /\ all (fun '(c, b) => printable c /\ printable_stmt b) cs
  | SBlock ss => all printable_stmt ss
  | SScope s => printable_stmt s
  | SAllocate _ _ ty x n => is_type ty /\ name x /\ printable n
  | SFree e => printable e
  | SComment t => has_end t = false
  | SBlankLine | SContinue | SBreak => True
  | SPrint fmt es => forallb (fun c => negb (Ascii.eqb c quote || is_newline c)) fmt = true /\ all printable es
  | SSort es => es <> [] /\ all printable es
  end.
