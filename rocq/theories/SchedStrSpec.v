(** Schedules as they are written: the grammar, and the text of scheduling commands. *)
From Coq Require Import String List ZArith Bool Ascii.
From Verif Require Import Parser ParserSpec SchedStr.
Import ListNotations.
Local Open Scope nat_scope.

(** Words, scalars and operators; not the unsigned and complex scalars, nor characters
    that are not in the language. *)
Definition plain (t : token) : bool :=
  match t with
  | TIdent _ | TInt _ | TFloat _ | TUnderscore | TAdd | TSub | TMul | TDiv | TEq => true
  | _ => false
  end.
(** Balanced brackets of both kinds; commas only inside brackets ([inside] is true there). *)
Inductive bracketed : bool -> list token -> Prop :=
| B_nil : forall inside, bracketed inside []
| B_plain : forall inside t ts, plain t = true -> bracketed inside ts -> bracketed inside (t :: ts)
| B_comma : forall ts, bracketed true ts -> bracketed true (TComma :: ts)
| B_paren : forall inside us ts, bracketed true us -> bracketed inside ts -> bracketed inside (TLparen :: us ++ TRparen :: ts)
| B_curly : forall inside us ts, bracketed true us -> bracketed inside ts -> bracketed inside (TLcurly :: us ++ TRcurly :: ts).

(** The text of tokens without white space. *)
Inductive spells : list token -> text -> Prop :=
| S_nil : spells [] []
| S_cons : forall t x ts r, written t x -> spells ts r -> spells (t :: ts) (x ++ r).

(** schedule ::= directive {',' directive}
    directive ::= word | word '(' argument {',' argument} ')'
    with the directives that it stands for: the name and the arguments, without white space *)
Inductive d_args : list token -> list text -> Prop :=
| D_arg : forall ts x, bracketed false ts -> spells ts x -> d_args ts [x]
| D_args : forall ts x us xs, bracketed false ts -> spells ts x -> d_args us xs -> d_args (ts ++ TComma :: us) (x :: xs).
Inductive d_directive : list token -> list text -> Prop :=
| D_bare : forall ts x, Forall (fun t => plain t = true) ts -> spells ts x -> d_directive ts [x]
| D_call : forall ts x us xs, Forall (fun t => plain t = true) ts -> spells ts x -> d_args us xs ->
    d_directive (ts ++ TLparen :: us ++ [TRparen]) (x :: xs).
Inductive d_schedule : list token -> list (list text) -> Prop :=
| D_one : forall ts d, d_directive ts d -> d_schedule ts [d]
| D_more : forall ts d us ds, d_directive ts d -> d_schedule us ds -> d_schedule (ts ++ TComma :: us) (d :: ds).

(** The text after a word or number does not continue it. *)
Definition not_continued (r : text) : Prop := match r with c :: _ => is_alnum c = false /\ c <> "."%char | [] => True end.
Definition symbol (t : token) : bool := match t with TIdent _ | TInt _ | TUint _ | TFloat _ | TComplex _ => false | _ => true end.
(** Tokens with any white space between them, or none. *)
Inductive laid_out : list token -> text -> Prop :=
| L_end : forall w, forallb is_space w = true -> laid_out [] w
| L_tok : forall w t s ts r, forallb is_space w = true -> written t s -> laid_out ts r ->
    symbol t = true \/ not_continued r -> laid_out (t :: ts) (w ++ s ++ r).

(** How often a token occurs. *)
Fixpoint count (p : token -> bool) (ts : list token) : nat :=
  match ts with [] => 0 | t :: ts => (if p t then 1 else 0) + count p ts end.
Definition is_lparen t := match t with TLparen => true | _ => false end.
Definition is_rparen t := match t with TRparen => true | _ => false end.
Definition is_lcurly t := match t with TLcurly => true | _ => false end.
Definition is_rcurly t := match t with TRcurly => true | _ => false end.

(** *** The text of commands. *)
Definition show_directive (head : text) (args : list text) : text := head ++ txt "(" ++ join (txt ",") args ++ txt ")".
Definition show_list (vs : list text) : text := txt "{" ++ join (txt ",") vs ++ txt "}".
Definition show_unit (u : unit_name) : text :=
  txt (match u with NotParallel => "NotParallel" | GPUBlock => "GPUBlock" | GPUWarp => "GPUWarp" | GPUThread => "GPUThread"
       | CPUThread => "CPUThread" | CPUVector => "CPUVector" end).
Definition show_race (r : race_name) : text :=
  txt (match r with IgnoreRaces => "IgnoreRaces" | NoRaces => "NoRaces" | Atomics => "Atomics" | Temporary => "Temporary"
       | ParallelReduction => "ParallelReduction" end).
Definition show_bound (b : bound_name) : text :=
  txt (match b with MinExact => "MinExact" | MinConstraint => "MinConstraint" | MaxExact => "MaxExact" | MaxConstraint => "MaxConstraint" end).
Definition show_command (c : command) : text :=
  match c with
  | CPos i ipos t => show_directive (txt "pos") [i; ipos; t]
  | CFuse i j f => show_directive (txt "fuse") [i; j; f]
  | CSplit i i1 i2 n => show_directive (txt "split") [i; i1; i2; print_Z n]
  | CDivide i i1 i2 n => show_directive (txt "divide") [i; i1; i2; print_Z n]
  | CPrecompute e i iw w => show_directive (txt "precompute") [e; show_list i; show_list iw; w]
  | CReorder vs => show_directive (txt "reorder") vs
  | CMergeby i s => show_directive (txt "mergeby") [i; txt (match s with TwoFinger => "TwoFinger" | Gallop => "Gallop" end)]
  | CBound i i1 n b => show_directive (txt "bound") [i; i1; print_Z n; show_bound b]
  | CUnroll i n => show_directive (txt "unroll") [i; print_Z n]
  | CParallelize i u r => show_directive (txt "parallelize") [i; show_unit u; show_race r]
  | CAssemble t s sep => show_directive (txt "assemble")
      [t; txt (match s with Append => "Append" | Insert => "Insert" end); txt (if sep then "true" else "false")]
  end.
Definition show_schedule (cs : list command) : text := join (txt ",") (map show_command cs).
(** The text of an index expression of the grammar, without white space. *)
Definition expression_text (x : text) : Prop :=
  exists ts e, d_expr ts e /\ laid_out ts x /\ spells ts x /\ Forall (fun t => match t with TUint _ | TComplex _ => False | _ => True end) ts.
Definition size_t (n : Z) : Prop := (0 <= n < 2 ^ 64)%Z.
Definition proper_command (c : command) : Prop :=
  match c with
  | CPos i ipos t => name i /\ name ipos /\ name t
  | CFuse i j f => name i /\ name j /\ name f
  | CSplit i i1 i2 n | CDivide i i1 i2 n => name i /\ name i1 /\ name i2 /\ size_t n
  | CPrecompute e i iw w => expression_text e /\ i <> [] /\ Forall name i /\ iw <> [] /\ Forall name iw /\ name w
  | CReorder vs => 2 <= length vs /\ Forall name vs
  | CMergeby i _ => name i
  | CBound i i1 n _ => name i /\ name i1 /\ size_t n
  | CUnroll i n => name i /\ size_t n
  | CParallelize i _ _ => name i
  | CAssemble t _ _ => name t
  end.

(** How many arguments each command takes. *)
Definition admits (head : string) (n : nat) : Prop :=
  In (head, n) [("pos", 3); ("fuse", 3); ("split", 4); ("divide", 4); ("precompute", 3); ("precompute", 4);
                ("mergeby", 2); ("bound", 4); ("unroll", 2); ("parallelize", 3); ("assemble", 2); ("assemble", 3)]%string
  \/ head = "reorder"%string /\ 2 <= n.
