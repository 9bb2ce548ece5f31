(** The grammar of index expressions (the comments in parser.h 64-91), and the expressions
    whose printed form determines them. *)
From Coq Require Import List ZArith Bool Ascii.
From Verif Require Import Parser.
Import ListNotations.
Local Open Scope nat_scope.

(** varlist ::= var {, var} *)
Inductive d_vars : list token -> list text -> Prop :=
| D_var : forall s, d_vars [TIdent s] [s]
| D_vars : forall s ts vs, d_vars ts vs -> d_vars (TIdent s :: TComma :: ts) (s :: vs).
(** access ::= identifier '(' varlist ')' | identifier '_' '{' varlist '}' | identifier '_' var | identifier *)
Inductive d_access : list token -> text -> list text -> Prop :=
| D_parens : forall s ts vs, d_vars ts vs -> d_access (TIdent s :: TLparen :: ts ++ [TRparen]) s vs
| D_braces : forall s ts vs, d_vars ts vs -> d_access (TIdent s :: TUnderscore :: TLcurly :: ts ++ [TRcurly]) s vs
| D_subscript : forall s v, d_access [TIdent s; TUnderscore; TIdent v] s [v]
| D_name : forall s, d_access [TIdent s] s [].
(** factor ::= final | '(' expr ')' | '-' factor,  final ::= access | scalar
    term ::= factor {('*' | '/') factor}
    expr ::= term {('+' | '-') term},  both to the left *)
Inductive d_factor : list token -> iexpr -> Prop :=
| D_access : forall ts s vs, d_access ts s vs -> d_factor ts (IAccess s vs)
| D_int : forall s, d_factor [TInt s] (IInt (int_value s))
| D_uint : forall s, d_factor [TUint s] (IUint (uint_value s))
| D_float : forall s, d_factor [TFloat s] (IFloat s)
| D_complex : forall s, d_factor [TComplex s] (IComplex s)
| D_paren : forall ts e, d_expr ts e -> d_factor (TLparen :: ts ++ [TRparen]) e
| D_neg : forall ts e, d_factor ts e -> d_factor (TSub :: ts) (INeg e)
with d_term : list token -> iexpr -> Prop :=
| D_factor : forall ts e, d_factor ts e -> d_term ts e
| D_mul : forall t1 a t2 b, d_term t1 a -> d_factor t2 b -> d_term (t1 ++ TMul :: t2) (IMul a b)
| D_div : forall t1 a t2 b, d_term t1 a -> d_factor t2 b -> d_term (t1 ++ TDiv :: t2) (IDiv a b)
with d_expr : list token -> iexpr -> Prop :=
| D_term : forall ts e, d_term ts e -> d_expr ts e
| D_add : forall t1 a t2 b, d_expr t1 a -> d_term t2 b -> d_expr (t1 ++ TAdd :: t2) (IAdd a b)
| D_sub : forall t1 a t2 b, d_expr t1 a -> d_term t2 b -> d_expr (t1 ++ TSub :: t2) (ISub a b).
(** assign ::= access '=' expr | access '+=' expr *)
Inductive d_assign : list token -> assignment -> Prop :=
| D_assign : forall t1 s vs t2 e, d_access t1 s vs -> d_expr t2 e ->
    d_assign (t1 ++ TEq :: t2) (Assignment s vs false e)
| D_accumulate : forall t1 s vs t2 e, d_access t1 s vs -> d_expr t2 e ->
    d_assign (t1 ++ TAdd :: TEq :: t2) (Assignment s vs true e).

(** The tokens that can continue an expression. *)
Definition continues (t : token) : bool :=
  match t with TAdd | TSub | TMul | TDiv | TLparen | TUnderscore | TDiverge => true | _ => false end.

(** *** Texts of tokens. *)
Definition name (s : text) : Prop :=
  match s with c :: r => is_alpha c = true /\ forallb is_alnum r = true | [] => False end /\
  s <> str_complex /\ s <> str_Complex.
Definition number (s : text) : Prop := s <> [] /\ forallb is_digit s = true.
(** How a token is written. *)
Inductive written : token -> text -> Prop :=
| W_ident : forall s, name s -> written (TIdent s) s
| W_int : forall s, number s -> written (TInt s) s
| W_uint : forall s, number s -> written (TUint s) (s ++ ["u"%char])
| W_float : forall s r, number s -> forallb is_digit r = true -> written (TFloat (s ++ "."%char :: r)) (s ++ "."%char :: r)
| W_comma : written TComma [","%char] | W_lparen : written TLparen ["("%char] | W_rparen : written TRparen [")"%char]
| W_underscore : written TUnderscore ["_"%char] | W_lcurly : written TLcurly ["{"%char] | W_rcurly : written TRcurly ["}"%char]
| W_add : written TAdd ["+"%char] | W_sub : written TSub ["-"%char] | W_mul : written TMul ["*"%char]
| W_div : written TDiv ["/"%char] | W_eq : written TEq ["="%char].
(** Tokens separated by white space. *)
Inductive spaced : list token -> text -> Prop :=
| Sp_end : forall w, forallb is_space w = true -> spaced [] w
| Sp_token : forall w t s ts r, forallb is_space w = true -> written t s -> spaced ts r ->
    (r = [] \/ exists c r', r = c :: r' /\ is_space c = true) -> spaced (t :: ts) (w ++ s ++ r).

(** *** Printed expressions that determine the expression: operands to the right are not
    of the same precedence, integers are not negative and 64-bit, floating point scalars
    are printed with a point, and there are no unsigned or complex scalars. *)
Definition sum (e : iexpr) : Prop := match e with IAdd _ _ | ISub _ _ => True | _ => False end.
Definition product (e : iexpr) : Prop := match e with IMul _ _ | IDiv _ _ => True | _ => False end.
Fixpoint legible (e : iexpr) : Prop :=
  match e with
  | IAccess s vs => name s /\ Forall name vs
  | IInt z => (0 <= z < 2 ^ 63)%Z
  | IFloat s => exists a r, s = a ++ "."%char :: r /\ number a /\ forallb is_digit r = true
  | IUint _ | IComplex _ => False
  | INeg a => legible a
  | IAdd a b | ISub a b | IMul a b | IDiv a b => legible a /\ legible b
  end.
Fixpoint to_the_left (e : iexpr) : Prop :=
  match e with
  | INeg a => to_the_left a
  | IAdd a b | ISub a b => to_the_left a /\ to_the_left b /\ ~ sum b
  | IMul a b | IDiv a b => to_the_left a /\ to_the_left b /\ ~ product b
  | _ => True
  end.
(** Weaker: only the right operands of subtractions and divisions. *)
Fixpoint to_the_left_of_minus (e : iexpr) : Prop :=
  match e with
  | INeg a => to_the_left_of_minus a
  | IAdd a b | IMul a b => to_the_left_of_minus a /\ to_the_left_of_minus b
  | ISub a b => to_the_left_of_minus a /\ to_the_left_of_minus b /\ ~ sum b
  | IDiv a b => to_the_left_of_minus a /\ to_the_left_of_minus b /\ ~ product b
  | _ => True
  end.

(** Values, in any structure where sums and products can be regrouped. *)
Record arithmetic (V : Type) := {
  v_atom : iexpr -> V; v_neg : V -> V;
  v_add : V -> V -> V; v_sub : V -> V -> V; v_mul : V -> V -> V; v_div : V -> V -> V }.
Arguments v_atom {V}. Arguments v_neg {V}. Arguments v_add {V}. Arguments v_sub {V}. Arguments v_mul {V}. Arguments v_div {V}.
Record regroups {V} (A : arithmetic V) : Prop := {
  r_add_add : forall x y z, v_add A x (v_add A y z) = v_add A (v_add A x y) z;
  r_add_sub : forall x y z, v_add A x (v_sub A y z) = v_sub A (v_add A x y) z;
  r_mul_mul : forall x y z, v_mul A x (v_mul A y z) = v_mul A (v_mul A x y) z;
  r_mul_div : forall x y z, v_mul A x (v_div A y z) = v_div A (v_mul A x y) z }.
Fixpoint value_of {V} (A : arithmetic V) (e : iexpr) : V :=
  match e with
  | INeg a => v_neg A (value_of A a)
  | IAdd a b => v_add A (value_of A a) (value_of A b)
  | ISub a b => v_sub A (value_of A a) (value_of A b)
  | IMul a b => v_mul A (value_of A a) (value_of A b)
  | IDiv a b => v_div A (value_of A a) (value_of A b)
  | _ => v_atom A e
  end.
