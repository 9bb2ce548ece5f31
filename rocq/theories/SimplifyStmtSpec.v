(** The meaning of generated statements, and the conditions under which simplifying
    them preserves it. *)
From Coq Require Import List ZArith Lia Bool Relations.
From Verif Require Import Outcome Types Simplify SimplifySpec SimplifyStmt.
Import ListNotations.
Local Open Scope nat_scope.

Section Semantics.
Variable F : Type.
Variable FO : fops F.
(** Memory; the operations (loads read it), conversions, and the other statements,
    which change it. *)
Variable M : Type.
Variable op1 : M -> kind -> nat -> value F -> option (value F).
Variable op2 : M -> kind -> nat -> value F -> value F -> option (value F).
Variable cast : kind -> value F -> option (value F).
Variable eff : nat -> list (value F) -> M -> option M.
Notation expr := (expr F).
Notation stmt := (stmt F).

Definition state : Type := (nat -> value F) * M.
Definition set_var (x : nat) (v : value F) (st : state) : state :=
  (fun y => if y =? x then v else fst st y, snd st).
Definition value_in (st : state) (e : expr) : option (value F) :=
  eval FO (fst st) (op1 (snd st)) (op2 (snd st)) cast e.
Fixpoint values_in (st : state) (es : list expr) : option (list (value F)) :=
  match es with
  | [] => Some []
  | e :: es => match value_in st e, values_in st es with Some v, Some vs => Some (v :: vs) | _, _ => None end
  end.

(** How a statement ends; [Loop] is a for loop after its initialisation. *)
Inductive signal := Go | Cont | Brk.
Inductive code := Code (s : stmt) | Loop (k : kind) (x : nat) (stop inc : expr) (b : stmt).
Inductive exec : code -> state -> signal -> state -> Prop :=
| X_decl : forall id k x e st v, value_in st e = Some v -> exec (Code (SDecl id k x e)) st Go (set_var x v st)
| X_assign : forall k x e st v, value_in st e = Some v -> exec (Code (SAssign k x e)) st Go (set_var x v st)
| X_eff : forall o args raw st vs ws m, values_in st args = Some vs -> values_in st raw = Some ws ->
    eff o (vs ++ ws) (snd st) = Some m -> exec (Code (SEff o args raw)) st Go (fst st, m)
| X_nil : forall st, exec (Code SNil) st Go st
| X_cons : forall s r st st1 g st2, exec (Code s) st Go st1 -> exec (Code r) st1 g st2 ->
    exec (Code (SCons s r)) st g st2
| X_cons_end : forall s r st g st1, exec (Code s) st g st1 -> g <> Go -> exec (Code (SCons s r)) st g st1
| X_scope : forall s st g st1, exec (Code s) st g st1 -> exec (Code (SScope s)) st g st1
| X_if : forall c a b st t g st1, value_in st c = Some (VBool t) -> exec (Code (if t then a else b)) st g st1 ->
    exec (Code (SIf c a b)) st g st1
| X_while_end : forall c b st, value_in st c = Some (VBool false) -> exec (Code (SWhile c b)) st Go st
| X_while : forall c b st g st1 st2, value_in st c = Some (VBool true) ->
    exec (Code b) st g st1 -> g <> Brk -> exec (Code (SWhile c b)) st1 Go st2 -> exec (Code (SWhile c b)) st Go st2
| X_while_break : forall c b st st1, value_in st c = Some (VBool true) ->
    exec (Code b) st Brk st1 -> exec (Code (SWhile c b)) st Go st1
| X_for : forall k x start stop inc b st v st1, value_in st start = Some v ->
    exec (Loop k x stop inc b) (set_var x v st) Go st1 -> exec (Code (SFor k x start stop inc b)) st Go st1
| X_loop_end : forall k x stop inc b st, value_in st (lt_ (EVar k x) stop) = Some (VBool false) ->
    exec (Loop k x stop inc b) st Go st
| X_loop : forall k x stop inc b st g st1 v st2, value_in st (lt_ (EVar k x) stop) = Some (VBool true) ->
    exec (Code b) st g st1 -> g <> Brk -> value_in st1 (EAdd (EVar k x) inc) = Some v ->
    exec (Loop k x stop inc b) (set_var x v st1) Go st2 -> exec (Loop k x stop inc b) st Go st2
| X_loop_break : forall k x stop inc b st st1, value_in st (lt_ (EVar k x) stop) = Some (VBool true) ->
    exec (Code b) st Brk st1 -> exec (Loop k x stop inc b) st Go st1
| X_continue : forall st, exec (Code SContinue) st Cont st
| X_break : forall st, exec (Code SBreak) st Brk st.

(** Less-than of integers. *)
Definition compares : Prop := forall m x y, op2 m KBool op_lt (VInt x) (VInt y) = Some (VBool (x <? y)%Z).
End Semantics.
Arguments set_var {F M}. Arguments Code {F}. Arguments Loop {F}.

Section Conditions.
Context {F : Type}.
Notation expr := (expr F).
Notation stmt := (stmt F).

(** *** Types.  [ty] gives the type of every variable. *)
Variable ty : nat -> kind.
Fixpoint typed (e : expr) : Prop :=
  match e with
  | ELit l => has_kind (kind_of_lit l) (value_of_lit l)
  | EVar k x => k = ty x
  | ENeg a => typed a /\ kind_of a <> KBool
  | EAdd a b | ESub a b | EMul a b | EDiv a b => typed a /\ typed b /\ kind_of a = kind_of b /\ kind_of a <> KBool
  | EOr a b | EAnd a b => typed a /\ typed b /\ kind_of a = KBool /\ kind_of b = KBool
  | ECast _ a | EOp1 _ _ a => typed a
  | EOp2 k o a b => typed a /\ typed b /\ (o = op_lt -> k = KBool /\ kind_of a = kind_of b)
  end.
(** No implicit conversions. *)
Fixpoint styped (s : stmt) : Prop :=
  match s with
  | SDecl _ k x e | SAssign k x e => typed e /\ k = ty x /\ kind_of e = ty x
  | SEff _ args raw => Forall typed args /\ Forall typed raw
  | SNil | SContinue | SBreak => True
  | SCons a b => styped a /\ styped b
  | SScope a => styped a
  | SIf c a b => typed c /\ kind_of c = KBool /\ styped a /\ styped b
  | SWhile c b => typed c /\ kind_of c = KBool /\ styped b
  | SFor k x start stop inc b =>
      k = ty x /\ (exists t, k = KInt t) /\
      typed start /\ kind_of start = k /\ typed stop /\ kind_of stop = k /\ typed inc /\ kind_of inc = k /\ styped b
  end.

(** *** Scopes.  [G]: the variables in scope. *)
(** The declarations that a statement leaves in the enclosing scope. *)
Fixpoint declares (s : stmt) : list nat :=
  match s with
  | SDecl _ _ x _ => [x]
  | SCons a b => declares a ++ declares b
  | _ => []
  end.
Definition within (G : list nat) (e : expr) : Prop := incl (evars e) G.
Fixpoint scoped (G : list nat) (s : stmt) : Prop :=
  match s with
  | SDecl _ _ _ e => within G e
  | SAssign _ x e => In x G /\ within G e
  | SEff _ args raw => Forall (within G) args /\ Forall (within G) raw
  | SNil | SContinue | SBreak => True
  | SCons a b => scoped G a /\ scoped (declares a ++ G) b
  | SScope a => scoped G a
  | SIf c a b => within G c /\ scoped G a /\ scoped G b
  | SWhile c b => within G c /\ scoped G b
  | SFor _ x start stop inc b => within G start /\ within G stop /\ within G inc /\ scoped (x :: G) b
  end.
(** All variables declared anywhere, and the addresses of the declarations. *)
Fixpoint bound (s : stmt) : list nat :=
  match s with
  | SDecl _ _ x _ => [x]
  | SCons a b | SIf _ a b => bound a ++ bound b
  | SScope a | SWhile _ a => bound a
  | SFor _ x _ _ _ b => x :: bound b
  | _ => []
  end.
Fixpoint decls (s : stmt) : list (nat * nat * expr) :=
  match s with
  | SDecl id _ x e => [(id, x, e)]
  | SCons a b | SIf _ a b => decls a ++ decls b
  | SScope a | SWhile _ a | SFor _ _ _ _ _ a => decls a
  | _ => []
  end.
(** Every variable is declared once, before it is used; [G] are the parameters. *)
Definition well_scoped (G : list nat) (s : stmt) : Prop :=
  scoped G s /\ NoDup (bound s) /\ (forall x, In x (bound s) -> ~ In x G).

(** *** What statements read and assign. *)
Fixpoint reads (s : stmt) : list nat :=
  match s with
  | SDecl _ _ _ e | SAssign _ _ e => evars e
  | SEff _ args raw => flat_map evars args ++ flat_map evars raw
  | SCons a b => reads a ++ reads b
  | SScope a => reads a
  | SIf c a b => evars c ++ reads a ++ reads b
  | SWhile c b => evars c ++ reads b
  | SFor _ _ start stop inc b => evars start ++ evars stop ++ evars inc ++ reads b
  | SNil | SContinue | SBreak => []
  end.
Fixpoint assigned (s : stmt) : list nat :=
  match s with
  | SAssign _ x _ => [x]
  | SCons a b | SIf _ a b => assigned a ++ assigned b
  | SScope a | SWhile _ a | SFor _ _ _ _ _ a => assigned a
  | _ => []
  end.
Fixpoint loops (s : stmt) : list stmt :=
  match s with
  | SCons a b | SIf _ a b => loops a ++ loops b
  | SScope a => loops a
  | SWhile _ b | SFor _ _ _ _ _ b => s :: loops b
  | _ => []
  end.
Fixpoint raws (s : stmt) : list expr :=
  match s with
  | SEff _ _ raw => raw
  | SCons a b | SIf _ a b => raws a ++ raws b
  | SScope a | SWhile _ a | SFor _ _ _ _ _ a => raws a
  | _ => []
  end.

(** [x] is declared as a copy of [z], directly or through other copies. *)
Variable FL : flits F.
Definition copy (s : stmt) (x z : nat) : Prop :=
  exists id e k, In (id, x, e) (decls s) /\ simplify_expr FL e = Done (EVar k z).
Definition copies (s : stmt) : nat -> nat -> Prop := clos_trans nat (copy s).
(** No loop reads a copy, made outside of it, of a variable that it assigns. *)
Definition no_stale_copy (s : stmt) : Prop := forall l x z, In l (loops s) ->
  In x (reads l) -> ~ In x (bound l) -> copies s x z -> ~ In z (assigned l).
(** The operands that are not rewritten contain no copies. *)
Definition no_raw_copy (s : stmt) : Prop := forall e x z, In e (raws s) -> In x (evars e) -> ~ copy s x z.

(** *** Counting loops: only declarations and assignments in the body. *)
Fixpoint counting (s : stmt) : Prop :=
  match s with
  | SDecl _ _ _ _ | SAssign _ _ _ | SNil => True
  | SCons a b => counting a /\ counting b
  | SScope a => counting a
  | _ => False
  end.
Fixpoint assigns (s : stmt) : list (nat * expr) :=
  match s with
  | SAssign _ x e => [(x, e)]
  | SCons a b | SIf _ a b => assigns a ++ assigns b
  | SScope a | SWhile _ a | SFor _ _ _ _ _ a => assigns a
  | _ => []
  end.
(** The increment is 1, or the bounds are literals and it divides the range. *)
Definition divides (start stop inc : expr) : Prop :=
  (exists t, inc = ELit (LInt t 1)) \/
  (exists t a b c, start = ELit (LInt t a) /\ stop = ELit (LInt t b) /\ inc = ELit (LInt t c) /\
     (0 < c)%Z /\ (c | b - a)%Z /\ in_range t (b - a)).
(** Every variable is assigned once in the body, and has the type [k] of the loop
    variable unless it is assigned a literal; the variables of the bounds are not
    assigned. *)
Definition countable (l : stmt) : Prop :=
  match l with
  | SWhile _ b => counting b -> NoDup (assigned b) /\
      exists t, forall x e, In (x, e) (assigns b) -> ty x = KInt t \/ exists l, e = ELit l
  | SFor k x start stop inc b => counting b -> NoDup (assigned b) /\ ~ In x (assigned b) /\
      (forall y, In y (evars start ++ evars stop ++ evars inc) -> ~ In y (assigned b)) /\
      divides start stop inc /\
      forall y e, In (y, e) (assigns b) -> ty y = k \/ exists l, e = ELit l
  | _ => True
  end.

Record simplifiable (G : list nat) (s : stmt) : Prop := {
  sm_typed : styped s;
  sm_scoped : well_scoped G s;
  sm_copies : no_stale_copy s;
  sm_raw : no_raw_copy s;
  sm_loops : forall l, In l (loops s) -> countable l }.
End Conditions.
