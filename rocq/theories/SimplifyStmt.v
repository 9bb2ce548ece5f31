(** Simplification of generated statements: /repo/src/ir/simplify.cpp 341-722
    (copy propagation, removal of declarations, closed forms of counting loops). *)
From Coq Require Import List ZArith Lia Bool.
From Verif Require Import Outcome Types Simplify.
Import ListNotations.
Local Open Scope nat_scope.

(** util::ScopedMap, /repo/include/taco/util/scopedmap.h 12-95: maps of scopes, the
    innermost first.  Variables are compared by address, so numbers stand for them. *)
Section ScopedMap.
Context {V : Type}.
Definition smap := list (list (nat * V)).
Fixpoint assoc (x : nat) (m : list (nat * V)) : option V :=
  match m with [] => None | (y, v) :: m => if y =? x then Some v else assoc x m end.
(** std::map::insert does not overwrite. *)
Definition insert_front (x : nat) (v : V) (m : smap) : smap :=
  match m with
  | [] => []
  | s :: m => match assoc x s with Some _ => s :: m | None => ((x, v) :: s) :: m end
  end.
Fixpoint get (x : nat) (m : smap) : option V :=
  match m with
  | [] => None
  | s :: m => match assoc x s with Some v => Some v | None => get x m end
  end.
Fixpoint remove (x : nat) (m : smap) : smap :=
  match m with
  | [] => []
  | s :: m => match assoc x s with
              | Some _ => filter (fun p => negb (fst p =? x)) s :: m
              | None => s :: remove x m
              end
  end.
Definition contains (x : nat) (m : smap) : bool := match get x m with Some _ => true | None => false end.
Definition scope (m : smap) : smap := [] :: m.
Definition unscope (m : smap) : smap := tl m.
End ScopedMap.
Arguments smap V : clear implicits.

Section Stmt.
Variable F : Type.
Notation expr := (expr F).

(** Statements (ir.h 520-850).  A block is a list: [SNil] or [SCons].  The bodies of
    [SIf], [SWhile] and [SFor] are inside a Scope (ir.cpp 620-690); a missing else
    branch is [SNil], and Case and Switch are nested [SIf]s.  A declaration carries the
    address of its node.  [SEff] stands for every statement that is neither (Store,
    Allocate, Free, Sort, Print, Yield, comments, an Assign to a property): its
    operands are rewritten, but those in [raw] are emitted as they were (the
    coordinates of Yield, ir_rewriter.cpp 411-429). *)
Inductive stmt :=
| SDecl (id : nat) (k : kind) (x : nat) (e : expr)
| SAssign (k : kind) (x : nat) (e : expr)
| SEff (op : nat) (args raw : list expr)
| SNil
| SCons (s r : stmt)
| SScope (s : stmt)
| SIf (c : expr) (a b : stmt)
| SWhile (c : expr) (b : stmt)
| SFor (k : kind) (x : nat) (start stop inc : expr) (b : stmt)
| SContinue
| SBreak.

(** Block::make drops empty blocks (ir.cpp 551-564). *)
Definition cons_ (s r : stmt) : stmt := match s with SNil => r | _ => SCons s r end.

(** Comparison Lt; the operations that are calls. *)
Definition op_lt : nat := 0.
Variable call : nat -> bool.
Definition lt_ (a b : expr) : expr := EOp2 KBool op_lt a b.
Definition is_call (e : expr) : bool := match e with EOp1 _ o _ | EOp2 _ o _ _ => call o | _ => false end.

(** Datatype::isInt, type.cpp 35-38: signed integers only. *)
Definition is_int (k : kind) : bool := match k with KInt t => signed t | _ => false end.

Variable FL : flits F.
Definition simplify_ (e : expr) : outcome expr :=
  match simplify_expr FL e with Done e => Val e | Crash => Oob | OutOfFuel => NoFuel end.

(** *** FindLoopDependentVars, 346-380. *)
Record ldstate := LD { ld_vars : list nat; ld_level : list (nat * nat) }.
Fixpoint loop_dependent (level : nat) (s : stmt) (st : ldstate) : ldstate :=
  match s with
  | SDecl _ _ x _ =>
      match assoc x (ld_level st) with Some _ => st | None => LD (ld_vars st) ((x, level) :: ld_level st) end
  | SAssign _ x _ =>
      match assoc x (ld_level st) with
      | Some l => if l <? level then LD (x :: ld_vars st) (ld_level st) else st
      | None => st
      end
  | SCons s r => loop_dependent level r (loop_dependent level s st)
  | SScope s => loop_dependent level s st
  | SIf _ a b => loop_dependent level b (loop_dependent level a st)
  | SWhile _ b => loop_dependent (S level) b st
  | SFor _ x _ _ _ b => loop_dependent (S level) b (LD (x :: ld_vars st) (ld_level st))
  | SEff _ _ _ | SNil | SContinue | SBreak => st
  end.

(** *** Copy propagation, 398-475. *)
Record cstate := CS {
  replace_ : smap (kind * nat);     (* varsToReplace *)
  declared : smap nat;              (* declarations *)
  depends : list (nat * nat);       (* dependencies *)
  needed : list nat }.              (* necessaryDecls *)

(** visit(const Var* ), 468-473. *)
Fixpoint subst (m : smap (kind * nat)) (e : expr) : expr :=
  match e with
  | ELit l => ELit l
  | EVar k x => match get x m with Some (k, y) => EVar k y | None => EVar k x end
  | ENeg a => ENeg (subst m a)
  | EAdd a b => EAdd (subst m a) (subst m b)
  | ESub a b => ESub (subst m a) (subst m b)
  | EMul a b => EMul (subst m a) (subst m b)
  | EDiv a b => EDiv (subst m a) (subst m b)
  | EOr a b => EOr (subst m a) (subst m b)
  | EAnd a b => EAnd (subst m a) (subst m b)
  | ECast k a => ECast k (subst m a)
  | EOp1 k o a => EOp1 k o (subst m a)
  | EOp2 k o a b => EOp2 k o (subst m a) (subst m b)
  end.
Fixpoint occurs (e : expr) : list (kind * nat) :=
  match e with
  | ELit _ => []
  | EVar k x => [(k, x)]
  | ENeg a | ECast _ a | EOp1 _ _ a => occurs a
  | EAdd a b | ESub a b | EMul a b | EDiv a b | EOr a b | EAnd a b | EOp2 _ _ a b => occurs a ++ occurs b
  end.
Definition evars (e : expr) : list nat := map snd (occurs e).
Definition ids (d : smap nat) (xs : list nat) : list nat :=
  flat_map (fun x => match get x d with Some i => [i] | None => [] end) xs.
(** Rewriting an expression: variables are replaced and their declarations become
    necessary; then the rules of ExpressionSimplifier are applied bottom up. *)
Definition mark (e : expr) (st : cstate) : cstate :=
  CS (replace_ st) (declared st) (depends st) (ids (declared st) (evars (subst (replace_ st) e)) ++ needed st).
Definition cp_expr (e : expr) (st : cstate) : outcome (expr * cstate) :=
  do e' <- simplify_ (subst (replace_ st) e);
  Val (e', mark e st).
Fixpoint cp_exprs (es : list expr) (st : cstate) : outcome (list expr * cstate) :=
  match es with
  | [] => Val ([], st)
  | e :: es => do (e', st) <- cp_expr e st; do (es', st) <- cp_exprs es st; Val (e' :: es', st)
  end.
(** 449-465. *)
Fixpoint invalidate (fuel : nat) (queue : list nat) (deps : list (nat * nat)) (m : smap (kind * nat)) : outcome (smap (kind * nat)) :=
  match fuel with
  | O => NoFuel
  | S n =>
      match queue with
      | [] => Val m
      | v :: queue =>
          invalidate n (queue ++ map snd (filter (fun d => fst d =? v) deps)) deps
            (if contains v m then remove v m else m)
      end
  end.
(** visit(const Scope* ), 410-416. *)
Definition enter (st : cstate) : cstate := CS (scope (replace_ st)) (scope (declared st)) (depends st) (needed st).
Definition leave (st : cstate) : cstate := CS (unscope (replace_ st)) (unscope (declared st)) (depends st) (needed st).

Variable loopdep : list nat.
Definition mem (x : nat) (l : list nat) : bool := existsb (Nat.eqb x) l.
Fixpoint cp (s : stmt) (st : cstate) : outcome (stmt * cstate) :=
  match s with
  | SDecl id k x e =>
      do (e', st) <- cp_expr e st;
      let st := CS (replace_ st) (insert_front x id (declared st)) (depends st) (needed st) in
      let st := match e' with
                | EVar ky y =>
                    if is_int k && negb (mem x loopdep)
                    then CS (insert_front x (ky, y) (replace_ st)) (declared st) (depends st ++ [(y, x)]) (needed st)
                    else st
                | _ => st
                end in
      Val (SDecl id k x e', st)
  | SAssign k x e =>
      do (e', st) <- cp_expr e st;
      let st := CS (replace_ st) (declared st) (depends st)
                   (match get x (declared st) with Some i => i :: needed st | None => needed st end) in
      if is_int k
      then do m <- invalidate (2 + length (depends st)) [x] (depends st) (replace_ st);
           Val (SAssign k x e', CS m (declared st) (depends st) (needed st))
      else Val (SAssign k x e', st)
  | SEff o args raw =>
      do (raw', st) <- cp_exprs raw st;
      do (args', st) <- cp_exprs args st;
      Val (SEff o args' raw, st)
  | SNil => Val (SNil, st)
  | SCons s r =>
      do (s', st) <- cp s st;
      do (r', st) <- cp r st;
      Val (cons_ s' r', st)
  | SScope s =>
      do (s', st) <- cp s (enter st);
      Val (SScope s', leave st)
  | SIf c a b =>
      do (c', st) <- cp_expr c st;
      do (a', st) <- cp a (enter st);
      do (b', st) <- cp b (enter (leave st));
      Val (SIf c' a' b', leave st)
  | SWhile c b =>
      do (c', st) <- cp_expr c st;
      do (b', st) <- cp b (enter st);
      Val (SWhile c' b', leave st)
  | SFor k x start stop inc b =>
      do (_, st) <- cp_expr (EVar k x) st;
      do (start', st) <- cp_expr start st;
      do (stop', st) <- cp_expr stop st;
      do (inc', st) <- cp_expr inc st;
      do (b', st) <- cp b (enter st);
      Val (SFor k x start' stop' inc' b', leave st)
  | SContinue => Val (SContinue, st)
  | SBreak => Val (SBreak, st)
  end.

(** *** RemoveRedundantStmts, 479-496. *)
Variable necessary : list nat.
Fixpoint remove_decls (s : stmt) : stmt :=
  match s with
  | SDecl id k x e => if is_call e || mem id necessary then s else SNil
  | SCons s r => cons_ (remove_decls s) (remove_decls r)
  | SScope s => SScope (remove_decls s)
  | SIf c a b => SIf c (remove_decls a) (remove_decls b)
  | SWhile c b => SWhile c (remove_decls b)
  | SFor k x start stop inc b => SFor k x start stop inc (remove_decls b)
  | SAssign _ _ _ | SEff _ _ _ | SNil | SContinue | SBreak => s
  end.

(** *** RemoveRedundantLoops, 499-718. *)
(** DuplicateBody, 503-617; [None] is the undefined statement. *)
Fixpoint duplicate (count : expr) (s : stmt) : outcome (option stmt) :=
  match s with
  | SNil => Val (Some SNil)
  | SCons s r =>
      do s' <- duplicate count s;
      match s' with
      | None => Val None
      | Some s' => do r' <- duplicate count r;
                   match r' with None => Val None | Some r' => Val (Some (cons_ s' r')) end
      end
  | SScope s => do s' <- duplicate count s; Val (match s' with None => None | Some s' => Some (SScope s') end)
  | SAssign k x (ELit l) => Val (Some s)
  | SAssign k x (EAdd (EVar ky y) (ELit l)) =>
      if y =? x then do inc <- simplify_ (EMul count (ELit l)); Val (Some (SAssign k x (EAdd (EVar ky y) inc)))
      else Val None
  | _ => Val None
  end.
(** CheckModified, 619-632. *)
Fixpoint modifies (v : nat) (s : stmt) : bool :=
  match s with
  | SAssign _ x _ => x =? v
  | SCons a b | SIf _ a b => modifies v a || modifies v b
  | SScope a | SWhile _ a | SFor _ _ _ _ _ a => modifies v a
  | _ => false
  end.
(** The last statement of a block and the block without it (680, 691-692). *)
Fixpoint unlast (s : stmt) : option (stmt * stmt) :=
  match s with
  | SCons s SNil => Some (SNil, s)
  | SCons s r =>
      match r with
      | SCons _ _ => match unlast r with Some (i, l) => Some (SCons s i, l) | None => None end
      | _ => Some (SCons s SNil, r)
      end
  | _ => None
  end.
(** Is it [i = i + 1]?  681-689. *)
Definition is_increment (i : nat) (s : stmt) : bool :=
  match s with
  | SAssign _ x (EAdd (EVar _ y) (ELit (LInt _ z))) => (x =? i) && (y =? x) && (z =? 1)%Z
  | _ => false
  end.
(** visit(const While* ), 670-714: the closed form, if there is one. *)
Definition while_closed (c : expr) (b : stmt) : outcome (option stmt) :=
  match c with
  | EOp2 kc o (EVar ki i) (EVar ke e) =>
      if negb (o =? op_lt) || modifies e b then Val None
      else match b with
           | SNil => Oob          (* contents.back() of an empty vector *)
           | SCons _ _ =>
               match unlast b with
               | Some (rest, last) =>
                   if is_increment i last then
                     do count <- simplify_ (ESub (EVar ke e) (EVar ki i));
                     do rest' <- duplicate count rest;
                     match rest' with
                     | Some rest' => Val (Some (SIf c (cons_ rest' (SCons (SAssign ki i (EVar ke e)) SNil)) SNil))
                     | None => Val None
                     end
                   else Val None
               | None => Val None
               end
           | _ => Val None
           end
  | _ => Val None
  end.
(** visit(const For* ), 646-655. *)
Definition for_closed (start stop inc : expr) (b : stmt) : outcome (option stmt) :=
  do count <- simplify_ (EDiv (ESub stop start) inc);
  do b' <- duplicate count b;
  match b' with
  | Some b' => Val (Some (SIf (lt_ start stop) b' SNil))
  | None => Val None
  end.
Fixpoint remove_loops (s : stmt) : outcome stmt :=
  match s with
  | SCons s r => do s' <- remove_loops s; do r' <- remove_loops r; Val (cons_ s' r')
  | SScope s => do s' <- remove_loops s; Val (SScope s')
  | SIf c a b => do a' <- remove_loops a; do b' <- remove_loops b; Val (SIf c a' b')
  | SWhile c b =>
      do closed <- while_closed c b;
      match closed with
      | Some s' => Val s'
      | None => do b' <- remove_loops b; Val (SWhile c b')
      end
  | SFor k x start stop inc b =>
      do closed <- for_closed start stop inc b;
      match closed with
      | Some s' => Val s'
      | None => do b' <- remove_loops b; Val (SFor k x start stop inc b')
      end
  | SDecl _ _ _ _ | SAssign _ _ _ | SEff _ _ _ | SNil | SContinue | SBreak => Val s
  end.
End Stmt.

Arguments SDecl {F}. Arguments SAssign {F}. Arguments SEff {F}. Arguments SNil {F}. Arguments SCons {F}.
Arguments SScope {F}. Arguments SIf {F}. Arguments SWhile {F}. Arguments SFor {F}. Arguments SContinue {F}.
Arguments SBreak {F}. Arguments cons_ {F}. Arguments lt_ {F}. Arguments is_call {F}. Arguments simplify_ {F}.
Arguments loop_dependent {F}. Arguments subst {F}. Arguments occurs {F}. Arguments evars {F}.
Arguments mark {F}. Arguments cp_expr {F}. Arguments cp_exprs {F}. Arguments cp {F}. Arguments remove_decls {F}.
Arguments duplicate {F}. Arguments modifies {F}. Arguments unlast {F}. Arguments is_increment {F}.
Arguments while_closed {F}. Arguments for_closed {F}. Arguments remove_loops {F}.

(** simplify(const Stmt&), 341-722. *)
Definition simplify_stmt {F} (call : nat -> bool) (FL : flits F) (s : stmt F) : outcome (stmt F) :=
  let loopdep := ld_vars (loop_dependent 0 s (LD [] [])) in
  do (s1, st) <- cp FL loopdep s (CS [[]] [[]] [] []);
  remove_loops FL (remove_decls call (needed st) s1).
(** IRPrinter::print, ir_printer.cpp 47-60: simplified again until nothing changes; here
    a number of times. *)
Fixpoint simplify_n {F} (call : nat -> bool) (FL : flits F) (n : nat) (s : stmt F) : outcome (stmt F) :=
  match n with
  | O => Val s
  | S n => do s' <- simplify_stmt call FL s; simplify_n call FL n s'
  end.
