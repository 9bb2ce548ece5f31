(** Model of the lowering of sequential forall nests over one assignment,
    /repo/src/lower/lowerer_impl_imperative.cpp, for dense and compressed
    operand levels, two-finger merging, no windows, no derived index variables.
    What is done with the result (inserting, appending, storing) is passed in as
    hooks, in the places where lowerForall and lowerForallBody emit it. *)
From Coq Require Import List Arith Lia Bool.
Import ListNotations.
From Verif Require Import Storage IndexExpr Eval Lattice LoopIR.

Section Lower.
Context {V : Type}.

(** Result code: [hk_pre] before the loop of a variable, [hk_enter] at the start
    of its body (initVals and declInserterPosVars of lowerForallBody 2133-2138),
    [hk_exit] at the end of its body (appendCoords, 2142), [hk_post] after the
    loop (generateAppendPositions), [hk_leaf] the innermost assignment
    (lowerAssignment). The first argument is the list of enclosing index
    variables, innermost first. *)
Record hooks := Hooks {
  hk_pre : list ivar -> ivar -> stmt V;
  hk_enter : list ivar -> ivar -> stmt V;
  hk_exit : list ivar -> ivar -> stmt V;
  hk_post : list ivar -> ivar -> stmt V;
  hk_leaf : expr V -> stmt V }.

Variable srt : list point -> list point.
Variable dimf : ivar -> nat.
Variable H : hooks.

(** Position variable of the parent level; the root has position 0
    (/repo/src/lower/iterator.cpp 46-60). *)
Definition parent_pos (pv : nat -> var) (l : nat) : iexp :=
  match l with 0 => ICst 0 | S l' => IVar (pv l') end.

(** /repo/src/lower/mode_format_dense.cpp locate 36-41 with
    lowerer_impl_imperative.cpp 3402-3406: pos = parent * width + coordinate. *)
Definition locate_stmt (pv : nat -> var) (t l : nat) (v : ivar) : stmt V :=
  Asg (pv l) (IAdd (IMul (parent_pos pv l) (IDimOf t l)) (IVar (VIdx v))).

Definition inb (i : ivar) (bound : list ivar) : bool := existsb (Nat.eqb i) bound.

(** lowerer_impl_imperative.cpp 3371-3378: the contiguous dense ancestors are
    accessible.  [up] lists the levels above, nearest first. *)
Fixpoint ancestors_ok (bound : list ivar) (up : list (ivar * kind)) : bool :=
  match up with
  | (v, KDense) :: t => inb v bound && ancestors_ok bound t
  | _ => true
  end.

(** 3386-3413: the do-while loop that locates the level and then its accessible
    dense descendants. *)
Fixpoint locate_down (bound : list ivar) (pv : nat -> var) (t l : nat)
    (down : list (ivar * kind)) : stmt V :=
  match down with
  | (v, KDense) :: r =>
      if inb v bound then Seq (locate_stmt pv t l v) (locate_down bound pv t (S l) r) else Skip
  | _ => Skip
  end.

(** 3366-3417, declLocatePosVars for one locator: level [l] of tensor [t] with
    index variables [vs]; [bound] contains the variable of the loop. *)
Definition decl_locate (bound : list ivar) (pv : nat -> var) (t l : nat)
    (vs : list (ivar * kind)) : stmt V :=
  if ancestors_ok bound (rev (firstn l vs)) then locate_down bound pv t l (skipn l vs) else Skip.

Definition decl_locators (bound : list ivar) (locs : list iter) : stmt V :=
  Block (map (fun it => match it with
                        | Dim => Skip
                        | Lev a l => decl_locate bound (VPos a) (a_tensor a) l (a_vars a)
                        end) locs).

(** Iterator variables (iterator.cpp getIteratorVar): the position variable of a
    compressed level, the coordinate variable of a dimension. *)
Definition iter_var (i : ivar) (it : iter) : var :=
  match it with Dim => VIdx i | Lev a l => VPos a l end.

(** mode_format_compressed.cpp posIterBounds 102-116. *)
Definition pos_begin (a : access) (l : nat) : iexp :=
  IPosAt (a_tensor a) l (parent_pos (VPos a) l).
Definition pos_end (a : access) (l : nat) : iexp :=
  IPosAt (a_tensor a) l (IAdd (parent_pos (VPos a) l) (ICst 1)).
(** posIterAccess 118-124. *)
Definition crd_at (a : access) (l : nat) : iexp :=
  ICrdAt (a_tensor a) l (IVar (VPos a l)).

(** 3485-3580, codeToInitializeIteratorVar without windows and duplicates. *)
Definition init_iter (i : ivar) (it : iter) : stmt V :=
  match it with
  | Dim => Asg (VIdx i) (ICst 0)
  | Lev a l => Seq (Asg (VPos a l) (pos_begin a l)) (Asg (VEnd a l) (pos_end a l))
  end.
(** 3585-3600, codeToInitializeIteratorVars. *)
Definition init_iters (i : ivar) (p : point) : stmt V :=
  Block (map (init_iter i) (mergers p ++ filter (fun it => negb (mem it (mergers p))) (rangers p))).

(** 3687-3740, codeToLoadCoordinatesFromPosIterators. *)
Definition load_coords (its : list iter) : stmt V :=
  if 1 <? length its
  then Block (map (fun it => match it with
                             | Dim => Skip
                             | Lev a l => Asg (VCrd a l) (crd_at a l)
                             end) its)
  else Skip.

(** Coordinate variable of an iterator (getCoordVar). *)
Definition crd_var (i : ivar) (it : iter) : iexp :=
  match it with Dim => IVar (VIdx i) | Lev a l => IVar (VCrd a l) end.

Fixpoint min_of (l : list iexp) : iexp :=
  match l with [] => ICst 0 | [x] => x | x :: t => IMin x (min_of t) end.

(** 1737-1806, resolveCoordinate (two-finger). *)
Definition resolve (i : ivar) (ms : list iter) : stmt V :=
  match ms with
  | [Lev a l] => Asg (VIdx i) (crd_at a l)
  | [Dim] => Skip
  | _ => Asg (VIdx i) (min_of (map (crd_var i) ms))
  end.

(** 3843-3866, checkThatNoneAreExhausted. *)
Definition none_exhausted (i : ivar) (rs : list iter) : bexp :=
  match rs with
  | [Dim] => BLt (IVar (VIdx i)) (ICst (dimf i))
  | _ => Conj (map (fun it => match it with
                              | Dim => BLt (IVar (VIdx i)) (ICst (dimf i))
                              | Lev a l => BLt (IVar (VPos a l)) (IVar (VEnd a l))
                              end) rs)
  end.

(** 3617-3685, codeToIncIteratorVars (two-finger, unique iterators). *)
Definition inc_iters (i : ivar) (its : list iter) : stmt V :=
  match its with
  | [it] => Asg (iter_var i it) (IAdd (IVar (iter_var i it)) (ICst 1))
  | _ =>
      Seq (Block (map (fun it => match it with
                                 | Dim => Skip
                                 | Lev a l => Asg (VPos a l)
                                     (IAdd (IVar (VPos a l)) (IEqb (IVar (VCrd a l)) (IVar (VIdx i))))
                                 end) its))
          (Block (map (fun it => match it with
                                 | Dim => Asg (VIdx i) (IAdd (IVar (VIdx i)) (ICst 1))
                                 | Lev _ _ => Skip
                                 end) its))
  end.

(** lowerer_impl_imperative.h 425-445, compareToResolvedCoordinate<Eq>. *)
Definition case_cond (i : ivar) (p : point) : bexp :=
  Conj (map (fun it => BEq (crd_var i it) (IVar (VIdx i))) (rangers p)).

Definition oexpr (f : expr V -> stmt V) (o : option (expr V)) : stmt V :=
  match o with Some e => f e | None => Skip end.

Definition ozero (z : access -> bool) (o : option (expr V)) : option (expr V) :=
  match o with Some e => zero z e | None => None end.

(** 1810-1882, lowerMergeCases. *)
Definition merge_cases (i : ivar) (L : list point) (o : option (expr V))
    (body : expr V -> stmt V) : stmt V :=
  let M := getLoopLattice L in
  match lat_iters M with
  | [_] => oexpr body o
  | _ => Case (map (fun p => (case_cond i p, oexpr body (ozero (exhaustedAccess M p) o))) M) (exact M)
  end.

(** 1627-1735, lowerMergePoint. *)
Definition merge_point (i : ivar) (bound : list ivar) (L : list point) (o : option (expr V))
    (body : expr V -> stmt V) : stmt V :=
  let p := hd pt0 L in
  While (none_exhausted i (rangers p))
    (Block [load_coords (p_iters p);
            resolve i (mergers p);
            decl_locators (i :: bound) (p_locs p);
            merge_cases i L o body;
            inc_iters i (p_iters p)]).

(** 1583-1625, lowerMergeLattice. *)
Definition merge_lattice (i : ivar) (bound : list ivar) (L : list point) (e : expr V)
    (body : expr V -> stmt V) : stmt V :=
  let M := getLoopLattice L in
  Seq (init_iters i (hd pt0 M))
      (Block (map (fun p => merge_point i bound (subLattice L p) (zero (exhaustedAccess L p) e) body) M)).

(** 647-920, lowerForall with lowerForallDimension 1190-1233,
    lowerForallPosition 1281-1370 and lowerForallBody 2070-2146: the loops,
    between [enter] and [exit] in the body. *)
Definition loop_code (i : ivar) (bound : list ivar) (e : expr V)
    (enter : stmt V) (inner : expr V -> stmt V) (exit : stmt V) : stmt V :=
  let L := makeLattice srt i e in
  let p := hd pt0 (getLoopLattice L) in
  let body e' := Block [enter; inner e'; exit] in
  let single := Block [enter; decl_locators (i :: bound) (p_locs p); inner e; exit] in
  match lat_iters L with
  | [Dim] => For (VIdx i) (ICst 0) (ICst (dimf i)) single
  | [Lev a l] => For (VPos a l) (pos_begin a l) (pos_end a l)
                     (Seq (Asg (VIdx i) (crd_at a l)) single)
  | _ => merge_lattice i bound L e body
  end.

Definition lower_forall (i : ivar) (bound : list ivar) (e : expr V) (inner : expr V -> stmt V) : stmt V :=
  Block [hk_pre H bound i;
         loop_code i bound e (hk_enter H bound i) inner (hk_exit H bound i);
         hk_post H bound i].

Fixpoint lower (vars : list ivar) (bound : list ivar) (e : expr V) : stmt V :=
  match vars with
  | [] => hk_leaf H e
  | i :: vars' => lower_forall i bound e (lower vars' (i :: bound))
  end.

(** 3826-3841, generateValueLocExpr, and lowering of expressions
    (lowerer_impl.cpp, lowerAccess/lowerNeg/...). *)
Definition value_loc (pv : nat -> var) (vs : list (ivar * kind)) : iexp :=
  parent_pos pv (length vs).

Fixpoint lower_expr (e : expr V) : vexp V :=
  match e with
  | ELit v => XLit v
  | EAcc a => XLoad (a_tensor a) (value_loc (VPos a) (a_vars a))
  | ENeg e => XNeg (lower_expr e)
  | EFun f e => XFun f (lower_expr e)
  | EAdd e1 e2 => XAdd (lower_expr e1) (lower_expr e2)
  | ESub e1 e2 => XSub (lower_expr e1) (lower_expr e2)
  | EMul e1 e2 => XMul (lower_expr e1) (lower_expr e2)
  end.

End Lower.
