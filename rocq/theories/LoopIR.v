(** The loop language that kernels are lowered to, with a semantics in which an
    out-of-bounds or undefined read has no successor state.
    Models the fragment of /repo/include/taco/ir/ir.h that lowering emits for
    sequential kernels: Assign/VarDecl, Store, Load, While, For (as a while
    loop), IfThenElse/Case, Block, integer Add/Sub/Mul/Min/Max/Eq/Lt/And and the value
    operations.  Integers are unbounded naturals. *)
From Coq Require Import List Arith Lia Bool.
Import ListNotations.
From Verif Require Import Storage IndexExpr Eval Outcome.

(** Variables, named by what they stand for
    (/repo/src/lower/iterator.cpp: getPosVar, getEndVar, getCoordVar;
    coordinate variables of index variables; the result's position and begin
    variables, other locals). *)
Inductive var :=
| VIdx (i : ivar)
| VPos (a : access) (l : nat)
| VEnd (a : access) (l : nat)
| VCrd (a : access) (l : nat)
| VRes (l : nat)
| VBeg (l : nat)
| VLoc (n : nat).

Definition var_eq_dec : forall x y : var, {x = y} + {x <> y}.
Proof. decide equality; auto using Nat.eq_dec, access_eq_dec. Defined.

(** Integer arrays owned by the kernel (result indices, workspace lists), and
    value arrays owned by the kernel (results and workspaces). *)
Inductive iname := RPos (l : nat) | RCrd (l : nat) | RBuf (n : nat).
Definition iname_eq_dec : forall x y : iname, {x = y} + {x <> y}.
Proof. decide equality; apply Nat.eq_dec. Defined.

Inductive iexp :=
| ICst (n : nat)
| IVar (v : var)
| IAdd (x y : iexp)
| IMul (x y : iexp)
| IMin (x y : iexp)
| IMax (x y : iexp)
| ISub (x y : iexp)                    (* undefined if negative *)
| IEqb (x y : iexp)                    (* (int)(x == y) *)
| IDimOf (t l : nat)                   (* width of a dense level of tensor t *)
| IPosAt (t l : nat) (x : iexp)        (* t.pos_l[x] *)
| ICrdAt (t l : nat) (x : iexp)        (* t.crd_l[x] *)
| IBuf (n : iname) (x : iexp).         (* kernel-owned integer array *)

Inductive bexp :=
| BTrue
| BLt (x y : iexp)
| BEq (x y : iexp)
| BAnd (x y : bexp)
| BNot (x : bexp).

Section IR.
Context {V : Type}.

Inductive vexp :=
| XLit (v : V)
| XLoad (t : nat) (x : iexp)           (* values array of input tensor t *)
| XBuf (n : nat) (x : iexp)            (* kernel-owned values array *)
| XNeg (x : vexp)
| XFun (f : nat) (x : vexp)
| XAdd (x y : vexp)
| XSub (x y : vexp)
| XMul (x y : vexp).

Inductive stmt :=
| Skip
| Seq (s1 s2 : stmt)
| Asg (v : var) (x : iexp)
| StV (n : nat) (x : iexp) (y : vexp)        (* vals_n[x] = y *)
| StI (n : iname) (x : iexp) (y : iexp)      (* n[x] = y *)
| RszV (n : nat) (x : iexp)                  (* (re)allocate a value array *)
| RszI (n : iname) (x : iexp)                (* (re)allocate an integer array *)
| If (b : bexp) (s1 s2 : stmt)
| While (b : bexp) (s : stmt).

Record state := St { env : var -> option nat; ibuf : iname -> list nat; vbuf : nat -> list V }.

Variable R : ring_ops V.
Variable fn : nat -> V -> V.
(** Input tensors. *)
Variable T : nat -> storage V.
(** Contents of freshly allocated memory. *)
Variable junkV : nat -> V.
Variable junkI : nat -> nat.

Definition nth_opt {A} (l : list A) (n : nat) : option A := nth_error l n.

Fixpoint ieval (st : state) (x : iexp) : option nat :=
  match x with
  | ICst n => Some n
  | IVar v => env st v
  | IAdd x y => match ieval st x, ieval st y with Some a, Some b => Some (a + b) | _, _ => None end
  | IMul x y => match ieval st x, ieval st y with Some a, Some b => Some (a * b) | _, _ => None end
  | IMin x y => match ieval st x, ieval st y with Some a, Some b => Some (Nat.min a b) | _, _ => None end
  | IMax x y => match ieval st x, ieval st y with Some a, Some b => Some (Nat.max a b) | _, _ => None end
  | ISub x y => match ieval st x, ieval st y with
                | Some a, Some b => if b <=? a then Some (a - b) else None | _, _ => None end
  | IEqb x y => match ieval st x, ieval st y with
                | Some a, Some b => Some (if a =? b then 1 else 0) | _, _ => None end
  | IDimOf t l => match nth_error (st_levels (T t)) l with Some (LDense d) => Some d | _ => None end
  | IPosAt t l x =>
      match ieval st x, nth_error (st_levels (T t)) l with
      | Some p, Some (LComp pos _) => nth_error pos p
      | _, _ => None
      end
  | ICrdAt t l x =>
      match ieval st x, nth_error (st_levels (T t)) l with
      | Some p, Some (LComp _ crd) => nth_error crd p
      | _, _ => None
      end
  | IBuf n x => match ieval st x with Some p => nth_error (ibuf st n) p | None => None end
  end.

Fixpoint beval (st : state) (b : bexp) : option bool :=
  match b with
  | BTrue => Some true
  | BLt x y => match ieval st x, ieval st y with Some a, Some b => Some (a <? b) | _, _ => None end
  | BEq x y => match ieval st x, ieval st y with Some a, Some b => Some (a =? b) | _, _ => None end
  | BAnd x y => match beval st x with
                | Some true => beval st y
                | Some false => Some false
                | None => None
                end
  | BNot x => option_map negb (beval st x)
  end.

Fixpoint veval (st : state) (x : vexp) : option V :=
  match x with
  | XLit v => Some v
  | XLoad t x => match ieval st x with Some p => nth_error (st_vals (T t)) p | None => None end
  | XBuf n x => match ieval st x with Some p => nth_error (vbuf st n) p | None => None end
  | XNeg x => option_map (ropp R) (veval st x)
  | XFun f x => option_map (fn f) (veval st x)
  | XAdd x y => match veval st x, veval st y with Some a, Some b => Some (radd R a b) | _, _ => None end
  | XSub x y => match veval st x, veval st y with Some a, Some b => Some (rsub R a b) | _, _ => None end
  | XMul x y => match veval st x, veval st y with Some a, Some b => Some (rmul R a b) | _, _ => None end
  end.

Definition setv (st : state) (v : var) (n : nat) : state :=
  St (fun w => if var_eq_dec w v then Some n else env st w) (ibuf st) (vbuf st).
Definition setV (st : state) (n : nat) (a : list V) : state :=
  St (env st) (ibuf st) (fun m => if m =? n then a else vbuf st m).
Definition setI (st : state) (n : iname) (a : list nat) : state :=
  St (env st) (fun m => if iname_eq_dec m n then a else ibuf st m) (vbuf st).

(** realloc keeps the old contents; what is added is arbitrary. *)
Definition resize {A} (junk : nat -> A) (l : list A) (n : nat) : list A :=
  firstn n l ++ map junk (seq (length l) (n - length l)).

Inductive exec : stmt -> state -> state -> Prop :=
| X_skip : forall st, exec Skip st st
| X_seq : forall s1 s2 st st1 st2, exec s1 st st1 -> exec s2 st1 st2 -> exec (Seq s1 s2) st st2
| X_asg : forall v x st n, ieval st x = Some n -> exec (Asg v x) st (setv st v n)
| X_stv : forall n x y st p u, ieval st x = Some p -> veval st y = Some u ->
    p < length (vbuf st n) -> exec (StV n x y) st (setV st n (upd_nth (vbuf st n) p u))
| X_sti : forall n x y st p u, ieval st x = Some p -> ieval st y = Some u ->
    p < length (ibuf st n) -> exec (StI n x y) st (setI st n (upd_nth (ibuf st n) p u))
| X_rszv : forall n x st k, ieval st x = Some k ->
    exec (RszV n x) st (setV st n (resize junkV (vbuf st n) k))
| X_rszi : forall n x st k, ieval st x = Some k ->
    exec (RszI n x) st (setI st n (resize junkI (ibuf st n) k))
| X_if : forall b s1 s2 st st1 t, beval st b = Some t ->
    exec (if t then s1 else s2) st st1 -> exec (If b s1 s2) st st1
| X_while_end : forall b s st, beval st b = Some false -> exec (While b s) st st
| X_while : forall b s st st1 st2, beval st b = Some true ->
    exec s st st1 -> exec (While b s) st1 st2 -> exec (While b s) st st2.

(** Execution is deterministic: a statement that has an execution terminates
    with that result, and no step of it is undefined. *)
Theorem exec_det : forall s st st1, exec s st st1 -> forall st2, exec s st st2 -> st1 = st2.
Proof.
  induction 1; intros st' H'; inversion H'; subst; auto; try congruence.
  - apply IHexec1 in H3. subst. auto.
  - assert (t0 = t) by congruence. subst. auto.
  - apply IHexec1 in H5. subst. auto.
Qed.

(** for (int v = lo; v < hi; v++) body *)
Definition For (v : var) (lo hi : iexp) (body : stmt) : stmt :=
  Seq (Asg v lo) (While (BLt (IVar v) hi) (Seq body (Asg v (IAdd (IVar v) (ICst 1))))).

Fixpoint Block (l : list stmt) : stmt :=
  match l with [] => Skip | s :: l => Seq s (Block l) end.

Fixpoint Conj (l : list bexp) : bexp :=
  match l with [] => BTrue | [b] => b | b :: l => BAnd b (Conj l) end.

(** /repo/src/ir/ir_printer.cpp 296-324 (the printing of Case): the last clause
    is printed as [else] if the case always matches and it is not the only one. *)
Fixpoint cases_from (always : bool) (first : bool) (l : list (bexp * stmt)) : stmt :=
  match l with
  | [] => Skip
  | [(b, s)] => if always && negb first then s else If b s Skip
  | (b, s) :: l => If b s (cases_from always false l)
  end.
Definition Case (l : list (bexp * stmt)) (always : bool) : stmt := cases_from always true l.

End IR.
Arguments stmt V : clear implicits.
Arguments vexp V : clear implicits.
Arguments state V : clear implicits.
