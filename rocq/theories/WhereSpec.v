(** Specification for temporaries. *)
From Coq Require Import List Arith Lia Bool.
Import ListNotations.
From Verif Require Import IndexExpr Eval Notation NotationSpec.
Local Open Scope nat_scope.

Section Spec.
Context {V : Type}.
(** The elements of a row-major array of the given dimensions; [None] outside. *)
Fixpoint element (ws xs : list nat) (a : list V) : option V :=
  match ws, xs with
  | [], [] => match a with [v] => Some v | _ => None end
  | w :: ws, x :: xs =>
      let n := fold_right Nat.mul 1 ws in
      if (x <? w) && (length a =? w * n) then element ws xs (firstn n (skipn (x * n) a)) else None
  | _, _ => None
  end.
(** The arrays of the tensors [D] hold the values of the store. *)
Definition holds (shp : tensor -> list nat) (D : list tensor) (m : tensor -> list V) (T : @store V) : Prop :=
  forall t, In t D -> length (m t) = fold_right Nat.mul 1 (shp t) /\
    forall xs, Forall2 lt xs (shp t) -> element (shp t) xs (m t) = Some (T t xs).

(** Every tensor is defined before it is used: the tensors [D] are given, the
    temporary of a where statement is new and known inside it only. *)
Fixpoint defined (D : list tensor) (s : nstmt V) : Prop :=
  match s with
  | NAssign t _ _ e => In t D /\ incl (reads e) D
  | NForall _ _ b => defined D b
  | NWhere c p => ~ In (res p) D /\ defined (res p :: D) p /\ defined (res p :: D) c
  end.
(** Every access uses one variable per dimension, of the same size; there are no
    reductions left in expressions; variables are bound by loops ([B]). *)
Fixpoint fits_expr (dim : ivar -> nat) (shp : tensor -> list nat) (B : list ivar) (e : nexpr V) : Prop :=
  match e with
  | NLit _ => True
  | NAcc t vs => map dim vs = shp t /\ incl vs B
  | NNeg a | NFun _ a => fits_expr dim shp B a
  | NAdd a b | NSub a b | NMul a b | NDiv a b => fits_expr dim shp B a /\ fits_expr dim shp B b
  | NRed _ _ _ => False
  end.
Fixpoint fits (dim : ivar -> nat) (shp : tensor -> list nat) (B : list ivar) (s : nstmt V) : Prop :=
  match s with
  | NAssign t vs _ e => map dim vs = shp t /\ incl vs B /\ fits_expr dim shp B e
  | NForall _ i b => fits dim shp (i :: B) b
  | NWhere c p => fits dim shp B p /\ fits dim shp B c
  end.

(** ** Computing in place *)
(** The sub-expression [e] with the variables [ws] renamed to [us], summed over
    [ks], instead of every access [w(us)]. *)
Definition rename (ws us : list ivar) (v : ivar) : ivar :=
  match find (fun p => Nat.eqb (fst p) v) (combine ws us) with Some p => snd p | None => v end.
Fixpoint renamed (f : ivar -> ivar) (e : nexpr V) : nexpr V :=
  match e with
  | NLit v => NLit v
  | NAcc t vs => NAcc t (map f vs)
  | NNeg a => NNeg (renamed f a)
  | NFun g a => NFun g (renamed f a)
  | NAdd a b => NAdd (renamed f a) (renamed f b)
  | NSub a b => NSub (renamed f a) (renamed f b)
  | NMul a b => NMul (renamed f a) (renamed f b)
  | NDiv a b => NDiv (renamed f a) (renamed f b)
  | NRed op i a => NRed op i (renamed f a)
  end.
Definition summed (ks : list ivar) (e : nexpr V) : nexpr V := fold_right (NRed RSum) e ks.
Section InPlace.
Variables (w : tensor) (ws ks : list ivar) (e : nexpr V).
Fixpoint in_place (x : nexpr V) : nexpr V :=
  match x with
  | NLit v => NLit v
  | NAcc t us => if Nat.eqb t w then summed ks (renamed (rename ws us) e) else NAcc t us
  | NNeg a => NNeg (in_place a)
  | NFun f a => NFun f (in_place a)
  | NAdd a b => NAdd (in_place a) (in_place b)
  | NSub a b => NSub (in_place a) (in_place b)
  | NMul a b => NMul (in_place a) (in_place b)
  | NDiv a b => NDiv (in_place a) (in_place b)
  | NRed op i a => NRed op i (in_place a)
  end.
Fixpoint stmt_in_place (s : nstmt V) : nstmt V :=
  match s with
  | NAssign t vs op x => NAssign t vs op (in_place x)
  | NForall an i b => NForall an i (stmt_in_place b)
  | NWhere c p => NWhere (stmt_in_place c) (stmt_in_place p)
  end.
(** Every access of the temporary uses variables that are bound ([B]), of the
    sizes of the temporary, and other than the variables summed over; and no
    variable of [F] is bound again. *)
Fixpoint uses_expr (dim : ivar -> nat) (F B : list ivar) (x : nexpr V) : Prop :=
  match x with
  | NLit _ => True
  | NAcc t us => t = w -> map dim us = map dim ws /\ incl us B /\ (forall u, In u us -> ~ In u ks)
  | NNeg a | NFun _ a => uses_expr dim F B a
  | NAdd a b | NSub a b | NMul a b | NDiv a b => uses_expr dim F B a /\ uses_expr dim F B b
  | NRed _ i a => ~ In i F /\ uses_expr dim F (i :: B) a
  end.
Fixpoint uses (dim : ivar -> nat) (F B : list ivar) (s : nstmt V) : Prop :=
  match s with
  | NAssign _ _ _ x => uses_expr dim F B x
  | NForall _ i b => ~ In i F /\ uses dim F (i :: B) b
  | NWhere c p => uses dim F B c /\ uses dim F B p
  end.
End InPlace.
End Spec.
