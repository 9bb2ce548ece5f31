(** Renaming the tensors and index variables of a statement. *)
From Coq Require Import List.
From Verif Require Import Notation.
Section Rename.
Context {V : Type}.
Variable f : tensor -> tensor.
Variable g : ivar -> ivar.
Fixpoint rename_expr (e : nexpr V) : nexpr V :=
  match e with
  | NLit v => NLit v
  | NAcc t vs => NAcc (f t) (map g vs)
  | NNeg e => NNeg (rename_expr e)
  | NFun h e => NFun h (rename_expr e)
  | NAdd a b => NAdd (rename_expr a) (rename_expr b)
  | NSub a b => NSub (rename_expr a) (rename_expr b)
  | NMul a b => NMul (rename_expr a) (rename_expr b)
  | NDiv a b => NDiv (rename_expr a) (rename_expr b)
  | NRed o i e => NRed o (g i) (rename_expr e)
  end.
Fixpoint rename (s : nstmt V) : nstmt V :=
  match s with
  | NAssign t vs o e => NAssign (f t) (map g vs) o (rename_expr e)
  | NForall an i s => NForall an (g i) (rename s)
  | NWhere c p => NWhere (rename c) (rename p)
  end.
End Rename.
