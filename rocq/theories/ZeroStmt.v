(** Zeroing of statements: the class Zero of
    /repo/src/index_notation/index_notation.cpp 3772-4086, on index notation
    statements.  [None]: the undefined expression or statement.  Calls of
    functions and yield statements are not modelled (Lattice.v has zeroing of
    expressions; the intrinsics are in Intrinsics.v). *)
From Coq Require Import List Arith Bool.
Import ListNotations.
From Verif Require Import Notation NotationSpec.
Local Open Scope nat_scope.

Section Model.
Context {V : Type}.
Notation expr := (nexpr V).
Notation stmt := (nstmt V).

(** The set [zeroed] of accesses (compared by tensor and variables). *)
Definition accesses_set := list (tensor * list ivar).
Definition in_set (z : accesses_set) (t : tensor) (vs : list ivar) : bool :=
  existsb (fun a => Nat.eqb (fst a) t && list_eqb (snd a) vs) z.

(** visitUnaryOp 3803-3815, visitDisjunctionOp 3825-3843, visitConjunctionOp
    3845-3858, SubNode 3864-3882, ReductionNode 3993-4004, AccessNode 3786-3794.
    [zv]: zeroedVars. *)
Fixpoint zero_expr (z : accesses_set) (zv : list tensor) (e : expr) : option expr :=
  match e with
  | NLit v => Some (NLit v)
  | NAcc t vs => if in_set z t vs || mem t zv then None else Some (NAcc t vs)
  | NNeg a => option_map NNeg (zero_expr z zv a)
  | NFun f a => option_map (NFun f) (zero_expr z zv a)
  | NAdd a b =>
      match zero_expr z zv a, zero_expr z zv b with
      | None, None => None
      | None, Some b => Some b
      | Some a, None => Some a
      | Some a, Some b => Some (NAdd a b)
      end
  | NSub a b =>
      match zero_expr z zv a, zero_expr z zv b with
      | None, None => None
      | None, Some b => Some (NNeg b)
      | Some a, None => Some a
      | Some a, Some b => Some (NSub a b)
      end
  | NMul a b =>
      match zero_expr z zv a, zero_expr z zv b with
      | Some a, Some b => Some (NMul a b)
      | _, _ => None
      end
  | NDiv a b =>
      match zero_expr z zv a, zero_expr z zv b with
      | Some a, Some b => Some (NDiv a b)
      | _, _ => None
      end
  | NRed op i a => option_map (NRed op i) (zero_expr z zv a)
  end.

(** AssignmentNode 4006-4018, ForallNode 4030-4041, WhereNode 4043-4058; the
    second component is zeroedVars afterwards. *)
Fixpoint zero_stmt_from (z : accesses_set) (zv : list tensor) (s : stmt) : option stmt * list tensor :=
  match s with
  | NAssign t vs op e =>
      match zero_expr z zv e with
      | None => (None, t :: zv)
      | Some e' => (Some (NAssign t vs op e'), zv)
      end
  | NForall an i b =>
      let '(b', zv') := zero_stmt_from z zv b in
      (option_map (NForall an i) b', zv')
  | NWhere c p =>
      let '(p', zv1) := zero_stmt_from z zv p in
      let '(c', zv2) := zero_stmt_from z zv1 c in
      (match c', p' with
       | None, _ => None
       | Some c', None => Some c'
       | Some c', Some p' => Some (NWhere c' p')
       end, zv2)
  end.
Definition zero_stmt (z : accesses_set) (s : stmt) : option stmt := fst (zero_stmt_from z [] s).
End Model.
