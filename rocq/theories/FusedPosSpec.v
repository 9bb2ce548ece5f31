(** Specification of C61: the components that an operand stores, with their coordinates. *)
From Coq Require Import ZArith List Bool.
From Verif Require Import Outcome FusedPos.
Import ListNotations.
Local Open Scope Z_scope.

(** The coordinates and positions that a level stores below the position [p] of the level
    above it. *)
Definition children (l : level) (p : Z) : list (Z * Z) :=
  match l with
  | Dense n => map (fun i => (i, p * n + i)) (range 0 n)
  | Compressed pos crd =>
      map (fun q => (at_ crd q, q)) (range (at_ pos p) (at_ pos (p + 1) - at_ pos p))
  | Singleton crd => [(at_ crd p, p)]
  end.

(** The stored components below the position [p], in storage order: what nested loops over
    the levels, one for each variable, visit. *)
Fixpoint stored (ls : list level) (p : Z) : list visit :=
  match ls with
  | [] => [([], p)]
  | l :: r =>
      flat_map (fun '(c, q) => map (fun '(cs, z) => (c :: cs, z)) (stored r q)) (children l p)
  end.

(** The number of positions of a level below [n] positions. *)
Definition count (l : level) (n : Z) : Z :=
  match l with Dense w => n * w | Compressed pos _ => at_ pos n | Singleton _ => n end.

(** The arrays of the levels below [n] positions are those of a stored tensor. *)
Definition level_ok (l : level) (n : Z) : Prop :=
  match l with
  | Dense w => 0 <= w
  | Compressed pos crd =>
      n + 1 <= Z.of_nat (length pos) /\ at_ pos 0 = 0 /\
      (forall p, 0 <= p < n -> at_ pos p <= at_ pos (p + 1)) /\
      at_ pos n <= Z.of_nat (length crd)
  | Singleton crd => n <= Z.of_nat (length crd)
  end.

Fixpoint well_formed (ls : list level) (n : Z) : Prop :=
  match ls with
  | [] => True
  | l :: r => level_ok l n /\ well_formed r (count l n)
  end.

(** Each of the [n] positions above has something stored below it, and so on down. *)
Fixpoint nowhere_empty (ls : list level) (n : Z) : Prop :=
  match ls with
  | [] => True
  | l :: r =>
      match l with
      | Compressed pos _ => forall p, 0 <= p < n -> at_ pos p < at_ pos (p + 1)
      | _ => True
      end /\ nowhere_empty r (count l n)
  end.

Definition is_dense (l : level) : bool := match l with Dense _ => true | _ => false end.
Definition is_compressed (l : level) : bool :=
  match l with Compressed _ _ => true | _ => false end.

(** The levels of fused variables: at least two, and only the first may be dense. *)
Definition fusible (ls : list level) : Prop :=
  match ls with
  | _ :: l :: r => forallb (fun l => negb (is_dense l)) (l :: r) = true
  | _ => False
  end.

(** The arrays of the fused levels of an operand: nothing is empty below the positions of a
    level that is not dense. *)
Definition operand (ls : list level) : Prop :=
  fusible ls /\ well_formed ls 1 /\
  match ls with
  | Dense w :: l :: r => nowhere_empty r (count l w)
  | l :: r => nowhere_empty r (count l 1)
  | [] => True
  end.

(** Nothing is empty below the positions of a dense level either. *)
Definition no_empty_rows (ls : list level) : Prop :=
  match ls with l :: r => nowhere_empty r (count l 1) | [] => True end.

(** One dense level above one sparse level (CSR). *)
Definition rows_of (ls : list level) : bool :=
  match ls with [Dense _; _] => true | _ => false end.

(** Factors of nested splits, each of which divides the one before. *)
Fixpoint nested (factors : list Z) : Prop :=
  match factors with
  | [] => True
  | s :: r => 0 < s /\ match r with [] => True | s' :: _ => (s' | s) end /\ nested r
  end.

(** All coordinates but the last are 0. *)
Definition outer_zero (v : visit) : Prop := forall c, In c (removelast (fst v)) -> c = 0.

(** Operands whose positions a parallel loop can search for: the levels below the first are
    compressed, and rows that hold nothing occur only in CSR. *)
Definition searchable (ls : list level) : Prop :=
  forallb is_compressed (tl ls) = true /\ (rows_of ls = true \/ no_empty_rows ls).

(** The components at the positions of a chunk (first position and length). *)
Definition slice {A} (chunk : Z * Z) (vs : list A) : list A :=
  firstn (Z.to_nat (snd chunk)) (skipn (Z.to_nat (fst chunk)) vs).

(** Each component is given to the consumer on its own. *)
Fixpoint one_by_one {Y} (value : visit -> Z) (consume : list Z -> Z -> Y -> outcome Y)
    (vs : list visit) (y : Y) : outcome Y :=
  match vs with
  | [] => Val y
  | v :: r => do y <- consume (removelast (fst v)) (value v) y; one_by_one value consume r y
  end.

(** The consumer adds, to results that are [ok]: nothing for 0, and for a sum what it adds for
    its terms. *)
Definition adds {Y} (ok : Y -> Prop) (consume : list Z -> Z -> Y -> outcome Y)
    (vs : list visit) : Prop :=
  forall v y, In v vs -> ok y ->
    consume (removelast (fst v)) 0 y = Val y /\
    forall a, exists y1, consume (removelast (fst v)) a y = Val y1 /\ ok y1 /\
      forall b, consume (removelast (fst v)) b y1 = consume (removelast (fst v)) (a + b) y.
