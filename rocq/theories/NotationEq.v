(** Equality of index notation: struct Equals and equals, src/index_notation/index_notation.cpp
    625-1028.  An assignment that is equal to the one that a tensor has is not compiled again
    (src/tensor.cpp 527 and 874). *)
From Coq Require Import String List Bool Arith ZArith.
Import ListNotations.
Local Open Scope nat_scope.

(** A std::function: it holds a pointer to a function, or an object (a lambda or a struct). *)
Inductive func := Pointer (n : nat) | Object (n : nat).
(** A literal's type and bytes *)
Record literal := Lit { ltype : nat; bytes : list nat }.
(** properties.h *)
Inductive property :=
| Annihilator (l : literal) (positions : list nat) | Identity (l : literal) (positions : list nat)
| Associative | Commutative (ordering : list nat).
(** Iteration algebra; a region is given by the first argument that is its expression
    (index_notation.cpp 161-167). *)
Inductive alg := Region (k : nat) | Complement (a : alg) | Intersect (a b : alg) | Union (a b : alg).
(** index_notation_nodes.h 93-146.  Tensors and index variables are numbers: both are compared by
    the address of what they share. *)
Record access := Access {
  tensor : nat; vars : list nat; windows : list (nat * (Z * Z * Z)); sets : list (nat * (list Z * nat)); structure : bool }.
(** Expressions; [EUndef] is one that is not defined, as are the operands of the operators of
    compound assignments. *)
Inductive expr :=
| EUndef
| EVar (v : nat)
| EAcc (a : access)
| ELit (l : literal)
| ENeg (a : expr) | ESqrt (a : expr)
| EAdd (a b : expr) | ESub (a b : expr) | EMul (a b : expr) | EDiv (a b : expr)
| ECast (t : nat) (a : expr)
| ECall (name : string) (props : list property) (defined : list nat) (f : func) (args : list expr) (al : alg) (defs : list (list nat * func))
| EIntrinsic (name : string) (args : list expr)
| EReduce (op : expr) (v : nat) (a : expr).
(** provenance_graph.h: relations of index variables *)
Inductive rel :=
| RSplit (p o i f : nat) | RDivide (p o i f : nat) | RPos (p v : nat) (a : access) | RFuse (o i f : nat)
| RBound (p b n t : nat) | RPrecompute (p v : nat) | RUndefined.
(** index_notation_nodes.h 371-474 *)
Inductive stmt :=
| SUndef
| SAssign (lhs rhs op : expr)
| SYield (vs : list nat) (e : expr)
| SForall (v : nat) (s : stmt) (merge par race unroll : nat)
| SWhere (consumer producer : stmt)
| SSequence (definition mutation : stmt)
| SAssemble (queries compute : stmt) (results : list (nat * list (list nat)))
| SMulti (s1 s2 : stmt)
| SSuchThat (s : stmt) (predicate : list rel).

(** The result of a comparison: [None] when it reads through a null pointer. *)
Definition andthen (a b : option bool) : option bool := match a with Some true => b | r => r end.
Notation "a &&& b" := (andthen a b) (at level 40, left associativity).
(** util/functions.h 10-17: the target of an object is a null pointer, which is dereferenced. *)
Definition same_target (f g : func) : option bool :=
  match f, g with Pointer n, Pointer m => Some (n =? m) | _, _ => None end.

Fixpoint list_eqb {A} (e : A -> A -> bool) (l m : list A) : bool :=
  match l, m with
  | [], [] => true
  | x :: l, y :: m => e x y && list_eqb e l m
  | _, _ => false
  end.
Definition nats_eqb := list_eqb Nat.eqb.
(** memcmp, index_notation.cpp 694-702 *)
Definition literal_eqb (a b : literal) : bool := (ltype a =? ltype b) && nats_eqb (bytes a) (bytes b).
(** AccessWindow and IndexSet, index_notation_nodes.h 58-93 *)
Definition window_eqb (a b : nat * (Z * Z * Z)) : bool :=
  let '(k, (lo, hi, st)) := a in let '(k', (lo', hi', st')) := b in
  (k =? k') && Z.eqb lo lo' && Z.eqb hi hi' && Z.eqb st st'.
Definition set_eqb (a b : nat * (list Z * nat)) : bool :=
  let '(k, (s, t)) := a in let '(k', (s', t')) := b in (k =? k') && list_eqb Z.eqb s s' && (t =? t').
(** index_notation.cpp 659-686 *)
Definition access_equals (a b : access) : bool :=
  (tensor a =? tensor b) && nats_eqb (vars a) (vars b) && Bool.eqb (structure a) (structure b) &&
  list_eqb window_eqb (windows a) (windows b) && list_eqb set_eqb (sets a) (sets b).
(** operator== of Access, index_notation.cpp 1080-1100 *)
Definition access_eqb (a b : access) : bool :=
  (tensor a =? tensor b) && nats_eqb (vars a) (vars b) &&
  list_eqb window_eqb (windows a) (windows b) && list_eqb set_eqb (sets a) (sets b).
(** property_pointers.cpp 66-70, 104-108, 119-121, 136-140 *)
Definition property_equals (p q : property) : bool :=
  match p, q with
  | Annihilator l _, Annihilator m _ => literal_eqb l m
  | Identity l _, Identity m _ => literal_eqb l m
  | Associative, Associative => true
  | Commutative o, Commutative o' => nats_eqb o o'
  | _, _ => false
  end.
(** algStructureEqual, iteration_algebra.cpp 195-255 *)
Fixpoint alg_structure (a b : alg) : bool :=
  match a, b with
  | Region _, Region _ => true
  | Complement a, Complement b => alg_structure a b
  | Intersect a a', Intersect b b' => alg_structure a b && alg_structure a' b'
  | Union a a', Union b b' => alg_structure a b && alg_structure a' b'
  | _, _ => false
  end.
(** OrderChecker, index_notation.cpp 151-171 *)
Fixpoint ordering (a : alg) : list nat :=
  match a with
  | Region k => [k]
  | Complement a => ordering a
  | Intersect a b | Union a b => ordering a ++ ordering b
  end.
(** checkIterationAlg, index_notation.cpp 143-176 *)
Definition check_alg (a b : alg) : bool := alg_structure a b && nats_eqb (ordering a) (ordering b).
(** checkRegionDefinitions, index_notation.cpp 113-141 *)
Fixpoint check_defs (l m : list (list nat * func)) : option bool :=
  match l, m with
  | (r, f) :: l, (r', g) :: m => if nats_eqb r r' then same_target f g &&& check_defs l m else Some false
  | _, _ => Some true
  end.
Definition check_regions (l m : list (list nat * func)) : option bool :=
  if List.length l =? List.length m then check_defs l m else Some false.

(** equals of expressions, index_notation.cpp 644-863 and 1002-1010 *)
Fixpoint equals (a b : expr) {struct a} : option bool :=
  let all := fix all (l m : list expr) {struct l} : option bool :=
    match l, m with x :: l, y :: m => equals x y &&& all l m | _, _ => Some true end in
  match a, b with
  | EUndef, EUndef => Some true
  | EVar v, EVar w => Some (v =? w)
  | EAcc x, EAcc y => Some (access_equals x y)
  | ELit l, ELit m => Some (literal_eqb l m)
  | ENeg x, ENeg y => equals x y
  | ESqrt x, ESqrt y => equals x y
  | EAdd x x', EAdd y y' => equals x y &&& equals x' y'
  | ESub x x', ESub y y' => equals x y &&& equals x' y'
  | EMul x x', EMul y y' => equals x y &&& equals x' y'
  | EDiv x x', EDiv y y' => equals x y &&& equals x' y'
  | ECast t x, ECast u y => Some (t =? u) &&& equals x y
  | ECall _ ps d f xs al ds, ECall _ qs e g ys bl es =>
      Some (List.length ps =? List.length qs) &&& Some (forallb (fun p => existsb (property_equals p) qs) ps) &&&
      Some (nats_eqb d e) &&& same_target f g &&&
      Some (List.length xs =? List.length ys) &&& all xs ys &&& Some (check_alg al bl) &&& check_regions ds es
  | EIntrinsic n xs, EIntrinsic m ys =>
      Some (String.eqb n m) &&& Some (List.length xs =? List.length ys) &&& all xs ys
  | EReduce o v x, EReduce p w y => equals o p &&& Some (v =? w) &&& equals x y
  | _, _ => Some false
  end.

(** IndexVarRel::equals, provenance_graph.cpp 55-79, and those of the kinds of relations *)
Definition rel_equals (a b : rel) : bool :=
  match a, b with
  | RSplit p o i f, RSplit p' o' i' f' => (p =? p') && (o =? o') && (i =? i') && (f =? f') (* 150-153 *)
  | RDivide p o i f, RDivide p' o' i' f' => (p =? p') && (o =? o') && (i =? i') && (f =? f') (* 301-304 *)
  | RPos p v a, RPos p' v' a' => (p =? p') && (v =? v') && access_eqb a a' (* 435-438 *)
  | RFuse o i f, RFuse o' i' f' => (o =? o') && (i =? i') && (f =? f') (* 641-644 *)
  | RBound p b n t, RBound p' b' n' t' => (p =? p') && (b =? b') && (n =? n') && (t =? t') (* 758-762 *)
  | RPrecompute p v, RPrecompute p' v' => (p =? p') && (v =? v') (* 850-852 *)
  | RUndefined, RUndefined => true
  | _, _ => false
  end.
(** equals of statements, index_notation.cpp 865-1000 and 1012-1020 *)
Fixpoint equals_stmt (a b : stmt) : option bool :=
  match a, b with
  | SUndef, SUndef => Some true
  | SAssign l r o, SAssign l' r' o' => equals l l' &&& equals r r' &&& equals o o'
  | SYield vs e, SYield ws e' => Some (nats_eqb vs ws) &&& equals e e'
  | SForall v s _ p r u, SForall v' s' _ p' r' u' =>
      Some (v =? v') &&& equals_stmt s s' &&& Some ((p =? p') && (r =? r') && (u =? u'))
  | SWhere c p, SWhere c' p' => equals_stmt c c' &&& equals_stmt p p'
  | SSequence d m, SSequence d' m' => equals_stmt d d' &&& equals_stmt m m'
  | SAssemble q c _, SAssemble q' c' _ => equals_stmt q q' &&& equals_stmt c c'
  | SMulti s t, SMulti s' t' => equals_stmt s s' &&& equals_stmt t t'
  | SSuchThat s p, SSuchThat s' p' => Some (list_eqb rel_equals p p') &&& equals_stmt s s'
  | _, _ => Some false
  end.
