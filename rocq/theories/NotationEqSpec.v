(** When two expressions, or statements, are the same but for what their meaning does not depend
    on; and the value of an expression. *)
From Coq Require Import String List Bool Arith ZArith.
From Verif Require Import NotationEq.
Import ListNotations.

(** The same property, at any positions *)
Inductive same_property : property -> property -> Prop :=
| same_annihilator l p q : same_property (Annihilator l p) (Annihilator l q)
| same_identity l p q : same_property (Identity l p) (Identity l q)
| same_associative : same_property Associative Associative
| same_commutative o : same_property (Commutative o) (Commutative o).

(** Calls may have different names, if the functions are the same, and declare properties that
    are the same at other positions or in another order. *)
Inductive alike : expr -> expr -> Prop :=
| alike_undef : alike EUndef EUndef
| alike_var v : alike (EVar v) (EVar v)
| alike_acc a : alike (EAcc a) (EAcc a)
| alike_lit l : alike (ELit l) (ELit l)
| alike_neg a b : alike a b -> alike (ENeg a) (ENeg b)
| alike_sqrt a b : alike a b -> alike (ESqrt a) (ESqrt b)
| alike_add a a' b b' : alike a b -> alike a' b' -> alike (EAdd a a') (EAdd b b')
| alike_sub a a' b b' : alike a b -> alike a' b' -> alike (ESub a a') (ESub b b')
| alike_mul a a' b b' : alike a b -> alike a' b' -> alike (EMul a a') (EMul b b')
| alike_div a a' b b' : alike a b -> alike a' b' -> alike (EDiv a a') (EDiv b b')
| alike_cast t a b : alike a b -> alike (ECast t a) (ECast t b)
| alike_call n m ps qs d f xs ys al ds :
    List.length ps = List.length qs -> (forall p, In p ps -> exists q, In q qs /\ same_property p q) ->
    Forall2 alike xs ys -> alike (ECall n ps d (Pointer f) xs al ds) (ECall m qs d (Pointer f) ys al ds)
| alike_intrinsic n xs ys : Forall2 alike xs ys -> alike (EIntrinsic n xs) (EIntrinsic n ys)
| alike_reduce o p v a b : alike o p -> alike a b -> alike (EReduce o v a) (EReduce p v b).

(** Relations: the access of a pos is compared but for whether its structure is accessed. *)
Inductive alike_rel : rel -> rel -> Prop :=
| alike_rel_same r : (forall p v a, r <> RPos p v a) -> alike_rel r r
| alike_rel_pos p v t vs w s b b' : alike_rel (RPos p v (Access t vs w s b)) (RPos p v (Access t vs w s b')).
(** Loops may have other merge strategies, and assemble statements other results. *)
Inductive alike_stmt : stmt -> stmt -> Prop :=
| alike_sundef : alike_stmt SUndef SUndef
| alike_assign l r o l' r' o' : alike l l' -> alike r r' -> alike o o' -> alike_stmt (SAssign l r o) (SAssign l' r' o')
| alike_yield vs e e' : alike e e' -> alike_stmt (SYield vs e) (SYield vs e')
| alike_forall v s s' m m' p r u : alike_stmt s s' -> alike_stmt (SForall v s m p r u) (SForall v s' m' p r u)
| alike_where a b a' b' : alike_stmt a a' -> alike_stmt b b' -> alike_stmt (SWhere a b) (SWhere a' b')
| alike_sequence a b a' b' : alike_stmt a a' -> alike_stmt b b' -> alike_stmt (SSequence a b) (SSequence a' b')
| alike_assemble a b a' b' r r' : alike_stmt a a' -> alike_stmt b b' -> alike_stmt (SAssemble a b r) (SAssemble a' b' r')
| alike_multi a b a' b' : alike_stmt a a' -> alike_stmt b b' -> alike_stmt (SMulti a b) (SMulti a' b')
| alike_suchthat s s' p p' : alike_stmt s s' -> Forall2 alike_rel p p' -> alike_stmt (SSuchThat s p) (SSuchThat s' p').

(** All functions of an expression, and those of its region definitions, are pointers. *)
Definition is_pointer (f : func) : Prop := exists n, f = Pointer n.
Inductive pointers : expr -> Prop :=
| pointers_undef : pointers EUndef | pointers_var v : pointers (EVar v) | pointers_acc a : pointers (EAcc a) | pointers_lit l : pointers (ELit l)
| pointers_neg a : pointers a -> pointers (ENeg a) | pointers_sqrt a : pointers a -> pointers (ESqrt a)
| pointers_add a b : pointers a -> pointers b -> pointers (EAdd a b) | pointers_sub a b : pointers a -> pointers b -> pointers (ESub a b)
| pointers_mul a b : pointers a -> pointers b -> pointers (EMul a b) | pointers_div a b : pointers a -> pointers b -> pointers (EDiv a b)
| pointers_cast t a : pointers a -> pointers (ECast t a)
| pointers_call n ps d f xs al ds : is_pointer f -> Forall pointers xs -> Forall (fun d => is_pointer (snd d)) ds -> pointers (ECall n ps d f xs al ds)
| pointers_intrinsic n xs : Forall pointers xs -> pointers (EIntrinsic n xs)
| pointers_reduce o v a : pointers o -> pointers a -> pointers (EReduce o v a).

Inductive pointers_stmt : stmt -> Prop :=
| pointers_sundef : pointers_stmt SUndef
| pointers_assign l r o : pointers l -> pointers r -> pointers o -> pointers_stmt (SAssign l r o)
| pointers_yield vs e : pointers e -> pointers_stmt (SYield vs e)
| pointers_forall v s m p r u : pointers_stmt s -> pointers_stmt (SForall v s m p r u)
| pointers_where a b : pointers_stmt a -> pointers_stmt b -> pointers_stmt (SWhere a b)
| pointers_sequence a b : pointers_stmt a -> pointers_stmt b -> pointers_stmt (SSequence a b)
| pointers_assemble a b r : pointers_stmt a -> pointers_stmt b -> pointers_stmt (SAssemble a b r)
| pointers_multi a b : pointers_stmt a -> pointers_stmt b -> pointers_stmt (SMulti a b)
| pointers_suchthat s p : pointers_stmt s -> pointers_stmt (SSuchThat s p).

(** Values: those of accesses at coordinates, of literals, operators, conversions and functions
    are any. *)
Record interpretation (V : Type) := Interp {
  at_ : access -> (nat -> Z) -> V; lit : literal -> V; var_ : Z -> V; undef : V;
  neg : V -> V; sqrt : V -> V;
  add : V -> V -> V; sub : V -> V -> V; mul : V -> V -> V; div : V -> V -> V; cast : nat -> V -> V;
  apply : func -> list V -> V; intrinsic : string -> list V -> V; extent : nat -> nat }.
Section Value.
Variable V : Type.
Variable I : interpretation V.
(** The operator of a reduction *)
Definition combine (op : expr) (x y : V) : V :=
  match op with
  | EAdd _ _ => add V I x y | ESub _ _ => sub V I x y | EMul _ _ => mul V I x y | EDiv _ _ => div V I x y
  | ECall _ _ _ f _ _ _ => apply V I f [x; y] | EIntrinsic n _ => intrinsic V I n [x; y] | _ => undef V I
  end.
Definition bind (rho : nat -> Z) (v : nat) (x : Z) : nat -> Z := fun w => if Nat.eqb w v then x else rho w.
Fixpoint value (rho : nat -> Z) (e : expr) : V :=
  match e with
  | EUndef => undef V I
  | EVar v => var_ V I (rho v)
  | EAcc a => at_ V I a rho
  | ELit l => lit V I l
  | ENeg a => neg V I (value rho a)
  | ESqrt a => sqrt V I (value rho a)
  | EAdd a b => add V I (value rho a) (value rho b)
  | ESub a b => sub V I (value rho a) (value rho b)
  | EMul a b => mul V I (value rho a) (value rho b)
  | EDiv a b => div V I (value rho a) (value rho b)
  | ECast t a => cast V I t (value rho a)
  | ECall _ _ _ f xs _ _ => apply V I f (map (value rho) xs)
  | EIntrinsic n xs => intrinsic V I n (map (value rho) xs)
  | EReduce op v a =>
      fold_left (fun acc x => combine op acc (value (bind rho v (Z.of_nat x)) a)) (seq 1 (extent V I v - 1))
        (value (bind rho v 0%Z) a)
  end.
End Value.
