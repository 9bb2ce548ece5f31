(** What it means that a statement can be compiled: its variables, and what it computes. *)
From Coq Require Import List Arith Bool ZArith.
From Verif Require Schedule.
From Verif Require Import Accept.
Import ListNotations.
Local Open Scope nat_scope.

(** ** Assignments and where they are *)
(** The variables of the loops around an assignment, and whether it is inside the producer
    (the consumer) of a where statement. *)
Record place := Place { loops : list var; in_producer : bool; in_consumer : bool }.
Fixpoint assignments (c : place) (s : stmt) : list (place * assignment) :=
  match s with
  | SAssign a => [(c, a)]
  | SForall v s => assignments (Place (v :: loops c) (in_producer c) (in_consumer c)) s
  | SWhere k p => assignments (Place (loops c) true (in_consumer c)) p ++
                  assignments (Place (loops c) (in_producer c) true) k
  | SPair _ a b => assignments c a ++ assignments c b
  | SSuchThat s _ => assignments c s
  end.
Definition all_assignments (s : stmt) : list (place * assignment) := assignments (Place [] false false) s.
(** The variables an expression uses: those of its accesses, and those it uses as values. *)
Fixpoint used (e : expr) : list var :=
  match e with
  | ELit _ => []
  | EAcc _ vs => vs
  | EVar v => [v]
  | EUn _ e => used e
  | EBin _ a b => used a ++ used b
  | ERed _ e => used e
  end.
Fixpoint reduction_free (e : expr) : Prop :=
  match e with
  | ELit _ | EAcc _ _ | EVar _ => True
  | EUn _ e => reduction_free e
  | EBin _ a b => reduction_free a /\ reduction_free b
  | ERed _ _ => False
  end.
(** The variables of accesses that no reduction around them binds. *)
Fixpoint free (e : expr) : list var :=
  match e with
  | ELit _ | EVar _ => []
  | EAcc _ vs => vs
  | EUn _ e => free e
  | EBin _ a b => free a ++ free b
  | ERed v e => List.remove Nat.eq_dec v (free e)
  end.
(** No variable is used as a value. *)
Fixpoint accesses_only (e : expr) : Prop :=
  match e with
  | ELit _ | EAcc _ _ => True
  | EVar _ => False
  | EUn _ e | ERed _ e => accesses_only e
  | EBin _ a b => accesses_only a /\ accesses_only b
  end.
Fixpoint reads (t : nat) (e : expr) : Prop :=
  match e with
  | ELit _ | EVar _ => False
  | EAcc u _ => u = t
  | EUn _ e | ERed _ e => reads t e
  | EBin _ a b => reads t a \/ reads t b
  end.
Fixpoint suchthat_free (s : stmt) : Prop :=
  match s with
  | SAssign _ => True
  | SForall _ s => suchthat_free s
  | SWhere a b | SPair _ a b => suchthat_free a /\ suchthat_free b
  | SSuchThat _ _ => False
  end.
(** A loop nest: loops around one assignment. *)
Definition nest (vs : list var) (a : assignment) : stmt := fold_right SForall (SAssign a) vs.
(** All variables of loops, anywhere in a statement. *)
Fixpoint loop_variables (s : stmt) : list var :=
  match s with
  | SAssign _ => []
  | SForall v s => v :: loop_variables s
  | SWhere a b | SPair _ a b => loop_variables a ++ loop_variables b
  | SSuchThat s _ => loop_variables s
  end.
(** The variables that occur in a statement. *)
Fixpoint occurring (s : stmt) : list var :=
  match s with
  | SAssign a => lhs_vars a ++ used (rhs a)
  | SForall v s => v :: occurring s
  | SWhere a b | SPair _ a b => occurring a ++ occurring b
  | SSuchThat s rels => occurring s ++ flat_map (fun r => parents r ++ children r) rels
  end.

(** ** Derived variables *)
(** The value of a variable is determined by those of others if it is one of them or if it
    is a parent in a relation whose children's values are determined. *)
Inductive determined (rels : list rel) (known : list var) : var -> Prop :=
| Det_known : forall v, In v known -> determined rels known v
| Det_recovered : forall v r, In r rels -> In v (parents r) -> children r <> [] ->
    Forall (determined rels known) (children r) -> determined rels known v.
(** A variable is derived if it is a child in a relation; the variables it is derived from in
    the end (itself, if it is underived). *)
Definition derived (rels : list rel) (v : var) : Prop := exists r, In r rels /\ In v (children r).
Inductive origin (rels : list rel) : var -> var -> Prop :=
| Or_self : forall v, ~ derived rels v -> origin rels v v
| Or_parent : forall v r p u, In r rels -> In v (children r) -> In p (parents r) -> origin rels p u -> origin rels v u.
(** Relations are added one by one, with new variables as children. *)
Fixpoint in_order (seen : list var) (rels : list rel) : Prop :=
  match rels with
  | [] => True
  | r :: rest => (forall c, In c (children r) -> ~ In c seen /\ ~ In c (parents r)) /\ parents r <> [] /\ children r <> [] /\
                 in_order (seen ++ parents r ++ children r) rest
  end.
(** A new relation for a statement: its children are new variables. *)
Definition new_relation (r : rel) (s : stmt) : Prop :=
  parents r <> [] /\ children r <> [] /\ forall c, In c (children r) -> ~ In c (parents r) /\ ~ In c (occurring s).
(** The relations of Schedule.v, which say how values are recovered. *)
Definition of_rel (q : Schedule.rel) : rel :=
  Rel (match q with Schedule.Precompute _ _ => true | _ => false end) (Schedule.parents q) (Schedule.children q).

(** ** What a statement computes (without relations) *)
Definition env := var -> nat.
Definition set (r : env) (v : var) (x : nat) : env := fun w => if w =? v then x else r w.
Definition store := nat -> list nat -> Z.
Definition write (m : store) (t : nat) (k : list nat) (z : Z) : store :=
  fun u l => if (u =? t) && (if list_eq_dec Nat.eq_dec l k then true else false) then z else m u l.
(** The functions that expressions call, the operator of compound assignments, and the
    ranges of the variables. *)
Record meaning := { fn1 : nat -> Z -> Z; fn2 : nat -> Z -> Z -> Z; accumulate : Z -> Z -> Z; dim : var -> nat }.
Fixpoint eval (M : meaning) (r : env) (m : store) (e : expr) : Z :=
  match e with
  | ELit z => z
  | EAcc t vs => m t (map r vs)
  | EVar v => Z.of_nat (r v)
  | EUn f e => fn1 M f (eval M r m e)
  | EBin f a b => fn2 M f (eval M r m a) (eval M r m b)
  | ERed v e => fold_left (fun z x => accumulate M z (eval M (set r v x) m e)) (seq 0 (dim M v)) 0%Z
  end.
Fixpoint results (s : stmt) : list nat :=
  match s with
  | SAssign a => [lhs a]
  | SForall _ s | SSuchThat s _ => results s
  | SWhere a _ => results a
  | SPair _ a b => results a ++ results b
  end.
(** Loops run their variable through its range; the producer of a where statement starts
    with its results at zero and runs before the consumer. *)
Fixpoint run (M : meaning) (r : env) (s : stmt) (m : store) : store :=
  match s with
  | SAssign a =>
      let k := map r (lhs_vars a) in
      let z := eval M r m (rhs a) in
      write m (lhs a) k (if compound a then accumulate M (m (lhs a) k) z else z)
  | SForall v s => fold_left (fun m x => run M (set r v x) s m) (seq 0 (dim M v)) m
  | SWhere c p => run M r c (run M r p (fun t k => if existsb (Nat.eqb t) (results p) then 0%Z else m t k))
  | SPair _ a b => run M r b (run M r a m)
  | SSuchThat s _ => run M r s m
  end.
