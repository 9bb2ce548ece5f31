(** Specification side of the utility properties: digit suffixes, the handles
    that refer to a node, histories of handle operations, and the bindings of
    nested scopes. *)
From Coq Require Import List Arith Bool String Ascii.
Import ListNotations.
From Verif Require Import Util.
Local Open Scope nat_scope.

(** ** Names *)
Definition digit (c : ascii) : bool :=
  (48 <=? nat_of_ascii c) && (nat_of_ascii c <=? 57).

Fixpoint chars (s : string) : list ascii :=
  match s with EmptyString => [] | String c s => c :: chars s end.
(** The name does not end in a digit. *)
Definition no_digit_end (s : string) : Prop :=
  match rev (chars s) with [] => True | c :: _ => digit c = false end.

(** ** Handles *)
(** Occurrences of [p] in [l]. *)
Definition occ (p : nat) (l : list nat) : nat := count_occ Nat.eq_dec l p.
Definition points_to (p : nat) (v : option (option nat)) : bool :=
  match v with Some (Some q) => q =? p | _ => false end.
Fixpoint var_refs (p : nat) (vs : list (option (option nat))) : nat :=
  match vs with [] => 0 | v :: vs => (if points_to p v then 1 else 0) + var_refs p vs end.
Fixpoint field_refs (p : nat) (h : list cell) : nat :=
  match h with [] => 0 | Live _ fs :: h => occ p fs + field_refs p h | Freed :: h => field_refs p h end.

Definition ref_of (h : list cell) (p : nat) : nat :=
  match nth_error h p with Some (Live r _) => r | _ => 0 end.

(** Operations the C++ programmer may perform: the variables exist, and the
    destination of a copy assignment does not hold the last reference that keeps
    the source alive. *)
Definition exists_loc (m : mem) (s : loc) : Prop :=
  match s with
  | Var v => exists o, nth_error (vars m) v = Some (Some o)
  | Field p k => exists r fs q, nth_error (heap m) p = Some (Live r fs) /\ nth_error fs k = Some q
  end.
Definition safe (m : mem) (o : op) : Prop :=
  match o with
  | New vs => forall v, In v vs -> exists p, nth_error (vars m) v = Some (Some (Some p))
  | Null => True
  | CopyCtor s => exists_loc m s
  | MoveCtor w => exists_loc m (Var w)
  | CopyAssign v s => exists_loc m (Var v) /\ exists_loc m s /\
      ((exists w, s = Var w /\ w <> v) \/
       nth_error (vars m) v = Some (Some None) \/
       (exists p, nth_error (vars m) v = Some (Some (Some p)) /\ 2 <= ref_of (heap m) p))
  | MoveAssign v w => exists_loc m (Var v) /\ exists_loc m (Var w)
  | Destroy v => exists_loc m (Var v)
  end.

(** Histories in which every operation is safe in the state it is applied to. *)
Fixpoint safe_history (m : mem) (os : list op) : Prop :=
  match os with
  | [] => True
  | o :: os => safe m o /\ forall m', step m o = Some m' -> safe_history m' os
  end.

(** ** Scopes *)
Section Scoped.
Context {K W : Type}.
Variable keq : forall a b : K, {a = b} + {a <> b}.
Notation sop := (sop K W).

(** Specification: the insertions made in each open scope, oldest first. *)
Definition history := list (list (K * W)).
Definition hstep (h : history) (o : sop) : option history :=
  match o, h with
  | Scope, _ => Some ([] :: h)
  | Unscope, _ :: h => Some h
  | Insert k v, s :: h => Some ((s ++ [(k, v)]) :: h)
  | _, _ => None
  end.
Fixpoint hsteps (h : history) (os : list sop) : option history :=
  match os with [] => Some h | o :: os => match hstep h o with Some h => hsteps h os | None => None end end.
Fixpoint first_binding (k : K) (s : list (K * W)) : option W :=
  match s with [] => None | (k', v) :: s => if keq k' k then Some v else first_binding k s end.
Fixpoint binding (k : K) (h : history) : option W :=
  match h with
  | [] => None
  | s :: h => match first_binding k s with Some v => Some v | None => binding k h end
  end.

Definition removes (o : sop) : bool := match o with Remove _ => true | _ => false end.

(** Operations that leave the enclosing scopes alone: every Unscope matches an
    earlier Scope of the list. *)
Fixpoint nested (d : nat) (os : list sop) : option nat :=
  match os with
  | [] => Some d
  | Scope :: os => nested (S d) os
  | Unscope :: os => match d with 0 => None | S d => nested d os end
  | _ :: os => nested d os
  end.

End Scoped.
Arguments history : clear implicits.
