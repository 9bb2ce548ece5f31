(** What a lowered function means, and which names are free of clashes.

    The meaning works on the caller's tensors directly: a property of a tensor
    is the field of that tensor, and a variable is what was declared, whatever
    its name. *)
From Coq Require Import String List Arith ZArith Bool.
Import ListNotations.
From Verif Require Import Util UtilSpec KernelWrap.

(** ** Meaning *)
Record ienv := IEnv { fields : store_of; locals : list (list (nat * Z)) }.
Definition field_of (p : property) : field := KernelWrap.Field (what p) (mode p) (index p).
Fixpoint find_var (v : nat) (fr : list (nat * Z)) : option Z :=
  match fr with
  | [] => None
  | (w, z) :: fr => if Nat.eq_dec w v then Some z else find_var v fr
  end.
Fixpoint lookup_var (v : nat) (l : list (list (nat * Z))) : option Z :=
  match l with
  | [] => None
  | fr :: l => match find_var v fr with Some z => Some z | None => lookup_var v l end
  end.
Fixpoint set_var (v : nat) (z : Z) (fr : list (nat * Z)) : list (nat * Z) :=
  match fr with
  | [] => []
  | (w, x) :: fr => if Nat.eq_dec w v then (w, z) :: fr else (w, x) :: set_var v z fr
  end.
Fixpoint assign_var (v : nat) (z : Z) (l : list (list (nat * Z))) : option (list (list (nat * Z))) :=
  match l with
  | [] => None
  | fr :: l =>
      match find_var v fr with
      | Some _ => Some (set_var v z fr :: l)
      | None => option_map (cons fr) (assign_var v z l)
      end
  end.
Definition i_scoping : scoping nat ref ienv :=
  Scoping _ _ _
    (fun e r =>
       match r with
       | RVar v => lookup_var v (locals e)
       | RProp p _ => Some (fields e (tensor p) (field_of p))
       end)
    (fun e r z =>
       match r with
       | RVar v => option_map (IEnv (fields e)) (assign_var v z (locals e))
       | RProp p _ => Some (IEnv (set_field (fields e) (tensor p) (field_of p) z) (locals e))
       end)
    (fun e v z =>
       match locals e with
       | [] => None
       | fr :: l =>
           match find_var v fr with
           | Some _ => None
           | None => Some (IEnv (fields e) (((v, z) :: fr) :: l))
           end
       end)
    (fun e => IEnv (fields e) ([] :: locals e))
    (fun e => IEnv (fields e) (tl (locals e)))
    RVar.

Definition run_function (fuel : nat) (f : func) (T : store_of) (h : heap) : outcome (store_of * heap) :=
  bind (exec i_scoping fuel (body f) (IEnv T [[]]) h) (fun r => Done (fields (fst r), snd r)).

(** The two do the same: the same tensors and the same memory, or neither has a
    meaning, or both need more steps. *)
Definition same (x y : outcome (store_of * heap)) : Prop :=
  match x, y with
  | Done (T, h), Done (U, g) => (forall i k, T i k = U i k) /\ h = g
  | Stuck, Stuck => True
  | NoFuel, NoFuel => True
  | _, _ => False
  end.

(** ** Functions *)
(** Every property is one of a tensor that is passed. *)
Definition known (f : func) : Prop :=
  forall p n, In (RProp p n) (refs RVar (body f)) -> tensor p < List.length (tensors f).

(** What the body sets as a whole (stores to elements are not meant). *)
Fixpoint written {V R} (s : stmt V R) : list R :=
  match s with
  | Assign r _ | Alloc _ r _ => [r]
  | Seq a b | If _ a b => written a ++ written b
  | For _ _ _ _ b | While _ b | Braces b => written b
  | _ => []
  end.
(** What the body allocates memory for. *)
Fixpoint allocated {V R} (s : stmt V R) : list R :=
  match s with
  | Alloc _ r _ => [r]
  | Seq a b | If _ a b => allocated a ++ allocated b
  | For _ _ _ _ b | While _ b | Braces b => allocated b
  | _ => []
  end.
(** Only arrays (or the number of values) of results are set, and a function
    that sets them allocates memory. *)
Definition sets_results (f : func) : Prop :=
  forall p n, In (RProp p n) (written (body f)) ->
    tensor p < results f /\ what p <> Dimension /\ what p <> FillValue /\ allocated (body f) <> [].

(** ** Names *)
(** The first mention of every variable and of every property. *)
Fixpoint firsts (seen : list entity) (l : list ref) : list ref :=
  match l with
  | [] => []
  | r :: l =>
      if in_dec entity_eq_dec (entity_of r) seen then firsts seen l
      else r :: firsts (entity_of r :: seen) l
  end.
Definition is_array (f : func) (r : ref) : bool :=
  match r with RVar v => var_ptr f v | RProp _ _ => false end.
Definition own_name (f : func) (r : ref) : string :=
  match r with RVar v => var_name f v | RProp _ n => n end.
Definition objects (f : func) : list ref := firsts [] (refs RVar (body f)).
(** Names that may be changed, and names that are kept. *)
Definition asked (f : func) : list string :=
  map (own_name f) (filter (fun r => negb (is_array f r)) (objects f)).
Definition kept (f : func) : list string :=
  tensors f ++ map (own_name f) (filter (is_array f) (objects f)).

Definition number (d : string) : Prop := d <> EmptyString /\ forallb digit (chars d) = true.
(** Tensors and arrays have names of their own; and if a number is appended to
    a name (since it is asked for twice, or is a keyword) no other name is that
    name with a number. *)
Definition clear_names (f : func) : Prop :=
  NoDup (kept f) /\
  (forall n, In n (kept f) -> ~ In n keywords /\ ~ In n (asked f)) /\
  (forall n m d, In n keywords \/ 2 <= count_occ string_dec (asked f) n ->
     In m (asked f ++ kept f) -> number d -> m <> (n ++ d)%string).
