(** Functions that declare an annihilator or an identity:
    /repo/src/index_notation/tensor_operator.cpp 49-145 (the iteration algebra
    that is inferred), /repo/src/index_notation/properties.cpp 57-140,
    /repo/src/index_notation/index_notation.cpp 3766-3960 (zeroing) and 4094-4228
    (fill values of expressions), and the iteration spaces of expressions,
    /repo/src/lower/merge_lattice.cpp 88-157 and 266-302.

    Not modelled: index variables as values, reductions, intrinsics (the
    inference of fill values refuses them) and square roots (a unary operation
    like the others). *)
From Coq Require Import List Arith Bool.
From Verif Require Import Checks.
Import ListNotations.
Local Open Scope nat_scope.

Section FuncProps.
(** The values of all types, compared by their bytes (memcmp, 700), and [v0] the
    zero of every type. *)
Context {V : Type} (V_eq : forall a b : V, {a = b} + {a <> b}) (v0 : V).

(** A literal: its type and its value. *)
Record literal := Lit { l_type : nat; l_val : V }.

(** properties.h, tensor_operator.h: the first annihilator and the first identity
    of the list of properties (findProperty, properties.h 80-88).  No positions
    stand for all positions. *)
Record property := Prp { p_value : literal; p_positions : list nat }.
Record properties := Props { annihilator : option property; identity : option property }.

(** Index expressions.  A call has what it computes, its properties, and its
    iteration algebra over the positions of its arguments. *)
Inductive fexpr :=
| FLit (l : literal)
| FAcc (t : nat)
| FNeg (a : fexpr)
| FAdd (a b : fexpr)
| FSub (a b : fexpr)
| FMul (a b : fexpr)
| FDiv (a b : fexpr)
| FCast (ty : nat) (a : fexpr)
| FCall (f : list V -> V) (p : properties) (x : alg nat) (args : list fexpr).

(** The type of an expression, getDataType: any function will do. *)
Variable dtype : fexpr -> nat.
(** The fill value of a tensor (index_notation.cpp 2573, 2624). *)
Variable fill : nat -> literal.

(** equals of an expression and a literal, index_notation.cpp 688-704, 990-998. *)
Definition equals_lit (e : fexpr) (l : literal) : bool :=
  match e with
  | FLit k => (l_type k =? l_type l) && (if V_eq (l_val k) (l_val l) then true else false)
  | _ => false
  end.
(** equals(a, Literal::zero(a.getDataType())). *)
Definition is_zero (e : fexpr) : bool :=
  match e with FLit k => if V_eq (l_val k) v0 then true else false | _ => false end.
Definition is_literal (e : fexpr) : bool := match e with FLit _ => true | _ => false end.

(** What functions of the library do: give a result, fail with a user error, or
    behave in an undefined way (an undefined expression is dereferenced, or a
    vector is read past its end). *)
Inductive res (A : Type) := Ok (a : A) | UserError | Undefined.
Arguments Ok {A}. Arguments UserError {A}. Arguments Undefined {A}.
Definition rbind {A B} (r : res A) (f : A -> res B) : res B :=
  match r with Ok a => f a | UserError => UserError | Undefined => Undefined end.

Definition all_positions (pos : list nat) (n : nat) : list nat := match pos with [] => seq 0 n | _ => pos end.

(** properties.cpp 57-77, Annihilator::annihilates. *)
Fixpoint annihilates_at (a : literal) (exprs : list fexpr) (pos : list nat) : res (option fexpr) :=
  match pos with
  | [] => Ok None
  | idx :: pos =>
      match nth_error exprs idx with
      | None => UserError
      | Some e => if equals_lit e a then Ok (Some (FLit a)) else annihilates_at a exprs pos
      end
  end.
Definition annihilates (p : property) (exprs : list fexpr) : res (option fexpr) :=
  annihilates_at (p_value p) exprs (all_positions (p_positions p) (length exprs)).

(** properties.cpp 104-144, Identity::simplify.  [seen]: nonIdentityTermsChecked
    and the last such term. *)
Fixpoint simplify_at (v : literal) (exprs : list fexpr) (pos : list nat) (count : nat) (term : option fexpr)
  : res (option (nat * option fexpr)) :=
  match pos with
  | [] => Ok (Some (count, term))
  | idx :: pos =>
      match nth_error exprs idx with
      | None => Undefined
      | Some e =>
          let '(count, term) := if equals_lit e v then (count, term) else (S count, Some e) in
          if 1 <? count then Ok None else simplify_at v exprs pos count term
      end
  end.
Definition simplify (p : property) (exprs : list fexpr) : res (option fexpr) :=
  let pos := all_positions (p_positions p) (length exprs) in
  rbind (simplify_at (p_value p) exprs pos 0 None) (fun o => Ok
    match o with
    | None => None
    | Some (nonIdentity, term) =>
        let identityTerms := length pos - nonIdentity in
        if (nonIdentity =? 1) && (identityTerms =? length exprs - 1) then term
        else if identityTerms =? length exprs then Some (FLit (p_value p))
        else None
    end).

(** The simplification of a call: index_notation.cpp 3935-3950 and 4190-4208. *)
Definition from_properties (p : properties) (args : list fexpr) : res (option fexpr) :=
  rbind (match annihilator p with Some a => annihilates a args | None => Ok None end) (fun o =>
  match o with
  | Some e => Ok (Some e)
  | None => match identity p with Some i => simplify i args | None => Ok None end
  end).

(** fillValueInferrer, index_notation.cpp 4098-4228.  Reading the type of an
    undefined expression is undefined behaviour. *)
Definition defined (o : option fexpr) : res fexpr := match o with Some e => Ok e | None => Undefined end.
Fixpoint inferFill (e : fexpr) : res (option fexpr) :=
  match e with
  | FLit l => Ok (Some (FLit l))
  | FAcc t => Ok (Some (FLit (fill t)))
  | FNeg a => rbind (inferFill a) (fun a => rbind (defined a) (fun a => Ok (if is_zero a then Some a else None)))
  | FAdd a b =>
      rbind (inferFill a) (fun a => rbind (inferFill b) (fun ob => rbind (defined a) (fun a =>
      let b_literal := match ob with Some b => is_literal b | None => false end in
      if is_zero a && b_literal then Ok ob
      else rbind (defined ob) (fun b => Ok (if is_zero b && is_literal a then Some a else None)))))
  | FSub a b =>
      rbind (inferFill a) (fun oa => rbind (inferFill b) (fun b => rbind (defined b) (fun b =>
      let a_literal := match oa with Some a => is_literal a | None => false end in
      Ok (if is_zero b && a_literal then oa else None))))
  | FMul a b =>
      rbind (inferFill a) (fun a => rbind (inferFill b) (fun ob => rbind (defined a) (fun a =>
      if is_zero a then Ok (Some a)
      else rbind (defined ob) (fun b => Ok (if is_zero b then Some b else None)))))
  | FDiv a b =>
      rbind (inferFill a) (fun a => rbind (inferFill b) (fun _ => rbind (defined a) (fun a =>
      Ok (if is_zero a then Some a else None))))
  | FCast _ a => Ok None
  | FCall f p x args => from_properties p args
  end.

(** ** The algebra that is inferred *)
Definition has_fill (e : fexpr) (l : literal) : res bool :=
  rbind (inferFill e) (fun o => Ok match o with Some e => equals_lit e l | None => false end).

(** tensor_operator.cpp 89-121, constructAnnihilatorAlg; regions are the positions
    of the arguments. *)
Fixpoint toIntersect (a : literal) (args : list fexpr) (pos : list nat) : res (list nat) :=
  match pos with
  | [] => Ok []
  | idx :: pos =>
      match nth_error args idx with
      | None => Undefined
      | Some e => rbind (has_fill e a) (fun b => rbind (toIntersect a args pos) (fun l => Ok (if b then idx :: l else l)))
      end
  end.
Definition constructAnnihilatorAlg (args : list fexpr) (a : property) : res (option (alg nat)) :=
  if length args <? 2 then Ok None
  else rbind (toIntersect (p_value a) args (all_positions (p_positions a) (length args))) (fun l =>
       match l with
       | [] => Ok None
       | k :: l => Ok (Some (fold_left (fun x j => Intersect x (Region j)) l (Region k)))
       end).

Definition unionAll (n : nat) : alg nat := fold_left (fun x j => Union x (Region j)) (seq 1 (n - 1)) (Region 0).

(** tensor_operator.cpp 123-144, constructIdentityAlg. *)
Fixpoint all_fills (v : literal) (args : list fexpr) : res bool :=
  match args with
  | [] => Ok true
  | e :: args => rbind (has_fill e v) (fun b => if b then all_fills v args else Ok false)
  end.
Definition constructIdentityAlg (args : list fexpr) (i : property) : res (option (alg nat)) :=
  if length args <? 2 then Ok None
  else rbind (match p_positions i with [] => all_fills (p_value i) args | _ => Ok true end) (fun b =>
       Ok (if b then Some (unionAll (length args)) else None)).

(** tensor_operator.cpp 77-87, constructDefaultAlgebra: nothing without arguments. *)
Definition defaultAlgebra (args : list fexpr) : option (alg nat) :=
  match args with
  | [] => None
  | _ => Some (Union (unionAll (length args)) (Complement (unionAll (length args))))
  end.

(** tensor_operator.cpp 49-74, inferAlgFromProperties.  [None]: the empty region. *)
Definition inferAlg (p : properties) (args : list fexpr) : res (option (alg nat)) :=
  rbind (match annihilator p with Some a => constructAnnihilatorAlg args a | None => Ok None end) (fun o =>
  match o with
  | Some x => Ok (Some x)
  | None =>
      rbind (match identity p with Some i => constructIdentityAlg args i | None => Ok None end) (fun o =>
      match o with Some x => Ok (Some x) | None => Ok (defaultAlgebra args) end)
  end).

(** ** Zeroing *)
Section Zero.
(** The tensors that are exhausted. *)
Variable zeroed : nat -> bool.
Definition zero_lit (e : fexpr) : fexpr := FLit (Lit (dtype e) v0).
(** index_notation.cpp 3784-3960.  An undefined expression is [None]. *)
Fixpoint zero (e : fexpr) : res (option fexpr) :=
  match e with
  | FLit l => Ok (Some (FLit l))
  | FAcc t => Ok (if zeroed t then None else Some (FAcc t))
  | FNeg a => rbind (zero a) (fun a => Ok (option_map FNeg a))
  | FAdd a b => rbind (zero a) (fun a => rbind (zero b) (fun b => Ok
      match a, b with
      | None, None => None | None, Some b => Some b | Some a, None => Some a | Some a, Some b => Some (FAdd a b)
      end))
  | FSub a b => rbind (zero a) (fun a => rbind (zero b) (fun b => Ok
      match a, b with
      | None, None => None | None, Some b => Some (FNeg b) | Some a, None => Some a | Some a, Some b => Some (FSub a b)
      end))
  | FMul a b => rbind (zero a) (fun a => rbind (zero b) (fun b => Ok
      match a, b with Some a, Some b => Some (FMul a b) | _, _ => None end))
  | FDiv a b => rbind (zero a) (fun a => rbind (zero b) (fun b => Ok
      match a, b with Some a, Some b => Some (FDiv a b) | _, _ => None end))
  | FCast ty a => rbind (zero a) (fun a => Ok (option_map (FCast ty) a))
  | FCall f p x args =>
      let fix zeros (args : list fexpr) : res (list fexpr) :=
        match args with
        | [] => Ok []
        | e :: args => rbind (zero e) (fun o => rbind (zeros args) (fun l =>
            Ok ((match o with Some e' => e' | None => zero_lit e end) :: l)))
        end in
      rbind (zeros args) (fun args' =>
      rbind (from_properties p args') (fun o =>
      Ok (Some (match o with Some e => e | None => FCall f p x args' end))))
  end.
End Zero.
End FuncProps.
Arguments Ok {A}. Arguments UserError {A}. Arguments Undefined {A}.
Arguments fexpr : clear implicits. Arguments properties : clear implicits. Arguments property : clear implicits.
Arguments literal : clear implicits.
