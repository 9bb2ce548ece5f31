(** What a user needs to know about memory. *)
From Coq Require Import List Arith Bool.
From Verif Require Import StoreMem.
Import ListNotations.
Local Open Scope nat_scope.

(** The tensor exists and its values array points to memory. *)
Definition has_values (s : state) (t : nat) : Prop :=
  exists x d b, get_tensor s t = Some x /\ get_sto s x = Some d /\ data (memory s) (s_values d) = Some (Some b).

(** What the caller has to respect: compute is called on a result that was assembled
    or has values, unless compute assembles; the compiled compute function is one
    that allocates exactly if setAssembleWhileCompute says so; and a tensor is given
    the storage of a tensor with values. *)
Definition careful_call (e : event) (s : state) : Prop :=
  match e with
  | Compute t => forall x, get_tensor s t = Some x -> t_needsCompile x = false -> t_needsCompute x = true ->
      t_kernel x = t_awc x /\ (t_awc x = false -> has_values s t)
  | SetStorage t u => has_values s u
  | _ => True
  end.
Fixpoint careful (es : list event) (s : state) : Prop :=
  match es with
  | [] => True
  | e :: es => careful_call e s /\ (forall s', exec e s = Some s' -> careful es s')
  end.
(** The simplest careful programs: assembleWhileCompute is not used. *)
Definition separate (e : event) : Prop :=
  match e with SetAWC _ b => b = false | Compile _ a => a = false | _ => True end.

(** A block was freed, or an array that still exists will free it. *)
Definition accounted (s : state) (b : nat) : Prop :=
  In b (freed (memory s)) \/
  exists c x, nth_error (cells (memory s)) c = Some x /\ c_dead x = false /\ c_owns x = true /\ c_ptr x = Some b.
(** Nothing is left: no tensor and no array exists. *)
Definition all_gone (s : state) : Prop :=
  (forall x, In x (tens s) -> t_dead x = true) /\ (forall x, In x (cells (memory s)) -> c_dead x = true).

(** A block that is allocated and not freed. *)
Definition valid (s : state) (b : nat) : Prop := b < next (memory s) /\ ~ In b (freed (memory s)).
(** The values of a tensor, and all arrays of all its levels, are memory that may be
    accessed. *)
Definition usable (s : state) (x : tensor) : Prop :=
  exists d, get_sto s x = Some d /\
    (exists b, data (memory s) (s_values d) = Some (Some b) /\ valid s b) /\
    length (s_index d) = length (s_format d) /\
    (forall k arrays, nth_error (s_index d) k = Some arrays ->
       length arrays = match nth_error (s_format d) k with Some Dense => 1 | _ => 2 end /\
       forall c, In c arrays -> exists b, data (memory s) c = Some (Some b) /\ valid s b).
