(** What einsum strings mean. *)
From Coq Require Import List Sorted Bool Ascii.
From Verif Require Import Parser Einsum.
Import ListNotations.
Local Open Scope nat_scope.

Definition letters (s : text) : Prop := Forall (fun c => is_alpha c = true) s.
(** "s,s,...,s" *)
Fixpoint commas (l : list text) : text :=
  match l with [] => [] | [s] => s | s :: r => s ++ ","%char :: commas r end.
Definition without_spaces (s : text) : text := filter (fun c => negb (Ascii.eqb c " "%char)) s.

(** The subscripts fit the tensors: one letter per mode, and no tensor has more than 65
    modes. *)
Definition fits (inputs : list text) (tensors : list (list nat)) : Prop :=
  Forall2 (fun s dims => length s = length dims /\ length dims <= 65) inputs tensors.
(** All the modes, with their letters. *)
Definition modes (inputs : list text) (tensors : list (list nat)) : list (ascii * nat) :=
  concat (map (fun p => combine (fst p) (snd p)) (combine inputs tensors)).
(** [d] is the dimension of the first mode with the letter [c]. *)
Definition first_dimension (ms : list (ascii * nat)) (c : ascii) (d : nat) : Prop :=
  exists l r, ms = l ++ (c, d) :: r /\ ~ In c (map fst l).
(** The parsed result: the operands' letters, the result's letters and dimensions. *)
Definition means (e : einsum) (inputs : list text) (tensors : list (list nat)) (out : text) : Prop :=
  e_inputs e = inputs /\ e_output e = out /\ Forall2 (first_dimension (modes inputs tensors)) out (e_shape e).
(** The letters that occur exactly once, in the order of their codes. *)
Definition once (inputs : list text) (out : text) : Prop :=
  StronglySorted (fun a b => code a < code b) out /\
  forall c, In c out <-> count_occ ascii_dec (concat inputs) c = 1.

(** *** Ellipses *)
(** Letters, or letters around an ellipsis. *)
Definition operand := (text * option text)%type.
Definition dots : text := ["."; "."; "."]%char.
Definition op_text (o : operand) : text := match snd o with None => fst o | Some a => fst o ++ dots ++ a end.
Definition op_letters (o : operand) : text := match snd o with None => fst o | Some a => fst o ++ a end.
Definition op_dotted (o : operand) : bool := match snd o with None => false | Some _ => true end.
(** The number of modes an ellipsis stands for. *)
Definition missing (o : operand) (dims : list nat) : nat :=
  match snd o with None => 0 | Some _ => length dims - length (op_letters o) end.
(** The ellipsis is replaced by the last [n] of the names. *)
Definition expand (names : text) (o : operand) (n : nat) : text :=
  match snd o with None => fst o | Some a => fst o ++ skipn (length names - n) names ++ a end.
Definition op_fits (o : operand) (dims : list nat) : Prop :=
  (match snd o with None => length (op_letters o) = length dims | Some _ => length (op_letters o) <= length dims end) /\
  length dims <= 65.
(** The longest ellipsis. *)
Definition longest (ops : list operand) (tensors : list (list nat)) : nat :=
  list_max (map (fun p => missing (fst p) (snd p)) (combine ops tensors)).
(** Names for the modes of the ellipses: distinct letters that are not used. *)
Definition fresh (names used : text) : Prop :=
  NoDup names /\ letters names /\ forall c, In c names -> ~ In c used.
Definition expanded (names : text) (ops : list operand) (tensors : list (list nat)) : list text :=
  map (fun p => expand names (fst p) (missing (fst p) (snd p))) (combine ops tensors).
(** The letters that are left for names. *)
Definition unused_letters (used : text) : text := filter (fun c => negb (has c used)) symbols.
(** No part of an arrow. *)
Definition plain (s : text) : Prop := ~ In "-"%char s /\ ~ In ">"%char s.
