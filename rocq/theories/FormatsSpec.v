(** What users are told about formats (format.h). *)
From Coq Require Import List Arith Bool.
Import ListNotations.
From Verif Require Import Formats.

(** The last request for an attribute. *)
Inductive last_request (a : attribute) (b : bool) : list property -> Prop :=
| last_here : forall ps, (forall c, ~ In (a, c) ps) -> last_request a b ((a, b) :: ps)
| last_later : forall p ps, last_request a b ps -> last_request a b (p :: ps).
(** The attributes each class of mode formats lets one choose. *)
Definition configurable (k : kind) (a : attribute) : Prop :=
  match k, a with
  | _, (Ordered | Unique | Zeroless) => True
  | (CompressedK | SingletonK), Full => True
  | SingletonK, Padded => True
  | _, _ => False
  end.

(** Mode formats users can make: the predefined ones and variants of those. *)
Inductive made : impl -> Prop :=
| made_dense : made Dense
| made_compressed : made Compressed
| made_singleton : made Singleton
| made_variant : forall i ps, made i -> made (copy i ps).

(** Mode formats that agree in everything but padding. *)
Definition alike (a b : impl) : Prop :=
  class a = class b /\ forall p, p <> Padded -> is (Some a) p = is (Some b) p.
(** Formats that group alike modes in the same way and store them in the same
    order. *)
Definition same_layout (f g : format) : Prop :=
  ordering f = ordering g /\ Forall2 (Forall2 alike) (packs f) (packs g).
