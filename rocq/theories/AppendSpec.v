(** What it means that two arrays are the compressed level of a sequence of rows. *)
From Coq Require Import List Arith Sorted.
Import ListNotations.

(** The coordinates of row [r]. *)
Fixpoint row_of (rows : list (nat * list nat)) (r : nat) : list nat :=
  match rows with
  | [] => []
  | (r', cols) :: rows => if r' =? r then cols else row_of rows r
  end.

(** [pos] cuts [crd] into [n] consecutive segments, and the [r]-th is [seg r]. *)
Definition compressed_level (n : nat) (seg : nat -> list nat) (pos crd : list nat) : Prop :=
  length pos = S n /\ nth 0 pos 0 = 0 /\ nth n pos 0 = length crd /\
  forall r, r < n ->
    nth r pos 0 <= nth (S r) pos 0 /\
    firstn (nth (S r) pos 0 - nth r pos 0) (skipn (nth r pos 0) crd) = seg r.

(** Rows come in increasing order, each with increasing columns. *)
Definition increasing (rows : list (nat * list nat)) : Prop :=
  StronglySorted lt (map fst rows) /\ Forall (fun row => StronglySorted lt (snd row)) rows.

(** The rows that have coordinates. *)
Definition kept (rows : list (nat * list nat)) : list (nat * list nat) :=
  filter (fun row => match snd row with [] => false | _ => true end) rows.

(** What is inserted below parent position [r], in the order of insertion. *)
Definition below_parent {A} (ins : list (nat * A)) (r : nat) : list A :=
  map snd (filter (fun x => fst x =? r) ins).

(** Product of the widths: the number of positions of the dense levels. *)
Fixpoint prodr (ds : list nat) : nat := match ds with [] => 1 | d :: ds => d * prodr ds end.
