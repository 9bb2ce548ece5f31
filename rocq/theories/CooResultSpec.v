(** What the user relies on of a result stored by appending coordinates:
    reading the arrays back gives the components the loops visited. *)

From Coq Require Import List Arith Bool.
From Verif Require Import CooResult.
Import ListNotations.

(** The components visited by the loops, in order, with [n] loops. *)
Fixpoint visited {V} (zero : V) (n : nat) (t : tree V) : list (list nat * V) :=
  match n with
  | 0 => [([], value zero t)]
  | S n => flat_map (fun ct => map (fun p => (fst ct :: fst p, snd p))
                                   (visited zero n (snd ct))) (kids t)
  end.

Fixpoint all_some {A} (xs : list (option (list A))) : option (list A) :=
  match xs with
  | [] => Some []
  | Some x :: xs => match all_some xs with Some r => Some (x ++ r) | None => None end
  | None :: _ => None
  end.

(** Reading an index back: the coordinates stored below position [p] of the
    level above level [l], each with the position of its value.  A compressed
    level holds, for each position of its parent, the range of positions
    [pos[p]] to [pos[p+1]]; a singleton level the position of its parent. *)
Fixpoint stored {V} (ks : list kind) (l : nat) (st : state V) (p : nat)
    : option (list (list nat * nat)) :=
  match ks with
  | [] => Some [([], p)]
  | k :: rest =>
      let at_pos q :=
        match aget (crd st l) q, stored rest (S l) st q with
        | Some c, Some r => Some (map (fun x => (c :: fst x, snd x)) r)
        | _, _ => None
        end in
      match k with
      | Comp _ =>
          match aget (pos st l) p, aget (pos st l) (p + 1) with
          | Some lo, Some hi => all_some (map at_pos (seq lo (hi - lo)))
          | _, _ => None
          end
      | Sing _ => at_pos p
      end
  end.

(** Below every stored position of a level there is something stored; only the
    top level may be empty. *)
Fixpoint no_empty {V} (ks : list kind) (l : nat) (st : state V) (p : nat) : Prop :=
  match ks with
  | [] => True
  | Sing _ :: rest => no_empty rest (S l) st p
  | Comp _ :: rest =>
      exists lo hi, aget (pos st l) p = Some lo /\ aget (pos st l) (p + 1) = Some hi /\
        (0 < l -> lo < hi) /\
        forall q, lo <= q < hi -> no_empty rest (S l) st q
  end.

(** The components of the result: the stored coordinates with their values. *)
Definition components {V} (K : list kind) (st : state V) (vs : arr V)
    : option (list (list nat * V)) :=
  match stored K 0 st 0 with
  | Some cs =>
      all_some (map (fun c => match aget vs (snd c) with
                              | Some v => Some [(fst c, v)] | None => None end) cs)
  | None => None
  end.

(** The coordinate format of src/format.cpp 408-437 with [S n] levels. *)
Definition coo (n : nat) (unique : bool) : list kind :=
  match n with
  | 0 => [Comp unique]
  | S m => Comp false :: repeat (Sing false) m ++ [Sing unique]
  end.

(** Formats for which kernels can be made: a compressed level, singleton
    levels below it, and compressed levels below those; levels above a
    singleton level are not unique. *)
Definition coo_then_compressed (K : list kind) : Prop :=
  exists u us vs,
    K = Comp u :: map Sing us ++ map Comp vs /\
    match us with [] => True | _ => u = false /\ forall x, In x (removelast us) -> x = false end.
