(** What reading a file is compared to. *)
From Coq Require Import List ZArith Bool Ascii.
From Verif Require Import Parser FileIO.
Import ListNotations.
Local Open Scope nat_scope.

Definition word (s : text) : Prop := s <> [] /\ forallb (fun c => negb (is_space c)) s = true.
(** The value survives being written: its text is a word, and is read as the value. *)
Definition survives {V} (show : V -> text) (scan : text -> V) (v : V) : Prop :=
  word (show v) /\ forall sp, forallb is_space sp = true -> scan (sp ++ show v) = v.
(** Components of a tensor of an order, with coordinates of type int. *)
Definition valid {V} (order : nat) (cs : list (component V)) : Prop :=
  Forall (fun c => length (fst c) = order /\ Forall (fun x => 0 <= x < int_max)%Z (fst c)) cs.
(** All coordinates are below the dimensions. *)
Definition within {V} (dims : list Z) (cs : list (component V)) : Prop :=
  forall k, k < length dims -> forall c, In c cs -> (nth k (fst c) 0 < nth k dims 0)%Z.
(** The last slice of every mode has a component. *)
Definition last_slices {V} (dims : list Z) (cs : list (component V)) : Prop :=
  forall k, k < length dims -> exists c, In c cs /\ nth k (fst c) 0%Z = (nth k dims 0 - 1)%Z.
(** The position of a component when the first coordinate varies fastest. *)
Fixpoint column_major (dims x : list Z) : Z :=
  match dims, x with
  | d :: ds, i :: is => (i + d * column_major ds is)%Z
  | _, _ => 0%Z
  end.
(** A component of a symmetric matrix file stands for itself and, off the diagonal, for
    the one across it. *)
Definition symmetric_of {V} (cs : list (component V)) : list (component V) :=
  flat_map (fun c => match fst c with
                     | [i; j] => if (i =? j)%Z then [c] else [c; ([j; i], snd c)]
                     | _ => [c]
                     end) cs.
(** Comment lines: the first word begins with a percent sign. *)
Definition comment (l : text) : Prop :=
  exists sp r, l = sp ++ "%"%char :: r /\ forallb is_space sp = true /\ ~ In newline l.
(** A compressed sparse column matrix: as many column ends as columns, plus one, as many row
    numbers as values, and as many as the last column ends at; all of these fit an int. *)
Definition ok_csc {V} (show : V -> text) (scan : text -> V) (m : csc V) : Prop :=
  (0 <= rows V m <= int_max)%Z /\ (0 <= cols V m < int_max)%Z /\ Z.of_nat (length (colptr V m)) = (cols V m + 1)%Z /\
  length (rowidx V m) = length (vals V m) /\ nth (Z.to_nat (cols V m)) (colptr V m) 0%Z = Z.of_nat (length (vals V m)) /\
  (Z.of_nat (length (colptr V m) + 2 * length (vals V m) + 3) <= int_max)%Z /\
  Forall (fun x => 0 <= x < int_max)%Z (colptr V m) /\ Forall (fun x => 0 <= x < int_max)%Z (rowidx V m) /\
  Forall (survives show scan) (vals V m).
(** A text without line ends. *)
Definition one_line (l : text) : Prop := ~ In newline l.
(** Numbers with blanks between them. *)
Definition numbers (zs : list Z) : text := join [blank] (map print_Z zs).
(** The line of a component: its coordinates, counted from one, and its value. *)
Definition component_line {V} (show : V -> text) (c : component V) : text :=
  join [blank] (map (fun x => print_Z (x + 1)) (fst c) ++ [show (snd c)]) ++ [newline].
(** MatrixMarket files with any comment lines. *)
Definition coordinate_file {V} (show : V -> text) (symmetry : text) (comments : list text) (dims : list Z) (cs : list (component V)) : text :=
  header (length dims) coordinate_word symmetry ++ [newline] ++ concat (map (fun l => l ++ [newline]) comments) ++
  numbers (dims ++ [Z.of_nat (length cs)]) ++ [newline] ++ concat (map (component_line show) cs).
Definition array_file {V} (show : V -> text) (symmetry : text) (comments : list text) (dims : list Z) (values : list V) : text :=
  header (length dims) array_word symmetry ++ [newline] ++ concat (map (fun l => l ++ [newline]) comments) ++
  numbers dims ++ [blank] ++ [newline] ++ concat (map (fun v => show v ++ [newline]) values).
