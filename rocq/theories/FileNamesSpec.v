(** What the documentation says about reading and writing tensors by file name: the file
    format is inferred from the file name.  include/taco/tensor.h 709-768. *)
From Coq Require Import List ZArith Bool Ascii String.
From Verif Require Import Parser FileIO FileNames FileIOSpec.
Import ListNotations.
Local Open Scope nat_scope.
Local Notation chars := list_ascii_of_string.

(** The suffixes *)
Inductive suffix : text -> file_type -> Prop :=
| suffix_ttx : suffix (chars ".ttx") Ttx
| suffix_tns : suffix (chars ".tns") Tns
| suffix_mtx : suffix (chars ".mtx") Mtx
| suffix_rb : suffix (chars ".rb") Rb.
(** A file name with a suffix that is known *)
Definition known (path : text) : Prop := exists stem s k, suffix s k /\ path = stem ++ s.
(** The directory part of a path: nothing, or what ends with a slash *)
Definition directory (d : text) : Prop := d = [] \/ exists e, d = e ++ ["/"%char].
(** What a C identifier is made of *)
Definition letter (c : ascii) : Prop := In c (chars "abcdefghijklmnopqrstuvwxyzABCDEFGHIJKLMNOPQRSTUVWXYZ_").
Definition digit (c : ascii) : Prop := In c (chars "0123456789").
Definition identifier (s : text) : Prop :=
  exists c r, s = c :: r /\ letter c /\ Forall (fun x => letter x \/ digit x) r.
(** The file a path stands for: ~ is the home directory. *)
Definition stands_for (home : option text) (path p : text) : Prop :=
  (hd_error path <> Some "~"%char /\ p = path) \/
  (exists h r, path = "~"%char :: r /\ home = Some h /\ p = h ++ r).
(** The same files but for one path *)
Definition same_but (p : text) (a b : files) : Prop :=
  may_write a = may_write b /\ forall q, q <> p -> holds a q = holds b q.
Definition same_files (a b : files) : Prop :=
  may_write a = may_write b /\ forall q, holds a q = holds b q.
(** The name a tensor is given: the part of the file name, without its directory, before the
    first dot, with underscores for dashes. *)
Definition base_name (path base : text) : Prop :=
  exists dir rest, path = dir ++ base ++ "."%char :: rest /\ directory dir /\
    ~ In "/"%char base /\ ~ In "."%char base /\ ~ In "/"%char rest.
Definition underscores (base name : text) : Prop :=
  Forall2 (fun a b => (a = "-"%char /\ b = "_"%char) \/ (a <> "-"%char /\ b = a)) base name.
Definition names (path name : text) : Prop := exists base, base_name path base /\ underscores base name.
(** What each type of file can hold and give back: see C44. *)
Inductive gives_back {V} (show : V -> text) (scan : text -> V) (show_rb : V -> text) (t : source V) : file_type -> wanted -> contents V -> Prop :=
| back_tns w : comps V t <> [] -> valid (List.length (dims V t)) (comps V t) -> within (dims V t) (comps V t) ->
    last_slices (dims V t) (comps V t) -> Forall (survives show scan) (map snd (comps V t)) ->
    gives_back show scan show_rb t Tns w (Components V (dims V t) (comps V t))
| back_mtx k w : k = Ttx \/ k = Mtx -> dense V t = false -> size V t = Z.of_nat (List.length (comps V t)) -> (size V t <= int_max)%Z ->
    dims V t <> [] -> Forall (fun d => 0 < d <= int_max)%Z (dims V t) ->
    comps V t <> [] -> valid (List.length (dims V t)) (comps V t) -> Forall (survives show scan) (map snd (comps V t)) ->
    gives_back show scan show_rb t k w (Components V (dims V t) (comps V t))
| back_rb m : columns V t = Some m -> ok_csc show_rb scan m -> List.length (dims V t) = 2 ->
    gives_back show scan show_rb t Rb (TheFormat true) (Columns V m).
