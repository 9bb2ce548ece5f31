(** Target strings have the form arch-os-features (target.h 26-28). *)
From Coq Require Import String Ascii List.
Import ListNotations.
Local Open Scope string_scope.
Local Open Scope list_scope.

Definition arch_names : list (list ascii) := [list_ascii_of_string "c99"; list_ascii_of_string "x86"].
Definition system_names : list (list ascii) :=
  map list_ascii_of_string ["linux"; "macos"; "unknown"; "windows"].
(** A string occurs in another. *)
Definition occurs (k s : list ascii) : Prop := exists before after, s = before ++ k ++ after.
(** An architecture, and later a system *)
Definition arch_then_system (a o s : list ascii) : Prop :=
  exists before between after, s = before ++ a ++ between ++ o ++ after.
