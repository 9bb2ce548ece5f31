(** Strings that name targets: src/target.cpp. *)
From Coq Require Import String Ascii List Bool Arith.
From Verif Require Import Parser.
Import ListNotations.
Local Open Scope nat_scope.
Local Open Scope string_scope.

Inductive arch := C99 | X86.
Inductive system := OSUnknown | Linux | MacOS | Windows.
Definition txt (s : string) : text := list_ascii_of_string s.

(** target.cpp 12-18; the maps are ordered by name. *)
Definition archMap : list (text * arch) := [(txt "c99", C99); (txt "x86", X86)].
Definition osMap : list (text * system) :=
  [(txt "linux", Linux); (txt "macos", MacOS); (txt "unknown", OSUnknown); (txt "windows", Windows)].
Fixpoint lookup {A} (k : text) (m : list (text * A)) : option A :=
  match m with [] => None | (k', a) :: m => if text_eqb k k' then Some a else lookup k m end.

(** What the constructor does.  [Unset]: it returns, and leaves arch or os uninitialised. *)
Inductive made := Made (a : arch) (o : system) | Unset | UserError | OutOfRange | Forever.

(** std::string::find of a character *)
Fixpoint find_char (c : ascii) (s : text) : option nat :=
  match s with
  | [] => None
  | d :: s => if Ascii.eqb d c then Some 0 else match find_char c s with Some n => Some (S n) | None => None end
  end.
(** The loop of target.cpp 25-28.  current_pos is not changed in it, so that the loop has no other
    end than substr's exception, when the position is past the end of the string; [steps]
    bounds the iterations. *)
Fixpoint split_at (steps pos : nat) (rest : text) (tokens : list text) : made + list text :=
  match steps with
  | 0 => inl Forever
  | S steps =>
      if Nat.ltb (List.length rest) (pos + 1) then inl OutOfRange
      else split_at steps pos (skipn (pos + 1) rest) (tokens ++ [firstn pos rest])
  end.
(** parseTargetString, target.cpp 20-47, and the constructor 51-53, which does not look at the
    result *)
Definition parse_target (steps : nat) (s : text) : made :=
  match (match find_char "-" s with None => inr [] | Some p => split_at steps p s [] end) with
  | inl e => e
  | inr tokens =>
      if Nat.ltb (List.length tokens) 2 then UserError
      else match lookup (nth 0 tokens []) archMap with
           | None => Unset
           | Some a => match lookup (nth 1 tokens []) osMap with None => Unset | Some o => Made a o end
           end
  end.

(** std::string::find of a string, from a position *)
Fixpoint starts (k s : text) : bool :=
  match k, s with
  | [], _ => true
  | c :: k, d :: s => Ascii.eqb c d && starts k s
  | _, _ => false
  end.
Fixpoint find_first (k s : text) : option nat :=
  if starts k s then Some 0
  else match s with [] => None | _ :: s => match find_first k s with Some n => Some (S n) | None => None end end.
Definition find_from (k s : text) (p : nat) : option nat :=
  match find_first k (skipn p s) with Some n => Some (p + n) | None => None end.
(** validateTargetString, target.cpp 57-76.  npos + 1 is 0. *)
Definition validate (s : text) : bool :=
  let arch_end := fold_left (fun e r => match find_from (fst r) s 0 with Some n => Some n | None => e end) archMap None in
  let from := match arch_end with Some n => n + 1 | None => 0 end in
  let os_end := fold_left (fun e r => match find_from (fst r) s from with Some n => Some n | None => e end) osMap None in
  match arch_end, os_end with Some _, Some _ => true | _, _ => false end.
