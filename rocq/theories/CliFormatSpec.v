(** What the usage message of the command line tool says about -f and -d. *)
From Coq Require Import List ZArith Bool Ascii.
Import ListNotations.
From Verif Require Import Parser FileIO Formats CliFormat.
Local Open Scope nat_scope.

(** The letters: d (dense), s (sparse), u (sparse, not unique), z (sparse,
    without explicit zeros), q (singleton), c (singleton, not unique) and p
    (singleton, padded). *)
Inductive letter : ascii -> impl -> Prop :=
| letter_d : letter "d" Dense
| letter_s : letter "s" Compressed
| letter_u : letter "u" (make_compressed false true false false)
| letter_z : letter "z" (make_compressed false true true true)
| letter_q : letter "q" Singleton
| letter_c : letter "c" (make_singleton false true false false false)
| letter_p : letter "p" (make_singleton false true true false true).

(** Names of tensors and variables *)
Definition name_char (c : ascii) : bool :=
  negb (Ascii.eqb c ":" || Ascii.eqb c "=").
Definition cli_name (s : text) : Prop := s <> [] /\ forallb name_char s = true.
(** Numbers between commas *)
Definition commas (zs : list Z) : text := join [","%char] (map print_Z zs).
Definition ints (zs : list Z) : Prop := Forall (fun z => (0 <= z <= int_max)%Z) zs.
(** The ends of consecutive groups *)
Fixpoint ends {A} (from : nat) (groups : list (list A)) : list Z :=
  match groups with
  | [] => []
  | g :: r => Z.of_nat (from + length g) :: ends (from + length g) r
  end.
Definition colons (ps : list text) : text := join [":"%char] ps.
(** -f=... and -d=... *)
Definition option_f (v : text) : text := ["-"; "f"; "="]%char ++ v.
Definition option_d (v : text) : text := ["-"; "d"; "="]%char ++ v.
