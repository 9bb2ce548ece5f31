(** The options -f and -d of the command line tool: /repo/tools/taco.cpp, main. *)
From Coq Require Import List ZArith Bool Ascii.
Import ListNotations.
From Verif Require Import Parser FileIO Formats.
Local Open Scope nat_scope.

(** What happens to one option, or to the whole command line.  [Report]: the
    program ends with an error message and this exit code.  [Refused]: a user
    error raised by the library.  [Thrown]: an exception of std::stoi that nobody
    catches. *)
Inductive result (A : Type) :=
| Ok (a : A) | Report (code : nat) | Refused | Thrown | Undefined.
Arguments Ok {A} _.
Arguments Report {A} _.
Arguments Refused {A}.
Arguments Thrown {A}.
Arguments Undefined {A}.

(** util::split for a delimiter of one character, strings.cpp 10-31: empty
    pieces are dropped.  [piece]: what was read since the last delimiter. *)
Fixpoint split (sep : ascii) (piece s : text) : list text :=
  match s with
  | [] => match piece with [] => [] | _ => [piece] end
  | c :: r =>
      if Ascii.eqb c sep
      then match piece with [] => split sep [] r | _ => piece :: split sep [] r end
      else split sep (piece ++ [c]) r
  end.

(** The letters, taco.cpp 747-773 *)
Definition mode_of (c : ascii) : option impl :=
  if Ascii.eqb c "d" then Some Dense
  else if Ascii.eqb c "s" then Some Compressed
  else if Ascii.eqb c "u" then Some (copy Compressed [(Unique, false)])
  else if Ascii.eqb c "z" then Some (copy Compressed [(Zeroless, true)])
  else if Ascii.eqb c "c" then Some (copy Singleton [(Unique, false)])
  else if Ascii.eqb c "q" then Some Singleton
  else if Ascii.eqb c "p" then Some (copy Singleton [(Padded, true)])
  else None.
Fixpoint modes_of (s : text) : option (list impl) :=
  match s with
  | [] => Some []
  | c :: r => match mode_of c, modes_of r with
              | Some m, Some ms => Some (m :: ms)
              | _, _ => None
              end
  end.
(** The loop that groups modes, taco.cpp 788-798.  [i]: the mode, [k]: the
    number of the pack, [cur]: the modes of the pack so far.  [None]: a read
    behind the end of packBounds. *)
Fixpoint group (bounds : list Z) (i k : nat) (cur ms : list impl) : option (list (list impl)) :=
  match ms with
  | [] => Some [cur]
  | m :: ms =>
      match nth_error bounds k with
      | None => None
      | Some b =>
          if Z.eqb (Z.of_nat i) b
          then match group bounds (S i) (S k) [m] ms with
               | None => None
               | Some ps => Some (cur :: ps)
               end
          else group bounds (S i) k (cur ++ [m]) ms
      end
  end.
(** std::stoi of the pieces between commas *)
Definition numbers (s : text) : result (list Z) :=
  match collect_ (map stoi (split "," [] s)) with
  | FOk zs => Ok zs
  | FThrow => Thrown
  | FUndefined => Undefined
  end.
(** The format: packs of modes and the order of modes, which are any ints.  (In
    Formats.v the order of modes is a list of naturals.) *)
Record cli_format := { cli_packs : list (list impl); cli_ordering : list Z }.
(** Format(modeTypePacks, modeOrdering), format.cpp 41-53 *)
Definition format_of (ps : list (list impl)) (o : list Z) : result cli_format :=
  if length (concat ps) =? length o then Ok {| cli_packs := ps; cli_ordering := o |}
  else Refused.
(** taco.cpp 735-805: the value of an option -f *)
Definition format_option (v : text) : result (text * cli_format) :=
  match split ":" [] v with
  | name :: letters :: rest =>
      if 2 <? length rest then Report 4
      else match modes_of letters with
      | None => Report 3
      | Some ms =>
          let o := match rest with
                   | [] => Ok (map Z.of_nat (seq 0 (length ms)))
                   | modes :: _ => numbers modes
                   end in
          match o with
          | Report c => Report c | Refused => Refused | Thrown => Thrown | Undefined => Undefined
          | Ok o =>
              let ps := match rest with
                        | _ :: bounds :: _ =>
                            match numbers bounds with
                            | Ok bs => match group bs 0 0 [] ms with
                                       | Some ps => Ok ps
                                       | None => Undefined
                                       end
                            | Report c => Report c | Refused => Refused
                            | Thrown => Thrown | Undefined => Undefined
                            end
                        | _ => Ok (map (fun m => [m]) ms)
                        end in
              match ps with
              | Report c => Report c | Refused => Refused | Thrown => Thrown | Undefined => Undefined
              | Ok ps =>
                  match format_of ps o with
                  | Ok f => Ok (name, f)
                  | Report c => Report c | Refused => Refused
                  | Thrown => Thrown | Undefined => Undefined
                  end
              end
          end
      end
  | _ => Report 4
  end.
(** taco.cpp 842-852: the value of an option -d.  The pieces are read without a
    check that they exist. *)
Definition dimension_option (v : text) : result (text * list Z) :=
  match split ":" [] v with
  | name :: sizes :: _ =>
      match numbers sizes with
      | Ok zs => Ok (name, zs)
      | Report c => Report c | Refused => Refused | Thrown => Thrown | Undefined => Undefined
      end
  | _ => Undefined
  end.

(** std::map: insert keeps what is there *)
Fixpoint find {A} (n : text) (l : list (text * A)) : option A :=
  match l with
  | [] => None
  | (m, a) :: r => if text_eqb n m then Some a else find n r
  end.
Definition insert {A} (x : text * A) (l : list (text * A)) : list (text * A) :=
  match find (fst x) l with Some _ => l | None => l ++ [x] end.

Record settings := { formats : list (text * cli_format); dimensions : list (text * list Z) }.
(** Leading "--" counts as "-", taco.cpp 713-717 *)
Definition one_dash (arg : text) : text :=
  match arg with
  | a :: b :: r => if Ascii.eqb a "-" && Ascii.eqb b "-" then b :: r else arg
  | _ => arg
  end.
(** One argument, taco.cpp 713-735 and the branches of -f and -d.  All other
    arguments are taken to leave formats and dimensions alone and to be in
    order. *)
Definition argument (st : settings) (arg : text) : result settings :=
  match split "=" [] (one_dash arg) with
  | [] => Undefined
  | name :: rest =>
      if 1 <? length rest then Report 5
      else
        let v := match rest with [v] => v | _ => [] end in
        if text_eqb name ["-"%char; "f"%char]
        then match format_option v with
             | Ok x => Ok {| formats := insert x (formats st); dimensions := dimensions st |}
             | Report c => Report c | Refused => Refused
             | Thrown => Thrown | Undefined => Undefined
             end
        else if text_eqb name ["-"%char; "d"%char]
        then match dimension_option v with
             | Ok x => Ok {| formats := formats st; dimensions := insert x (dimensions st) |}
             | Report c => Report c | Refused => Refused
             | Thrown => Thrown | Undefined => Undefined
             end
        else Ok st
  end.
(** taco.cpp 713-1040 *)
Fixpoint arguments (st : settings) (args : list text) : result settings :=
  match args with
  | [] => Ok st
  | a :: r =>
      match argument st a with
      | Ok st => arguments st r
      | Report c => Report c | Refused => Refused | Thrown => Thrown | Undefined => Undefined
      end
  end.
Definition command_line (args : list text) : result settings :=
  arguments {| formats := []; dimensions := [] |} args.
