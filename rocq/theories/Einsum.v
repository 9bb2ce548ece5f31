(** Einsum strings (include/taco/parser/einsum_parser.h, src/parser/einsum_parser.cpp).
    A tensor is the list of its dimensions; an index variable is the character it is made
    for (buildResult makes one per character). *)
From Coq Require Import List ZArith Bool Ascii Lia.
From Verif Require Import Parser.
Import ListNotations.
Local Open Scope nat_scope.

(** Results: a value, a ParseError, an exception of std::map::at, or undefined behaviour. *)
Inductive eresult (A : Type) := EOk (a : A) | EError | EOutOfRange | EUndefined.
Arguments EOk {A}. Arguments EError {A}. Arguments EOutOfRange {A}. Arguments EUndefined {A}.
Definition ebind {A B} (r : eresult A) (k : A -> eresult B) : eresult B :=
  match r with EOk a => k a | EError => EError | EOutOfRange => EOutOfRange | EUndefined => EUndefined end.
Notation "'let!' x := r 'in' k" := (ebind r (fun x => k)) (at level 200, x pattern, r at level 100, k at level 200).

(** einsum_parser.cpp 17-19: einsumSymbols, einsumPunctuation *)
Definition symbols : text := map ascii_of_nat (seq 97 26 ++ seq 65 26).
Definition punctuation_marks : text := ["."; ","; "-"; ">"]%char.
Definition has (c : ascii) (s : text) : bool := existsb (Ascii.eqb c) s.
Definition space : ascii := ascii_of_nat 32.

(** einsum_parser.cpp 12-35: the constructor *)
Definition construct (expression : text) : eresult text :=
  match expression with
  | [] => EError
  | _ =>
      let subscripts := filter (fun c => negb (Ascii.eqb c space)) expression in
      if forallb (fun c => has c symbols || has c punctuation_marks) subscripts then EOk subscripts else EError
  end.

(** std::sort of characters: insertion sort *)
Fixpoint insert_char (c : ascii) (s : text) : text :=
  match s with
  | [] => [c]
  | d :: r => if nat_of_ascii c <=? nat_of_ascii d then c :: s else d :: insert_char c r
  end.
Definition sort_chars (s : text) : text := fold_right insert_char [] s.
(** einsum_parser.cpp 37-64 *)
Definition find_unique_indices (s : text) : text :=
  let temp := sort_chars (filter (fun c => negb (Ascii.eqb c "." || Ascii.eqb c ",")) s) in
  filter (fun c => count_occ ascii_dec temp c =? 1) temp.

(** einsum_parser.cpp 66-84.  The loop throws at a dash which is followed by something
    else than '>'; one that ends the text is not looked at. *)
Fixpoint dashes_ok (s : text) : bool :=
  match s with
  | c :: ((d :: _) as r) => negb (Ascii.eqb c "-" && negb (Ascii.eqb d ">")) && dashes_ok r
  | _ => true
  end.
Definition expr_has_output (s : text) : eresult bool :=
  if dashes_ok s then
    let dashes := count_occ ascii_dec s "-"%char in
    let gts := count_occ ascii_dec s ">"%char in
    if negb (dashes =? gts) || (1 <? dashes) then EError else EOk (dashes =? 1)
  else EError.

(** s.find("...") *)
Fixpoint find_dots (s : text) : option (text * text) :=
  match s with
  | [] => None
  | c :: r =>
      match s with
      | a :: b :: d :: rest =>
          if Ascii.eqb a "." && Ascii.eqb b "." && Ascii.eqb d "." then Some ([], rest)
          else option_map (fun '(x, y) => (c :: x, y)) (find_dots r)
      | _ => option_map (fun '(x, y) => (c :: x, y)) (find_dots r)
      end
  end.
(** einsum_parser.cpp 87-98 *)
Definition replace_ellipse (inp new_string : text) : text :=
  match find_dots inp with None => inp | Some (x, y) => x ++ new_string ++ y end.

(** einsum_parser.cpp 100-114 *)
Fixpoint split_commas (between s : text) : list text :=
  match s with
  | [] => [between]
  | c :: r => if Ascii.eqb c "," then between :: split_commas [] r else split_commas (between ++ [c]) r
  end.
Definition split_subscript_input (s : text) : list text := split_commas [] s.

(** util/strings.cpp 10-31: util::split with the delimiter "->", which drops empty pieces *)
Definition piece (s : text) : list text := match s with [] => [] | _ => [s] end.
Fixpoint split_arrow (between s : text) : list text :=
  match s with
  | [] => piece between
  | c :: r =>
      match r with
      | d :: r' =>
          if Ascii.eqb c "-" && Ascii.eqb d ">" then piece between ++ split_arrow [] r'
          else split_arrow (between ++ [c]) r
      | [] => split_arrow (between ++ [c]) r
      end
  end.
(** s.find("->") != npos *)
Fixpoint has_arrow (s : text) : bool :=
  match s with
  | c :: ((d :: _) as r) => (Ascii.eqb c "-" && Ascii.eqb d ">") || has_arrow r
  | _ => false
  end.

(** *** buildResult *)
Record einsum := Einsum { e_inputs : list text; e_output : text; e_shape : list nat }.
(** The maps subscriptToIndex and subscriptToShape: the first is the keys *)
Definition shape_of (m : list (ascii * nat)) (c : ascii) : option nat :=
  option_map snd (find (fun p => Ascii.eqb (fst p) c) m).
Definition insert_shape (m : list (ascii * nat)) (c : ascii) (d : nat) : list (ascii * nat) :=
  match shape_of m c with Some _ => m | None => m ++ [(c, d)] end.
(** einsum_parser.cpp 137-149: one input.  Both maps are asked for the position i, as a
    character, instead of the subscript. *)
Fixpoint collect_modes (i : nat) (modes : list (ascii * nat)) (keys : text) (shapes : list (ascii * nat))
    : eresult (text * list (ascii * nat)) :=
  match modes with
  | [] => EOk (keys, shapes)
  | (c, d) :: r =>
      let keys' := if has (ascii_of_nat (i mod 256)) keys then keys else if has c keys then keys else keys ++ [c] in
      match shape_of shapes (ascii_of_nat (i mod 256)) with
      | None => collect_modes (S i) r keys' (insert_shape shapes c d)
      | Some _ =>
          match shape_of shapes c with
          | None => EOutOfRange
          | Some d' => if d' =? d then collect_modes (S i) r keys' shapes else EError
          end
      end
  end.
(** einsum_parser.cpp 129-150.  There are as many subscripts as tensors (281-284). *)
Fixpoint collect (inputs : list text) (tensors : list (list nat)) (keys : text) (shapes : list (ascii * nat))
    : eresult (text * list (ascii * nat)) :=
  match inputs, tensors with
  | s :: ss, dims :: ts =>
      if length s =? length dims then
        let! (keys', shapes') := collect_modes 0 (combine s dims) keys shapes in
        collect ss ts keys' shapes'
      else EError
  | _, _ => EOk (keys, shapes)
  end.
(** einsum_parser.cpp 166-169 *)
Fixpoint output_shape (out : text) (keys : text) (shapes : list (ascii * nat)) : eresult (list nat) :=
  match out with
  | [] => EOk []
  | c :: r =>
      if has c keys then
        match shape_of shapes c with
        | Some d => let! ds := output_shape r keys shapes in EOk (d :: ds)
        | None => EOutOfRange
        end
      else EOutOfRange
  end.
(** einsum_parser.cpp 120-186.  [format] is the order of the format given for the result:
    0 stands for no format.  The expression is the product of the accesses, in order. *)
Definition build_result (input_subs output_subs : text) (tensors : list (list nat)) (format : nat) : eresult einsum :=
  let inputs := split_subscript_input input_subs in
  let! (keys, shapes) := collect inputs tensors [] [] in
  if forallb (fun c => has c keys) (concat inputs) then
    let! shape := output_shape output_subs keys shapes in
    if negb (format =? 0) && negb (format =? length shape) then EError
    else EOk (Einsum inputs output_subs shape)
  else EOutOfRange.

(** *** parse *)
(** std::string(s.end() - n, s.end()) *)
Definition last_chars (n : nat) (s : text) : eresult text :=
  if length s <? n then EUndefined else EOk (skipn (length s - n) s).
(** einsum_parser.cpp 228-252: the subscripts of one tensor, and the number of indices its
    ellipsis stands for *)
Definition expand_input (unused sub : text) (order : nat) : eresult (text * nat) :=
  if has "." sub then
    if negb (count_occ ascii_dec sub "."%char =? 3) || match find_dots sub with None => true | Some _ => false end then EError
    else
      let n := (if 0 <? Z.of_nat order then Z.max (Z.of_nat order) 1 - (Z.of_nat (length sub) - 3) else 0)%Z in
      if (n <? 0)%Z then EError
      else if (n =? 0)%Z then EOk (filter (fun c => negb (Ascii.eqb c ".")) sub, 0)
      else
        let! names := last_chars (Z.to_nat n) unused in
        EOk (replace_ellipse sub names, Z.to_nat n)
  else EOk (sub, 0).
Fixpoint expand_inputs (unused : text) (subs : list text) (tensors : list (list nat)) : eresult (list text * nat) :=
  match subs, tensors with
  | s :: ss, dims :: ts =>
      let! (s', n) := expand_input unused s (length dims) in
      let! (ss', m) := expand_inputs unused ss ts in
      EOk (s' :: ss', Nat.max n m)
  | _, _ => EOk ([], 0)
  end.
(** temp[0] *)
Definition first_piece (l : list text) : eresult text := match l with [] => EUndefined | s :: _ => EOk s end.
(** temp.size() == 2 ? temp[1] : old *)
Definition second_piece (l : list text) (old : text) : text := match l with [_; s] => s | _ => old end.
Definition arrow : text := ["-"; ">"]%char.

(** einsum_parser.cpp 189-289 *)
Definition parse_subscripts (subscripts : text) (tensors : list (list nat)) (format : nat) : eresult einsum :=
  let! has_output := expr_has_output subscripts in
  let! (inputs, output) :=
    (if has_output then
       let temp := split_arrow [] subscripts in
       let! t := first_piece temp in
       EOk (split_subscript_input t, second_piece temp [])
     else EOk (split_subscript_input subscripts, [])) in
  if negb (length inputs =? length tensors) then EError
  else
    let! subscripts' :=
      (if has "." subscripts then
         let used := filter (fun c => negb (has c punctuation_marks)) subscripts in
         let unused := filter (fun c => negb (has c used)) symbols in
         let! (inputs', longest) := expand_inputs unused inputs tensors in
         let joined := join [","%char] inputs' in
         let! out_ellipse := (if 0 <? longest then last_chars longest unused else EOk []) in
         if has_output then EOk (joined ++ arrow ++ replace_ellipse output out_ellipse)
         else
           let normal := filter (fun c => negb (has c out_ellipse)) (find_unique_indices joined) in
           EOk (joined ++ arrow ++ out_ellipse ++ sort_chars normal)
       else EOk subscripts) in
    let! (input_subs, output_subs) :=
      (if has_arrow subscripts' then
         let temp := split_arrow [] subscripts' in
         let! t := first_piece temp in
         EOk (t, second_piece temp output)
       else EOk (subscripts', find_unique_indices subscripts')) in
    if negb (forallb (fun c => has c input_subs) output_subs) then EError
    else if negb (length (split_subscript_input input_subs) =? length tensors) then EError
    else build_result input_subs output_subs tensors format.
Definition parse_einsum (expression : text) (tensors : list (list nat)) (format : nat) : eresult einsum :=
  let! subscripts := construct expression in
  parse_subscripts subscripts tensors format.
