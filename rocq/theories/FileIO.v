(** Files of tensors: src/storage/file_io_tns.cpp, file_io_mtx.cpp and file_io_rb.cpp.
    A file is its text.  A component is a list of coordinates with a value; the list of
    components a tensor is written from is the one its iterator visits, and the list that
    is read is the one that is inserted (packing is modelled in Pack.v). *)
From Coq Require Import List ZArith Lia Bool Ascii.
From Verif Require Import Parser.
Import ListNotations.
Local Open Scope nat_scope.

(** Results: a value, an assertion or exception, or undefined behaviour. *)
Inductive fresult (A : Type) := FOk (a : A) | FThrow | FUndefined.
Arguments FOk {A}. Arguments FThrow {A}. Arguments FUndefined {A}.
Definition fbind {A B} (r : fresult A) (k : A -> fresult B) : fresult B :=
  match r with FOk a => k a | FThrow => FThrow | FUndefined => FUndefined end.
Notation "'let?' x := r 'in' k" := (fbind r (fun x => k)) (at level 200, x pattern, r at level 100, k at level 200).

Definition blank : ascii := ascii_of_nat 32.
Definition newline : ascii := ascii_of_nat 10.
Definition int_max : Z := (2 ^ 31 - 1)%Z.

(** *** The C and C++ libraries *)
(** std::getline until it fails *)
Fixpoint lines_from (line s : text) : list text :=
  match s with
  | [] => match line with [] => [] | _ => [line] end
  | c :: r => if Ascii.eqb c newline then line :: lines_from [] r else lines_from (line ++ [c]) r
  end.
Definition lines (s : text) : list text := lines_from [] s.
Fixpoint drop_spaces (s : text) : text :=
  match s with c :: r => if is_space c then drop_spaces r else s | [] => [] end.
Fixpoint span (p : ascii -> bool) (s : text) : text * text :=
  match s with
  | c :: r => if p c then let '(a, b) := span p r in (c :: a, b) else ([], s)
  | [] => ([], [])
  end.
(** [Some (negative, digits, rest)] unless there are no digits *)
Definition number_prefix (s : text) : option (bool * text * text) :=
  let '(negative, r) := match drop_spaces s with
                        | c :: r => if Ascii.eqb c "-" then (true, r) else if Ascii.eqb c "+" then (false, r) else (false, c :: r)
                        | [] => (false, [])
                        end in
  match span is_digit r with ([], _) => None | (ds, rest) => Some (negative, ds, rest) end.
Definition strtol (s : text) : Z * text :=
  match number_prefix s with
  | None => (0%Z, s)
  | Some (negative, ds, rest) =>
      (Z.max (- 2 ^ 63) (Z.min (2 ^ 63 - 1) (if negative then - decimal ds else decimal ds)), rest)
  end.
Definition strtoul (s : text) : Z * text :=
  match number_prefix s with
  | None => (0%Z, s)
  | Some (negative, ds, rest) =>
      let v := Z.min (2 ^ 64 - 1) (decimal ds) in ((if negative then (- v) mod 2 ^ 64 else v)%Z, rest)
  end.
(** while (stream >> word) *)
Fixpoint words_from (word s : text) : list text :=
  match s with
  | [] => match word with [] => [] | _ => [word] end
  | c :: r => if is_space c then match word with [] => words_from [] r | _ => word :: words_from [] r end
              else words_from (word ++ [c]) r
  end.
Definition words (s : text) : list text := words_from [] s.
(** util::split(s, " ") *)
Fixpoint split_blanks (piece s : text) : list text :=
  match s with
  | [] => match piece with [] => [] | _ => [piece] end
  | c :: r => if Ascii.eqb c blank then match piece with [] => split_blanks [] r | _ => piece :: split_blanks [] r end
              else split_blanks (piece ++ [c]) r
  end.
(** Conversion to int *)
Definition to_int (z : Z) : Z := ((z + 2 ^ 31) mod 2 ^ 32 - 2 ^ 31)%Z.

(** stream << value for a double of an integral value that is not negative, with the default
    precision of six digits (file_io_tns.cpp 105-113); simplification: halves are rounded up *)
Fixpoint strip_zeros (s : text) : text :=
  match s with
  | [] => []
  | c :: r => match strip_zeros r with [] => if Ascii.eqb c "0" then [] else [c] | t => c :: t end
  end.
Definition show_g (z : Z) : text :=
  if (z <? 10 ^ 6)%Z then print_Z z
  else
    let e := (Z.of_nat (length (print_Z z)) - 1)%Z in
    let m := ((z + 5 * 10 ^ (e - 6)) / 10 ^ (e - 5))%Z in
    let '(m, e) := if (m =? 10 ^ 6)%Z then ((10 ^ 5)%Z, (e + 1)%Z) else (m, e) in
    match print_Z m with
    | [] => []
    | d :: r =>
        d :: match strip_zeros r with [] => [] | f => "."%char :: f end ++ ["e"; "+"]%char ++
        (if (e <? 10)%Z then ["0"%char] else []) ++ print_Z e
    end.

Section Values.
(** The component type: [show] is operator<<, [scan] is strtod and std::stod. *)
Variable V : Type.
Variable show : V -> text.
Variable scan : text -> V.
Definition component := (list Z * V)%type.

(** *** FROSTT files *)
(** file_io_tns.cpp 102-121 *)
Definition write_line (c : component) : text :=
  concat (map (fun x => print_Z (x + 1) ++ [blank]) (fst c)) ++ show (snd c) ++ [newline].
Definition write_tns (cs : list component) : text := concat (map write_line cs).
(** file_io_tns.cpp 55-62: the coordinates of one line, and the dimensions so far *)
Fixpoint read_coordinates (s : text) (dims : list Z) : fresult (list Z * list Z * text) :=
  match dims with
  | [] => FOk ([], [], s)
  | d :: ds =>
      let '(idx, rest) := strtol s in
      if (int_max <? idx)%Z then FThrow
      else
        let? (xs, es, r) := read_coordinates rest ds in
        FOk ((to_int idx - 1)%Z :: xs, Z.max d (to_int idx) :: es, r)
  end.
(** file_io_tns.cpp 54-68 *)
Fixpoint read_lines (ls : list text) (dims : list Z) : fresult (list component * list Z) :=
  match ls with
  | [] => FOk ([], dims)
  | l :: ls =>
      let? (x, dims', rest) := read_coordinates l dims in
      let? (cs, dims'') := read_lines ls dims' in
      FOk ((x, scan rest) :: cs, dims'')
  end.
(** file_io_tns.cpp 38-88.  [None] is a tensor without dimensions and components. *)
Definition read_tns (file : text) : fresult (option (list Z * list component)) :=
  match lines file with
  | [] => FOk None
  | l :: ls =>
      match split_blanks [] l with
      | [] => FThrow          (* std::vector<int>(SIZE_MAX) *)
      | _ :: toks =>
          let? (cs, dims) := read_lines (l :: ls) (map (fun _ => 0%Z) toks) in
          FOk (Some (dims, cs))
      end
  end.

(** *** MatrixMarket files *)
Definition header_word : text := ["%";"%";"M";"a";"t";"r";"i";"x";"M";"a";"r";"k";"e";"t"]%char.
Definition matrix_word : text := ["m";"a";"t";"r";"i";"x"]%char.
Definition tensor_word : text := ["t";"e";"n";"s";"o";"r"]%char.
Definition coordinate_word : text := ["c";"o";"o";"r";"d";"i";"n";"a";"t";"e"]%char.
Definition array_word : text := ["a";"r";"r";"a";"y"]%char.
Definition real_word : text := ["r";"e";"a";"l"]%char.
Definition general_word : text := ["g";"e";"n";"e";"r";"a";"l"]%char.
Definition symmetric_word : text := ["s";"y";"m";"m";"e";"t";"r";"i";"c"]%char.
(** file_io_mtx.cpp 227-230, 288-291 *)
Definition header (order : nat) (formats symmetry : text) : text :=
  join [blank] [header_word; if order =? 2 then matrix_word else tensor_word; formats; real_word; symmetry].
(** file_io_mtx.cpp 226-240.  [nnz] is getStorage().getIndex().getSize(). *)
Definition write_sparse (dims : list Z) (nnz : Z) (cs : list component) : text :=
  header (length dims) coordinate_word general_word ++ [newline] ++ ["%"%char; newline] ++
  join [blank] (map print_Z dims) ++ [blank] ++ print_Z nnz ++ [newline] ++
  concat (map write_line cs).
(** file_io_mtx.cpp 286-297 *)
Definition write_dense (dims : list Z) (values : list V) : text :=
  header (length dims) array_word general_word ++ [newline] ++ ["%"%char; newline] ++
  join [blank] (map print_Z dims) ++ [blank] ++ [newline] ++
  concat (map (fun v => show v ++ [newline]) values).
(** file_io_mtx.cpp 85-95, 150-160: skip comments.  [token] keeps its value when a line
    has no word; when the lines run out, the line is the last one. *)
Fixpoint skip_comments (token line : text) (rest : list text) : text * list text :=
  let token := match words line with [] => token | t :: _ => t end in
  match token with
  | c :: _ =>
      if Ascii.eqb c "%" then match rest with l :: ls => skip_comments token l ls | [] => (line, []) end
      else (line, rest)
  | [] => (line, rest)
  end.
(** file_io_mtx.cpp 98-103 *)
Fixpoint read_dimensions (fuel : nat) (s : text) : fresult (list Z) :=
  match fuel with
  | O => FOk []
  | S n =>
      let '(d, rest) := strtoul s in
      if (d =? 0)%Z then FOk []
      else if (int_max <? d)%Z then FThrow
      else let? ds := read_dimensions n rest in FOk (d :: ds)
  end.
(** file_io_mtx.cpp 114-122 *)
Fixpoint read_entry (order : nat) (s : text) : fresult (list Z * text) :=
  match order with
  | O => FOk ([], s)
  | S n =>
      let '(idx, rest) := strtol s in
      if (int_max <? idx)%Z then FThrow
      else let? (xs, r) := read_entry n rest in FOk ((to_int idx - 1)%Z :: xs, r)
  end.
Fixpoint read_entries (order : nat) (ls : list text) : fresult (list component) :=
  match ls with
  | [] => FOk []
  | l :: ls => let? (x, rest) := read_entry order l in let? cs := read_entries order ls in FOk ((x, scan rest) :: cs)
  end.
(** file_io_mtx.cpp 140-143 *)
Definition mirror (symm : bool) (c : component) : list component :=
  if symm && negb (hd 0 (fst c) =? last (fst c) 0)%Z then [c; (rev (fst c), snd c)] else [c].
(** file_io_mtx.cpp 81-147.  All coordinates are in one vector: reading past the last
    line reads past it. *)
Definition read_sparse (ls : list text) (symm : bool) : fresult (list Z * list component) :=
  let '(line, rest) := match ls with [] => skip_comments [] [] [] | l :: ls => skip_comments [] l ls end in
  let? ds := read_dimensions (length line) line in
  match rev ds with
  | [] => FUndefined
  | nnz :: rdims =>
      let dims := rev rdims in
      if symm && negb (length dims =? 2) then FThrow
      else
        let? cs := read_entries (length dims) rest in
        if (Z.of_nat (length cs) <? nnz)%Z then FUndefined
        else FOk (dims, flat_map (mirror symm) (firstn (Z.to_nat nnz) cs))
  end.
(** file_io_mtx.cpp 193-199: the coordinates of the n-th value *)
Fixpoint unrank (dims : list Z) (n : Z) : list Z :=
  match dims with
  | [] => []
  | [_] => [n]
  | d :: ds => (n mod d)%Z :: unrank ds (n / d)
  end.
(** file_io_mtx.cpp 156-208 *)
Definition read_dense (ls : list text) (symm : bool) : fresult (list Z * list component) :=
  let '(line, rest) := match ls with [] => skip_comments [] [] [] | l :: ls => skip_comments [] l ls end in
  let? dims := read_dimensions (length line) line in
  if symm && negb (length dims =? 2) then FThrow
  else
    let size := fold_left Z.mul dims 1%Z in
    let values := map scan rest in
    match dims with
    | [] => FUndefined
    | _ =>
        if (int_max <? size)%Z || (Z.of_nat (length values) <? size)%Z then FUndefined
        else
          FOk (dims, flat_map (mirror symm)
                       (combine (map (fun n => unrank dims (Z.of_nat n)) (seq 0 (Z.to_nat size))) values))
    end.
(** file_io_mtx.cpp 36-74 *)
Definition read_mtx (file : text) : fresult (option (list Z * list component)) :=
  match lines file with
  | [] => FOk None
  | l :: ls =>
      let ws := words l in
      let head := nth 0 ws [] in let type := nth 1 ws [] in let formats := nth 2 ws [] in
      let field := nth 3 ws [] in let symmetry := nth 4 ws [] in
      if negb (text_eqb head header_word) || negb (text_eqb type matrix_word || text_eqb type tensor_word) ||
         negb (text_eqb field real_word) || negb (text_eqb symmetry general_word || text_eqb symmetry symmetric_word)
      then FThrow
      else
        let symm := text_eqb symmetry symmetric_word in
        if text_eqb formats coordinate_word then let? t := read_sparse ls symm in FOk (Some t)
        else if text_eqb formats array_word then let? t := read_dense ls symm in FOk (Some t)
        else FThrow
  end.

(** *** Rutherford-Boeing files *)
(** file_io_rb.cpp 98-129: lines that hold n words, k to a line *)
Definition cards (n k : nat) : nat := n / k + (if n mod k =? 0 then 0 else 1).
(** file_io_rb.cpp 260-269, 289-303 *)
Fixpoint write_words (k i : nat) (ws : list text) : text :=
  match ws with
  | [] => if (i - 1) mod k =? 0 then [] else [newline]
  | x :: ws => x ++ [blank] ++ (if i mod k =? 0 then [newline] else []) ++ write_words k (S i) ws
  end.
Record csc := Csc { rows : Z; cols : Z; colptr : list Z; rowidx : list Z; vals : list V }.
(** file_io_rb.cpp 289-303: the text of a value *)
Variable show_rb : V -> text.
Definition rua : text := ["R"; "U"; "A"]%char.
Variable title key ptrfmt indfmt valfmt : text.
(** file_io_rb.cpp 85-135, 226-243, 345-371 *)
Definition write_rb (m : csc) : text :=
  let p := cards (length (colptr m)) 16 in
  let i := cards (length (rowidx m)) 16 in
  let v := cards (length (vals m)) 10 in
  let num n := print_Z (Z.of_nat n) in
  title ++ [blank] ++ key ++ [newline] ++
  join [blank] [num (p + i + v); num p; num i; num v; num 0] ++ [newline] ++
  join [blank] [rua; print_Z (rows m); print_Z (cols m); num (length (vals m)); num 0] ++ [newline] ++
  join [blank] [ptrfmt; indfmt; valfmt; []] ++ [newline] ++
  write_words 16 1 (map (fun x => print_Z (x + 1)) (colptr m)) ++
  write_words 16 1 (map (fun x => print_Z (x + 1)) (rowidx m)) ++
  write_words 10 1 (map show_rb (vals m)).
(** stream >> integer, as often as [n]; simplification: a missing number, which leaves
    the variables as they are, is undefined. *)
Fixpoint read_ints (n : nat) (s : text) : fresult (list Z) :=
  match n with
  | O => FOk []
  | S n =>
      match number_prefix s with
      | None => FUndefined
      | Some (negative, ds, rest) =>
          let z := (if negative then - decimal ds else decimal ds)%Z in
          if (int_max <? z)%Z || (z <? - 2 ^ 31)%Z then FUndefined
          else let? zs := read_ints n rest in FOk (z :: zs)
      end
  end.
(** std::stoi *)
Definition stoi (s : text) : fresult Z :=
  match number_prefix s with
  | None => FThrow
  | Some (negative, ds, _) =>
      let z := (if negative then - decimal ds else decimal ds)%Z in
      if (int_max <? z)%Z || (z <? - 2 ^ 31)%Z then FThrow else FOk z
  end.
Fixpoint collect_ {A} (l : list (fresult A)) : fresult (list A) :=
  match l with [] => FOk [] | r :: l => let? x := r in let? xs := collect_ l in FOk (x :: xs) end.
(** file_io_rb.cpp 245-258, 274-287: the words of the next lines, into an array of the
    given size *)
Definition read_words {A} (f : text -> fresult A) (size : Z) (count : Z) (ls : list text) : fresult (list A * list text) :=
  let n := Z.to_nat count in
  let? xs := collect_ (map f (flat_map words (firstn n ls))) in
  if (size <? Z.of_nat (length xs))%Z then FUndefined else FOk (xs, skipn n ls).
(** file_io_rb.cpp 22-83, 137-224, 312-343 *)
Definition upper (a b : ascii) (c : ascii) : bool := Ascii.eqb c a || Ascii.eqb c b.
Definition read_rb (file : text) : fresult csc :=
  match lines file with
  | _ :: l2 :: l3 :: _ :: ls =>
      let? cards_ := read_ints 5 l2 in
      match words l3 with
      | [] => FThrow
      | mx :: _ =>
          match mx with
          | [a; b; c] =>
              if upper "R" "r" a && upper "U" "u" b && upper "A" "a" c then
                let? nums := read_ints 4 (skipn 3 (drop_spaces l3)) in
                let rows := nth 0 nums 0%Z in let cols := nth 1 nums 0%Z in let nnz := nth 2 nums 0%Z in
                let ls := if (0 <? nth 4 cards_ 0)%Z then tl ls else ls in
                let? (ptr, ls) := read_words (fun s => let? z := stoi s in FOk (z - 1)%Z) (cols + 1) (nth 1 cards_ 0%Z) ls in
                let? (ind, ls) := read_words (fun s => let? z := stoi s in FOk (z - 1)%Z) nnz (nth 2 cards_ 0%Z) ls in
                let? (vs, _) := read_words (fun s => FOk (scan s)) nnz (nth 3 cards_ 0%Z) ls in
                (* the arrays are made of cols + 1 and ptr[cols] elements; simplification: with other
                   numbers of elements in the file the result is undefined *)
                if (Z.of_nat (length ptr) =? cols + 1)%Z && (Z.of_nat (length ind) =? nth (Z.to_nat cols) ptr 0)%Z &&
                   (Z.of_nat (length vs) =? nth (Z.to_nat cols) ptr 0)%Z
                then FOk (Csc rows cols ptr ind vs) else FUndefined
              else FThrow
          | _ => FThrow
          end
      end
  | _ => FUndefined
  end.
End Values.
