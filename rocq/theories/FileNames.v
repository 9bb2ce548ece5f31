(** Reading and writing tensors by file name: src/tensor.cpp 1254-1371, the functions that
    open files in src/storage/file_io_tns.cpp, file_io_mtx.cpp and file_io_rb.cpp, and
    src/util/files.cpp.  What the files hold is in FileIO.v. *)
From Coq Require Import List ZArith Bool Ascii.
From Verif Require Import Parser FileIO.
Import ListNotations.
Local Open Scope nat_scope.

(** include/taco/tensor.h: enum class FileType *)
Inductive file_type := Ttx | Tns | Mtx | Rb.

(** The text after the last [c]: find_last_of *)
Fixpoint after_last (c : ascii) (s : text) : option text :=
  match s with
  | [] => None
  | x :: r => match after_last c r with
              | Some t => Some t
              | None => if Ascii.eqb x c then Some r else None
              end
  end.
(** s.substr(s.find_last_of(c) + 1): when there is no [c], npos + 1 is 0 *)
Definition from_last (c : ascii) (s : text) : text :=
  match after_last c s with Some t => t | None => s end.
(** tensor.cpp 1254-1256 *)
Definition extension (filename : text) : text := from_last "." filename.
(** tensor.cpp 1281-1295, 1342-1361: the type of an extension *)
Definition type_of (e : text) : option file_type :=
  if text_eqb e ["t"; "t"; "x"]%char then Some Ttx
  else if text_eqb e ["t"; "n"; "s"]%char then Some Tns
  else if text_eqb e ["m"; "t"; "x"]%char then Some Mtx
  else if text_eqb e ["r"; "b"]%char then Some Rb
  else None.
(** tensor.cpp 1297-1299 *)
Definition tensor_name (filename : text) : text :=
  let name := from_last "/" filename in
  let name := fst (span (fun c => negb (Ascii.eqb c ".")) name) in
  map (fun c => if Ascii.eqb c "-" then "_"%char else c) name.

(** The files: what each path holds, and which paths can be opened for writing *)
Record files := Files { holds : text -> option text; may_write : text -> bool }.
Definition set_file (fs : files) (path : text) (t : text) : files :=
  Files (fun p => if text_eqb p path then Some t else holds fs p) (may_write fs).

(** files.cpp 14-20: std::getenv returns null when HOME is not set *)
Definition sanitize (home : option text) (path : text) : fresult text :=
  match path with
  | c :: r => if Ascii.eqb c "~" then match home with Some h => FOk (h ++ r) | None => FUndefined end
              else FOk path
  | [] => FOk path
  end.

Section Values.
Variable V : Type.
Variable show : V -> text.
Variable scan : text -> V.
(** The text of values in .rb files, and the parts of their header that are not read *)
Variable show_rb : V -> text.
Variable title key ptrfmt indfmt valfmt : text.

(** A tensor to write: its dimensions, the components it iterates over, the size of its
    index, whether all modes are dense, and its arrays when its format is CSC. *)
Record source := Source {
  dims : list Z; comps : list (component V); size : Z; dense : bool; columns : option (csc V) }.
(** A tensor that was read: a scalar (of an empty file), components to insert, or the arrays
    of a CSC matrix. *)
Inductive contents := Nothing | Components (d : list Z) (cs : list (component V)) | Columns (m : csc V).

(** file_io_mtx.cpp 240-245 *)
Definition mtx_text (t : source) : text :=
  if dense t then write_dense V show (dims t) (map snd (comps t))
  else write_sparse V show (dims t) (size t) (comps t).
(** What the writers put in the open stream: file_io_tns.cpp 124-146, file_io_mtx.cpp 240-245,
    file_io_rb.cpp 363-389 *)
Definition stream_text (k : file_type) (t : source) : fresult text :=
  match k with
  | Ttx | Mtx => FOk (mtx_text t)
  | Tns => FOk (write_tns V show (comps t))
  | Rb => match columns t with
          | Some m => FOk (write_rb V show_rb title key ptrfmt indfmt valfmt m)
          | None => FThrow
          end
  end.
(** files.cpp 22-25 and file_io_tns.cpp 95-100, file_io_mtx.cpp 233-238, file_io_rb.cpp 357-360:
    opening a file for writing empties it.  The path is what the caller gave.  The files after
    the call come with its outcome. *)
Definition write_open (home : option text) (fs : files) (k : file_type) (path : text) (t : source) : files * fresult unit :=
  match sanitize home path with
  | FOk p =>
      if may_write fs p then
        match stream_text k t with
        | FOk s => (set_file fs p s, FOk tt)
        | FThrow => (set_file fs p [], FThrow)
        | FUndefined => (set_file fs p [], FUndefined)
        end
      else (fs, FThrow)
  | FThrow => (fs, FThrow)
  | FUndefined => (fs, FUndefined)
  end.
(** tensor.cpp 1325-1338, 1363-1365 and file_io_rb.cpp 352-355.  [asserts]: whether internal
    assertions are compiled in. *)
Definition write_as (asserts : bool) (home : option text) (fs : files) (k : file_type) (path : text) (t : source) : files * fresult unit :=
  match k with
  | Rb => if asserts && negb (length (dims t) =? 2) then (fs, FThrow) else write_open home fs k path t
  | _ => write_open home fs k path t
  end.
(** tensor.cpp 1340-1361 *)
Definition write_named (asserts : bool) (home : option text) (fs : files) (path : text) (t : source) : files * fresult unit :=
  match type_of (extension path) with
  | None => (fs, FThrow)
  | Some Mtx => if asserts && negb (length (dims t) =? 2) then (fs, FThrow) else write_as asserts home fs Mtx path t
  | Some k => write_as asserts home fs k path t
  end.

Definition of_components (r : option (list Z * list (component V))) : contents :=
  match r with None => Nothing | Some (d, cs) => Components d cs end.
(** The format that is asked for: one mode format for all modes, or a format, which may be CSC. *)
Inductive wanted := AllModes | TheFormat (csc : bool).
(** tensor.cpp 1258-1275, file_io_tns.cpp 38-88, file_io_mtx.cpp 36-74, file_io_rb.cpp 319-350 *)
Definition read_stream (k : file_type) (w : wanted) (s : text) : fresult contents :=
  match k with
  | Ttx | Mtx => let? r := read_mtx V scan s in FOk (of_components r)
  | Tns => let? r := read_tns V scan s in FOk (of_components r)
  | Rb => match w with
          | AllModes => FThrow
          | TheFormat c => let? m := read_rb V scan s in if c then FOk (Columns m) else FThrow
          end
  end.
(** files.cpp 22-25 and file_io_tns.cpp 21-28, file_io_mtx.cpp 20-27, file_io_rb.cpp 305-317 *)
Definition read_as (home : option text) (fs : files) (k : file_type) (w : wanted) (path : text) : fresult contents :=
  match k, w with
  | Rb, AllModes => FThrow
  | _, _ =>
      let? p := sanitize home path in
      match holds fs p with Some s => read_stream k w s | None => FThrow end
  end.
(** tensor.cpp 1277-1303: the name that is given to the tensor, and the tensor *)
Definition read_named (home : option text) (fs : files) (w : wanted) (path : text) : fresult (text * contents) :=
  match type_of (extension path) with
  | None => FThrow
  | Some k => let? t := read_as home fs k w path in FOk (tensor_name path, t)
  end.
End Values.
