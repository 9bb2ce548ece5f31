(** The user-callable Kernel: packing tensor storages into raw tensor structures,
    running a function of the compiled module on them and unpacking the results.
    /repo/src/index_notation/kernel.cpp 20-104, /repo/src/storage/storage.cpp 20-69, 126-182,
    /repo/src/storage/index.cpp 15-46, 84-103, /repo/src/storage/array.cpp 14-35, 94-101.

    Simplified: every array holds integers; an array is owned by one storage only (sharing
    of arrays: StoreMem.v); reading a negative size is undefined (the code converts it
    to size_t); fill values, dimensions and CUDA are left out; the module's functions are
    any functions on the memory and the raw structures. *)
From Coq Require Import List Arith Bool ZArith.
Import ListNotations.
Local Open Scope nat_scope.

(** Blocks of memory by number, array.cpp 14-35; [None]: freed. *)
Definition memory := list (option (list Z)).
(** The block a pointer points to. *)
Definition block (m : memory) (p : option nat) : option (list Z) :=
  match p with
  | Some p => match nth_error m p with Some b => b | None => None end
  | None => None
  end.
(** free, array.cpp 25-34. *)
Fixpoint free (m : memory) (p : nat) : memory :=
  match m, p with
  | [], _ => []
  | _ :: m, O => None :: m
  | b :: m, S p => b :: free m p
  end.

(** Array, array.cpp 14-35, 94-101: data, size and whether the policy is Free. *)
Record arr := Arr { a_data : option nat; a_size : nat; a_free : bool }.
(** The level formats a storage accepts, storage.cpp 45-56. *)
Inductive klevel := KDense | KSparse | KSingleton.
(** indices[i][0] and indices[i][1] of a taco_tensor_t, taco_tensor_t.cpp 51-63. *)
Definition ptrs := (option nat * option nat)%type.
(** A taco_tensor_t: its indices and vals, taco_tensor_t.cpp 33-66. *)
Record raw := Raw { r_indices : list ptrs; r_vals : option nat }.
(** TensorStorage::Content, storage.cpp 20-69. *)
Record sto := Sto { k_levels : list klevel; k_index : list (list arr); k_values : arr; k_raw : raw }.

(** What a call of the API does: returns, reports an error, or is undefined. *)
Inductive outcome (A : Type) := Done (a : A) | Refused | Undefined.
Arguments Done {A}. Arguments Refused {A}. Arguments Undefined {A}.

(** TensorStorage(type, dimensions, format): an index without arrays, storage.cpp 31-69
    and index.cpp 23-26; values that were never set, array.cpp 94-95. *)
Definition new_storage (ls : list klevel) (r : raw) : sto :=
  Sto ls (map (fun _ => []) ls) (Arr None 0 false) r.

(** TensorStorage::operator taco_tensor_t*, storage.cpp 126-173, for one level. *)
Definition pack_level (l : klevel) (arrays : list arr) (old : ptrs) : option ptrs :=
  match l, arrays with
  | KDense, a :: _ => Some (a_data a, snd old)
  | KDense, [] => None
  | KSparse, a :: b :: _ => Some (a_data a, a_data b)
  | KSingleton, a :: b :: _ => Some (fst old, a_data b)
  | _, [] => Some old
  | _, [_] => None
  end.
(** The loop over the levels, storage.cpp 134-167. *)
Fixpoint pack_levels (ls : list klevel) (index : list (list arr)) (old : list ptrs) : option (list ptrs) :=
  match ls, index, old with
  | [], _, _ => Some []
  | l :: ls, arrays :: index, p :: old =>
      match pack_level l arrays p, pack_levels ls index old with
      | Some p, Some ps => Some (p :: ps)
      | _, _ => None
      end
  | _, _, _ => None
  end.
(** The whole conversion, storage.cpp 126-173. *)
Definition pack_storage (s : sto) : option sto :=
  match pack_levels (k_levels s) (k_index s) (r_indices (k_raw s)) with
  | Some ps => Some (Sto (k_levels s) (k_index s) (k_values s) (Raw ps (a_data (k_values s))))
  | None => None
  end.

(** Replace the content a handle refers to (shared_ptr, storage.h 79-81). *)
Fixpoint set_nth {A} (l : list A) (n : nat) (x : A) : list A :=
  match l, n with
  | [], _ => []
  | _ :: l, O => x :: l
  | y :: l, S n => y :: set_nth l n x
  end.

(** packArguments, kernel.cpp 40-48: every argument is a handle. *)
Fixpoint pack_arguments (stos : list sto) (args : list nat) : option (list sto) :=
  match args with
  | [] => Some stos
  | h :: args =>
      match nth_error stos h with
      | Some s => match pack_storage s with
                  | Some s => pack_arguments (set_nth stos h s) args
                  | None => None
                  end
      | None => None
      end
  end.

(** Destroying an array, array.cpp 20-35. *)
Definition destroy (m : memory) (a : arr) : memory :=
  if a_free a then match a_data a with Some p => free m p | None => m end else m.

(** unpackResults for one level, kernel.cpp 60-77: the memory, the arrays of the level
    and the number of positions. *)
Definition unpack_level (m : memory) (l : klevel) (p : ptrs) (num : nat) : outcome (memory * list arr * nat) :=
  match l with
  | KDense =>
      match block m (fst p) with
      | Some (d :: _) =>
          if (d <? 0)%Z then Undefined
          else Done (m ++ [Some [d]], [Arr (Some (length m)) 1 true], num * Z.to_nat d)
      | _ => Undefined
      end
  | KSparse =>
      match block m (fst p) with
      | Some pos =>
          match nth_error pos num with
          | Some size =>
              if (size <? 0)%Z then Undefined
              else Done (m, [Arr (fst p) (num + 1) false; Arr (snd p) (Z.to_nat size) false], Z.to_nat size)
          | None => Undefined
          end
      | None => Undefined
      end
  | KSingleton => Refused
  end.
(** The loop over the levels, kernel.cpp 57-77. *)
Fixpoint unpack_levels (m : memory) (ls : list klevel) (ps : list ptrs) (num : nat)
  : outcome (memory * list (list arr) * nat) :=
  match ls, ps with
  | [], _ => Done (m, [], num)
  | l :: ls, p :: ps =>
      match unpack_level m l p num with
      | Done (m, arrays, num) =>
          match unpack_levels m ls ps num with
          | Done (m, index, num) => Done (m, arrays :: index, num)
          | Refused => Refused
          | Undefined => Undefined
          end
      | Refused => Refused
      | Undefined => Undefined
      end
  | _ :: _, [] => Undefined
  end.
(** One result, kernel.cpp 52-80: setIndex and setValues destroy the old arrays,
    storage.cpp 175-181. *)
Definition unpack_storage (m : memory) (s : sto) : outcome (memory * sto) :=
  match unpack_levels m (k_levels s) (r_indices (k_raw s)) 1 with
  | Done (m, index, num) =>
      let m := fold_left destroy (concat (k_index s)) m in
      let m := destroy m (k_values s) in
      Done (m, Sto (k_levels s) index (Arr (r_vals (k_raw s)) num true) (k_raw s))
  | Refused => Refused
  | Undefined => Undefined
  end.
(** unpackResults, kernel.cpp 50-82. *)
Fixpoint unpack_results (m : memory) (stos : list sto) (results : list nat) : outcome (memory * list sto) :=
  match results with
  | [] => Done (m, stos)
  | h :: results =>
      match nth_error stos h with
      | Some s =>
          match unpack_storage m s with
          | Done (m, s) => unpack_results m (set_nth stos h s) results
          | Refused => Refused
          | Undefined => Undefined
          end
      | None => Undefined
      end
  end.

(** A function of the module: it gets pointers to the raw structures of its arguments and
    may change the memory and the structures (callFuncPacked, kernel.cpp 85, 92, 99). *)
Definition code := list nat -> memory -> list raw -> memory * list raw * Z.
(** Kernel and its content, kernel.cpp 20-38; [None]: default constructed. *)
Record kernel := Kernel { n_results : nat; f_evaluate : code; f_assemble : code; f_compute : code }.

(** Run a function on the packed structures. *)
Definition with_raw (s : sto) (r : raw) : sto := Sto (k_levels s) (k_index s) (k_values s) r.
Fixpoint with_raws (stos : list sto) (rs : list raw) : list sto :=
  match stos, rs with
  | s :: stos, r :: rs => with_raw s r :: with_raws stos rs
  | stos, _ => stos
  end.
Definition run (f : code) (m : memory) (stos : list sto) (args : list nat) : option (memory * list sto * Z) :=
  match pack_arguments stos args with
  | Some stos =>
      let '(m, rs, result) := f args m (map k_raw stos) in Some (m, with_raws stos rs, result)
  | None => None
  end.

(** Kernel::operator() and Kernel::assemble, kernel.cpp 84-96. *)
Definition run_and_unpack (f : code) (n : nat) (m : memory) (stos : list sto) (args : list nat)
  : outcome (memory * list sto * bool) :=
  match run f m stos args with
  | Some (m, stos, result) =>
      if length args <? n then Undefined
      else match unpack_results m stos (firstn n args) with
           | Done (m, stos) => Done (m, stos, (result =? 0)%Z)
           | Refused => Refused
           | Undefined => Undefined
           end
  | None => Undefined
  end.
Definition evaluate (k : option kernel) (m : memory) (stos : list sto) (args : list nat) :=
  match k with Some k => run_and_unpack (f_evaluate k) (n_results k) m stos args | None => Undefined end.
Definition assemble (k : option kernel) (m : memory) (stos : list sto) (args : list nat) :=
  match k with Some k => run_and_unpack (f_assemble k) (n_results k) m stos args | None => Undefined end.
(** Kernel::compute, kernel.cpp 98-102. *)
Definition compute (k : option kernel) (m : memory) (stos : list sto) (args : list nat)
  : outcome (memory * list sto * bool) :=
  match k with
  | Some k =>
      match run (f_compute k) m stos args with
      | Some (m, stos, result) => Done (m, stos, (result =? 0)%Z)
      | None => Undefined
      end
  | None => Undefined
  end.
