(** The memory of tensors: who owns the arrays that kernels allocate and that users
    hand over, when they are freed and who still points to them.
    /repo/src/storage/array.cpp 14-92, 212-219 (arrays and their policies),
    /repo/src/storage/storage.cpp 126-182 (taco_tensor_t of a storage),
    /repo/src/tensor.cpp 112-147, 263-292, 295-463, 465-470, 521-545, 644-674,
    776-852, and the allocations of
    /repo/src/lower/lowerer_impl_imperative.cpp 399-408, 3055-3202.

    Simplified: dependent tensors (DelayedEval.v); expressions that read the tensor they are assigned to; contents of arrays, dimensions and values; a block of memory is its
    number; a deleted block is a freed one (policy Delete); the memory of the
    taco_tensor_t structures themselves, of coordinate buffers and of fill values;
    CUDA. *)
From Coq Require Import List Arith Bool.
Import ListNotations.
Local Open Scope nat_scope.

(** What an Array points to (array.cpp 14-92): the data, [None] if it was never
    set, whether the policy is Free, and whether the content was destroyed. *)
Record cell := Cell { c_ptr : option nat; c_owns : bool; c_dead : bool }.
(** [next]: blocks below were allocated. [freed]: in the order they were freed. *)
Record mem := Mem { next : nat; freed : list nat; cells : list cell }.

(** malloc, and Array(type, data, size, policy), array.cpp 94-101. *)
Definition malloc (m : mem) : mem * nat := (Mem (S (next m)) (freed m) (cells m), next m).
Definition new_cell (m : mem) (p : option nat) (owns : bool) : mem * nat :=
  (Mem (next m) (freed m) (cells m ++ [Cell p owns false]), length (cells m)).
(** Helpers: is a block freed? *)
Definition is_freed (m : mem) (b : nat) : bool := existsb (Nat.eqb b) (freed m).
(** Memory that may be accessed. *)
Definition alive (m : mem) (p : option nat) : bool :=
  match p with Some b => (b <? next m) && negb (is_freed m b) | None => false end.
(** getData of an array; [None]: its content does not exist. *)
Definition data (m : mem) (c : nat) : option (option nat) :=
  match nth_error (cells m) c with
  | Some x => if c_dead x then None else Some (c_ptr x)
  | None => None
  end.
(** makeArray(type, size), array.cpp 212-219. *)
Definition makeArray (m : mem) : mem * nat := let (m, b) := malloc m in new_cell m (Some b) true.
(** ~Content, array.cpp 20-90. *)
Definition destroy (m : mem) (c : nat) : mem :=
  match nth_error (cells m) c with
  | Some x =>
      let cs := firstn c (cells m) ++ Cell (c_ptr x) (c_owns x) true :: skipn (S c) (cells m) in
      match c_owns x, c_ptr x with
      | true, Some b => Mem (next m) (freed m ++ [b]) cs
      | _, _ => Mem (next m) (freed m) cs
      end
  | None => m
  end.

Inductive level := Dense | Compressed | Singleton.
Definition pointers := (option nat * option nat)%type.
(** TensorStorage::Content: the format, the arrays of each level, the values, and the
    pointers of its taco_tensor_t (storage.cpp 20-60). *)
Record storage := Sto {
  s_format : list level;
  s_index : list (list nat);
  s_values : nat;
  s_indices : list pointers;
  s_vals : option nat
}.

(** TensorStorage::operator taco_tensor_t*, storage.cpp 126-173.  [None]: undefined
    behaviour. *)
Definition convert_level (m : mem) (l : level) (arrays : list nat) (old : pointers) : option pointers :=
  match l, arrays with
  | Dense, a :: _ => match data m a with Some p => Some (p, snd old) | None => None end
  | Dense, [] => None
  | Compressed, a :: b :: _ =>
      match data m a, data m b with Some p, Some q => Some (p, q) | _, _ => None end
  | Singleton, a :: b :: _ => match data m b with Some q => Some (fst old, q) | None => None end
  | _, [] => Some old
  | _, [_] => None
  end.
Fixpoint convert_levels (m : mem) (ls : list level) (index : list (list nat)) (old : list pointers)
  : option (list pointers) :=
  match ls, index, old with
  | [], _, _ => Some []
  | l :: ls, arrays :: index, p :: old =>
      match convert_level m l arrays p, convert_levels m ls index old with
      | Some p, Some ps => Some (p :: ps)
      | _, _ => None
      end
  | _, _, _ => None
  end.
Definition convert (m : mem) (s : storage) : option storage :=
  match convert_levels m (s_format s) (s_index s) (s_indices s), data m (s_values s) with
  | Some ps, Some v => Some (Sto (s_format s) (s_index s) (s_values s) ps v)
  | _, _ => None
  end.

(** The memory of a tensor a kernel reads or writes in place. *)
Definition level_ok (m : mem) (l : level) (p : pointers) : bool :=
  match l with
  | Dense => true
  | Compressed => alive m (fst p) && alive m (snd p)
  | Singleton => alive m (snd p)
  end.
Fixpoint levels_ok (m : mem) (ls : list level) (ps : list pointers) : bool :=
  match ls, ps with
  | [], _ => true
  | l :: ls, p :: ps => level_ok m l p && levels_ok m ls ps
  | _, _ => false
  end.
Definition accessible (m : mem) (s : storage) : bool := levels_ok m (s_format s) (s_indices s) && alive m (s_vals s).

(** What a kernel that assembles stores in the taco_tensor_t of the result: new
    arrays for compressed and singleton levels, and new values
    (lowerer_impl_imperative.cpp 399-408, 3055-3202). *)
Definition assemble_level (m : mem) (l : level) (p : pointers) : mem * pointers :=
  match l with
  | Dense => (m, p)
  | Compressed => let (m, a) := malloc m in let (m, b) := malloc m in (m, (Some a, Some b))
  | Singleton => let (m, b) := malloc m in (m, (fst p, Some b))
  end.
Fixpoint assemble_levels (m : mem) (ls : list level) (ps : list pointers) : mem * list pointers :=
  match ls, ps with
  | l :: ls, p :: ps =>
      let (m, p) := assemble_level m l p in
      let (m, ps) := assemble_levels m ls ps in
      (m, p :: ps)
  | _, _ => (m, [])
  end.
Definition kernel_assembles (m : mem) (s : storage) : mem * storage :=
  let (m, ps) := assemble_levels m (s_format s) (s_indices s) in
  let (m, v) := malloc m in
  (m, Sto (s_format s) (s_index s) (s_values s) ps (Some v)).

(** unpackTensorData, tensor.cpp 263-292. *)
Definition unpack_level (m : mem) (l : level) (p : pointers) : option (mem * list nat) :=
  match l with
  | Dense => if alive m (fst p) then let (m, c) := makeArray m in Some (m, [c]) else None
  | Compressed =>
      if alive m (fst p) then
        let (m, a) := new_cell m (fst p) false in
        let (m, b) := new_cell m (snd p) false in
        Some (m, [a; b])
      else None
  | Singleton =>
      let (m, b) := new_cell m (snd p) false in
      let (m, a) := makeArray m in
      Some (m, [a; b])
  end.
Fixpoint unpack_levels (m : mem) (ls : list level) (ps : list pointers) : option (mem * list (list nat)) :=
  match ls, ps with
  | [], _ => Some (m, [])
  | l :: ls, p :: ps =>
      match unpack_level m l p with
      | Some (m, arrays) =>
          match unpack_levels m ls ps with Some (m, index) => Some (m, arrays :: index) | None => None end
      | None => None
      end
  | _, _ => None
  end.
Definition unpack (m : mem) (s : storage) : option (mem * storage) :=
  match unpack_levels m (s_format s) (s_indices s) with
  | Some (m, index) =>
      let (m, v) := new_cell m (s_vals s) true in
      Some (m, Sto (s_format s) index v (s_indices s) (s_vals s))
  | None => None
  end.

(** TensorBase::Content, tensor.h 892-925.  [t_kernel]: the compute function of the module allocates
    the result.  [t_handle]: the user still has the tensor. *)
Record tensor := Ten {
  t_sto : nat;
  t_neverPacked : bool; t_needsPack : bool;
  t_needsCompile : bool; t_needsAssemble : bool; t_needsCompute : bool;
  t_awc : bool; t_kernel : bool;
  t_operands : list nat;
  t_handle : bool; t_dead : bool
}.
Record state := St {
  memory : mem; stos : list storage; tens : list tensor;
  held : list nat;              (* arrays the user holds *)
  lent : list nat;              (* blocks the user owns *)
  computed : list nat           (* values arrays allocated by kernels and unpacked or not *)
}.
(** Nothing exists yet. *)
Definition init : state := St (Mem 0 [] []) [] [] [] [] [].

(** Helpers to look up and update tensors and storages. *)
Fixpoint set_nth {A} (l : list A) (k : nat) (a : A) : list A :=
  match l, k with [], _ => [] | _ :: l, 0 => a :: l | b :: l, S k => b :: set_nth l k a end.

Inductive event :=
| New (format : list level)
| Insert (t : nat)
| Assign (t : nat) (operands : list nat) (changed : bool)  (* changed: not the assignment it had *)
| SetAWC (t : nat) (b : bool)                 (* setAssembleWhileCompute *)
| Compile (t : nat) (allocates : bool)        (* the module that is found or made *)
| Pack (t : nat) | Assemble (t : nat) | Compute (t : nat) | Read (t : nat)
| SetStorage (t u : nat)                      (* t.setStorage(u.getStorage()) *)
| Alloc                                       (* the user allocates an array *)
| Supply (t : nat) (index : list (option nat * option nat)) (values : option nat)
                                              (* makeCSR, makeCSC, readRB: user's arrays or new ones *)
| Hold (t : nat)                              (* the user keeps the values array *)
| Release (c : nat)                           (* and gives it up *)
| Drop (t : nat)                              (* the last handle on a tensor *)
| DestroyTensor (t : nat) | DestroyArray (c : nat).

Definition get_tensor (s : state) (t : nat) : option tensor :=
  match nth_error (tens s) t with Some x => if t_dead x then None else Some x | None => None end.
Definition get_sto (s : state) (x : tensor) : option storage := nth_error (stos s) (t_sto x).
Definition with_tensor (s : state) (t : nat) (x : tensor) : state :=
  St (memory s) (stos s) (set_nth (tens s) t x) (held s) (lent s) (computed s).
Definition with_sto (s : state) (m : mem) (k : nat) (d : storage) (c : list nat) : state :=
  St m (set_nth (stos s) k d) (tens s) (held s) (lent s) (computed s ++ c).

Definition flags (x : tensor) (np pk cl asm cp : bool) : tensor :=
  Ten (t_sto x) np pk cl asm cp (t_awc x) (t_kernel x) (t_operands x) (t_handle x) (t_dead x).

(** The operands were synchronised (syncValues, tensor.cpp 687-695) before the
    kernel is called; [None]: a kernel would access memory it must not. *)
Definition synced (s : state) (u : nat) : bool :=
  match get_tensor s u with Some y => negb (t_needsPack y) && negb (t_needsCompute y) | None => true end.
Definition readable (s : state) (u : nat) : bool :=
  match get_tensor s u with
  | Some y =>
      match get_sto s y with
      | Some d => match convert (memory s) d with Some d => accessible (memory s) d | None => false end
      | None => false
      end
  | None => false
  end.

(** Is an array content referenced: by the user, or by the storage of a tensor that
    exists (the shared_ptr of array.h 49)? *)
Definition in_sto (d : storage) (c : nat) : bool :=
  (s_values d =? c) || existsb (existsb (Nat.eqb c)) (s_index d).
Definition referenced (s : state) (c : nat) : bool :=
  existsb (Nat.eqb c) (held s) ||
  existsb (fun x => negb (t_dead x) && match get_sto s x with Some d => in_sto d c | None => false end) (tens s).

(** An array the user hands over: memory of the user (UserOwns), or [None]: memory
    that is freed with the array (Free). *)
Definition supply_array (m : mem) (given : option nat) : mem * nat :=
  match given with Some b => new_cell m (Some b) false | None => makeArray m end.
(** makeCSRIndex and makeCSCIndex, index.cpp 109-129, for any format. *)
Definition supply_level (m : mem) (l : level) (given : option nat * option nat) : mem * list nat :=
  match l with
  | Dense => let (m, c) := makeArray m in (m, [c])
  | _ => let (m, a) := supply_array m (fst given) in let (m, b) := supply_array m (snd given) in (m, [a; b])
  end.
Fixpoint supply_levels (m : mem) (ls : list level) (given : list (option nat * option nat)) : mem * list (list nat) :=
  match ls with
  | [] => (m, [])
  | l :: ls =>
      let (m, arrays) := supply_level m l (hd (None, None) given) in
      let (m, index) := supply_levels m ls (tl given) in
      (m, arrays :: index)
  end.
(** Only arrays the user allocated are handed over as the user's. *)
Definition is_lent (s : state) (p : option nat) : bool :=
  match p with Some b => existsb (Nat.eqb b) (lent s) | None => true end.

(** tensor.cpp 112-147: dense levels have an array, other levels and the values have
    none. *)
Fixpoint new_levels (m : mem) (ls : list level) : mem * list (list nat) :=
  match ls with
  | [] => (m, [])
  | l :: ls =>
      let '(m, arrays) := match l with Dense => let (m, c) := makeArray m in (m, [c]) | _ => (m, []) end in
      let (m, index) := new_levels m ls in
      (m, arrays :: index)
  end.

(** One step; [None]: memory that is not there is accessed.  A call that is not
    possible (the tensor is gone, or compute is called without compile) or that has
    nothing to do leaves the state alone. *)
Definition exec (e : event) (s : state) : option state :=
  match e with
  | New ls =>                                                    (* tensor.cpp 112-147 *)
      let (m, index) := new_levels (memory s) ls in
      let (m, v) := new_cell m None false in
      Some (St m (stos s ++ [Sto ls index v (map (fun _ => (None, None)) ls) None])
              (tens s ++ [Ten (length (stos s)) true true false false false false false [] true false])
              (held s) (lent s) (computed s))
  | Insert t =>                                                  (* tensor.h 938-960 *)
      match get_tensor s t with
      | Some x => Some (with_tensor s t (flags x (t_neverPacked x) true (t_needsCompile x) (t_needsAssemble x) (t_needsCompute x)))
      | None => Some s
      end
  | Assign t ops changed =>                                              (* tensor.cpp 521-545 *)
      match get_tensor s t with
      | Some x =>
          if forallb (fun u => negb (u =? t) && match get_tensor s u with Some _ => true | None => false end) ops then
            Some (with_tensor s t (Ten (t_sto x) (t_neverPacked x) false (t_needsCompile x || changed) true true (t_awc x) (t_kernel x) ops (t_handle x) false))
          else Some s
      | None => Some s
      end
  | SetAWC t b =>                                                (* tensor.cpp 248-250 *)
      match get_tensor s t with
      | Some x => Some (with_tensor s t (Ten (t_sto x) (t_neverPacked x) (t_needsPack x) (t_needsCompile x) (t_needsAssemble x)
                                             (t_needsCompute x) b (t_kernel x) (t_operands x) (t_handle x) false))
      | None => Some s
      end
  | Compile t a =>                                               (* 644-674 *)
      match get_tensor s t with
      | Some x =>
          if t_needsCompile x then
            Some (with_tensor s t (Ten (t_sto x) (t_neverPacked x) (t_needsPack x) false (t_needsAssemble x)
                                       (t_needsCompute x) (t_awc x) a (t_operands x) (t_handle x) false))
          else Some s
      | None => Some s
      end
  | Pack t =>                                                    (* 295-463 *)
      match get_tensor s t with
      | Some x =>
          if t_needsPack x then
            if negb (t_neverPacked x) && negb (readable s t) then None else
            match get_sto s x with
            | Some d =>
                match convert (memory s) d with
                | Some d =>
                    let (m, d) := kernel_assembles (memory s) d in
                    match unpack m d with
                    | Some (m, d') =>
                        Some (with_tensor (with_sto s m (t_sto x) d' (match s_vals d with Some v => [v] | None => [] end))
                                t (flags x false false (t_needsCompile x) (t_needsAssemble x) (t_needsCompute x)))
                    | None => None
                    end
                | None => None
                end
            | None => None
            end
          else Some s
      | None => Some s
      end
  | Assemble t =>                                                (* 808-827 *)
      match get_tensor s t with
      | Some x =>
          if negb (t_needsCompile x) && t_needsAssemble x && forallb (synced s) (t_operands x) then
            if negb (forallb (readable s) (t_operands x)) then None else
            match get_sto s x with
            | Some d =>
                match convert (memory s) d with
                | Some d =>
                    let (m, d) := kernel_assembles (memory s) d in
                    let c := match s_vals d with Some v => [v] | None => [] end in
                    if t_awc x then Some (with_sto s m (t_sto x) d c)
                    else
                      match unpack m d with
                      | Some (m, d) =>
                          Some (with_tensor (with_sto s m (t_sto x) d c)
                                  t (flags x (t_neverPacked x) (t_needsPack x) false false (t_needsCompute x)))
                      | None => None
                      end
                | None => None
                end
            | None => None
            end
          else Some s
      | None => Some s
      end
  | Compute t =>                                                 (* 829-852 *)
      match get_tensor s t with
      | Some x =>
          if negb (t_needsCompile x) && t_needsCompute x && forallb (synced s) (t_operands x) then
            if negb (forallb (readable s) (t_operands x)) then None else
            match get_sto s x with
            | Some d =>
                match convert (memory s) d with
                | Some d =>
                    if negb (t_kernel x) && negb (accessible (memory s) d) then None else
                    let '(m, d, c) := if t_kernel x then let (m, d) := kernel_assembles (memory s) d in
                                                       (m, d, match s_vals d with Some v => [v] | None => [] end)
                                      else (memory s, d, []) in
                    if t_awc x then
                      match unpack m d with
                      | Some (m, d) =>
                          Some (with_tensor (with_sto s m (t_sto x) d c)
                                  t (flags x (t_neverPacked x) (t_needsPack x) false false false))
                      | None => None
                      end
                    else Some (with_tensor (with_sto s m (t_sto x) d c)
                                 t (flags x (t_neverPacked x) (t_needsPack x) false (t_needsAssemble x) false))
                | None => None
                end
            | None => None
            end
          else Some s
      | None => Some s
      end
  | Read t =>
      match get_tensor s t with
      | Some _ => if synced s t then (if readable s t then Some s else None) else Some s
      | None => Some s
      end
  | SetStorage t u =>                                            (* 465-470 *)
      match get_tensor s t, get_tensor s u with
      | Some x, Some y =>
          Some (with_tensor s t (Ten (t_sto y) (t_neverPacked x) false (t_needsCompile x) (t_needsAssemble x) (t_needsCompute x)
                                     (t_awc x) (t_kernel x) (t_operands x) (t_handle x) false))
      | _, _ => Some s
      end
  | Alloc => let (m, b) := malloc (memory s) in
             Some (St m (stos s) (tens s) (held s) (lent s ++ [b]) (computed s))
  | Supply t given values =>      (* tensor.h 775-800, index.cpp 109-129, file_io_rb.cpp 336-345 *)
      match get_tensor s t with
      | Some x =>
          if forallb (fun g => is_lent s (fst g) && is_lent s (snd g)) given && is_lent s values then
            match get_sto s x with
            | Some d =>
                let (m, index) := supply_levels (memory s) (s_format d) given in
                let (m, v) := supply_array m values in
                Some (with_tensor (with_sto s m (t_sto x) (Sto (s_format d) index v (s_indices d) (s_vals d)) [])
                        t (flags x (t_neverPacked x) false (t_needsCompile x) (t_needsAssemble x) (t_needsCompute x)))
            | None => None
            end
          else Some s
      | None => Some s
      end
  | Hold t =>
      match get_tensor s t with
      | Some x => match get_sto s x with
                  | Some d => Some (St (memory s) (stos s) (tens s) (s_values d :: held s) (lent s) (computed s))
                  | None => None
                  end
      | None => Some s
      end
  | Release c => Some (St (memory s) (stos s) (tens s) (filter (fun d => negb (d =? c)) (held s)) (lent s) (computed s))
  | Drop t =>
      match get_tensor s t with
      | Some x => Some (with_tensor s t (Ten (t_sto x) (t_neverPacked x) (t_needsPack x) (t_needsCompile x) (t_needsAssemble x)
                                             (t_needsCompute x) (t_awc x) (t_kernel x) (t_operands x) false false))
      | None => Some s
      end
  | DestroyTensor t =>          (* no handle, and in no expression of a tensor that exists *)
      match get_tensor s t with
      | Some x =>
          if t_handle x || existsb (fun y => negb (t_dead y) && existsb (Nat.eqb t) (t_operands y)) (tens s) then Some s
          else Some (with_tensor s t (Ten (t_sto x) (t_neverPacked x) (t_needsPack x) (t_needsCompile x) (t_needsAssemble x)
                                          (t_needsCompute x) (t_awc x) (t_kernel x) (t_operands x) false true))
      | None => Some s
      end
  | DestroyArray c =>           (* the last Array that shares the content is gone *)
      match data (memory s) c with
      | Some _ => if referenced s c then Some s
                  else Some (St (destroy (memory s) c) (stos s) (tens s) (held s) (lent s) (computed s))
      | None => Some s
      end
  end.

(** A history of calls. *)
Fixpoint run (es : list event) (s : state) : option state :=
  match es with
  | [] => Some s
  | e :: es => match exec e s with Some s => run es s | None => None end
  end.
