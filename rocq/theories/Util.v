(** Models of /repo/include/taco/util: intrusive pointers, scoped maps, and the
    name generator of /repo/src/util/name_generator.cpp. *)
From Coq Require Import List Arith Bool String Ascii DecimalString.
Import ListNotations.

(** ** Names: name_generator.cpp 31-49 *)
(** [std::to_string] of a counter. *)
Definition dec (n : nat) : string := NilEmpty.string_of_uint (Nat.to_uint n).

(** [nameCounters], name_generator.h 24 (std::map as an association list with
    one entry per name). *)
Definition counters := list (string * nat).
Fixpoint counter (name : string) (c : counters) : option nat :=
  match c with
  | [] => None
  | (n, k) :: c => if string_dec n name then Some k else counter name c
  end.
Fixpoint set_counter (name : string) (k : nat) (c : counters) : counters :=
  match c with
  | [] => [(name, k)]
  | (n, j) :: c => if string_dec n name then (n, k) :: c else (n, j) :: set_counter name k c
  end.

(** NameGenerator(reserved), 34-38: map::insert keeps an existing entry. *)
Definition reserve (c : counters) (name : string) : counters :=
  match counter name c with Some _ => c | None => set_counter name 0 c end.
Definition new_generator (reserved : list string) : counters := fold_left reserve reserved [].

(** getUniqueName, 40-49. *)
Definition get_unique_name (c : counters) (name : string) : string * counters :=
  match counter name c with
  | Some k => (name ++ dec k, set_counter name (S k) c)%string
  | None => (name, set_counter name 0 c)
  end.

Fixpoint unique_names (c : counters) (reqs : list string) : list string :=
  match reqs with
  | [] => []
  | r :: reqs => let (n, c') := get_unique_name c r in n :: unique_names c' reqs
  end.

(** uniqueName(prefix) 17-23 with the global counter: prefix + counter. *)
Definition global_names (start : nat) (prefixes : list string) : list string :=
  map (fun p => (fst p ++ dec (snd p))%string) (combine prefixes (seq start (List.length prefixes))).

(** ** Intrusive pointers: intrusive_ptr.h *)
(** A heap node: a reference count and the nodes its IntrusivePtr fields point
    to (taco's expression and statement nodes are immutable after construction).
    [Freed]: deleted. *)
Inductive cell := Live (ref : nat) (fields : list nat) | Freed.

(** Handles are variables of type IntrusivePtr: [None] is a variable that does
    not exist (yet, or any more), [Some None] a null pointer. *)
Record mem := Mem { heap : list cell; vars : list (option (option nat)) }.

Fixpoint set_nth {A} (l : list A) (n : nat) (x : A) : list A :=
  match l, n with
  | [], _ => []
  | _ :: t, 0 => x :: t
  | y :: t, S n => y :: set_nth t n x
  end.

(** acquire, 135: touching a freed node is undefined behaviour ([None]). *)
Definition acquire (h : list cell) (p : nat) : option (list cell) :=
  match nth_error h p with
  | Some (Live r fs) => Some (set_nth h p (Live (S r) fs))
  | _ => None
  end.

(** release, 136: the destructor of a deleted node releases its fields in turn;
    [work] is the stack of pending releases.  [fuel] bounds the recursion. *)
Fixpoint release_all (fuel : nat) (h : list cell) (work : list nat) : option (list cell) :=
  match work with
  | [] => Some h
  | p :: work =>
      match fuel with
      | 0 => None
      | S fuel =>
          match nth_error h p with
          | Some (Live r fs) =>
              if r - 1 =? 0 then release_all fuel (set_nth h p Freed) (fs ++ work)
              else release_all fuel (set_nth h p (Live (r - 1) fs)) work
          | _ => None
          end
      end
  end.

Definition total_refs (h : list cell) : nat :=
  fold_right (fun c n => match c with Live r _ => r + n | Freed => n end) 0 h.

Definition release (h : list cell) (o : option nat) : option (list cell) :=
  match o with None => Some h | Some p => release_all (S (total_refs h)) h [p] end.
Definition acquire_opt (h : list cell) (o : option nat) : option (list cell) :=
  match o with None => Some h | Some p => acquire h p end.

(** Where the pointer that is copied from lives. *)
Inductive loc := Var (v : nat) | Field (p k : nat).

Definition read_var (m : mem) (v : nat) : option (option nat) :=
  match nth_error (vars m) v with Some (Some o) => Some o | _ => None end.
(** Reading a field of a freed node is undefined behaviour. *)
Definition read (m : mem) (s : loc) : option (option nat) :=
  match s with
  | Var v => read_var m v
  | Field p k =>
      match nth_error (heap m) p with
      | Some (Live _ fs) => match nth_error fs k with Some q => Some (Some q) | None => None end
      | _ => None
      end
  end.

Inductive op :=
| New (fields : list nat)        (* IntrusivePtr v(new Node(fields...)): 35-39; the fields are variables *)
| Null                           (* IntrusivePtr v: 32 *)
| CopyCtor (s : loc)             (* 42-46 *)
| MoveCtor (w : nat)             (* 49-51 *)
| CopyAssign (v : nat) (s : loc) (* 54-63 *)
| MoveAssign (v w : nat)         (* 83-90 *)
| Destroy (v : nat).             (* 93-97 *)

Fixpoint read_fields (m : mem) (fs : list nat) : option (list nat) :=
  match fs with
  | [] => Some []
  | v :: fs =>
      match read_var m v, read_fields m fs with
      | Some (Some p), Some ps => Some (p :: ps)
      | _, _ => None
      end
  end.
Fixpoint acquire_list (h : list cell) (ps : list nat) : option (list cell) :=
  match ps with
  | [] => Some h
  | p :: ps => match acquire h p with Some h => acquire_list h ps | None => None end
  end.

(** One operation; [None] is undefined behaviour (or an operation on a variable
    that does not exist, which C++ scoping rules out). *)
Definition step (m : mem) (o : op) : option mem :=
  match o with
  | New vs =>
      match read_fields m vs with
      | Some ps =>
          match acquire_list (heap m) ps with
          | Some h => Some (Mem (h ++ [Live 1 ps]) (vars m ++ [Some (Some (List.length (heap m)))]))
          | None => None
          end
      | None => None
      end
  | Null => Some (Mem (heap m) (vars m ++ [Some None]))
  | CopyCtor s =>
      match read m s with
      | Some o => match acquire_opt (heap m) o with
                  | Some h => Some (Mem h (vars m ++ [Some o]))
                  | None => None
                  end
      | None => None
      end
  | MoveCtor w =>
      match read_var m w with
      | Some o => Some (Mem (heap m) (set_nth (vars m) w (Some None) ++ [Some o]))
      | None => None
      end
  | CopyAssign v s =>
      match read_var m v with
      | Some old =>
          match release (heap m) old with
          | Some h =>
              (* ptr = other.ptr: 58, after the release *)
              match read (Mem h (vars m)) s with
              | Some o => match acquire_opt h o with
                          | Some h => Some (Mem h (set_nth (vars m) v (Some o)))
                          | None => None
                          end
              | None => None
              end
          | None => None
          end
      | None => None
      end
  | MoveAssign v w =>
      match read_var m v with
      | Some old =>
          match release (heap m) old with
          | Some h =>
              match read_var m w with
              | Some o => Some (Mem h (set_nth (set_nth (vars m) v (Some o)) w (Some None)))
              | None => None
              end
          | None => None
          end
      | None => None
      end
  | Destroy v =>
      match read_var m v with
      | Some old => match release (heap m) old with
                    | Some h => Some (Mem h (set_nth (vars m) v None))
                    | None => None
                    end
      | None => None
      end
  end.

Fixpoint steps (m : mem) (os : list op) : option mem :=
  match os with
  | [] => Some m
  | o :: os => match step m o with Some m => steps m os | None => None end
  end.

(** ** Scoped maps and sets: scopedmap.h, scopedset.h (a set is a map to unit) *)
Section Scoped.
Context {K W : Type}.
Variable keq : forall a b : K, {a = b} + {a <> b}.

Definition smap := list (list (K * W)).

Fixpoint find_in (k : K) (s : list (K * W)) : option W :=
  match s with [] => None | (k', v) :: s => if keq k' k then Some v else find_in k s end.
Fixpoint erase_in (k : K) (s : list (K * W)) : list (K * W) :=
  match s with [] => [] | (k', v) :: s => if keq k' k then s else (k', v) :: erase_in k s end.

Inductive sop := Scope | Unscope | Insert (k : K) (v : W) | Remove (k : K).

Definition snew : smap := [[]].                              (* 18-20 *)
(** remove, 40-49: erase from the first scope that has the key. *)
Fixpoint sremove (k : K) (m : smap) : option smap :=
  match m with
  | [] => None
  | s :: m => match find_in k s with
              | Some _ => Some (erase_in k s :: m)
              | None => option_map (cons s) (sremove k m)
              end
  end.
(** 27-49.  [None]: pop_front/front of an empty list (undefined behaviour), or
    the internal error "Not in scope". *)
Definition sstep (m : smap) (o : sop) : option smap :=
  match o with
  | Scope => Some ([] :: m)
  | Unscope => match m with _ :: m => Some m | [] => None end
  | Insert k v =>
      match m with
      (* std::map::insert keeps an existing entry *)
      | s :: m => Some ((match find_in k s with Some _ => s | None => (k, v) :: s end) :: m)
      | [] => None
      end
  | Remove k => sremove k m
  end.
Fixpoint ssteps (m : smap) (os : list sop) : option smap :=
  match os with [] => Some m | o :: os => match sstep m o with Some m => ssteps m os | None => None end end.

(** get, 51-59. *)
Fixpoint sget (k : K) (m : smap) : option W :=
  match m with
  | [] => None
  | s :: m => match find_in k s with Some v => Some v | None => sget k m end
  end.
(** contains, 61-68. *)
Definition scontains (k : K) (m : smap) : bool :=
  existsb (fun s => match find_in k s with Some _ => true | None => false end) m.
End Scoped.
Arguments sop : clear implicits.
Arguments smap : clear implicits.
