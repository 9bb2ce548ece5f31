(** Which code a tensor runs: the modules of src/codegen/module.cpp, and compile,
    compileSource, assemble and compute of src/tensor.cpp with the cache of kernels. *)
From Coq Require Import String List Bool Arith.
From Verif Require Import FileIO.
Import ListNotations.
Local Open Scope nat_scope.

Section Modules.
(** Statements, with equality and isomorphism (Iso.v, C30) *)
Variable S : Type.
Variable same : S -> S -> bool.
Variable iso : S -> S -> bool.
(** Code of C functions *)
Variable C : Type.
(** lower(stmt, "assemble", true, false) and lower(stmt, "compute", assembleWhileCompute, true) *)
Variable lower_assemble : S -> C.
Variable lower_compute : S -> bool -> C.

(** A C function: its code, or a shim that calls a function (codegen_c.cpp 591-631) *)
Inductive code := Body (c : C) | Shim (callee : string).
Record def := Def { dname : string; dcode : code }.
(** A source text is the list of its functions; [fails] says that the compiler rejects it for
    reasons other than a function that is defined twice. *)
Variable fails : list def -> bool.

(** module.h 68-80.  Simplification: a library handle is the functions of the library. *)
Record module := MkModule {
  source : list def; funcs : list def; user : bool; lib : option (list def) }.

(** codegen_c.cpp 591-631 *)
Definition shim (n : string) : def := Def ("_shim_" ++ n) (Shim n).
Fixpoint lookup (n : string) (l : list def) : option code :=
  match l with
  | [] => None
  | d :: l => if String.eqb (dname d) n then Some (dcode d) else lookup n l
  end.
Fixpoint twice (ns : list string) : bool :=
  match ns with [] => false | n :: ns => existsb (String.eqb n) ns || twice ns end.
(** Symbols that are not defined: dlopen with RTLD_NOW fails *)
Definition resolved (l : list def) : bool :=
  forallb (fun d => match dcode d with
                    | Body _ => true
                    | Shim n => match lookup n l with Some _ => true | None => false end
                    end) l.
(** The compile function of modules, module.cpp 109-168, with compileToSource 44-77 and writeShims 85-105: the
    module and whether it was compiled.  When the compiler fails the library stays the one
    that was loaded; when loading fails, it has been closed. *)
Definition compile_module (m : module) : module * bool :=
  let src := if user m then source m else funcs m in
  let text := src ++ map (fun d => shim (dname d)) (funcs m) in
  if twice (map dname text) || fails text then (MkModule src (funcs m) (user m) (lib m), false)
  else if resolved text then (MkModule src (funcs m) (user m) (Some text), true)
  else (MkModule src (funcs m) (user m) None, false).
(** module.cpp 170-173 *)
Definition set_source (m : module) (s : list def) : module := MkModule (source m ++ s) (funcs m) true (lib m).
(** callFuncPacked of modules, module.h 58-65 and module.cpp 179-219: without a library, or when the
    symbol is not found, a null pointer is called.  The code that runs. *)
Definition call (m : module) (n : string) : fresult C :=
  match lib m with
  | None => FUndefined
  | Some l =>
      match lookup ("_shim_" ++ n) l with
      | Some (Body c) => FOk c
      | Some (Shim callee) => match lookup callee l with Some (Body c) => FOk c | _ => FUndefined end
      | None => FUndefined
      end
  end.

(** tensor.h: struct Content *)
Record tensor := Tensor { assignment : option S; flag : bool; needs_compile : bool; modul : nat }.
(** Modules are shared pointers into [heap]; [cache] is computeKernels. *)
Record state := State { heap : list module; tensors : list tensor; cache : list (S * nat) }.
Definition no_module : module := MkModule [] [] false None.
Fixpoint set_nth {A} (n : nat) (x : A) (l : list A) : list A :=
  match l, n with
  | [], _ => []
  | _ :: l, 0 => x :: l
  | y :: l, Datatypes.S n => y :: set_nth n x l
  end.

(** What a program does *)
Inductive op :=
| New (* a tensor *)
| Assign (t : nat) (s : S) (* tensor(i,...) = expression; [s] is the statement made from it *)
| SetFlag (t : nat) (b : bool) (* setAssembleWhileCompute *)
| Compile (t : nat) (caching : bool) (* compile(); the environment has CACHE_KERNELS=0 or not *)
| CompileStmt (t : nat) (s : S) (b caching : bool) (* compile(stmt, assembleWhileCompute) *)
| CompileSource (t : nat) (src : list (string * C)) (* compileSource(source) *)
| Call (t : nat) (f : string). (* assemble() and compute(), when there is something to do *)
Inductive outcome := Done | Threw | Ran (r : fresult C).

(** getComputeKernel, tensor.cpp 583-596 *)
Definition cached (c : list (S * nat)) (s : S) : option nat :=
  match find (fun e => iso s (fst e)) (rev c) with Some e => Some (snd e) | None => None end.
(** compile(stmt, assembleWhileCompute), tensor.cpp 644-674.  Simplification: [s] is the
    statement after concretize and scalarPromote. *)
Definition compile_stmt (st : state) (t : nat) (x : tensor) (s : S) (b caching : bool) : state * outcome :=
  if needs_compile x then
    match (if caching then cached (cache st) s else None) with
    | Some p => (State (heap st) (set_nth t (Tensor (assignment x) (flag x) false p) (tensors st)) (cache st), Done)
    | None =>
        let (m, ok) := compile_module (MkModule [] [Def "assemble" (Body (lower_assemble s)); Def "compute" (Body (lower_compute s b))] false None) in
        let p := List.length (heap st) in
        (State (heap st ++ [m]) (set_nth t (Tensor (assignment x) (flag x) false p) (tensors st))
           (if ok then cache st ++ [(s, p)] else cache st), if ok then Done else Threw)
    end
  else (st, Done).
Definition step (st : state) (o : op) : state * outcome :=
  match o with
  | New => (* tensor.cpp 112-150 *)
      (State (heap st ++ [no_module]) (tensors st ++ [Tensor None false false (List.length (heap st))]) (cache st), Done)
  | Assign t s =>
      (* tensor.cpp 855-878: nothing to compile when the assignment is the same *)
      match nth_error (tensors st) t with
      | Some x =>
          let n := needs_compile x || negb (match assignment x with Some s' => same s' s | None => false end) in
          (State (heap st) (set_nth t (Tensor (Some s) (flag x) n (modul x)) (tensors st)) (cache st), Done)
      | None => (st, Done)
      end
  | SetFlag t b =>
      match nth_error (tensors st) t with
      | Some x => (State (heap st) (set_nth t (Tensor (assignment x) b (needs_compile x) (modul x)) (tensors st)) (cache st), Done)
      | None => (st, Done)
      end
  | Compile t caching =>
      (* tensor.cpp 605-642 *)
      match nth_error (tensors st) t with
      | Some x => match assignment x with Some s => compile_stmt st t x s (flag x) caching | None => (st, Threw) end
      | None => (st, Done)
      end
  | CompileStmt t s b caching =>
      match nth_error (tensors st) t with Some x => compile_stmt st t x s b caching | None => (st, Done) end
  | CompileSource t src =>
      (* tensor.cpp 905-930; lowering without an assignment is an error *)
      match nth_error (tensors st) t with
      | Some x =>
          match assignment x with
          | None => (st, Threw)
          | Some _ =>
              let m := set_source (nth (modul x) (heap st) no_module)
                         (map (fun d => Def (fst d) (Body (snd d))) src ++ [shim "assemble"; shim "compute"]) in
              let (m, ok) := compile_module m in
              (State (set_nth (modul x) m (heap st))
                 (if ok then set_nth t (Tensor (assignment x) (flag x) false (modul x)) (tensors st) else tensors st) (cache st),
               if ok then Done else Threw)
          end
      | None => (st, Done)
      end
  | Call t f =>
      (* tensor.cpp 807-849 *)
      match nth_error (tensors st) t with
      | Some x => (st, if needs_compile x then Threw else Ran (call (nth (modul x) (heap st) no_module) f))
      | None => (st, Done)
      end
  end.
Definition initial : state := State [] [] [].
Fixpoint run (st : state) (h : list op) : state :=
  match h with [] => st | o :: h => run (fst (step st o)) h end.
End Modules.
