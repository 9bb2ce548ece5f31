(** Which code a tensor should run: each tensor on its own, without modules, without sharing
    and without a cache. *)
From Coq Require Import String List Bool Arith.
From Verif Require Import FileIO Modules.
Import ListNotations.
Local Open Scope nat_scope.
Local Open Scope string_scope.

(** What was compiled for a tensor: a statement, with the value of assembleWhileCompute and
    whether a cached kernel could be used, or the user's functions *)
Inductive compiled (S C : Type) := Kernel (s : S) (flag caching : bool) | Source (functions : list (string * C)).
Arguments Kernel {S C}. Arguments Source {S C}.
(** One tensor: what was assigned to it, its flag assembleWhileCompute, whether it must be compiled before it can run, what
    it runs, and whether it has been compiled, or an attempt was made to. *)
Record view (S C : Type) := View { assigned : option S; while_compute : bool; pending : bool; runs : option (compiled S C); touched : bool }.
Arguments View {S C}. Arguments assigned {S C}. Arguments while_compute {S C}. Arguments pending {S C}. Arguments runs {S C}. Arguments touched {S C}.

(** A source that compiles and loads: it defines assemble and compute, no function twice, and
    none with the name of a shim; [fails] stands for the compiler's other errors. *)
Definition good {C} (fails : list (def C) -> bool) (src : list (string * C)) : Prop :=
  NoDup (map fst src) /\ In "assemble" (map fst src) /\ In "compute" (map fst src) /\
  ~ In "_shim_assemble" (map fst src) /\ ~ In "_shim_compute" (map fst src) /\
  fails (map (fun d => Def C (fst d) (Body C (snd d))) src ++
         [Def C "_shim_assemble" (Shim C "assemble"); Def C "_shim_compute" (Shim C "compute")])%list = false.

Section View.
Variable S C : Type.
Variable same : S -> S -> bool.
Variable fails : list (def C) -> bool.
(** One operation on the [t]-th tensor.  A statement is compiled only when it is due: when
    the assignment has changed since.  User sources compile only on tensors for which nothing
    was compiled before. *)
Inductive seen (t : nat) : view S C -> op S C -> view S C -> Prop :=
| seen_assign v s : seen t v (Assign S C t s)
    (View (Some s) (while_compute v) (if match assigned v with Some s' => same s' s | None => false end then pending v else true) (runs v) (touched v))
| seen_compile v s c : assigned v = Some s -> pending v = true ->
    seen t v (Compile S C t c) (View (assigned v) (while_compute v) false (Some (Kernel s (while_compute v) c)) true)
| seen_compile_no v c : assigned v = None \/ pending v = false -> seen t v (Compile S C t c) v
| seen_stmt v s b c : pending v = true -> seen t v (CompileStmt S C t s b c) (View (assigned v) (while_compute v) false (Some (Kernel s b c)) true)
| seen_stmt_no v s b c : pending v = false -> seen t v (CompileStmt S C t s b c) v
| seen_source v src : assigned v <> None -> touched v = false -> good fails src ->
    seen t v (CompileSource S C t src) (View (assigned v) (while_compute v) false (Some (Source src)) true)
| seen_source_bad v src : assigned v <> None -> touched v = false -> ~ good fails src ->
    seen t v (CompileSource S C t src) (View (assigned v) (while_compute v) (pending v) (runs v) true)
| seen_source_no v src : assigned v = None \/ touched v = true -> seen t v (CompileSource S C t src) v
| seen_flag v b : seen t v (SetFlag S C t b) (View (assigned v) b (pending v) (runs v) (touched v))
| seen_call v f : seen t v (Call S C t f) v
| seen_new v : seen t v (New S C) v
| seen_other v o t' : t' <> t ->
    (exists s, o = Assign S C t' s) \/ (exists c, o = Compile S C t' c) \/ (exists s b c, o = CompileStmt S C t' s b c) \/
    (exists src, o = CompileSource S C t' src) \/ (exists b, o = SetFlag S C t' b) \/ (exists f, o = Call S C t' f) -> seen t v o v.
Inductive history (t : nat) : view S C -> list (op S C) -> view S C -> Prop :=
| history_nil v : history t v [] v
| history_cons v o v1 h v2 : seen t v o v1 -> history t v1 h v2 -> history t v (o :: h) v2.
End View.

(** The view of a tensor that was just made *)
Definition fresh_view {S C} : view S C := View None false false None false.

(** The number of tensors made *)
Definition made {S C} (h : list (op S C)) : nat :=
  List.length (filter (fun o => match o with New _ _ => true | _ => false end) h).
