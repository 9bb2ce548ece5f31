(** Insertions, assignments and reads of several tensors, with packing and
    computation delayed until the values are needed: /repo/src/tensor.cpp and
    /repo/include/taco/tensor.h. *)
From Coq Require Import List Arith Lia Bool.
Import ListNotations.
From Verif Require Import Outcome.
Local Open Scope nat_scope.

Section Delayed.
(** Contents of tensors, and components to insert.  [add_component] adds a component
    to what is stored; what packing does with a buffer is the subject of C03. *)
Context {D C : Type}.
Variable empty : D.
Variable add_component : C -> D -> D.

(** An assignment: the index expression (a number stands for it) and its operands.
    The assemble and the compute kernel of an expression; the second works on the
    arrays left by the first (C09 and C14 are about them). *)
Record assignment := Asg { a_expr : nat; a_ops : list nat }.
Variable assemble_kernel : nat -> list D -> D.
Variable compute_kernel : nat -> D -> list D -> D.

(** index_notation.cpp, equals. *)
Definition asg_eqb (a b : assignment) : bool :=
  (a_expr a =? a_expr b) && if list_eq_dec Nat.eq_dec (a_ops a) (a_ops b) then true else false.

(** TensorBase::Content (tensor.h 893-926): [c_data] the storage, [c_buffer] the
    coordinate buffer.  The dependents are weak pointers: [c_alive] is false once
    the last reference to the content is gone. *)
Record content := Content {
  c_data : D; c_buffer : list C;
  c_never : bool; c_pack : bool; c_compile : bool; c_assemble : bool; c_compute : bool;
  c_asg : option assignment; c_module : option nat; c_deps : list nat; c_alive : bool }.
(** tensor.cpp 112-147. *)
Definition new_content : content :=
  Content empty [] true true false false false None None [] true.

Definition heap := nat -> content.
Definition set_ (h : heap) (t : nat) (c : content) : heap := fun u => if u =? t then c else h u.

Definition with_deps (c : content) (ds : list nat) : content :=
  Content (c_data c) (c_buffer c) (c_never c) (c_pack c) (c_compile c) (c_assemble c) (c_compute c)
          (c_asg c) (c_module c) ds (c_alive c).

(** tensor.cpp 695-697, addDependentTensor. *)
Definition add_dep (t : nat) (h : heap) (u : nat) : heap := set_ h u (with_deps (h u) (c_deps (h u) ++ [t])).

(** tensor.cpp 699-720, removeDependentTensor: if the last entry is the tensor it is
    popped; otherwise the first entry that is gets replaced by the last one. *)
Fixpoint replace_first (t x : nat) (ds : list nat) : option (list nat) :=
  match ds with
  | [] => None
  | d :: ds => if d =? t then Some (x :: ds)
               else match replace_first t x ds with Some r => Some (d :: r) | None => None end
  end.
Definition remove_from (t : nat) (ds : list nat) : list nat :=
  match rev ds with
  | [] => ds
  | x :: front => if x =? t then rev front
                  else match replace_first t x (rev front) with Some r => r | None => ds end
  end.
Definition remove_dep (t : nat) (h : heap) (u : nat) : heap := set_ h u (with_deps (h u) (remove_from t (c_deps (h u)))).

(** tensor.cpp 295-431, pack (with C03 for what becomes of the buffer). *)
Definition pack (t : nat) (h : heap) : heap :=
  let c := h t in
  if negb (c_pack c) then h
  else
    let old := if c_never c then empty else c_data c in
    set_ h t (Content (fold_left (fun d x => add_component x d) (c_buffer c) old) []
                      false false (c_compile c) (c_assemble c) (c_compute c)
                      (c_asg c) (c_module c) (c_deps c) (c_alive c)).

(** tensor.cpp 605-674, compile: the module is that of the assignment (C33 and C34
    are about the cache of kernels).  Without an assignment it is an error. *)
Definition compile (t : nat) (h : heap) : outcome heap :=
  let c := h t in
  match c_asg c with
  | None => Oob
  | Some a =>
      if negb (c_compile c) then Val h
      else Val (set_ h t (Content (c_data c) (c_buffer c) (c_never c) (c_pack c) false (c_assemble c) (c_compute c)
                                  (c_asg c) (Some (a_expr a)) (c_deps c) (c_alive c)))
  end.

Definition datas (h : heap) (ts : list nat) : list D := map (fun u => c_data (h u)) ts.

(** Every operand once: getTensors makes a map. *)
Definition operands (a : assignment) : list nat := nodup Nat.eq_dec (a_ops a).

Fixpoint each (f : nat -> heap -> outcome heap) (ts : list nat) (h : heap) : outcome heap :=
  match ts with
  | [] => Val h
  | t :: ts => do h <- f t h; each f ts h
  end.

(** tensor.cpp 808-827, assemble; [sync] is syncValues.  Kernels that assemble while
    they compute ([assembleWhileCompute]) are not distinguished: for them
    [assemble_kernel] does nothing and the flag is reset by compute. *)
Definition assemble (sync : nat -> heap -> outcome heap) (t : nat) (h : heap) : outcome heap :=
  if c_compile (h t) then Oob
  else if negb (c_assemble (h t)) then Val h
  else match c_asg (h t) with
       | None => Oob
       | Some a =>
           do h <- each sync (operands a) h;
           let c := h t in
           match c_module c with
           | None => Oob
           | Some m =>
               Val (set_ h t (Content (assemble_kernel m (datas h (a_ops a))) (c_buffer c) (c_never c) (c_pack c)
                                      (c_compile c) false (c_compute c) (c_asg c) (c_module c) (c_deps c) (c_alive c)))
           end
       end.

(** tensor.cpp 829-850, compute. *)
Definition compute (sync : nat -> heap -> outcome heap) (t : nat) (h : heap) : outcome heap :=
  if c_compile (h t) then Oob
  else if negb (c_compute (h t)) then Val h
  else
    let c := h t in
    let h := set_ h t (Content (c_data c) (c_buffer c) (c_never c) (c_pack c) (c_compile c) (c_assemble c) false
                               (c_asg c) (c_module c) (c_deps c) (c_alive c)) in
    match c_asg c with
    | None => Oob
    | Some a =>
        do h <- each (fun u h => do h <- sync u h; Val (remove_dep t h u)) (operands a) h;
        let c := h t in
        match c_module c with
        | None => Oob
        | Some m =>
            Val (set_ h t (Content (compute_kernel m (c_data c) (datas h (a_ops a))) (c_buffer c) (c_never c) (c_pack c)
                                   (c_compile c) (c_assemble c) (c_compute c) (c_asg c) (c_module c) (c_deps c) (c_alive c)))
        end
    end.

(** tensor.cpp 685-693, syncValues.  A null content is dereferenced if the tensor no
    longer exists. *)
Fixpoint sync (fuel : nat) (t : nat) (h : heap) : outcome heap :=
  match fuel with
  | O => NoFuel
  | S n =>
      if negb (c_alive (h t)) then Oob
      else if c_pack (h t) then Val (pack t h)
      else if c_compute (h t) then
        do h <- compile t h;
        do h <- assemble (sync n) t h;
        compute (sync n) t h
      else Val h
  end.

(** tensor.cpp 722-738, getDependentTensors and syncDependentTensors. *)
Definition sync_dependents (fuel : nat) (t : nat) (h : heap) : outcome heap :=
  do h <- each (sync fuel) (c_deps (h t)) h;
  Val (set_ h t (with_deps (h t) [])).

(** tensor.h 960-965, insert. *)
Definition insert (fuel : nat) (t : nat) (x : C) (h : heap) : outcome heap :=
  do h <- sync_dependents fuel t h;
  let c := h t in
  Val (set_ h t (Content (c_data c) (c_buffer c ++ [x]) (c_never c) true (c_compile c) (c_assemble c) (c_compute c)
                         (c_asg c) (c_module c) (c_deps c) (c_alive c))).

(** tensor.cpp 521-545, setAssignment through an access, and 858-882,
    operator=(IndexExpr), which does not remove the old dependents and adds the new
    ones first ([scalar]). *)
Definition assign (fuel : nat) (scalar : bool) (t : nat) (a : assignment) (h : heap) : outcome heap :=
  do h <- sync_dependents fuel t h;
  let h := if scalar then fold_left (add_dep t) (operands a) h else h in
  let c := h t in
  let same := match c_asg c with Some b => asg_eqb b a | None => false end in
  let h := match c_asg c with
           | Some b => if negb scalar && negb same && c_compute c then fold_left (remove_dep t) (operands b) h else h
           | None => h
           end in
  let h := if scalar then h else fold_left (add_dep t) (operands a) h in
  let c := h t in
  Val (set_ h t (Content (c_data c) (c_buffer c) (c_never c) false (if same then c_compile c else true) true true
                         (Some a) (c_module c) (c_deps c) (c_alive c))).

(** The calls.  [Read]: begin() (tensor.h 364), at (1039) and operator<<
    (tensor.cpp 1215), which call syncValues. *)
Inductive op :=
| Insert (t : nat) (x : C)
| Assign (scalar : bool) (t : nat) (a : assignment)
| Read (t : nat)
| Compile (t : nat)
| Assemble (t : nat)
| Compute (t : nat)
| Destroy (t : nat).

Definition destroy (t : nat) (h : heap) : heap :=
  let c := h t in
  set_ h t (Content (c_data c) (c_buffer c) (c_never c) (c_pack c) (c_compile c) (c_assemble c) (c_compute c)
                    (c_asg c) (c_module c) (c_deps c) false).

(** A history; the results of its reads. *)
Fixpoint run (fuel : nat) (ops : list op) (h : heap) : outcome (list D) :=
  match ops with
  | [] => Val []
  | Insert t x :: ops => do h <- insert fuel t x h; run fuel ops h
  | Assign b t a :: ops => do h <- assign fuel b t a h; run fuel ops h
  | Read t :: ops => do h <- sync fuel t h; do l <- run fuel ops h; Val (c_data (h t) :: l)
  | Compile t :: ops => do h <- compile t h; run fuel ops h
  | Assemble t :: ops => do h <- assemble (sync fuel) t h; run fuel ops h
  | Compute t :: ops => do h <- compute (sync fuel) t h; run fuel ops h
  | Destroy t :: ops => run fuel ops (destroy t h)
  end.
Definition start : heap := fun _ => new_content.
End Delayed.
