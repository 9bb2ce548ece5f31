(** Iterating over the components of a tensor: the generated helper kernel
    "iterate" and the iterator that calls it. *)
From Coq Require Import List Arith ZArith Lia Bool.
Import ListNotations.
From Verif Require Import Outcome Storage Eval PackKernel Tensor.
Local Open Scope nat_scope.

(** Array accesses at natural indices. *)
Definition get {A} (a : list A) (i : nat) : outcome A := rd a (Z.of_nat i).
Definition put {A} (a : list A) (i : nat) (x : A) : outcome (list A) := wr a (Z.of_nat i) x.

Section Iterate.
Context {V : Type}.
(** The tensor: its levels, values and mode order; the capacity of the buffers. *)
Variable ls0 : list level.
Variable A : list V.
Variable ord : list nat.
Variable cap : nat.
(** A bound on the iterations of one loop. *)
Variable fuel : nat.

(** The local variables of the kernel: for each level its coordinate and its
    position.  They are declared at the top of the function
    (/repo/src/codegen/codegen.cpp 170-172; codegen_c.cpp 351-361, VarDecl, and 453, For,
    only assign). *)
Inductive var := Crd (l : nat) | Pos (l : nat).
Definition var_eqb (a b : var) : bool :=
  match a, b with Crd i, Crd j => i =? j | Pos i, Pos j => i =? j | _, _ => false end.
Definition locals := var -> nat.
Definition upd (e : locals) (x : var) (n : nat) : locals := fun y => if var_eqb y x then n else e y.

(** Position of the level above level [l]. *)
Definition parent (e : locals) (l : nat) : nat := match l with O => 0 | S l => e (Pos l) end.

(** The state during a call: local variables, bufSize, and the caller's buffers.
    The coordinates of the entries lie one after the other, in the order of the
    modes. *)
Record st := St { s_env : locals; s_size : nat; s_crds : list nat; s_vals : list V }.
Definition with_env (s : st) (e : locals) : st := St e (s_size s) (s_crds s) (s_vals s).

(** [Ret]: the function returned because the buffer is full. *)
Inductive flow := Fall | Ret.

Fixpoint write_all (i : nat) (xs : list nat) (a : list nat) : outcome (list nat) :=
  match xs with
  | [] => Val a
  | x :: xs => do a <- put a i x; write_all (S i) xs a
  end.

(** codegen.cpp 613-656, printYield, and lowerYield,
    /repo/src/lower/lowerer_impl_imperative.cpp 610-616. *)
Definition yield (l : nat) (s : st) : outcome (flow * st) :=
  let stride := length ord in
  do c <- write_all (stride * s_size s) (map (fun m => s_env s (Crd (level_of ord m))) (seq 0 stride)) (s_crds s);
  do v <- get A (parent (s_env s) l);
  do vs <- put (s_vals s) (s_size s) v;
  let size := s_size s + 1 in
  Val (if size =? cap then Ret else Fall, St (s_env s) size c vs).

(** The loop over level [l]: its variable, first value, and the test (the bound is
    read in every iteration). *)
Definition loop_var (lv : level) (l : nat) : var := match lv with LDense _ => Crd l | LComp _ _ => Pos l end.
Definition init (lv : level) (l : nat) (s : st) : outcome st :=
  match lv with
  | LDense _ => Val (with_env s (upd (s_env s) (Crd l) 0))
  | LComp pos _ => do b <- get pos (parent (s_env s) l); Val (with_env s (upd (s_env s) (Pos l) b))
  end.
Definition test (lv : level) (l : nat) (s : st) : outcome bool :=
  match lv with
  | LDense d => Val (s_env s (Crd l) <? d)
  | LComp pos _ => do e <- get pos (parent (s_env s) l + 1); Val (s_env s (Pos l) <? e)
  end.
(** The declaration at the head of the body: the position in a dense level, the
    coordinate in a compressed one. *)
Definition enter (lv : level) (l : nat) (s : st) : outcome st :=
  match lv with
  | LDense d => Val (with_env s (upd (s_env s) (Pos l) (parent (s_env s) l * d + s_env s (Crd l))))
  | LComp _ crd => do c <- get crd (s_env s (Pos l)); Val (with_env s (upd (s_env s) (Crd l) c))
  end.
Definition step (lv : level) (l : nat) (s : st) : st :=
  with_env s (upd (s_env s) (loop_var lv l) (s_env s (loop_var lv l) + 1)).

(** The loops over the levels [ls], the first of which is level [l].  [resuming]:
    control jumps to the label after the yield, which is in the body of the
    innermost loop. *)
Fixpoint loops (ls : list level) (l : nat) (resuming : bool) (s : st) : outcome (flow * st) :=
  match ls with
  | [] => if resuming then Val (Fall, s) else yield l s
  | lv :: ls =>
      let fix go (n : nat) (s : st) : outcome (flow * st) :=
        match n with
        | O => NoFuel
        | S n =>
            do c <- test lv l s;
            if c
            then do s <- enter lv l s;
                 do r <- loops ls (S l) false s;
                 match fst r with Ret => Val r | Fall => go n (step lv l (snd r)) end
            else Val (Fall, s)
        end in
      if resuming
      then do r <- loops ls (S l) true s;
           match fst r with Ret => Val r | Fall => go fuel (step lv l (snd r)) end
      else do s <- init lv l s; go fuel s
  end.

(** What survives between calls: the saved local variables and the label. *)
Definition context := option (locals * nat).

(** The kernel (codegen.cpp 156-195, printContextDeclAndInit, 592-611,
    printCoroutineFinish; codegen_c.cpp 284-348).  [garbage]: uninitialised
    variables.  printCoroutineFinish writes the assignment of the last state and the
    return to the stream before the condition [bufSize > 0] they belong to, so they
    are unconditional.  It gives the context, the size, and the buffers. *)
Definition kernel (garbage : locals) (ctx : context) (crds : list nat) (vals : list V)
  : outcome (context * nat * list nat * list V) :=
  match ctx with
  | Some (_, S _) => Val (None, 0, crds, vals)
  | _ =>
      let (e, resuming) := match ctx with Some (e, _) => (e, true) | None => (garbage, false) end in
      do r <- loops ls0 0 resuming (St e 0 crds vals);
      let s := snd r in
      match fst r with
      | Ret => Val (Some (s_env s, 0), s_size s, s_crds s, s_vals s)
      | Fall => Val (Some (e, 1), s_size s, s_crds s, s_vals s)
      end
  end.

(** const_iterator (/repo/include/taco/tensor.h 164-342).  [i_ptr] is the offset of
    curVal.first.coordinates in the buffer; coordBuffer, valBuffer and the context
    are shared by the copies of an iterator. *)
Record shared := Shared { h_ctx : context; h_crds : list nat; h_vals : list V }.
Record iter := Iter { i_size : nat; i_pos : nat; i_chunks : Z; i_ptr : nat; i_cur : option V }.

(** tensor.h 223-239, operator++, with fillBuffer, 319-324. *)
Definition increment (garbage : locals) (h : shared) (i : iter) : outcome (shared * iter) :=
  let pos := i_pos i + 1 in
  let ptr := i_ptr i + length ord in
  if i_size i <=? pos
  then do r <- kernel garbage (h_ctx h) (h_crds h) (h_vals h);
       let '(ctx, size, crds, vals) := r in
       do v <- get vals 0;
       Val (Shared ctx crds vals, Iter size 0 (i_chunks i + 1) 0 (Some v))
  else do v <- get (h_vals h) pos;
       Val (h, Iter (i_size i) pos (i_chunks i) ptr (Some v)).

(** tensor.h 289-309, the constructor: begin(). *)
Definition start (garbage : locals) (crds : list nat) (vals : list V) : outcome (shared * iter) :=
  increment garbage (Shared None crds vals) (Iter 0 0 (-1) 0 None).

(** tensor.h 245-251, operator* (the coordinates are read from the buffer). *)
Definition deref (h : shared) (i : iter) : list nat * option V :=
  (firstn (length ord) (skipn (i_ptr i) (h_crds h)), i_cur i).

(** tensor.h 253-259, operator==, of two iterators of one tensor, with
    valsIterated, 315-317; the end iterator, 345-347, has size 0. *)
Definition vals_iterated (i : iter) : Z := (i_chunks i * Z.of_nat cap + Z.of_nat (i_pos i))%Z.
Definition iter_eqb (a b : iter) : bool :=
  Bool.eqb (i_size a =? 0) (i_size b =? 0) && ((i_size a =? 0) || (vals_iterated a =? vals_iterated b)%Z).
Definition end_iter : iter := Iter 0 0 (-1) 0 None.

(** for (auto& c : tensor): what the loop sees.  [garb] gives the uninitialised
    variables of each call. *)
Fixpoint collect (n : nat) (garb : nat -> locals) (h : shared) (i : iter) : outcome (list (list nat * option V)) :=
  if iter_eqb i end_iter then Val []
  else match n with
       | O => NoFuel
       | S n =>
           do r <- increment (garb n) h i;
           do l <- collect n garb (fst r) (snd r);
           Val (deref h i :: l)
       end.
Definition foreach (n : nat) (garb : nat -> locals) (crds : list nat) (vals : list V)
  : outcome (list (list nat * option V)) :=
  do r <- start (garb n) crds vals; collect n garb (fst r) (snd r).

(** begin() followed by [k] increments. *)
Fixpoint advance (garb : nat -> locals) (crds : list nat) (vals : list V) (k : nat) : outcome (shared * iter) :=
  match k with
  | O => start (garb 0) crds vals
  | S k' => do r <- advance garb crds vals k'; increment (garb k) (fst r) (snd r)
  end.

(** tensor.h 241-245, the postfix operator++: the copy it returns shares the
    buffers. *)
Definition post_increment (garbage : locals) (h : shared) (i : iter) : outcome (iter * (shared * iter)) :=
  do r <- increment garbage h i; Val (i, r).
End Iterate.
