(** Dense workspaces that are filled and read through a list of the touched
    positions: /repo/src/lower/lowerer_impl_imperative.cpp lowerAssignment
    570-607, codeToInitializeDenseAcceleratorArrays 2197-2284, lowerWhere
    2516-2605, lowerForallDenseAcceleration 1234-1291.  Out-of-bounds accesses are
    undefined ([None]).  Not modelled: one workspace per thread. *)
From Coq Require Import List Arith Lia Bool.
Import ListNotations.
From Verif Require Import Outcome IndexExpr Eval Notation NotationSpec WhereLower.
Local Open Scope nat_scope.

Section Model.
Context {V : Type}.
Variable R : ring_ops V.

(** The arrays w, w_already_set and w_index_list, and w_index_list_size. *)
Record wsp := Wsp { w_vals : list V; w_set : list bool; w_list : list nat; w_size : nat }.

Definition put {A} (a : list A) (p : nat) (v : A) : option (list A) :=
  if p <? length a then Some (upd_nth a p v) else None.

(** 506-535: the plain or compound store. *)
Definition compute (op : option redop) (vals : list V) (loc : nat) (rhs : V) : option (list V) :=
  match op with
  | None => put vals loc rhs
  | Some o => obnd (nth_error vals loc) (fun u => put vals loc (opf R o u rhs))
  end.

(** 573-605.  [comp]: values are computed (otherwise the kernel assembles only,
    and there is no array of values). *)
Definition update (comp : bool) (op : option redop) (w : wsp) (u : nat * V) : option wsp :=
  let '(loc, rhs) := u in
  obnd (nth_error (w_set w) loc) (fun already =>
  if negb already then
    obnd (if comp then put (w_vals w) loc rhs else Some (w_vals w)) (fun vals =>
    obnd (put (w_list w) (w_size w) loc) (fun lst =>
    obnd (put (w_set w) loc true) (fun set =>
    Some (Wsp vals set lst (w_size w + 1)))))
  else if comp then
    obnd (compute op (w_vals w) loc rhs) (fun vals =>
    Some (Wsp vals (w_set w) (w_list w) (w_size w)))
  else Some w).

Definition all_updates comp op (us : list (nat * V)) (w : wsp) : option wsp :=
  fold_left (fun o u => obnd o (fun w => update comp op w u)) us (Some w).

(** 2548-2556: qsort of the first [w_size] entries of the list; [srt] is the
    sorting function. *)
Definition sort_list (srt : option (list nat -> list nat)) (w : wsp) : wsp :=
  match srt with
  | None => w
  | Some f => Wsp (w_vals w) (w_set w) (f (firstn (w_size w) (w_list w)) ++ skipn (w_size w) (w_list w)) (w_size w)
  end.

(** One iteration of the consumer's loop, 1266-1275: the coordinate, the body
    (which sees the coordinate and the value there), the guard cleared. *)
Definition visit (comp : bool) (p : nat) (s : list (nat * option V) * wsp) : option (list (nat * option V) * wsp) :=
  let '(out, w) := s in
  obnd (nth_error (w_list w) p) (fun i =>
  obnd (if comp then option_map Some (nth_error (w_vals w) i) else Some None) (fun v =>
  obnd (put (w_set w) i false) (fun set =>
  Some (out ++ [(i, v)], Wsp (w_vals w) set (w_list w) (w_size w))))).
Definition consume (comp : bool) (w : wsp) : option (list (nat * option V) * wsp) :=
  fold_left (fun o p => obnd o (visit comp p)) (seq 0 (w_size w)) (Some ([], w)).

(** One where statement: w_index_list_size = 0, producer, sort, consumer. *)
Definition use comp op srt (us : list (nat * V)) (w : wsp) : option (list (nat * option V) * wsp) :=
  obnd (all_updates comp op us (Wsp (w_vals w) (w_set w) (w_list w) 0)) (fun w1 =>
  consume comp (sort_list srt w1)).

(** The where statement in the iterations of an outer loop: the workspace is
    allocated once; w_already_set is allocated by calloc. *)
Fixpoint uses comp op srt (uss : list (list (nat * V))) (w : wsp) : option (list (list (nat * option V)) * wsp) :=
  match uss with
  | [] => Some ([], w)
  | us :: uss =>
      obnd (use comp op srt us w) (fun r =>
      obnd (uses comp op srt uss (snd r)) (fun r' => Some (fst r :: fst r', snd r')))
  end.
Definition allocated (n : nat) (vals : list V) (lst : list nat) : wsp := Wsp vals (repeat false n) lst 0.
End Model.
Arguments wsp V : clear implicits.
