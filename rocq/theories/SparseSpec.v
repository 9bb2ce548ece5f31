(** What a kernel with a partly compressed result is supposed to leave behind,
    stated without reference to the generated code. *)
From Coq Require Import List Arith Bool.
Import ListNotations.
From Verif Require Import Storage IndexExpr Eval KernelSpec.

(** The left-hand side's variables at a coordinate of the result. *)
Fixpoint point_of (lhs : list ivar) (xs : list nat) : ivar -> nat :=
  match lhs, xs with
  | i :: lhs, x :: xs => assign_var (point_of lhs xs) i x
  | _, _ => origin
  end.

(** An operand is present at an assignment of the variables in [loops]: at each
    of its compressed levels that one of these variables indexes, it stores the
    assigned coordinate (below the coordinates of the levels above). *)
Definition present {V} (T : nat -> storage V) (loops : list ivar) (rho : ivar -> nat) (a : access) : bool :=
  forallb (fun l =>
    match nth l (a_vars a) (0, KDense) with
    | (v, KComp) =>
        negb (existsb (Nat.eqb v) loops) ||
        match locate (firstn (S l) (st_levels (T (a_tensor a)))) 0 (firstn (S l) (coords_of rho (a_vars a))) with
        | Some _ => true
        | None => false
        end
    | (_, KDense) => true
    end) (seq 0 (length (a_vars a))).

(** A result with levels [outer], then the compressed level of [i], then dense
    levels [inner] only.  The loops are those of [outer] and of [i], in this
    order, then [loops]. *)
Record appended {V} (T : nat -> storage V) (dim : ivar -> nat) (tres : nat)
    (outer : list (ivar * kind)) (i : ivar) (inner : list (ivar * kind)) (loops : list ivar) (reduce : bool) : Prop := {
  app_vars : NoDup (map fst outer ++ i :: map fst inner);
  app_inner : forall v, In v inner -> snd v = KDense;
  app_widths : forall l v, nth_error (outer ++ (i, KComp) :: inner) l = Some (v, KDense) ->
    nth_error (st_levels (T tres)) l = Some (LDense (dim v));
  (** the loops of the dense levels come in storage order, the first of them at once *)
  app_order : filter (fun v => existsb (Nat.eqb v) (map fst inner)) loops = map fst inner;
  app_first : match inner with [] => True | (v, _) :: _ => exists rest, loops = v :: rest end;
  (** without [+=] there are no reduction loops *)
  app_assign : reduce = false -> forall v, In v loops -> In v (map fst inner) }.

(** Formats and dimensions of the result. *)
Definition formats (dim : ivar -> nat) (vs : list (ivar * kind)) : list (kind * nat) :=
  map (fun v => (snd v, dim (fst v))) vs.

(** What the result must be. *)
Record computes {V} (R : ring_ops V) (fn : nat -> V -> V) (T : nat -> storage V) (dim : ivar -> nat)
    (outer : list (ivar * kind)) (i : ivar) (inner : list (ivar * kind)) (loops : list ivar) (e : expr V)
    (r : storage V) : Prop := {
  (** it is stored in the requested formats, and well formed *)
  com_formats : map level_format (st_levels r) = map snd (outer ++ (i, KComp) :: inner);
  com_wf : wf_storage (map dim (map fst outer ++ i :: map fst inner)) r;
  (** its values are those of the expression *)
  com_values : forall xs, in_bounds dim (map fst outer ++ i :: map fst inner) xs ->
    value_at (r0 R) r xs =
    reduction R fn T dim (map fst outer ++ i :: loops) (map fst outer ++ i :: map fst inner) e xs;
  (** it stores exactly the coordinates at which the loops find the expression
      possibly nonzero *)
  com_stores : forall xs, in_bounds dim (map fst outer ++ i :: map fst inner) xs ->
    (locate (st_levels r) 0 xs <> None <->
     may_be_nonzero (present T (map fst outer ++ [i]) (point_of (map fst outer ++ i :: map fst inner) xs)) e = true) }.
