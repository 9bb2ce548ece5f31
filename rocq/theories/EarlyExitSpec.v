(** What a statement means, with every iteration of every loop run, and the
    statements that may leave a loop early. *)
From Coq Require Import List Arith ZArith Bool.
Import ListNotations.
From Verif Require Import EarlyExit.
Local Open Scope Z_scope.

Section Spec.
  Variable splits : var -> option (var * var * Z).
  Variable loops : var -> env -> list (list Z).

  (** No loop is left early. *)
  Fixpoint meaning (s : stmt) (e : env) (st : store) : store :=
    match s with
    | Assign t vars op rhs =>
        let c := coords splits e vars in
        let r := eval splits rhs e st in
        write st t c (match op with Some o => apply o (st t c) r | None => r end)
    | Forall v b =>
        fold_left (fun st x => meaning b (bind e v x) st) (concat (loops v e)) st
    | Where c t init p =>
        fill (meaning c e (meaning p e (fill st t (fun _ => init)))) t (st t)
    | Both a b => meaning b e (meaning a e st)
    end.

  Definition same (a b : store) : Prop := forall t c, a t c = b t c.

  (** The annihilator absorbs whatever follows. *)
  Definition absorbing (op : option operator) : Prop :=
    forall o a ps, op = Some o -> annihilator o = Some (a, ps) ->
    forall x, apply o a x = a.
  Definition may_break (op : option operator) : bool :=
    match op with
    | Some o => match annihilator o with Some _ => true | None => false end
    | None => false
    end.
  (** The loop over [v] moves the variable [w]. *)
  Definition moves (v w : var) : Prop :=
    match splits w with
    | Some (o, i, _) => v = o \/ v = i
    | None => v = w
    end.

  (** Assignments whose break leaves a loop outside of this statement. *)
  Fixpoint breaks_out (s : stmt) : Prop :=
    match s with
    | Assign _ _ op _ => may_break op = true
    | Forall _ _ => False
    | Where c _ _ p => breaks_out p \/ breaks_out c
    | Both a b => breaks_out a \/ breaks_out b
    end.
  (** The tensors a statement changes. *)
  Fixpoint changes (s : stmt) (t : tensor) : Prop :=
    match s with
    | Assign t' _ _ _ => t = t'
    | Forall _ b => changes b t
    | Where c t' _ p => t <> t' /\ (changes p t \/ changes c t)
    | Both a b => changes a t \/ changes b t
    end.
  (** All that [s] does, in a loop over [v], is to reduce into one component
      that does not depend on [v], by an operator whose annihilator absorbs;
      it may compute temporaries of its own first. *)
  Fixpoint reduces (v : var) (s : stmt) (t : tensor) : Prop :=
    match s with
    | Assign t' vars op _ =>
        t = t' /\ op <> None /\ absorbing op /\ forall w, In w vars -> ~ moves v w
    | Forall _ _ => False
    | Where c t' _ p =>
        t <> t' /\ reduces v c t /\ ~ breaks_out p /\
        forall u, changes p u -> u = t'
    | Both _ _ => False
    end.
  (** Every break leaves a loop that only reduces. *)
  Fixpoint safe (s : stmt) : Prop :=
    match s with
    | Assign _ _ _ _ => True
    | Forall v b => safe b /\ (breaks_out b -> exists t, reduces v b t)
    | Where c _ _ p => safe c /\ safe p /\ ~ breaks_out p
    | Both a b => safe a /\ safe b /\ ~ breaks_out a
    end.
End Spec.

(** Loops around a statement, outermost first. *)
Definition nest (vs : list var) (s : stmt) : stmt := fold_right Forall s vs.
