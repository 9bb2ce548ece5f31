(** Outcomes of C/C++ code: a value, an out-of-bounds array access, or running
    out of the model's fuel.  Theorems conclude [Val], which excludes both of
    the others. *)
From Coq Require Import ZArith List Lia Bool.
Import ListNotations.
Open Scope Z_scope.

Inductive outcome (A : Type) : Type :=
| Val (a : A)      (* normal completion *)
| Oob              (* out-of-bounds read or write: undefined behaviour in C *)
| NoFuel.          (* the model's recursion bound was exhausted *)
Arguments Val {A} _.
Arguments Oob {A}.
Arguments NoFuel {A}.

Definition obind {A B} (o : outcome A) (f : A -> outcome B) : outcome B :=
  match o with Val a => f a | Oob => Oob | NoFuel => NoFuel end.

Notation "'do' x <- o ; k" := (obind o (fun x => k))
  (at level 200, x pattern, o at level 100, k at level 200, right associativity).

(** C array read [a[i]]: undefined outside [0, length a). *)
Definition rd {A} (a : list A) (i : Z) : outcome A :=
  if (i <? 0) then Oob
  else match nth_error a (Z.to_nat i) with Some v => Val v | None => Oob end.

(** C array write [a[i] = v]. *)
Fixpoint upd_nth {A} (a : list A) (n : nat) (v : A) : list A :=
  match a, n with
  | [], _ => []
  | _ :: t, O => v :: t
  | x :: t, S n => x :: upd_nth t n v
  end.

Definition wr {A} (a : list A) (i : Z) (v : A) : outcome (list A) :=
  if (i <? 0) || (Z.of_nat (length a) <=? i) then Oob
  else Val (upd_nth a (Z.to_nat i) v).

(** Total reading used only in specifications. *)
Definition at_ (a : list Z) (i : Z) : Z := nth (Z.to_nat i) a 0.

Lemma rd_ok : forall (a : list Z) i,
  0 <= i < Z.of_nat (length a) -> rd a i = Val (at_ a i).
Proof.
  intros a i H. unfold rd, at_.
  destruct (Z.ltb_spec i 0); [lia|].
  rewrite nth_error_nth' with (d := 0) by lia. reflexivity.
Qed.

Lemma rd_val_inv : forall A (a : list A) i v,
  rd a i = Val v -> 0 <= i < Z.of_nat (length a).
Proof.
  unfold rd; intros A a i v. destruct (Z.ltb_spec i 0); [discriminate|].
  destruct (nth_error a (Z.to_nat i)) eqn:E; [|discriminate].
  intros _. assert (Z.to_nat i < length a)%nat by (apply nth_error_Some; congruence). lia.
Qed.

Lemma upd_nth_length : forall A (a : list A) n v, length (upd_nth a n v) = length a.
Proof. induction a; destruct n; simpl; intros; auto. Qed.

Lemma nth_upd_nth : forall A (a : list A) n m v d,
  (n < length a)%nat ->
  nth m (upd_nth a n v) d = if Nat.eqb m n then v else nth m a d.
Proof.
  induction a; simpl; intros; [lia|].
  destruct n, m; simpl; auto. rewrite IHa by lia. reflexivity.
Qed.
