(** Properties C45 (type promotion), C48 (typed indices) and C49 (shapes). *)
From Coq Require Import List ZArith Lia Bool.
Import ListNotations.
From Verif Require Import Types TypesProofs.
Local Open Scope Z_scope.

(** ** C45 *)
(** Kinds in order of promotion, and the precision of each type: bits of an
    integer, bits of a (real or imaginary) floating-point part. *)
Definition kind_rank (t : dtype) : nat :=
  match t with
  | TBool => 0
  | TUInt8 | TUInt16 | TUInt32 | TUInt64 | TUInt128 => 1
  | TInt8 | TInt16 | TInt32 | TInt64 | TInt128 => 2
  | TFloat32 | TFloat64 => 3
  | TComplex64 | TComplex128 => 4
  | TUndefined => 5
  end%nat.
Definition precision (t : dtype) : Z :=
  match t with
  | TBool => 1
  | TUInt8 | TInt8 => 8 | TUInt16 | TInt16 => 16 | TUInt32 | TInt32 => 32
  | TUInt64 | TInt64 => 64 | TUInt128 | TInt128 => 128
  | TFloat32 | TComplex64 => 32 | TFloat64 | TComplex128 => 64
  | TUndefined => 0
  end.
(** [b] is at least as wide as [a]: its kind is not lower, and its precision is
    not lower unless an integer is turned into a floating-point number. *)
Definition widens (a b : dtype) : Prop :=
  (kind_rank a <= kind_rank b)%nat /\
  ((kind_rank a < 3)%nat /\ (3 <= kind_rank b)%nat \/ precision a <= precision b).

(** Mixing two types gives their least upper bound, for all types. *)
Theorem C45_least_upper_bound : forall a b, a <> TUndefined -> b <> TUndefined ->
  exists c, max_type a b = Some c /\ widens a c /\ widens b c /\
    forall d, widens a d -> widens b d -> widens c d.
Proof.
  intros a b A B. unfold widens.
  destruct a, b; try congruence; (eexists; split; [vm_compute; reflexivity|]);
    simpl; (split; [lia|]; split; [lia|]; intros d; destruct d; simpl; lia).
Qed.
Print Assumptions C45_least_upper_bound.

Theorem C45_commutative : forall a b, max_type a b = max_type b a.
Proof. intros a b. destruct a, b; reflexivity. Qed.
Print Assumptions C45_commutative.

Definition max2 (x : option dtype) (b : dtype) : option dtype :=
  match x with Some a => max_type a b | None => None end.
Theorem C45_associative : forall a b c, a <> TUndefined -> b <> TUndefined -> c <> TUndefined ->
  max2 (max_type a b) c = max2 (max_type b c) a.
Proof. intros a b c A B C. destruct a, b; try congruence; destruct c; try congruence; reflexivity. Qed.
Print Assumptions C45_associative.

Theorem C45_idempotent : forall a, max_type a a = Some a.
Proof. intros a. destruct a; reflexivity. Qed.
Print Assumptions C45_idempotent.

(** Finding: the result type need not represent the operands' values: mixing an
    unsigned type with a signed one of the same width loses the upper half, and
    mixing a 64-bit integer with a float gives a single-precision float. *)
Theorem C45_values_lost_refuted :
  max_type TUInt64 TInt8 = Some TInt64 /\ (exists v, 0 <= v < 2 ^ 64 /\ ~ (- 2 ^ 63 <= v < 2 ^ 63)) /\
  max_type TInt64 TFloat32 = Some TFloat32.
Proof. split; auto. split; auto. exists (2 ^ 63). lia. Qed.
Print Assumptions C45_values_lost_refuted.

(** Finding: the constants for 128-bit types are swapped. *)
Theorem C45_constants_swapped_refuted : isUInt global_UInt128 = false /\ isInt global_Int128 = false.
Proof. split; reflexivity. Qed.
Print Assumptions C45_constants_swapped_refuted.

Example C45_example : max_type TUInt16 TInt8 = Some TInt16 /\ max_type TComplex64 TFloat64 = Some TComplex128.
Proof. split; reflexivity. Qed.

(** ** C49 *)
(** The fixed size of a dimension; 0 is no size. *)
Definition fixed_size (d : dimension) : option nat := match d with DFixed (S n) => Some (S n) | _ => None end.
(** Shapes compare equal exactly if they have the same order and, mode by mode,
    the same fixed size or no fixed size. *)
Theorem C49_shape_equality : forall a b, shape_eq a b = true <-> map fixed_size a = map fixed_size b.
Proof.
  assert (F : forall d, (if isFixed d then Some (getSize d) else None) = fixed_size d) by (intros [[|n]|v|]; reflexivity).
  intros a b. rewrite <- (map_ext _ _ F a), <- (map_ext _ _ F b). clear F. revert a b.
  assert (D : forall a b, dim_eq a b = true <->
    (if isFixed a then Some (getSize a) else None) = (if isFixed b then Some (getSize b) else None)).
  { intros a b. unfold dim_eq. destruct (isFixed a), (isFixed b); simpl; try (split; congruence).
    destruct (Nat.eqb_spec (getSize a) (getSize b)); simpl; split; congruence. }
  unfold shape_eq. induction a as [|x a IH]; intros [|y b]; simpl; try (split; congruence).
  specialize (IH b). rewrite andb_true_iff in *. split.
  - intros [L F]. apply andb_prop in F. destruct F as [F1 F2]. apply D in F1. rewrite F1. f_equal. apply IH. auto.
  - intros H. injection H. intros H1 H2. apply D in H2. rewrite H2. simpl. apply IH. auto.
Qed.
Print Assumptions C49_shape_equality.

(** Finding: dimensions sized by different index variables are equal. *)
Theorem C49_index_var_dimensions_refuted : exists v w, v <> w /\ shape_eq [DIndexVar v] [DIndexVar w] = true.
Proof. exists 1%nat, 2%nat. split; [lia|reflexivity]. Qed.
Print Assumptions C49_index_var_dimensions_refuted.

(** ** C48 *)
(** Assigning an int to an element of an array of any integer type: the element
    reads back as the value converted to that type, and every other element, of
    whatever type, keeps its value. *)
Theorem C48_assign_read : forall t m i c, (elem t i + nbytes t <= length m)%nat ->
  exists m', ref_assign_int m t (elem t i) c = Some m' /\ length m' = length m /\
    ref_value m' t (elem t i) = Some (wrap t c) /\
    ref_getAsIndex m' t (elem t i) = Some (wrap t c mod 2 ^ 64) /\
    (forall j, j <> i -> ref_value m' t (elem t j) = ref_value m t (elem t j)) /\
    (forall t' q, (q + nbytes t' <= elem t i)%nat \/ (elem t i + nbytes t <= q)%nat ->
       ref_value m' t' q = ref_value m t' q).
Proof.
  intros t m i c L. unfold ref_assign_int.
  destruct (store_ok m (elem t i) (bytes_of (nbytes t) c)) as (m' & E & LN & RD & FR); [rewrite bytes_length; auto|].
  rewrite bytes_length in *. exists m'. split; auto. split; auto.
  assert (V : ref_value m' t (elem t i) = Some (wrap t c)).
  { unfold ref_value. rewrite RD by auto. simpl. f_equal.
    transitivity (member t (set_member t [] c)); [|apply member_set].
    unfold set_member. rewrite skipn_nil, app_nil_r. auto. }
  split; auto. split; [unfold ref_getAsIndex; rewrite V; auto|]. split.
  - intros j N. unfold ref_value. rewrite FR; auto. unfold elem. nia.
  - intros t' q D. unfold ref_value. rewrite FR; auto.
Qed.
Print Assumptions C48_assign_read.

(** Values of the type's range are read back unchanged. *)
Theorem C48_in_range_exact : forall t c, in_range t c -> wrap t c = c.
Proof. exact wrap_id. Qed.
Print Assumptions C48_in_range_exact.

(** [r] is the value [z] in type [t]: exact if [z] fits the type, and modulo the
    type's range otherwise, unless the C++ expression is undefined. *)
Definition computes (t : itype) (r : option Z) (z : Z) : Prop :=
  (in_range t z -> r = Some z) /\
  (forall x, r = Some x -> in_range t x /\ exists k, x = z + k * 2 ^ bits t).

Theorem C48_arithmetic : forall t u1 u2 c, - 2 ^ 31 <= c < 2 ^ 31 ->
  computes t (ti_add t u1 u2) (member t u1 + member t u2) /\
  computes t (ti_mul t u1 u2) (member t u1 * member t u2) /\
  computes t (ti_addInt t u1 c) (member t u1 + c) /\
  computes t (ti_mulInt t u1 c) (member t u1 * c).
Proof.
  intros t u1 u2 c H.
  assert (G : forall f b, f = Z.add \/ f = Z.mul -> (signed (promoted t) = true -> in_range (promoted t) b) ->
    computes t (arith f t (member t u1) b) (f (member t u1) b)).
  { intros f b F B. split.
    - intros R. apply arith_exact; auto. apply member_range.
    - intros x E. apply arith_ok in E; auto. subst x. split; [apply wrap_range|apply wrap_cong]. }
  split; [|split; [|split]]; apply G; auto using member_promoted, int_promoted.
Qed.
Print Assumptions C48_arithmetic.

(** Comparisons of stored values agree with the values. *)
Theorem C48_compare : forall t u1 u2,
  ti_gt t u1 u2 = (member t u2 <? member t u1) /\ ti_ge t u1 u2 = (member t u2 <=? member t u1) /\
  ti_lt t u1 u2 = (member t u1 <? member t u2) /\ ti_le t u1 u2 = (member t u1 <=? member t u2) /\
  ti_eq t u1 u2 = (member t u1 =? member t u2) /\ ti_ne t u1 u2 = negb (member t u1 =? member t u2).
Proof.
  intros t u1 u2. unfold ti_lt, ti_le, ti_ge, ti_gt, ti_ne, ti_eq.
  destruct (Z.gtb_spec (member t u1) (member t u2)), (Z.eqb_spec (member t u1) (member t u2)),
    (Z.ltb_spec (member t u1) (member t u2)), (Z.leb_spec (member t u1) (member t u2)),
    (Z.ltb_spec (member t u2) (member t u1)), (Z.leb_spec (member t u2) (member t u1)); simpl; repeat split; lia.
Qed.
Print Assumptions C48_compare.

(** Comparisons with an int agree with the value if it is below 2^31. *)
Theorem C48_compare_int : forall t u c, member t u < 2 ^ 31 ->
  ti_gtI t u c = (c <? member t u) /\ ti_geI t u c = (c <=? member t u) /\ ti_ltI t u c = (member t u <? c) /\
  ti_leI t u c = (member t u <=? c) /\ ti_eqI t u c = (member t u =? c).
Proof.
  intros t u c H. unfold ti_ltI, ti_leI, ti_geI, ti_gtI, ti_eqI. rewrite as_signed_ok by auto.
  destruct (Z.gtb_spec (member t u) c), (Z.eqb_spec (member t u) c),
    (Z.ltb_spec (member t u) c), (Z.leb_spec (member t u) c),
    (Z.ltb_spec c (member t u)), (Z.leb_spec c (member t u)); simpl; repeat split; lia.
Qed.
Print Assumptions C48_compare_int.

(** Finding: a wide unsigned value is truncated by the comparison with an int. *)
Theorem C48_compare_int_refuted : exists u, member U64 u = 2 ^ 32 + 5 /\ ti_eqI U64 u 5 = true /\ ti_gtI U64 u 7 = false.
Proof. exists [5; 0; 0; 0; 1; 0; 0; 0]. repeat split; reflexivity. Qed.
Print Assumptions C48_compare_int_refuted.

(** Finding: prefix increment returns the old value and postfix the new one. *)
Theorem C48_increment_refuted : forall t, exists u u' v w,
  ti_preinc t u = Some (u', v) /\ v = member t u /\ v <> member t u' /\
  ti_postinc t u = Some (u', w) /\ w <> member t u.
Proof.
  intros t. exists [5; 0; 0; 0; 0; 0; 0; 0], [6; 0; 0; 0; 0; 0; 0; 0], 5, 6.
  destruct t; vm_compute; repeat split; congruence.
Qed.
Print Assumptions C48_increment_refuted.

(** Finding: the product of two 16-bit unsigned indices is computed as int and
    can overflow, which is undefined. *)
Theorem C48_uint16_product_refuted : exists u, ti_mul U16 u u = None.
Proof. exists [255; 255; 0; 0; 0; 0; 0; 0]. reflexivity. Qed.
Print Assumptions C48_uint16_product_refuted.

(** Finding: turning a reference to the last element of an array into a value
    copies the whole 8-byte union and reads past the array. *)
Theorem C48_reference_copy_refuted : exists m t i, (elem t i + nbytes t <= length m)%nat /\
  ref_value m t (elem t i) <> None /\ val_of_ref m (elem t i) = None.
Proof. exists [1; 0; 0; 0; 2; 0; 0; 0], I32, 1%nat. vm_compute. repeat split; auto; congruence. Qed.
Print Assumptions C48_reference_copy_refuted.

Example C48_example :
  let m := [0; 0; 0; 0; 7; 0; 0; 0] in
  (elem I32 0 + nbytes I32 <= length m)%nat /\
  ref_assign_int m I32 (elem I32 0) (-2) = Some [254; 255; 255; 255; 7; 0; 0; 0] /\
  arith Z.mul U8 20 20 = Some 144 /\ arith Z.add I32 (2 ^ 31 - 1) 1 = None.
Proof. vm_compute. repeat split; auto. Qed.
