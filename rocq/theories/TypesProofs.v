(** Proofs about component types and typed indices. *)
From Coq Require Import List ZArith Lia Bool.
Import ListNotations.
From Verif Require Import Types.
Local Open Scope Z_scope.

Lemma bytes_length : forall n z, length (bytes_of n z) = n.
Proof. induction n; simpl; intros; auto. Qed.

Lemma of_bytes_of : forall n z, of_bytes (bytes_of n z) = z mod 256 ^ Z.of_nat n.
Proof.
  induction n; intros z.
  - simpl. rewrite Z.mod_1_r. auto.
  - rewrite Nat2Z.inj_succ, Z.pow_succ_r by lia. cbn [bytes_of of_bytes]. rewrite IHn.
    rewrite (Z.rem_mul_r z 256 (256 ^ Z.of_nat n)); lia.
Qed.

Lemma pow256 : forall t, 256 ^ Z.of_nat (nbytes t) = 2 ^ bits t.
Proof. destruct t; reflexivity. Qed.

Lemma wrap_range : forall t z, in_range t (wrap t z).
Proof.
  intros t z. unfold in_range, wrap. assert (P : 0 < 2 ^ bits t) by (destruct t; reflexivity).
  assert (H : 2 ^ bits t = 2 * 2 ^ (bits t - 1)) by (destruct t; reflexivity).
  assert (B := Z.mod_pos_bound z (2 ^ bits t) P). destruct (signed t); simpl; [|lia].
  destruct (Z.leb_spec (2 ^ (bits t - 1)) (z mod 2 ^ bits t)); lia.
Qed.

Lemma wrap_mod : forall t z, wrap t (z mod 2 ^ bits t) = wrap t z.
Proof. intros. unfold wrap. rewrite Z.mod_mod; auto. destruct t; discriminate. Qed.

Lemma wrap_cong : forall t z, exists k, wrap t z = z + k * 2 ^ bits t.
Proof.
  intros t z. assert (P : 2 ^ bits t <> 0) by (destruct t; discriminate). unfold wrap.
  assert (E := Z.div_mod z (2 ^ bits t) P).
  destruct (_ && _); [exists (- (z / 2 ^ bits t) - 1)|exists (- (z / 2 ^ bits t))]; lia.
Qed.

Lemma wrap_id : forall t z, in_range t z -> wrap t z = z.
Proof.
  intros t z H. destruct (wrap_cong t z) as [k E]. assert (R := wrap_range t z).
  assert (X : 2 ^ bits t = 2 * 2 ^ (bits t - 1)) by (destruct t; reflexivity).
  assert (Y : 0 < 2 ^ (bits t - 1)) by (destruct t; reflexivity).
  unfold in_range in *. set (P := 2 ^ (bits t - 1)) in *. rewrite X in *. clearbody P.
  assert (K : k <= -1 \/ k = 0 \/ 1 <= k) by lia.
  destruct K as [K|[->|K]]; [|lia|]; destruct (signed t); nia.
Qed.

Lemma wrap_eq_mod : forall t a b, a mod 2 ^ bits t = b mod 2 ^ bits t -> wrap t a = wrap t b.
Proof. intros t a b H. rewrite <- (wrap_mod t a), <- (wrap_mod t b), H. auto. Qed.

Lemma in_rangeb_ok : forall t z, in_rangeb t z = true <-> in_range t z.
Proof.
  intros. unfold in_rangeb, in_range. destruct (signed t); rewrite andb_true_iff, Z.leb_le, Z.ltb_lt; tauto.
Qed.

Lemma member_range : forall t u, in_range t (member t u).
Proof. intros. apply wrap_range. Qed.

Lemma member_set : forall t u z, member t (set_member t u z) = wrap t z.
Proof.
  intros. unfold member, set_member.
  rewrite firstn_app, bytes_length, Nat.sub_diag. simpl. rewrite app_nil_r.
  rewrite (firstn_all2 (n := nbytes t)) by (rewrite bytes_length; lia).
  rewrite of_bytes_of, pow256, wrap_mod. auto.
Qed.

(** Memory. *)
Lemma skipn_skipn' : forall A (l : list A) n m, skipn n (skipn m l) = skipn (m + n) l.
Proof. intros A l n m. revert l. induction m; intros l; simpl; auto. destruct l; auto. apply skipn_nil. Qed.

Lemma store_ok : forall m p bs, (p + length bs <= length m)%nat ->
  exists m', store m p bs = Some m' /\ length m' = length m /\
    (forall n, n = length bs -> load m' p n = Some bs) /\
    (forall q n, (q + n <= p)%nat \/ (p + length bs <= q)%nat -> load m' q n = load m q n).
Proof.
  intros m p bs L. unfold store. rewrite (proj2 (Nat.leb_le _ _) L).
  assert (LF : length (firstn p m) = p) by (rewrite firstn_length; lia).
  assert (LEN : length (firstn p m ++ bs ++ skipn (p + length bs) m) = length m).
  { rewrite !app_length, LF, skipn_length. lia. }
  eexists. split; [reflexivity|]. split; auto. split.
  - intros n ->. unfold load. rewrite LEN, (proj2 (Nat.leb_le _ _) L). f_equal.
    rewrite skipn_app, LF, Nat.sub_diag. simpl. rewrite skipn_all2 by lia. simpl.
    rewrite firstn_app, Nat.sub_diag, firstn_all. simpl. rewrite app_nil_r. auto.
  - intros q n D. unfold load. rewrite LEN. destruct (Nat.leb_spec (q + n) (length m)); auto. f_equal.
    destruct D as [D|D].
    + rewrite skipn_app, LF. replace (q - p)%nat with 0%nat by lia. simpl.
      rewrite firstn_app. rewrite skipn_length, LF. replace (n - (p - q))%nat with 0%nat by lia. simpl. rewrite app_nil_r.
      rewrite <- (firstn_skipn p m) at 2. rewrite skipn_app, LF. replace (q - p)%nat with 0%nat by lia. simpl.
      rewrite firstn_app. rewrite skipn_length, LF. replace (n - (p - q))%nat with 0%nat by lia. simpl. rewrite app_nil_r. auto.
    + rewrite skipn_app, LF, skipn_all2 by lia. simpl.
      rewrite skipn_app, skipn_all2 by lia. simpl. rewrite skipn_skipn'.
      f_equal. f_equal. lia.
Qed.

Lemma arith_ok : forall f t a b r, (f = Z.add \/ f = Z.mul) -> arith f t a b = Some r -> r = wrap t (f a b).
Proof.
  intros f t a b r F E. unfold arith in E.
  assert (X : wrap t (f (wrap (promoted t) a) (wrap (promoted t) b)) = wrap t (f a b)).
  { apply wrap_eq_mod. destruct (wrap_cong (promoted t) a) as [k1 ->]. destruct (wrap_cong (promoted t) b) as [k2 ->].
    assert (D : exists d, 2 ^ bits (promoted t) = d * 2 ^ bits t).
    { destruct t; [exists (2^24)|exists (2^16)|exists 1|exists 1|exists (2^24)|exists (2^16)|exists 1|exists 1]; reflexivity. }
    destruct D as [d ->]. destruct F as [-> | ->].
    - replace (a + k1 * (d * 2 ^ bits t) + (b + k2 * (d * 2 ^ bits t))) with (a + b + ((k1 + k2) * d) * 2 ^ bits t) by ring.
      apply Z_mod_plus_full.
    - replace ((a + k1 * (d * 2 ^ bits t)) * (b + k2 * (d * 2 ^ bits t)))
        with (a * b + (a * k2 * d + k1 * d * b + k1 * d * k2 * d * 2 ^ bits t) * 2 ^ bits t) by ring.
      apply Z_mod_plus_full. }
  rewrite X in E. destruct (signed (promoted t)); [destruct (in_rangeb _ _); congruence|congruence].
Qed.

Lemma arith_exact : forall f t a b, (f = Z.add \/ f = Z.mul) ->
  in_range t a -> (signed (promoted t) = true -> in_range (promoted t) b) -> in_range t (f a b) ->
  arith f t a b = Some (f a b).
Proof.
  intros f t a b F A B C. destruct (signed (promoted t)) eqn:S.
  - unfold arith. assert (SUB : forall z, in_range t z -> in_range (promoted t) z).
    { intros z H. destruct t; unfold in_range, bits in *; simpl in *; lia. }
    rewrite S, !wrap_id; auto. rewrite (proj2 (in_rangeb_ok _ _) (SUB _ C)). auto.
  - assert (E : exists r, arith f t a b = Some r) by (unfold arith; rewrite S; eauto).
    destruct E as [r E]. rewrite E. apply arith_ok in E; auto. rewrite wrap_id in E by auto. congruence.
Qed.

Lemma member_promoted : forall t u, in_range (promoted t) (member t u).
Proof.
  intros t u. assert (R := member_range t u). destruct t; unfold in_range, bits in *; simpl in *; lia.
Qed.

Lemma int_promoted : forall t c, - 2 ^ 31 <= c < 2 ^ 31 -> signed (promoted t) = true -> in_range (promoted t) c.
Proof. intros t c H S. destruct t; try discriminate; unfold in_range, bits; simpl in *; lia. Qed.

Lemma as_signed_ok : forall t u, member t u < 2 ^ 31 -> as_signed t (member t u) = member t u.
Proof.
  intros t u H. unfold as_signed. destruct (signed t) eqn:S; auto. apply wrap_id.
  assert (R := member_range t u). unfold in_range in *. rewrite S in R. change (signed I32) with true. cbv iota.
  change (2 ^ (bits I32 - 1)) with (2 ^ 31). lia.
Qed.
