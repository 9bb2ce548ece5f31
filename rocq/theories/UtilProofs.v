(** Proofs about the utility models. *)
From Coq Require Import List Arith Lia Bool String Ascii Decimal DecimalString DecimalNat.
Import ListNotations.
From Verif Require Import Util UtilSpec.
Local Open Scope nat_scope.
Notation length := List.length.
Notation rev := List.rev.

(** ** Names *)
Lemma chars_app : forall a b, chars (a ++ b) = chars a ++ chars b.
Proof. induction a; simpl; intros; [auto|]. f_equal. auto. Qed.
Lemma chars_inj : forall a b, chars a = chars b -> a = b.
Proof. induction a; destruct b; simpl; intros H; inversion H; auto. f_equal; auto. Qed.

Lemma uint_digits : forall u, forallb digit (chars (NilEmpty.string_of_uint u)) = true.
Proof. induction u; simpl; auto. Qed.
Lemma dec_digits : forall n, forallb digit (chars (dec n)) = true.
Proof. intros. apply uint_digits. Qed.
Lemma dec_inj : forall m n, dec m = dec n -> m = n.
Proof.
  intros m n H. apply Unsigned.to_uint_inj.
  assert (X : NilEmpty.uint_of_string (dec m) = NilEmpty.uint_of_string (dec n)) by congruence.
  unfold dec in X. rewrite !NilEmpty.usu in X. congruence.
Qed.
Lemma dec_nonempty : forall n, chars (dec n) <> [].
Proof.
  intros n H. assert (X : Nat.to_uint n <> Nil).
  { rewrite <- (DecimalNat.Unsigned.of_to n) at 1. rewrite DecimalNat.Unsigned.to_of.
    destruct (Nat.to_uint n); simpl; try discriminate. unfold unorm. simpl.
    destruct (nzhead u); discriminate. }
  unfold dec in H. destruct (Nat.to_uint n); simpl in H; congruence.
Qed.

Fixpoint strip (l : list ascii) : list ascii :=
  match l with [] => [] | c :: t => if digit c then strip t else l end.
Lemma strip_digits : forall d l, forallb digit d = true -> strip (d ++ l) = strip l.
Proof. induction d; simpl; intros l H; auto. apply andb_prop in H. destruct H as [-> H]. auto. Qed.

Lemma strip_name : forall s n, no_digit_end s -> strip (rev (chars (s ++ dec n))) = rev (chars s).
Proof.
  intros s n H. rewrite chars_app, rev_app_distr, strip_digits.
  - unfold no_digit_end in H. destruct (rev (chars s)) as [|c l]; simpl; auto. rewrite H. auto.
  - rewrite forallb_forall. intros x Hx. apply in_rev in Hx. apply (proj1 (forallb_forall _ _) (dec_digits n)). auto.
Qed.

Lemma name_dec_inj : forall s1 n1 s2 n2, no_digit_end s1 -> no_digit_end s2 ->
  (s1 ++ dec n1 = s2 ++ dec n2)%string -> s1 = s2 /\ n1 = n2.
Proof.
  intros s1 n1 s2 n2 H1 H2 E.
  assert (S : s1 = s2).
  { apply chars_inj. rewrite <- (rev_involutive (chars s1)), <- (rev_involutive (chars s2)). f_equal.
    rewrite <- (strip_name s1 n1 H1), <- (strip_name s2 n2 H2), E. auto. }
  split; auto. subst s2. apply dec_inj. apply chars_inj. apply (f_equal chars) in E. rewrite !chars_app in E.
  apply app_inv_head in E. auto.
Qed.

Lemma name_not_dec : forall s1 s2 n, no_digit_end s1 -> s1 <> (s2 ++ dec n)%string.
Proof.
  intros s1 s2 n H E. unfold no_digit_end in H. rewrite E, chars_app, rev_app_distr in H.
  destruct (rev (chars (dec n))) as [|c l] eqn:R.
  - apply (dec_nonempty n). rewrite <- (rev_involutive (chars (dec n))), R. auto.
  - simpl in H. assert (D : digit c = true).
    { apply (proj1 (forallb_forall _ _) (dec_digits n)). apply in_rev. rewrite R. simpl; auto. }
    congruence.
Qed.

Lemma counter_set : forall name k c n, counter n (set_counter name k c) = if string_dec name n then Some k else counter n c.
Proof.
  induction c as [|[m j] c IH]; simpl; intros n.
  - auto.
  - destruct (string_dec m name) as [->|N]; simpl.
    + destruct (string_dec name n); auto.
    + destruct (string_dec m n) as [->|M].
      * destruct (string_dec name n); congruence.
      * apply IH.
Qed.

Lemma unique_names_ok : forall reqs c, Forall no_digit_end reqs ->
  NoDup (unique_names c reqs) /\
  forall o, In o (unique_names c reqs) ->
    (no_digit_end o /\ counter o c = None) \/
    (exists name k, no_digit_end name /\ o = (name ++ dec k)%string /\
       match counter name c with Some j => j <= k | None => True end).
Proof.
  induction reqs as [|r reqs IH]; intros c F.
  - simpl. split; [constructor|tauto].
  - inversion F as [|? ? Hr Hrs]; subst. simpl. unfold get_unique_name.
    destruct (counter r c) as [k|] eqn:C.
    + destruct (IH (set_counter r (S k) c) Hrs) as [ND OUT]. split.
      * constructor; auto. intros Hin. destruct (OUT _ Hin) as [[N _]|(name & j & N & E & L)].
        -- exact (name_not_dec _ r k N eq_refl).
        -- destruct (name_dec_inj _ _ _ _ Hr N E) as [<- <-]. rewrite counter_set in L.
           destruct (string_dec r r); [lia|congruence].
      * intros o [<-|Hin].
        -- right. exists r, k. rewrite C. auto.
        -- destruct (OUT _ Hin) as [[N L]|(name & j & N & E & L)]; rewrite counter_set in L.
           ++ destruct (string_dec r o); [discriminate|]. auto.
           ++ right. exists name, j. split; auto. split; auto.
              destruct (string_dec r name) as [<-|]; auto. rewrite C. lia.
    + destruct (IH (set_counter r 0 c) Hrs) as [ND OUT]. split.
      * constructor; auto. intros Hin. destruct (OUT _ Hin) as [[N L]|(name & j & N & E & L)].
        -- rewrite counter_set in L. destruct (string_dec r r); congruence.
        -- exact (name_not_dec _ _ _ Hr E).
      * intros o [<-|Hin]; auto.
        destruct (OUT _ Hin) as [[N L]|(name & j & N & E & L)]; rewrite counter_set in L.
        -- destruct (string_dec r o); [discriminate|]. auto.
        -- right. exists name, j. split; auto. split; auto.
           destruct (string_dec r name) as [<-|]; auto. rewrite C. auto.
Qed.

Lemma reserve_mono : forall l c n, counter n c <> None -> counter n (fold_left reserve l c) <> None.
Proof.
  induction l; simpl; intros c n H; auto. apply IHl. unfold reserve. destruct (counter a c) eqn:C; auto.
  rewrite counter_set. destruct (string_dec a n); congruence.
Qed.
Lemma reserved_counted : forall l c n, In n l -> counter n (fold_left reserve l c) <> None.
Proof.
  induction l as [|a l IH]; simpl; intros c n H; [contradiction|]. destruct H as [<-|H]; [|apply IH; auto]. apply reserve_mono. unfold reserve.
  destruct (counter a c) eqn:C; [congruence|]. rewrite counter_set. destruct (string_dec a a); congruence.
Qed.

Lemma generator_ok : forall reserved reqs, Forall no_digit_end reserved -> Forall no_digit_end reqs ->
  NoDup (unique_names (new_generator reserved) reqs) /\
  forall n, In n (unique_names (new_generator reserved) reqs) -> ~ In n reserved.
Proof.
  intros reserved reqs FR F. destruct (unique_names_ok reqs (new_generator reserved) F) as [ND OUT].
  split; auto. intros n Hn Hr. destruct (OUT n Hn) as [[_ C]|(name & k & N & E & _)].
  - exact (reserved_counted reserved [] n Hr C).
  - rewrite Forall_forall in FR. exact (name_not_dec _ _ _ (FR n Hr) E).
Qed.

Lemma global_names_ok : forall ps s, Forall no_digit_end ps -> NoDup (global_names s ps).
Proof.
  assert (X : forall ps s o, Forall no_digit_end ps -> In o (global_names s ps) ->
     exists p k, no_digit_end p /\ s <= k /\ o = (p ++ dec k)%string).
  { induction ps; unfold global_names; simpl; intros s o F H; [tauto|]. inversion F; subst. destruct H as [<-|H].
    - exists a, s. auto.
    - destruct (IHps (S s) o) as (p & k & A & B & C); auto. exists p, k. split; auto. split; auto; lia. }
  induction ps; intros s F; unfold global_names; simpl; [constructor|]. inversion F; subst. constructor.
  - intros Hin. destruct (X ps (S s) _ H2 Hin) as (p & k & A & B & C).
    destruct (name_dec_inj _ _ _ _ H1 A C). lia.
  - apply (IHps (S s)); auto.
Qed.

(** ** Intrusive pointers *)
Lemma nth_error_set : forall A (l : list A) n m x,
  nth_error (set_nth l n x) m = if (m =? n) && (n <? length l) then Some x else nth_error l m.
Proof.
  induction l; simpl; intros n m x.
  - rewrite andb_false_r. auto.
  - destruct n, m; simpl; auto. rewrite IHl. auto.
Qed.
Lemma set_nth_length : forall A (l : list A) n x, length (set_nth l n x) = length l.
Proof. induction l; destruct n; simpl; intros; auto. Qed.

Lemma occ_app : forall p a b, occ p (a ++ b) = occ p a + occ p b.
Proof. intros. apply count_occ_app. Qed.

(** Every live node has a positive count, equal to the number of handles on it. *)
Definition counted (h : list cell) (vs : list (option (option nat))) (work : list nat) : Prop :=
  (forall p, ref_of h p = var_refs p vs + field_refs p h + occ p work) /\
  (forall p r fs, nth_error h p = Some (Live r fs) -> 0 < r) /\
  (forall p r fs, nth_error h p = Some (Live r fs) -> Forall (fun q => q < p) fs).

Lemma field_refs_set : forall p h q r fs c, nth_error h q = Some (Live r fs) ->
  field_refs p (set_nth h q c) + occ p fs = field_refs p h + match c with Live _ fs' => occ p fs' | Freed => 0 end.
Proof.
  induction h as [|x h IH]; intros q r fs c H; [destruct q; discriminate|].
  destruct q; simpl in *.
  - inversion H; subst. destruct c; simpl; lia.
  - specialize (IH q r fs c H). destruct x; simpl; lia.
Qed.

Lemma var_refs_set : forall p vs v w x, nth_error vs v = Some w ->
  var_refs p (set_nth vs v x) + (if points_to p w then 1 else 0) = var_refs p vs + (if points_to p x then 1 else 0).
Proof.
  induction vs as [|y vs IH]; intros v w x H; [destruct v; discriminate|].
  destruct v; simpl in *.
  - inversion H; subst. lia.
  - specialize (IH v w x H). lia.
Qed.
Lemma var_refs_app : forall p a b, var_refs p (a ++ b) = var_refs p a + var_refs p b.
Proof. induction a; simpl; intros; auto. rewrite IHa. lia. Qed.
Lemma field_refs_app : forall p a b, field_refs p (a ++ b) = field_refs p a + field_refs p b.
Proof. induction a as [|[r fs|] a IH]; simpl; intros; auto. rewrite IH. lia. Qed.

Lemma ref_of_set : forall h p q c, q < length h ->
  ref_of (set_nth h q c) p = if p =? q then match c with Live r _ => r | Freed => 0 end else ref_of h p.
Proof.
  intros h p q c L. unfold ref_of. rewrite nth_error_set. apply Nat.ltb_lt in L. rewrite L, andb_true_r.
  destruct (p =? q); auto.
Qed.

Lemma total_set : forall h q r fs c, nth_error h q = Some (Live r fs) ->
  total_refs (set_nth h q c) + r = total_refs h + match c with Live r _ => r | Freed => 0 end.
Proof.
  induction h as [|x h IH]; intros q r fs c H; [destruct q; discriminate|].
  destruct q; simpl in *.
  - inversion H; subst. destruct c; lia.
  - specialize (IH q r fs c H). destruct x; lia.
Qed.

(** Releasing frees exactly the nodes that lose their last reference, and
    touches no freed node. *)
Lemma release_all_ok : forall fuel h vs work, counted h vs work -> total_refs h < fuel ->
  exists h', release_all fuel h work = Some h' /\ counted h' vs [] /\ length h' = length h /\
    (forall p fs r, nth_error h' p = Some (Live r fs) -> exists r', nth_error h p = Some (Live r' fs)).
Proof.
  induction fuel; intros h vs work [C [P A]] F; [lia|].
  destruct work as [|p work].
  - exists h. simpl. split; auto. split; [split; auto|]. split; auto. intros; eauto.
  - simpl. assert (R : ref_of h p = var_refs p vs + field_refs p h + occ p (p :: work)) by apply C.
    assert (O : occ p (p :: work) = S (occ p work)).
    { unfold occ. simpl. destruct (Nat.eq_dec p p); congruence. }
    unfold ref_of in R. destruct (nth_error h p) as [[r fs|]|] eqn:NE; [|lia|lia].
    assert (LT : p < length h) by (apply nth_error_Some; congruence).
    assert (OP : forall q, q <> p -> occ q (p :: work) = occ q work).
    { intros q Q. unfold occ. simpl. destruct (Nat.eq_dec p q); congruence. }
    destruct (r - 1 =? 0) eqn:R1.
    + apply Nat.eqb_eq in R1. assert (RR : r = 1) by (specialize (P p r fs NE); lia). rewrite RR in *. clear RR r.
      assert (CN : counted (set_nth h p Freed) vs (fs ++ work)).
      { split; [|split].
        - intros q. rewrite ref_of_set, occ_app by auto.
          assert (FR := field_refs_set q h p 1 fs Freed NE). simpl in FR.
          destruct (q =? p) eqn:Q.
          + apply Nat.eqb_eq in Q. subst q. lia.
          + apply Nat.eqb_neq in Q. specialize (C q). rewrite (OP q Q) in C. lia.
        - intros q r fs' H. rewrite nth_error_set in H. destruct (_ && _); [discriminate|]. eauto.
        - intros q r fs' H. rewrite nth_error_set in H. destruct (_ && _); [discriminate|]. eauto. }
      assert (T := total_set h p 1 fs Freed NE). simpl in T.
      destruct (IHfuel (set_nth h p Freed) vs (fs ++ work) CN) as (h' & E & C' & L' & K'); [lia|].
      exists h'. split; auto. split; auto. split; [rewrite L', set_nth_length; auto|].
      intros q fs' r' H. destruct (K' q fs' r' H) as (r2 & H2). rewrite nth_error_set in H2.
      destruct (_ && _); [discriminate|]. eauto.
    + apply Nat.eqb_neq in R1.
      assert (CN : counted (set_nth h p (Live (r - 1) fs)) vs work).
      { split; [|split].
        - intros q. rewrite ref_of_set by auto.
          assert (FR := field_refs_set q h p r fs (Live (r - 1) fs) NE). simpl in FR.
          destruct (q =? p) eqn:Q.
          + apply Nat.eqb_eq in Q. subst q. lia.
          + apply Nat.eqb_neq in Q. specialize (C q). rewrite (OP q Q) in C. lia.
        - intros q r' fs' H. rewrite nth_error_set in H. destruct (_ && _); [inversion H; lia|]. eauto.
        - intros q r' fs' H. rewrite nth_error_set in H. destruct ((q =? p) && (p <? length h)) eqn:Q; [|eauto].
          apply andb_prop in Q. destruct Q as [Q _]. apply Nat.eqb_eq in Q. subst q. inversion H; subst. eauto. }
      assert (T := total_set h p r fs (Live (r - 1) fs) NE). simpl in T.
      destruct (IHfuel (set_nth h p (Live (r - 1) fs)) vs work CN) as (h' & E & C' & L' & K'); [lia|].
      exists h'. split; auto. split; auto. split; [rewrite L', set_nth_length; auto|].
      intros q fs' r' H. destruct (K' q fs' r' H) as (r2 & H2). rewrite nth_error_set in H2.
      destruct ((q =? p) && (p <? length h)) eqn:Q; [|eauto].
      apply andb_prop in Q. destruct Q as [Q _]. apply Nat.eqb_eq in Q. subst q. inversion H2; subst. eauto.
Qed.

Definition opt_list (o : option nat) : list nat := match o with Some p => [p] | None => [] end.

Lemma release_ok : forall h vs o, counted h vs (opt_list o) ->
  exists h', release h o = Some h' /\ counted h' vs [] /\ length h' = length h /\
    (forall p fs r, nth_error h' p = Some (Live r fs) -> exists r', nth_error h p = Some (Live r' fs)).
Proof.
  intros h vs [p|] C; unfold release; simpl opt_list in *.
  - apply release_all_ok; auto.
  - exists h. split; auto. split; auto. split; auto. intros; eauto.
Qed.

(** A node that is pointed to can be acquired; the new reference is pending in
    [vs'], which has one reference more. *)
Lemma acquire_ok : forall h p r fs, nth_error h p = Some (Live r fs) ->
  acquire h p = Some (set_nth h p (Live (S r) fs)).
Proof. intros. unfold acquire. rewrite H. auto. Qed.

Lemma counted_acquire : forall h vs vs' p, counted h vs [] -> 0 < ref_of h p ->
  (forall q, var_refs q vs' = var_refs q vs + (if q =? p then 1 else 0)) ->
  exists h', acquire h p = Some h' /\ counted h' vs' [] /\ length h' = length h.
Proof.
  intros h vs vs' p [C [P A]] R V. unfold ref_of in R. destruct (nth_error h p) as [[r fs|]|] eqn:NE; try lia.
  assert (LT : p < length h) by (apply nth_error_Some; congruence).
  exists (set_nth h p (Live (S r) fs)). split; [apply acquire_ok; auto|]. split; [|apply set_nth_length].
  split; [|split].
  - intros q. rewrite ref_of_set, V by auto.
    assert (FR := field_refs_set q h p r fs (Live (S r) fs) NE). simpl in FR.
    specialize (C q). simpl occ in *. destruct (q =? p) eqn:Q.
    + apply Nat.eqb_eq in Q. subst q. unfold ref_of in C. rewrite NE in C. lia.
    + lia.
  - intros q r' fs' H. rewrite nth_error_set in H. destruct (_ && _); [inversion H; lia|]. eauto.
  - intros q r' fs' H. rewrite nth_error_set in H. destruct ((q =? p) && (p <? length h)) eqn:Q; [|eauto].
    apply andb_prop in Q. destruct Q as [Q _]. apply Nat.eqb_eq in Q. subst q. inversion H; subst. eauto.
Qed.

Lemma var_refs_pos : forall vs v p, nth_error vs v = Some (Some (Some p)) -> 0 < var_refs p vs.
Proof.
  induction vs; intros [|v] p H; simpl in *; try discriminate.
  - inversion H; subst. simpl. rewrite Nat.eqb_refl. lia.
  - specialize (IHvs v p H). lia.
Qed.
Lemma field_refs_pos : forall h q r fs p, nth_error h q = Some (Live r fs) -> In p fs -> 0 < field_refs p h.
Proof.
  induction h as [|x h IH]; intros [|q] r fs p H I; simpl in *; try discriminate.
  - inversion H; subst. apply (count_occ_In Nat.eq_dec) in I. unfold occ. lia.
  - specialize (IH q r fs p H I). destruct x; lia.
Qed.

Definition ok (m : mem) : Prop := counted (heap m) (vars m) [].

Lemma read_var_ok : forall m v o, nth_error (vars m) v = Some (Some o) -> read_var m v = Some o.
Proof. intros. unfold read_var. rewrite H. auto. Qed.

Lemma counted_vars : forall h vs vs' w w', counted h vs w -> (forall p, var_refs p vs' + occ p w' = var_refs p vs + occ p w) ->
  counted h vs' w'.
Proof. intros h vs vs' w w' [C [P A]] V. split; [|split]; auto. intros p. specialize (C p). specialize (V p). lia. Qed.

Lemma loc_ref : forall m s o, ok m -> read m s = Some o ->
  match o with Some p => 0 < ref_of (heap m) p | None => True end.
Proof.
  intros m s [p|] [C _] R; auto. specialize (C p). rewrite C. destruct s as [v|q k]; simpl in R.
  - unfold read_var in R. destruct (nth_error (vars m) v) as [[o|]|] eqn:E; try discriminate. inversion R; subst.
    apply var_refs_pos in E. lia.
  - destruct (nth_error (heap m) q) as [[r fs|]|] eqn:E; try discriminate.
    destruct (nth_error fs k) as [x|] eqn:F; try discriminate. inversion R; subst.
    apply nth_error_In in F. assert (X := field_refs_pos _ _ _ _ _ E F). lia.
Qed.

Lemma read_exists : forall m s, exists_loc m s -> exists o, read m s = Some o.
Proof.
  intros m [v|p k] H; simpl in *.
  - destruct H as (o & H). exists o. apply read_var_ok; auto.
  - destruct H as (r & fs & q & H1 & H2). rewrite H1, H2. eauto.
Qed.

Lemma points_occ : forall p o, (if points_to p (Some o) then 1 else 0) = occ p (opt_list o).
Proof.
  intros p [q|]; simpl; auto. unfold occ. simpl. destruct (Nat.eq_dec q p) as [->|N].
  - rewrite Nat.eqb_refl. auto.
  - apply Nat.eqb_neq in N. rewrite N. auto.
Qed.
Lemma eqb_occ : forall p q, (if q =? p then 1 else 0) = occ q [p].
Proof.
  intros. unfold occ. simpl. destruct (Nat.eq_dec p q) as [->|N].
  - rewrite Nat.eqb_refl. auto.
  - apply Nat.eqb_neq in N. rewrite Nat.eqb_sym, N. auto.
Qed.

Lemma acquire_opt_ok : forall h vs vs' o, counted h vs [] ->
  match o with Some p => 0 < ref_of h p | None => True end ->
  (forall q, var_refs q vs' = var_refs q vs + occ q (opt_list o)) ->
  exists h', acquire_opt h o = Some h' /\ counted h' vs' [].
Proof.
  intros h vs vs' [p|] C R V; unfold acquire_opt; simpl opt_list in *; cbv beta iota in *.
  - destruct (counted_acquire h vs vs' p C R) as (h' & E & C' & _); eauto.
    intros q. rewrite V, eqb_occ. auto.
  - exists h. split; auto. eapply counted_vars; eauto. intros q. rewrite V. auto.
Qed.

Lemma acquire_list_ok : forall ps h vs, counted h vs [] -> (forall p, In p ps -> 0 < ref_of h p) ->
  exists h', acquire_list h ps = Some h' /\ length h' = length h /\
    (forall q, ref_of h' q = ref_of h q + occ q ps) /\ (forall q, field_refs q h' = field_refs q h) /\
    (forall q r fs, nth_error h' q = Some (Live r fs) -> exists r', nth_error h q = Some (Live r' fs) /\ r' <= r).
Proof.
  induction ps as [|p ps IH]; intros h vs C R.
  - exists h. simpl. repeat split; auto. intros. eauto.
  - assert (Rp : 0 < ref_of h p) by (apply R; simpl; auto).
    destruct (counted_acquire h vs (Some (Some p) :: vs) p C Rp) as (h1 & E1 & C1 & L1).
    { intros q. simpl. rewrite Nat.eqb_sym. lia. }
    assert (NE : exists r fs, nth_error h p = Some (Live r fs)).
    { unfold ref_of in Rp. destruct (nth_error h p) as [[r fs|]|]; try lia. eauto. }
    destruct NE as (r & fs & NE). rewrite (acquire_ok _ _ _ _ NE) in E1. inversion E1; subst h1. clear E1.
    assert (LT : p < length h) by (apply nth_error_Some; congruence).
    destruct (IH (set_nth h p (Live (S r) fs)) _ C1) as (h' & E & L & RF & FF & K).
    { intros q Q. rewrite ref_of_set by auto. destruct (q =? p); [lia|]. apply R. simpl; auto. }
    exists h'. simpl. rewrite (acquire_ok _ _ _ _ NE). split; auto. split; [congruence|]. split; [|split].
    + intros q. rewrite RF, ref_of_set by auto. unfold occ. simpl.
      destruct (Nat.eq_dec p q) as [->|N].
      * rewrite Nat.eqb_refl. unfold ref_of. rewrite NE. lia.
      * rewrite Nat.eqb_sym. apply Nat.eqb_neq in N. rewrite N. auto.
    + intros q. rewrite FF. assert (X := field_refs_set q h p r fs (Live (S r) fs) NE). simpl in X. lia.
    + intros q r' fs' H. destruct (K q r' fs' H) as (r2 & H2 & LE). rewrite nth_error_set in H2.
      destruct ((q =? p) && (p <? length h)) eqn:Q; [|eauto].
      apply andb_prop in Q. destruct Q as [Q _]. apply Nat.eqb_eq in Q. subst q. inversion H2; subst. exists r. split; auto. lia.
Qed.

Lemma step_ok : forall m o, ok m -> safe m o -> exists m', step m o = Some m' /\ ok m'.
Proof.
  intros m o OK S. destruct o as [vs| |s|w|v s|v w|v]; simpl in S.
  - (* New *)
    assert (RF : exists ps, read_fields m vs = Some ps /\ forall p, In p ps -> 0 < ref_of (heap m) p).
    { induction vs as [|v vs IH]; simpl; [exists []; simpl; tauto|].
      destruct IH as (ps & E & H); [intros; apply S; simpl; auto|].
      destruct (S v) as (p & Hp); [simpl; auto|]. rewrite (read_var_ok _ _ _ Hp), E. exists (p :: ps). split; auto.
      intros q [<-|Q]; auto. apply (loc_ref m (Var v) (Some p)); auto. simpl. apply read_var_ok; auto. }
    destruct RF as (ps & E & R). destruct (acquire_list_ok ps (heap m) (vars m) OK R) as (h' & E' & L & RF & FF & K).
    simpl. rewrite E, E'. eexists. split; [reflexivity|]. unfold ok. simpl. destruct OK as [C [P A]].
    assert (ZR : forall q, length (heap m) <= q -> ref_of (heap m) q = 0).
    { intros q Q. unfold ref_of. apply nth_error_None in Q. rewrite Q. auto. }
    split; [|split].
    + intros q. rewrite var_refs_app, field_refs_app. simpl.
      destruct (Nat.lt_ge_cases q (length (heap m))) as [LT|GE].
      * unfold ref_of at 1. rewrite nth_error_app1 by lia. fold (ref_of h' q). rewrite RF, FF, (C q). simpl.
        replace (length (heap m) =? q) with false by (symmetry; apply Nat.eqb_neq; lia). lia.
      * assert (OQ : occ q ps = 0).
        { apply count_occ_not_In. intros Q. specialize (R q Q). rewrite ZR in R; lia. }
        specialize (C q). rewrite ZR in C by auto. rewrite FF, OQ.
        unfold ref_of. destruct (Nat.eq_dec q (length (heap m))) as [->|N].
        -- rewrite nth_error_app2 by lia. rewrite L, Nat.sub_diag, Nat.eqb_refl. simpl. lia.
        -- rewrite (proj2 (nth_error_None _ _)) by (rewrite app_length; simpl; lia).
           replace (length (heap m) =? q) with false by (symmetry; apply Nat.eqb_neq; lia). lia.
    + intros q r fs H. destruct (Nat.lt_ge_cases q (length h')) as [LT|GE].
      * rewrite nth_error_app1 in H by auto. destruct (K q r fs H) as (r' & H' & LE). specialize (P _ _ _ H'). lia.
      * rewrite nth_error_app2 in H by auto. destruct (q - length h') as [|n]; simpl in H; [inversion H; lia|].
        destruct n; discriminate.
    + intros q r fs H. destruct (Nat.lt_ge_cases q (length h')) as [LT|GE].
      * rewrite nth_error_app1 in H by auto. destruct (K q r fs H) as (r' & H' & LE). eauto.
      * rewrite nth_error_app2 in H by auto. destruct (q - length h') as [|n] eqn:Q; simpl in H.
        -- inversion H; subst. rewrite Forall_forall. intros x Hx. specialize (R x Hx).
           destruct (Nat.lt_ge_cases x (length (heap m))); [lia|]. rewrite ZR in R; lia.
        -- destruct n; discriminate.
  - (* Null *)
    eexists. split; [reflexivity|]. eapply counted_vars; [exact OK|]. intros p. simpl. rewrite var_refs_app. simpl. lia.
  - (* CopyCtor *)
    destruct (read_exists m s S) as (o & R). simpl. rewrite R.
    destruct (acquire_opt_ok (heap m) (vars m) (vars m ++ [Some o]) o OK) as (h' & E & C).
    + apply (loc_ref m s o); auto.
    + intros q. rewrite var_refs_app, <- points_occ. simpl. lia.
    + rewrite E. eexists. split; [reflexivity|exact C].
  - (* MoveCtor *)
    destruct S as (o & H). simpl. rewrite (read_var_ok _ _ _ H). eexists. split; [reflexivity|].
    eapply counted_vars; [exact OK|]. intros p. simpl. rewrite var_refs_app. simpl.
    assert (X := var_refs_set p (vars m) w _ (Some None) H). simpl in X. simpl. lia.
  - (* CopyAssign *)
    destruct S as ((old & H) & EX & CASE). simpl. rewrite (read_var_ok _ _ _ H).
    set (vs0 := set_nth (vars m) v (Some None)).
    assert (VR : forall p, var_refs p vs0 + occ p (opt_list old) = var_refs p (vars m)).
    { intros p. rewrite <- points_occ. unfold vs0. rewrite (var_refs_set p (vars m) v _ (Some None) H). simpl. lia. }
    destruct (release_ok (heap m) vs0 old) as (h1 & E1 & C1 & L1 & K1).
    { eapply counted_vars; [exact OK|]. intros p. rewrite VR. simpl. lia. }
    rewrite E1.
    assert (RD : exists o, read (Mem h1 (vars m)) s = Some o /\ match o with Some p => 0 < ref_of h1 p | None => True end).
    { destruct CASE as [(w & -> & NW)|[NUL|(p & HP & TWO)]].
      - destruct EX as (o & HW). exists o. split; [apply read_var_ok; auto|]. destruct o as [p|]; auto.
        assert (X : nth_error vs0 w = Some (Some (Some p))).
        { unfold vs0. rewrite nth_error_set. apply Nat.eqb_neq in NW. rewrite NW. auto. }
        apply var_refs_pos in X. destruct C1 as [C1 _]. rewrite C1. lia.
      - assert (old = None) by congruence. subst old. simpl in E1. inversion E1; subst h1.
        destruct (read_exists m s EX) as (o & R). exists o. split.
        + destruct s; auto.
        + apply (loc_ref m s o); auto.
      - assert (old = Some p) by congruence. subst old. simpl in E1.
        unfold ref_of in TWO. destruct (nth_error (heap m) p) as [[r fs|]|] eqn:NE; try lia.
        replace (r - 1 =? 0) with false in E1 by (symmetry; apply Nat.eqb_neq; lia).
        assert (E2 : h1 = set_nth (heap m) p (Live (r - 1) fs)).
        { destruct (total_refs (heap m)); inversion E1; auto. }
        assert (LT : p < length (heap m)) by (apply nth_error_Some; congruence).
        destruct (read_exists m s EX) as (o & R). exists o. split.
        + destruct s as [w|q k]; auto. simpl in *. rewrite E2, nth_error_set.
          destruct (q =? p) eqn:Q; simpl; auto. apply Nat.eqb_eq in Q. subst q. apply Nat.ltb_lt in LT. rewrite LT.
          rewrite NE in R. auto.
        + assert (X := loc_ref m s o OK R). destruct o as [q|]; auto. rewrite E2, ref_of_set by auto.
          destruct (q =? p); [lia|auto]. }
    destruct RD as (o & R & PO). rewrite R.
    destruct (acquire_opt_ok h1 vs0 (set_nth (vars m) v (Some o)) o C1 PO) as (h' & E & C).
    + intros q. rewrite <- points_occ. assert (X := var_refs_set q (vars m) v _ (Some o) H).
      specialize (VR q). rewrite <- points_occ in VR. lia.
    + rewrite E. eexists. split; [reflexivity|exact C].
  - (* MoveAssign *)
    destruct S as ((old & H) & (o & HW)). simpl. rewrite (read_var_ok _ _ _ H), (read_var_ok _ _ _ HW).
    set (vs1 := set_nth (set_nth (vars m) v (Some o)) w (Some None)).
    assert (VR : forall p, var_refs p vs1 + occ p (opt_list old) = var_refs p (vars m)).
    { intros p. rewrite <- points_occ. unfold vs1.
      assert (LV : v < length (vars m)) by (apply nth_error_Some; congruence).
      assert (X : nth_error (set_nth (vars m) v (Some o)) w = Some (Some o)).
      { rewrite nth_error_set. destruct (w =? v); simpl; auto. apply Nat.ltb_lt in LV. rewrite LV. auto. }
      assert (Y := var_refs_set p _ w _ (Some None) X). simpl points_to at 2 in Y.
      assert (Z := var_refs_set p (vars m) v _ (Some o) H). simpl in *. lia. }
    destruct (release_ok (heap m) vs1 old) as (h1 & E1 & C1 & L1 & K1).
    { eapply counted_vars; [exact OK|]. intros p. rewrite VR. simpl. lia. }
    rewrite E1. eexists. split; [reflexivity|exact C1].
  - (* Destroy *)
    destruct S as (old & H). simpl. rewrite (read_var_ok _ _ _ H).
    destruct (release_ok (heap m) (set_nth (vars m) v None) old) as (h1 & E1 & C1 & L1 & K1).
    { eapply counted_vars; [exact OK|]. intros p. rewrite <- points_occ.
      rewrite (var_refs_set p (vars m) v _ None H). simpl. lia. }
    rewrite E1. eexists. split; [reflexivity|exact C1].
Qed.

Lemma history_ok : forall os m, ok m -> safe_history m os -> exists m', steps m os = Some m' /\ ok m'.
Proof.
  induction os as [|o os IH]; simpl; intros m OK S; eauto.
  destruct S as [S1 S2]. destruct (step_ok m o OK S1) as (m1 & E & OK1). rewrite E. eauto.
Qed.

Lemma empty_ok : ok (Mem [] []).
Proof. split; [|split]; simpl; auto; intros [|p]; simpl; try discriminate; auto. Qed.

(** No leak: with no handle left every node has been freed. *)
Lemma field_refs_zero : forall h p, (forall q r fs, nth_error h q = Some (Live r fs) -> ~ In p fs) -> field_refs p h = 0.
Proof.
  induction h as [|c h IH]; intros p H; simpl; auto.
  assert (IH' := IH p (fun q r fs E => H (S q) r fs E)). destruct c; auto.
  rewrite IH'. specialize (H 0 ref fields eq_refl). unfold occ. rewrite (proj1 (count_occ_not_In _ _ _) H). auto.
Qed.

Lemma no_leak : forall m, ok m -> (forall p, var_refs p (vars m) = 0) ->
  forall p, p < length (heap m) -> nth_error (heap m) p = Some Freed.
Proof.
  intros m [C [P A]] Z p LT.
  remember (length (heap m) - p) as n eqn:N. revert p LT N.
  induction n as [n IH] using lt_wf_ind. intros p LT N.
  destruct (nth_error (heap m) p) as [[r fs|]|] eqn:NE; auto.
  - exfalso. specialize (C p). unfold ref_of in C. rewrite NE in C. rewrite Z in C. simpl in C.
    rewrite field_refs_zero in C; [specialize (P p r fs NE); lia|].
    intros q r' fs' H I. specialize (A q r' fs' H). rewrite Forall_forall in A. specialize (A p I).
    assert (LQ : q < length (heap m)) by (apply nth_error_Some; congruence).
    rewrite (IH (length (heap m) - q)) in H; try lia. discriminate.
  - apply nth_error_None in NE. lia.
Qed.

(** ** Scoped maps *)
Section Scoped.
Context {K W : Type}.
Variable keq : forall a b : K, {a = b} + {a <> b}.
Notation smap := (smap K W).
Notation sop := (sop K W).
Notation history := (history K W).
Notation first_binding := (first_binding keq).
Notation binding := (binding keq).

Definition same (s s' : list (K * W)) : Prop := forall k, find_in keq k s = first_binding k s'.

Lemma first_app : forall k (s t : list (K * W)), first_binding k (s ++ t) =
  match first_binding k s with Some v => Some v | None => first_binding k t end.
Proof. induction s as [|[k' v] s IH]; simpl; intros; auto. destruct (keq k' k); auto. Qed.

Lemma scoped_refines : forall os (m : smap) (h : history),
  Forall2 same m h -> forallb (fun o => negb (removes o)) os = true ->
  match ssteps keq m os, hsteps h os with
  | Some m', Some h' => Forall2 same m' h'
  | None, None => True
  | _, _ => False
  end.
Proof.
  induction os as [|o os IH]; intros m h F NR; simpl; auto.
  simpl in NR. apply andb_prop in NR. destruct NR as [NR1 NR2].
  destruct o as [| |k v|k]; [| | |discriminate]; simpl.
  - apply IH; auto. constructor; auto. intros k. auto.
  - destruct F; auto. apply IH; auto.
  - destruct F as [|s s' m h E F]; auto. apply IH; auto. constructor; auto.
    intros k'. rewrite first_app. simpl. specialize (E k') as E'. specialize (E k).
    destruct (find_in keq k s) as [x|] eqn:FK.
    + rewrite <- E'. destruct (find_in keq k' s) eqn:FK'; auto. destruct (keq k k'); congruence.
    + simpl. destruct (keq k k') as [->|N].
      * rewrite <- E. auto.
      * rewrite E'. destruct (first_binding k' s'); auto.
Qed.

Lemma sget_binding : forall (m : smap) (h : history), Forall2 same m h -> forall k, sget keq k m = binding k h.
Proof. induction 1; simpl; intros k; auto. rewrite (H k), IHForall2. auto. Qed.

Lemma scontains_get : forall (m : smap) k, scontains keq k m = match sget keq k m with Some _ => true | None => false end.
Proof.
  unfold scontains. induction m as [|s m IH]; simpl; intros k; auto. destruct (find_in keq k s); simpl; auto.
Qed.

Lemma nested_outer : forall os (m : smap) d top, length top = S d -> nested d os = Some 0 ->
  forallb (fun o => negb (removes o)) os = true ->
  exists s, ssteps keq (top ++ m) os = Some (s :: m).
Proof.
  induction os as [|o os IH]; intros m d top L N NR; simpl in *.
  - inversion N; subst. destruct top as [|s [|]]; simpl in L; try lia. exists s. auto.
  - apply andb_prop in NR. destruct NR as [NR1 NR2]. destruct o as [| |k v|k]; [| | |discriminate]; simpl.
    + apply (IH m (S d) ([] :: top)); simpl; auto.
    + destruct d; [discriminate|]. destruct top as [|s top]; simpl in *; [lia|]. apply (IH m d top); auto.
    + destruct top as [|s top]; simpl in *; [lia|]. apply (IH m d (_ :: top)); simpl; auto.
Qed.
End Scoped.
