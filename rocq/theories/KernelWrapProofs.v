(** Proofs about the C function around a kernel. *)
From Coq Require Import String List Arith ZArith Bool Lia Permutation.
Import ListNotations.
From Verif Require Import Util UtilSpec UtilProofs KernelWrap KernelWrapSpec.
Local Open Scope nat_scope.
Notation length := List.length.
Notation rev := List.rev.

(** ** Generated names *)
Definition kw (n : string) : nat := if in_dec string_dec n keywords then 1 else 0.
Definition cnt (prior : list string) (n : string) : nat := kw n + count_occ string_dec prior n.
Definition mk (p : string * nat) : string :=
  match snd p with 0 => fst p | S k => (fst p ++ dec k)%string end.
Fixpoint pairs (prior reqs : list string) : list (string * nat) :=
  match reqs with
  | [] => []
  | r :: reqs => (r, cnt prior r) :: pairs (prior ++ [r]) reqs
  end.
Definition counts (c : counters) (prior : list string) : Prop :=
  forall n, counter n c = match cnt prior n with 0 => None | S k => Some k end.

Lemma counts_step : forall c prior r, counts c prior ->
  fst (get_unique_name c r) = mk (r, cnt prior r) /\ counts (snd (get_unique_name c r)) (prior ++ [r]).
Proof.
  intros c prior r H. unfold get_unique_name. rewrite (H r). unfold mk. cbn [fst snd].
  assert (X : forall n, cnt (prior ++ [r]) n = cnt prior n + (if string_dec r n then 1 else 0)).
  { intros n. unfold cnt. rewrite count_occ_app. cbn [count_occ]. destruct (string_dec r n); lia. }
  destruct (cnt prior r) as [|k] eqn:E; cbn [fst snd]; split; auto; intros n; rewrite X, counter_set, (H n);
    destruct (string_dec r n) as [<-|N]; try rewrite E; try rewrite Nat.add_0_r; auto;
    replace (S k + 1) with (S (S k)) by lia; auto.
Qed.

Lemma unique_pairs : forall reqs c prior, counts c prior ->
  unique_names c reqs = map mk (pairs prior reqs).
Proof.
  induction reqs as [|r reqs IH]; intros c prior H; auto. cbn [unique_names pairs map].
  destruct (counts_step c prior r H) as [A B]. destruct (get_unique_name c r) as [n c']. cbn [fst snd] in *.
  rewrite A. f_equal. apply IH; auto.
Qed.

Lemma counts_new : counts (new_generator keywords) [].
Proof.
  intros n. unfold cnt, kw. cbn [count_occ]. rewrite Nat.add_0_r.
  assert (G : forall l c, counter n (fold_left reserve l c)
    = if in_dec string_dec n l then (match counter n c with Some k => Some k | None => Some 0 end) else counter n c).
  { induction l as [|a l IH]; intros c; cbn [fold_left]. { destruct (in_dec string_dec n []) as [[]|]; auto. }
    rewrite IH. unfold reserve. destruct (string_dec a n) as [->|N].
    - destruct (in_dec string_dec n (n :: l)) as [_|X]; [|exfalso; apply X; left; auto].
      destruct (counter n c) eqn:E; [rewrite E; destruct (in_dec string_dec n l); auto|].
      rewrite counter_set. destruct (string_dec n n); [|congruence]. destruct (in_dec string_dec n l); auto.
    - assert (Y : counter n (match counter a c with Some _ => c | None => set_counter a 0 c end) = counter n c).
      { destruct (counter a c); auto. rewrite counter_set. destruct (string_dec a n); congruence. }
      rewrite Y. destruct (in_dec string_dec n l) as [I|I]; destruct (in_dec string_dec n (a :: l)) as [J|J]; auto.
      + exfalso. apply J. right. auto.
      + exfalso. destruct J; congruence. }
  unfold new_generator. rewrite G. destruct (in_dec string_dec n keywords); auto.
Qed.

Lemma pairs_in : forall reqs prior r k, In (r, k) (pairs prior reqs) ->
  In r reqs /\ cnt prior r <= k /\ k < cnt (prior ++ reqs) r.
Proof.
  induction reqs as [|a reqs IH]; intros prior r k H. { destruct H. }
  cbn [pairs] in H. destruct H as [H|H].
  - inversion H; subst. split; [left; auto|]. split; [lia|]. unfold cnt. rewrite count_occ_app. cbn [count_occ].
    destruct (string_dec r r); [lia|congruence].
  - apply IH in H. destruct H as (A & B & C). split; [right; auto|]. split.
    + revert B. unfold cnt. rewrite count_occ_app. lia.
    + rewrite <- app_assoc in C. auto.
Qed.
Lemma pairs_nodup : forall reqs prior, NoDup (pairs prior reqs).
Proof.
  induction reqs as [|a reqs IH]; intros prior; cbn [pairs]; constructor; auto.
  intros H. apply pairs_in in H. destruct H as (_ & A & _). revert A. unfold cnt. rewrite count_occ_app. cbn [count_occ].
  destruct (string_dec a a); [lia|congruence].
Qed.

Lemma digits_dec : forall k, number (dec k).
Proof.
  intros k. split; [|apply dec_digits]. intros E. apply (dec_nonempty k). rewrite E. auto.
Qed.
Lemma app_split : forall (a c : list Ascii.ascii) b d, a ++ b = c ++ d -> length a < length c ->
  exists x, c = a ++ x /\ b = x ++ d /\ x <> [].
Proof.
  induction a as [|u a IH]; intros c b d E L; destruct c as [|v c]; cbn [length] in L; try lia.
  - exists (v :: c). cbn in E. split; auto. split; auto. discriminate.
  - cbn in E. inversion E; subst. destruct (IH c b d) as (x & -> & -> & N); auto; [lia|].
    exists x. auto.
Qed.
Lemma app_same : forall (a c : list Ascii.ascii) b d, a ++ b = c ++ d -> length a = length c -> a = c /\ b = d.
Proof.
  induction a as [|u a IH]; intros c b d E L; destruct c as [|v c]; try discriminate; auto.
  cbn in E. inversion E; subst. destruct (IH c b d) as [-> ->]; auto.
Qed.
Fixpoint unchars (l : list Ascii.ascii) : string :=
  match l with [] => EmptyString | a :: l => String a (unchars l) end.
Lemma chars_unchars : forall l, chars (unchars l) = l.
Proof. induction l; cbn; congruence. Qed.
Lemma longer_name : forall a j b k, (a ++ dec j = b ++ dec k)%string -> length (chars a) < length (chars b) ->
  exists d, number d /\ b = (a ++ d)%string.
Proof.
  intros a j b k E L. apply (f_equal chars) in E. rewrite !chars_app in E.
  destruct (app_split _ _ _ _ E L) as (x & A & B & N). exists (unchars x). split.
  - split.
    + intros F. apply (f_equal chars) in F. rewrite chars_unchars in F. auto.
    + rewrite chars_unchars. pose proof (dec_digits j) as D. rewrite B, forallb_app in D.
      apply andb_prop in D. tauto.
  - apply chars_inj. rewrite chars_app, chars_unchars. auto.
Qed.

Section Distinct.
  Variable reqs kp : list string.
  Hypothesis clear : forall n m d, In n keywords \/ 2 <= count_occ string_dec reqs n ->
     In m (reqs ++ kp) -> number d -> m <> (n ++ d)%string.

  Lemma numbered : forall r k, In (r, S k) (pairs [] reqs) ->
    In r keywords \/ 2 <= count_occ string_dec reqs r.
  Proof.
    intros r k H. apply pairs_in in H. destruct H as (_ & _ & H). cbn [app] in H. unfold cnt, kw in H.
    destruct (in_dec string_dec r keywords); auto. right. lia.
  Qed.
  Lemma mk_inj : forall p q, In p (pairs [] reqs) -> In q (pairs [] reqs) -> mk p = mk q -> p = q.
  Proof.
    intros [a j] [b k] P Q E. unfold mk in E. cbn [fst snd] in E.
    destruct (pairs_in _ _ _ _ P) as (A & _ & _). destruct (pairs_in _ _ _ _ Q) as (B & _ & _).
    destruct j as [|j]; destruct k as [|k].
    - congruence.
    - exfalso. apply (clear b a (dec k)); auto using digits_dec.
      + eapply numbered; eauto. + apply in_or_app; auto.
    - exfalso. apply (clear a b (dec j)); auto using digits_dec.
      + eapply numbered; eauto. + apply in_or_app; auto.
    - destruct (lt_eq_lt_dec (length (chars a)) (length (chars b))) as [[L|L]|L].
      + destruct (longer_name _ _ _ _ E L) as (d & N & X). exfalso. apply (clear a b d); auto.
        * eapply numbered; eauto. * apply in_or_app; auto.
      + apply (f_equal chars) in E. rewrite !chars_app in E.
        destruct (app_same _ _ _ _ E L) as [X Y]. apply chars_inj in X. apply chars_inj in Y. apply dec_inj in Y.
        congruence.
      + symmetry in E. destruct (longer_name _ _ _ _ E L) as (d & N & X). exfalso. apply (clear b a d); auto.
        * eapply numbered; eauto. * apply in_or_app; auto.
  Qed.
  Lemma generated_nodup : NoDup (unique_names (new_generator keywords) reqs).
  Proof.
    rewrite (unique_pairs reqs _ [] counts_new).
    assert (G : forall l, NoDup l -> incl l (pairs [] reqs) -> NoDup (map mk l)).
    { induction l as [|p l IH]; intros N I; cbn [map]; constructor.
      - intros H. apply in_map_iff in H. destruct H as (q & E & H). inversion N; subst.
        assert (X : q = p) by (apply mk_inj; auto; apply I; [right|left]; auto). congruence.
      - inversion N; subst. apply IH; auto. intros x Hx. apply I. right. auto. }
    apply G; [apply pairs_nodup | apply incl_refl].
  Qed.
  Lemma generated_not_kept : forall n, In n kp -> ~ In n reqs -> ~ In n (unique_names (new_generator keywords) reqs).
  Proof.
    intros n K R H. rewrite (unique_pairs reqs _ [] counts_new) in H. apply in_map_iff in H.
    destruct H as ([r k] & E & H). unfold mk in E. cbn [fst snd] in E. destruct k as [|k].
    - subst. apply R. apply pairs_in in H. tauto.
    - apply (clear r n (dec k)); auto using digits_dec.
      + eapply numbered; eauto. + apply in_or_app; auto.
  Qed.
End Distinct.

Lemma keywords_no_digits : forall n, In n keywords -> no_digit_end n.
Proof. apply Forall_forall. repeat constructor. Qed.
Lemma generated_not_keyword : forall reqs n, In n (unique_names (new_generator keywords) reqs) -> ~ In n keywords.
Proof.
  intros reqs n H K. rewrite (unique_pairs reqs _ [] counts_new) in H. apply in_map_iff in H.
  destruct H as ([r k] & E & H). unfold mk in E. cbn [fst snd] in E. destruct k as [|k].
  - subst. apply pairs_in in H. destruct H as (_ & H & _). unfold cnt, kw in H.
    destruct (in_dec string_dec n keywords); [|auto]. lia.
  - symmetry in E. revert E. apply name_not_dec. apply keywords_no_digits. auto.
Qed.

(** ** The names that FindVars gives *)
Fixpoint given (f : func) (c : counters) (l : list ref) : naming :=
  match l with
  | [] => []
  | r :: l =>
      if is_array f r then (entity_of r, own_name f r) :: given f c l
      else (entity_of r, fst (get_unique_name c (own_name f r)))
             :: given f (snd (get_unique_name c (own_name f r))) l
  end.

Lemma named_none : forall x m, named x m = None <-> ~ In x (map fst m).
Proof.
  induction m as [|[y n] m IH]; cbn [named map fst In]. { tauto. }
  destruct (entity_eq_dec y x) as [->|N]; split; intros H; try discriminate.
  - exfalso. apply H. auto.
  - intros [E|E]; [congruence|]. tauto.
  - apply IH. tauto.
Qed.
Lemma named_in : forall x m n, named x m = Some n -> In (x, n) m.
Proof.
  induction m as [|[y k] m IH]; cbn [named]; intros n H; [discriminate|].
  destruct (entity_eq_dec y x) as [->|N]; [inversion H; left; auto | right; auto].
Qed.
Lemma in_named : forall x m n, NoDup (map fst m) -> In (x, n) m -> named x m = Some n.
Proof.
  induction m as [|[y k] m IH]; cbn [named map fst]; intros n D H; [destruct H|]. inversion D; subst.
  destruct H as [H|H].
  - inversion H; subst. destruct (entity_eq_dec x x); [auto|congruence].
  - destruct (entity_eq_dec y x) as [->|N]; auto. exfalso. apply H2. apply (in_map fst) in H. auto.
Qed.
Lemma firsts_ext : forall l s t, (forall x, In x s <-> In x t) -> firsts s l = firsts t l.
Proof.
  induction l as [|r l IH]; intros s t H; auto. cbn [firsts].
  destruct (in_dec entity_eq_dec (entity_of r) s) as [A|A]; destruct (in_dec entity_eq_dec (entity_of r) t) as [B|B].
  - auto.
  - exfalso. apply B, H, A.
  - exfalso. apply A, H, B.
  - f_equal. apply IH. intros x. cbn [In]. rewrite H. tauto.
Qed.

Lemma find_vars_from : forall f l m c,
  (forall p n, In (RProp p n) l -> tensor p < length (tensors f)) ->
  fst (fold_left (name_ref f) l (m, c)) = m ++ given f c (firsts (map fst m) l).
Proof.
  induction l as [|r l IH]; intros m c K; cbn [fold_left firsts given fst]. { rewrite app_nil_r. auto. }
  assert (K' : forall p n, In (RProp p n) l -> tensor p < length (tensors f)) by (intros; eapply K; right; eauto).
  unfold name_ref at 2. destruct (named (entity_of r) m) as [k|] eqn:N.
  - destruct (in_dec entity_eq_dec (entity_of r) (map fst m)) as [I|I]; [apply IH; auto|].
    apply named_none in I. congruence.
  - apply named_none in N. destruct (in_dec entity_eq_dec (entity_of r) (map fst m)) as [I|I]; [tauto|].
    assert (X : forall n, firsts (map fst (m ++ [(entity_of r, n)])) l = firsts (entity_of r :: map fst m) l).
    { intros n. apply firsts_ext. intros x. rewrite map_app, in_app_iff. cbn [map fst In]. tauto. }
    destruct r as [v|p n]; cbn [entity_of is_array own_name given] in *.
    + destruct (var_ptr f v).
      * rewrite IH, X, <- app_assoc; auto.
      * destruct (get_unique_name c (var_name f v)) as [n c']. rewrite IH, X, <- app_assoc; auto.
    + assert (L : tensor p < length (tensors f)) by (eapply K; left; eauto). apply Nat.ltb_lt in L. rewrite L.
      destruct (get_unique_name c n) as [n' c']. rewrite IH, X, <- app_assoc; auto.
Qed.
Lemma find_vars_given : forall f, known f -> find_vars f = given f (new_generator keywords) (objects f).
Proof. intros f K. unfold find_vars. rewrite find_vars_from; auto. Qed.

Lemma given_fst : forall f l c, map fst (given f c l) = map entity_of l.
Proof.
  induction l as [|r l IH]; intros c; cbn [given map]; auto.
  destruct (is_array f r); cbn [map fst]; f_equal; auto.
Qed.
Lemma given_snd : forall f l c, Permutation (map snd (given f c l))
  (map (own_name f) (filter (is_array f) l)
   ++ unique_names c (map (own_name f) (filter (fun r => negb (is_array f r)) l))).
Proof.
  induction l as [|r l IH]; intros c; cbn [given map filter]; auto.
  destruct (is_array f r); cbn [negb map snd app unique_names].
  - constructor. apply IH.
  - destruct (get_unique_name c (own_name f r)) as [n c']. cbn [fst snd]. apply Permutation_cons_app. apply IH.
Qed.
Lemma firsts_nodup : forall l s, NoDup (map entity_of (firsts s l)) /\
  forall r, In r (firsts s l) -> ~ In (entity_of r) s.
Proof.
  induction l as [|r l IH]; intros s; cbn [firsts map]. { split; [constructor | intros ? []]. }
  destruct (in_dec entity_eq_dec (entity_of r) s) as [I|I]; auto.
  destruct (IH (entity_of r :: s)) as [A B]. split.
  - cbn [map]. constructor; auto. intros H. apply in_map_iff in H. destruct H as (q & E & H).
    apply (B q H). left. auto.
  - intros q [->|H]; auto. intros J. apply (B q H). right. auto.
Qed.
Lemma firsts_all : forall l s r, In r l -> In (entity_of r) s \/ In (entity_of r) (map entity_of (firsts s l)).
Proof.
  induction l as [|q l IH]; intros s r H; [destruct H|]. cbn [firsts].
  destruct H as [->|H].
  - destruct (in_dec entity_eq_dec (entity_of r) s) as [I|I]; auto. right. cbn [map]. left. auto.
  - destruct (in_dec entity_eq_dec (entity_of q) s) as [I|I]; auto. cbn [map].
    destruct (IH (entity_of q :: s) r H) as [[E|J]|J]; auto; right; [left|right]; auto.
Qed.
Lemma firsts_incl : forall l s, incl (firsts s l) l.
Proof.
  induction l as [|r l IH]; intros s; cbn [firsts]. { apply incl_refl. }
  destruct (in_dec entity_eq_dec (entity_of r) s).
  - apply incl_tl. auto.
  - intros x [->|H]; [left; auto | right; eapply IH; eauto].
Qed.

Definition well_named (ts : list string) (m : naming) : Prop :=
  NoDup (map fst m) /\ NoDup (ts ++ map snd m) /\ (forall n, In n (ts ++ map snd m) -> ~ In n keywords).

Lemma clear_well_named : forall f, known f -> clear_names f -> well_named (tensors f) (find_vars f).
Proof.
  intros f K (N & D & C). rewrite find_vars_given by auto. set (c := new_generator keywords).
  assert (P : Permutation (tensors f ++ map snd (given f c (objects f))) (kept f ++ unique_names c (asked f))).
  { unfold kept, asked. rewrite <- app_assoc. apply Permutation_app_head, given_snd. }
  repeat split.
  - rewrite given_fst. apply firsts_nodup.
  - eapply Permutation_NoDup; [apply Permutation_sym, P|].
    assert (G : NoDup (unique_names c (asked f))) by (apply (generated_nodup (asked f) (kept f)); auto).
    revert N G. assert (A : forall x, In x (kept f) -> ~ In x (unique_names c (asked f))).
    { intros x Hx. eapply generated_not_kept; eauto. apply D. auto. }
    revert A. generalize (kept f), (unique_names c (asked f)). clear.
    induction l as [|a l IH]; intros k A N G; cbn [app]; auto. inversion N; subst. constructor.
    + rewrite in_app_iff. intros [H|H]; [auto|]. apply (A a); [left|]; auto.
    + apply IH; auto. intros x Hx. apply A. right. auto.
  - intros n H. eapply Permutation_in in H; [|apply P]. apply in_app_or in H. destruct H as [H|H].
    + apply D. auto.
    + eapply generated_not_keyword; eauto.
Qed.

Lemma mentioned_named : forall f r, known f -> In r (refs RVar (body f)) ->
  exists n, named (entity_of r) (find_vars f) = Some n.
Proof.
  intros f r K H. destruct (named (entity_of r) (find_vars f)) eqn:E; eauto. exfalso.
  apply named_none in E. apply E. rewrite find_vars_given, given_fst by auto.
  destruct (firsts_all (refs RVar (body f)) [] r H) as [[]|]; auto.
Qed.
Lemma named_tensor : forall f p n, known f -> named (EProp p) (find_vars f) = Some n -> tensor p < length (tensors f).
Proof.
  intros f p n K H. apply named_in in H. apply (in_map fst) in H.
  rewrite find_vars_given, given_fst in H by auto. cbn [fst] in H. apply in_map_iff in H.
  destruct H as (r & E & H). destruct r as [|q k]; inversion E; subst. apply firsts_incl in H. eapply K; eauto.
Qed.

(** ** Renaming succeeds *)
Lemma rename_expr_total : forall m e,
  (forall r, In r (expr_refs e) -> exists n, named (entity_of r) m = Some n) ->
  exists e', rename_expr m e = Some e'.
Proof.
  induction e; intros H; cbn [rename_expr expr_refs] in *; eauto.
  - destruct (H r) as [n ->]; [left; auto|]. cbn. eauto.
  - destruct IHe1 as [a ->]; [intros; apply H, in_or_app; auto|].
    destruct IHe2 as [b ->]; [intros; apply H, in_or_app; auto|]. eauto.
  - destruct IHe1 as [a ->]; [intros; apply H, in_or_app; auto|].
    destruct IHe2 as [b ->]; [intros; apply H, in_or_app; auto|]. eauto.
Qed.
Lemma rename_total : forall m (s : stmt nat ref),
  (forall r, In r (refs RVar s) -> exists n, named (entity_of r) m = Some n) ->
  exists s', rename m s = Some s'.
Proof.
  assert (Z : forall m r l, (forall q, In q (r :: l) -> exists n, named (entity_of q) m = Some n) ->
    (exists n, named (entity_of r) m = Some n) /\ (forall q, In q l -> exists n, named (entity_of q) m = Some n)).
  { intros m r l H. split; [apply H; left; auto | intros; apply H; right; auto]. }
  assert (Y : forall m k l, (forall q, In q (k ++ l) -> exists n, named (entity_of q) m = Some n) ->
    (forall q, In q k -> exists n, named (entity_of q) m = Some n) /\
    (forall q, In q l -> exists n, named (entity_of q) m = Some n)).
  { intros m k l H. split; intros; apply H, in_or_app; auto. }
  induction s; intros H; cbn [rename refs] in *; eauto.
  - apply Y in H. destruct H as [A B]. destruct (IHs1 A) as [? ->]. destruct (IHs2 B) as [? ->]. eauto.
  - apply Z in H. destruct H as [[n A] B]. cbn [entity_of] in A. rewrite A.
    destruct (rename_expr_total m e B) as [? ->]. eauto.
  - apply Z in H. destruct H as [[n A] B]. rewrite A. destruct (rename_expr_total m e B) as [? ->]. eauto.
  - apply Y in H. destruct H as [A B]. apply Y in B. destruct B as [B C].
    destruct (rename_expr_total m a A) as [? ->]. destruct (rename_expr_total m i B) as [? ->].
    destruct (rename_expr_total m e C) as [? ->]. eauto.
  - apply Z in H. destruct H as [[k' A] B]. rewrite A. destruct (rename_expr_total m n B) as [? ->]. eauto.
  - destruct (rename_expr_total m e H) as [? ->]. cbn. eauto.
  - apply Y in H. destruct H as [A B]. apply Y in B. destruct B as [B C].
    destruct (rename_expr_total m c A) as [? ->]. destruct (IHs1 B) as [? ->]. destruct (IHs2 C) as [? ->]. eauto.
  - apply Z in H. destruct H as [[n A] B]. cbn [entity_of] in A. rewrite A.
    apply Y in B. destruct B as [B C]. apply Y in C. destruct C as [C D]. apply Y in D. destruct D as [D F].
    destruct (rename_expr_total m lo B) as [? ->]. destruct (rename_expr_total m hi C) as [? ->].
    destruct (rename_expr_total m inc D) as [? ->]. destruct (IHs F) as [? ->]. eauto.
  - apply Y in H. destruct H as [A B]. destruct (rename_expr_total m c A) as [? ->]. destruct (IHs B) as [? ->]. eauto.
  - destruct (IHs H) as [? ->]. cbn. eauto.
Qed.
(** The names of a renamed statement are names that were given. *)
Lemma rename_expr_names : forall m e e', rename_expr m e = Some e' ->
  forall n, In n (expr_refs e') -> In n (map snd m).
Proof.
  induction e; cbn [rename_expr]; intros e' H n I.
  - inversion H; subst. destruct I.
  - destruct (named (entity_of r) m) eqn:E; inversion H; subst. destruct I as [<-|[]].
    apply named_in in E. apply (in_map snd) in E. auto.
  - destruct (rename_expr m e1) eqn:A; [|discriminate]. destruct (rename_expr m e2) eqn:B; [|discriminate].
    inversion H; subst. cbn [expr_refs] in I. apply in_app_or in I. destruct I; eauto.
  - destruct (rename_expr m e1) eqn:A; [|discriminate]. destruct (rename_expr m e2) eqn:B; [|discriminate].
    inversion H; subst. cbn [expr_refs] in I. apply in_app_or in I. destruct I; eauto.
Qed.
Ltac cases H :=
  repeat match type of H with
  | match ?x with Some _ => _ | None => _ end = Some _ => let E := fresh "E" in destruct x eqn:E; [|discriminate]
  | option_map _ ?x = Some _ => let E := fresh "E" in destruct x eqn:E; [|discriminate]; cbn [option_map] in H
  end.
Lemma rename_names : forall m s s', rename m s = Some s' ->
  forall n, In n (refs (fun x => x) s') -> In n (map snd m).
Proof.
  assert (X : forall m x n, named x m = Some n -> In n (map snd m)).
  { intros m x n H. apply named_in in H. apply (in_map snd) in H. auto. }
  induction s; cbn [rename]; intros s' H nm I; cases H; inversion H; subst; cbn [refs In] in I;
    repeat match goal with I : In _ (_ ++ _) |- _ => apply in_app_or in I; destruct I
                      | I : _ \/ _ |- _ => destruct I
                      | I : _ = nm |- _ => subst
           end; eauto using rename_expr_names; try tauto.
Qed.

(** ** Frames *)
Lemma find_name_app : forall n a b,
  find_name n (a ++ b) = match find_name n a with Some x => Some x | None => find_name n b end.
Proof.
  induction a as [|[m x] a IH]; intros b; cbn [find_name app]; auto. destruct (string_dec m n); auto.
Qed.
Lemma find_name_none : forall n a, find_name n a = None <-> ~ In n (map fst a).
Proof.
  induction a as [|[m x] a IH]; cbn [find_name map fst In]. { tauto. }
  destruct (string_dec m n) as [->|N]; split; intros H; try discriminate.
  - exfalso. apply H. auto.
  - intros [E|E]; [congruence|tauto].
  - apply IH. tauto.
Qed.
Lemma find_name_in : forall n x a, NoDup (map fst a) -> In (n, x) a -> find_name n a = Some x.
Proof.
  induction a as [|[m y] a IH]; cbn [find_name map fst]; intros D H; [destruct H|]. inversion D; subst.
  destruct H as [H|H].
  - inversion H; subst. destruct (string_dec n n); [auto|congruence].
  - destruct (string_dec m n) as [->|N]; auto. exfalso. apply H2. apply (in_map fst) in H. auto.
Qed.
Lemma set_name_app : forall n z a b,
  set_name n z (a ++ b) =
  match find_name n a with
  | Some _ => option_map (fun a => a ++ b) (set_name n z a)
  | None => option_map (app a) (set_name n z b)
  end.
Proof.
  induction a as [|[m x] a IH]; intros b; cbn [find_name set_name app].
  - destruct (set_name n z b); auto.
  - destruct (string_dec m n) as [->|N]; [destruct x; auto|]. rewrite IH.
    destruct (find_name n a); [destruct (set_name n z a) | destruct (set_name n z b)]; auto.
Qed.

Lemma set_field_same : forall F i f z, set_field F i f z i f = z.
Proof.
  intros. unfold set_field. destruct (Nat.eq_dec i i); [|congruence]. destruct (field_eq_dec f f); congruence.
Qed.
Lemma set_field_other : forall F i f z j g, ~ (i = j /\ f = g) -> set_field F i f z j g = F j g.
Proof.
  intros F i f z j g H. unfold set_field. destruct (Nat.eq_dec i j); auto. destruct (field_eq_dec f g); auto. tauto.
Qed.
Lemma property_inj : forall p q, tensor p = tensor q -> field_of p = field_of q -> p = q.
Proof. intros [a b c d] [a' b' c' d'] H E. unfold field_of in E. cbn in *. inversion E. congruence. Qed.

Section Simulation.
  Variable ts : list string.
  Variable m : naming.
  Variable props : list (property * string).
  Hypothesis W : well_named ts m.
  Hypothesis props_m : forall p n, In (p, n) props <-> In (EProp p, n) m.
  Hypothesis props_fst : NoDup (map fst props).
  Hypothesis props_snd : NoDup (map snd props).

  Definition nmv (v : nat) : string := match named (EVar v) m with Some n => n | None => EmptyString end.
  Lemma nmv_named : forall v n, named (EVar v) m = Some n -> nmv v = n.
  Proof. intros v n H. unfold nmv. rewrite H. auto. Qed.
  Definition loc (fr : list (nat * Z)) : frame := map (fun x => (nmv (fst x), Num (snd x))) fr.
  Definition cell_of (F : store_of) (x : property * string) : string * cvalue :=
    (snd x, Num (F (tensor (fst x)) (field_of (fst x)))).
  Definition par : frame := map (fun i => (nth i ts EmptyString, Param i)) (seq 0 (length ts)).
  Definition base (F : store_of) : frame := map (cell_of F) props ++ par.
  Fixpoint embed (F : store_of) (l : list (list (nat * Z))) : cenv :=
    match l with
    | [] => []
    | [fr] => [loc fr ++ base F]
    | fr :: l => loc fr :: embed F l
    end.
  Definition em (e : ienv) : cenv := embed (fields e) (locals e).
  Definition nmd (v : nat) : Prop := exists n, named (EVar v) m = Some n.
  Definition wf (e : ienv) : Prop :=
    locals e <> [] /\ forall fr v z, In fr (locals e) -> In (v, z) fr -> nmd v.

  Lemma names_inj : forall x y n, named x m = Some n -> named y m = Some n -> x = y.
  Proof.
    intros x y n A B. apply named_in in A. apply named_in in B. destruct W as (_ & N & _).
    assert (N' : NoDup (map snd m)).
    { clear - N. induction ts; cbn in N; auto. inversion N; auto. }
    clear - A B N'. induction m as [|[u k] l IH]; [destruct A|]. cbn [map snd] in N'. inversion N'; subst.
    destruct A as [A|A]; destruct B as [B|B]; try congruence; auto.
    - inversion A; subst. exfalso. apply H1. apply (in_map snd) in B. auto.
    - inversion B; subst. exfalso. apply H1. apply (in_map snd) in A. auto.
  Qed.
  Lemma names_not_tensor : forall x n, named x m = Some n -> ~ In n ts.
  Proof.
    intros x n A H. apply named_in in A. apply (in_map snd) in A. cbn [snd] in A. destruct W as (_ & N & _).
    clear - A H N. induction ts as [|a l IH]; [destruct H|]. cbn [app] in N. inversion N; subst. destruct H as [->|H]; auto.
    apply H2. apply in_or_app. auto.
  Qed.
  Lemma tensors_nodup : NoDup ts.
  Proof.
    destruct W as (_ & N & _). clear - N. revert N. induction ts as [|a l IH]; intros N; [constructor|].
    cbn [app] in N. inversion N; subst. constructor; auto. intros H. apply H1, in_or_app. auto.
  Qed.
  Lemma par_names : map fst par = ts.
  Proof.
    unfold par. rewrite map_map. cbn [fst]. clear. induction ts as [|a l IH]; auto.
    cbn [length seq map nth]. f_equal. rewrite <- seq_shift, map_map. auto.
  Qed.
  Lemma base_names : forall F, map fst (base F) = map snd props ++ ts.
  Proof.
    intros F. unfold base. rewrite map_app, par_names, map_map. auto.
  Qed.
  Lemma prop_named : forall p n, In (p, n) props -> named (EProp p) m = Some n.
  Proof. intros p n H. apply in_named; [apply W | apply props_m; auto]. Qed.
  Lemma base_nodup : forall F, NoDup (map fst (base F)).
  Proof.
    intros F. rewrite base_names.
    assert (G : forall n, In n (map snd props) -> ~ In n ts).
    { intros n H. apply in_map_iff in H. destruct H as ([p k] & <- & H). apply prop_named in H.
      eapply names_not_tensor; eauto. }
    revert G props_snd. generalize (map snd props) as l. pose proof tensors_nodup as T. induction l as [|a l IH]; intros G N; cbn [app]; auto.
    inversion N; subst. constructor.
    - rewrite in_app_iff. intros [H|H]; auto. apply (G a); [left|]; auto.
    - apply IH; auto. intros n Hn. apply G. right. auto.
  Qed.
  Lemma var_not_base : forall F v n, named (EVar v) m = Some n -> find_name n (base F) = None.
  Proof.
    intros F v n H. apply find_name_none. rewrite base_names. rewrite in_app_iff. intros [I|I].
    - apply in_map_iff in I. destruct I as ([p k] & <- & I). apply prop_named in I.
      assert (X : EVar v = EProp p) by (eapply names_inj; eauto). discriminate.
    - eapply names_not_tensor; eauto.
  Qed.
  Lemma prop_in_base : forall F p n, named (EProp p) m = Some n ->
    find_name n (base F) = Some (Num (F (tensor p) (field_of p))).
  Proof.
    intros F p n H. apply find_name_in; [apply base_nodup|]. unfold base. apply in_or_app. left.
    apply named_in in H. apply props_m in H. apply (in_map (cell_of F)) in H. auto.
  Qed.
  Lemma tensor_in_base : forall F i, i < length ts -> find_name (nth i ts EmptyString) (base F) = Some (Param i).
  Proof.
    intros F i H. apply find_name_in; [apply base_nodup|]. unfold base. apply in_or_app. right.
    unfold par. apply in_map_iff. exists i. split; auto. apply in_seq. lia.
  Qed.

  Definition nmd_frame (fr : list (nat * Z)) : Prop := forall v z, In (v, z) fr -> nmd v.
  Lemma loc_find_var : forall v n fr, named (EVar v) m = Some n -> nmd_frame fr ->
    find_name n (loc fr) = option_map Num (find_var v fr).
  Proof.
    intros v n fr H. induction fr as [|[w z] fr IH]; intros N; auto. cbn [loc map fst snd find_name find_var].
    destruct (N w z) as [k K]; [left; auto|]. rewrite (nmv_named w k K).
    assert (N' : nmd_frame fr) by (intros u x I; eapply N; right; eauto).
    destruct (string_dec k n) as [->|Q]; destruct (Nat.eq_dec w v) as [->|R]; auto; try (apply IH; auto).
    - assert (X : EVar w = EVar v) by (eapply names_inj; eauto). congruence.
    - congruence.
  Qed.
  Lemma loc_other : forall x n fr, named x m = Some n -> (forall v, x <> EVar v) -> nmd_frame fr ->
    find_name n (loc fr) = None.
  Proof.
    intros x n fr H O N. apply find_name_none. intros I. unfold loc in I. rewrite map_map in I. apply in_map_iff in I.
    destruct I as ([v z] & E & I). cbn [fst] in E. destruct (N v z I) as [k K]. rewrite (nmv_named v k K) in E. subst.
    apply (O v). eapply names_inj; eauto.
  Qed.
  Lemma loc_tensor : forall n fr, In n ts -> nmd_frame fr -> find_name n (loc fr) = None.
  Proof.
    intros n fr H N. apply find_name_none. intros I. unfold loc in I. rewrite map_map in I. apply in_map_iff in I.
    destruct I as ([v z] & E & I). cbn [fst] in E. destruct (N v z I) as [k K]. rewrite (nmv_named v k K) in E. subst.
    eapply names_not_tensor; eauto.
  Qed.
  Lemma loc_set_var : forall v n z fr, named (EVar v) m = Some n -> nmd_frame fr -> find_var v fr <> None ->
    set_name n z (loc fr) = Some (loc (set_var v z fr)).
  Proof.
    intros v n z fr H. induction fr as [|[w x] fr IH]; intros N F; cbn [find_var] in F; [congruence|].
    cbn [loc map fst snd set_name set_var]. destruct (N w x) as [k K]; [left; auto|]. rewrite (nmv_named w k K).
    assert (N' : nmd_frame fr) by (intros u y I; eapply N; right; eauto).
    destruct (string_dec k n) as [->|Q]; destruct (Nat.eq_dec w v) as [->|R]; auto.
    - cbn [loc map fst snd]. rewrite (nmv_named v n H). auto.
    - assert (X : EVar w = EVar v) by (eapply names_inj; eauto). congruence.
    - congruence.
    - change (map (fun x0 : nat * Z => (nmv (fst x0), Num (snd x0))) fr) with (loc fr).
      rewrite IH by auto. cbn [option_map loc map fst snd]. rewrite (nmv_named w k K). auto.
  Qed.
  Lemma props_set : forall F p n z l tail, (forall q k, In (q, k) l -> named (EProp q) m = Some k) ->
    NoDup (map fst l) -> In (p, n) l ->
    set_name n z (map (cell_of F) l ++ tail)
    = Some (map (cell_of (set_field F (tensor p) (field_of p) z)) l ++ tail).
  Proof.
    intros F p n z l tail. induction l as [|[q k] l IH]; intros P D I; [destruct I|].
    cbn [map app cell_of fst snd set_name]. cbn [map fst] in D. inversion D; subst.
    assert (P' : forall q k, In (q, k) l -> named (EProp q) m = Some k) by (intros; apply P; right; auto).
    assert (K : named (EProp q) m = Some k) by (apply P; left; auto).
    assert (other : forall q', q' <> p -> set_field F (tensor p) (field_of p) z (tensor q') (field_of q')
                                       = F (tensor q') (field_of q')).
    { intros q' Q. apply set_field_other. intros [A B]. apply Q. symmetry. apply property_inj; auto. }
    destruct I as [I|I].
    - inversion I; subst. destruct (string_dec n n); [|congruence].
      unfold cell_of at 2. cbn [fst snd]. rewrite set_field_same. f_equal. f_equal. f_equal.
      apply map_ext_in. intros [q' k'] I'. unfold cell_of. cbn [fst snd]. rewrite other; auto.
      intros ->. apply H1. apply (in_map fst) in I'. auto.
    - assert (Q : q <> p). { intros ->. apply H1. apply (in_map fst) in I. auto. }
      destruct (string_dec k n) as [->|].
      + assert (X : EProp q = EProp p) by (eapply names_inj; eauto; apply P; right; auto). congruence.
      + rewrite IH by auto. cbn [option_map]. f_equal. f_equal. unfold cell_of. cbn [fst snd]. rewrite other by auto. auto.
  Qed.
  Lemma base_set : forall F p n z, named (EProp p) m = Some n ->
    set_name n z (base F) = Some (base (set_field F (tensor p) (field_of p) z)).
  Proof.
    intros F p n z H. unfold base. apply props_set; auto.
    - intros q k I. apply prop_named. auto.
    - apply props_m. apply named_in. auto.
  Qed.

  Lemma wf_frames : forall e fr, wf e -> In fr (locals e) -> nmd_frame fr.
  Proof. intros e fr [_ H] I v z J. eapply H; eauto. Qed.
  Definition all_nmd (l : list (list (nat * Z))) : Prop := forall fr, In fr l -> nmd_frame fr.
  Lemma all_tl : forall a l, all_nmd (a :: l) -> all_nmd l /\ nmd_frame a.
  Proof. intros a l H. split; [intros fr I; apply H; right; auto | apply H; left; auto]. Qed.

  Lemma embed_cons : forall F fr l, l <> [] -> embed F (fr :: l) = loc fr :: embed F l.
  Proof. intros F fr [|a l] H; [congruence|auto]. Qed.
  Lemma lookup_var_sim : forall F v n l, named (EVar v) m = Some n -> all_nmd l ->
    lookup n (embed F l) = option_map Num (lookup_var v l).
  Proof.
    intros F v n l H. induction l as [|fr l IH]; intros A; auto. apply all_tl in A. destruct A as [A B].
    destruct l as [|g l].
    - cbn [embed lookup lookup_var]. rewrite find_name_app, (loc_find_var v n fr), (var_not_base F v n) by auto.
      destruct (find_var v fr); auto.
    - rewrite embed_cons by discriminate. cbn [lookup]. rewrite (loc_find_var v n fr) by auto.
      change (lookup_var v (fr :: g :: l)) with (match find_var v fr with Some z => Some z | None => lookup_var v (g :: l) end).
      destruct (find_var v fr); cbn [option_map]; auto.
  Qed.
  Lemma lookup_prop_sim : forall F p n l, named (EProp p) m = Some n -> all_nmd l -> l <> [] ->
    lookup n (embed F l) = Some (Num (F (tensor p) (field_of p))).
  Proof.
    intros F p n l H. induction l as [|fr l IH]; intros A E; [congruence|]. apply all_tl in A. destruct A as [A B].
    assert (O : find_name n (loc fr) = None) by (eapply loc_other; eauto; discriminate).
    destruct l as [|g l].
    - cbn [embed lookup]. rewrite find_name_app, O, (prop_in_base F p n) by auto. auto.
    - rewrite embed_cons by discriminate. cbn [lookup]. rewrite O. apply IH; auto. discriminate.
  Qed.
  Lemma lookup_tensor_sim : forall F i l, i < length ts -> all_nmd l -> l <> [] ->
    lookup (nth i ts EmptyString) (embed F l) = Some (Param i).
  Proof.
    intros F i l H. induction l as [|fr l IH]; intros A E; [congruence|]. apply all_tl in A. destruct A as [A B].
    assert (O : find_name (nth i ts EmptyString) (loc fr) = None) by (apply loc_tensor; auto; apply nth_In; auto).
    destruct l as [|g l].
    - cbn [embed lookup]. rewrite find_name_app, O, tensor_in_base by auto. auto.
    - rewrite embed_cons by discriminate. cbn [lookup]. rewrite O. apply IH; auto. discriminate.
  Qed.
  Lemma assign_var_sim : forall F v n z l, named (EVar v) m = Some n -> all_nmd l ->
    assign n z (embed F l) = option_map (embed F) (assign_var v z l).
  Proof.
    intros F v n z l H. induction l as [|fr l IH]; intros A; auto. apply all_tl in A. destruct A as [A B].
    destruct l as [|g l].
    - cbn [embed assign assign_var]. rewrite find_name_app, set_name_app, (loc_find_var v n fr), (var_not_base F v n) by auto.
      destruct (find_var v fr) eqn:E; cbn [option_map].
      + rewrite (loc_set_var v n z fr) by (auto; congruence). cbn [option_map embed]. auto.
      + auto.
    - rewrite embed_cons by discriminate. cbn [assign].
      change (assign_var v z (fr :: g :: l)) with
        (match find_var v fr with Some _ => Some (set_var v z fr :: g :: l)
         | None => option_map (cons fr) (assign_var v z (g :: l)) end).
      rewrite (loc_find_var v n fr) by auto. destruct (find_var v fr) eqn:E; cbn [option_map].
      + rewrite (loc_set_var v n z fr) by (auto; congruence). cbn [option_map]. auto.
      + rewrite IH by auto. destruct (assign_var v z (g :: l)) as [k|] eqn:Q; cbn [option_map]; auto.
        rewrite embed_cons; auto. intros ->. cbn [assign_var] in Q.
        destruct (find_var v g); [discriminate|]. destruct (assign_var v z l); discriminate.
  Qed.
  Lemma assign_prop_sim : forall F p n z l, named (EProp p) m = Some n -> all_nmd l -> l <> [] ->
    assign n z (embed F l) = Some (embed (set_field F (tensor p) (field_of p) z) l).
  Proof.
    intros F p n z l H. induction l as [|fr l IH]; intros A E; [congruence|]. apply all_tl in A. destruct A as [A B].
    assert (O : find_name n (loc fr) = None) by (eapply loc_other; eauto; discriminate).
    destruct l as [|g l].
    - cbn [embed assign]. rewrite find_name_app, set_name_app, O, (prop_in_base F p n), (base_set F p n z) by auto. auto.
    - rewrite !embed_cons by discriminate. cbn [assign]. rewrite O, IH by (auto; discriminate). auto.
  Qed.

  (** *** The operations *)
  Lemma wf_all : forall e, wf e -> all_nmd (locals e).
  Proof. intros e H fr I. eapply wf_frames; eauto. Qed.
  Lemma get_sim : forall e r n, wf e -> named (entity_of r) m = Some n ->
    get c_scoping (em e) n = get i_scoping e r.
  Proof.
    intros e r n H N. pose proof (wf_all e H) as A. destruct H as [L _]. destruct r as [v|p k]; cbn [entity_of] in N;
      cbn [get c_scoping i_scoping em]; unfold em.
    - rewrite (lookup_var_sim (fields e) v n) by auto. destruct (lookup_var v (locals e)); auto.
    - rewrite (lookup_prop_sim (fields e) p n) by auto. auto.
  Qed.
  Lemma set_var_ids : forall v z fr, map fst (set_var v z fr) = map fst fr.
  Proof.
    induction fr as [|[w x] fr IH]; auto. cbn [set_var]. destruct (Nat.eq_dec w v); cbn [map fst]; congruence.
  Qed.
  Lemma nmd_frame_ids : forall fr gr, map fst fr = map fst gr -> nmd_frame gr -> nmd_frame fr.
  Proof.
    intros fr gr E N v z I. apply (in_map fst) in I. rewrite E in I. apply in_map_iff in I.
    destruct I as ([w x] & Q & I). cbn [fst] in Q. subst. eapply N; eauto.
  Qed.
  Lemma assign_var_wf : forall v z l k, assign_var v z l = Some k -> all_nmd l -> all_nmd k /\ length k = length l.
  Proof.
    induction l as [|fr l IH]; intros k E A; [discriminate|]. cbn [assign_var] in E. apply all_tl in A. destruct A as [A B].
    destruct (find_var v fr).
    - inversion E; subst. split; auto. intros gr [<-|I]; auto. eapply nmd_frame_ids; [apply set_var_ids|]; auto.
    - destruct (assign_var v z l) as [j|]; inversion E; subst. destruct (IH j) as [C D]; auto. cbn [length].
      split; [|lia]. intros gr [<-|I]; auto.
  Qed.
  Lemma wf_intro : forall F l, all_nmd l -> l <> [] -> wf (IEnv F l).
  Proof. intros F l A N. split; auto. intros fr v z I J. eapply A; eauto. Qed.
  Lemma put_sim : forall e r n z, wf e -> named (entity_of r) m = Some n ->
    put c_scoping (em e) n z = option_map em (put i_scoping e r z).
  Proof.
    intros e r n z H N. pose proof (wf_all e H) as A. destruct H as [L _]. destruct r as [v|p k]; cbn [entity_of] in N;
      cbn [put c_scoping i_scoping]; unfold em.
    - rewrite (assign_var_sim (fields e) v n) by auto. destruct (assign_var v z (locals e)); auto.
    - rewrite (assign_prop_sim (fields e) p n) by auto. auto.
  Qed.
  Lemma put_wf : forall e r z e', wf e -> put i_scoping e r z = Some e' ->
    wf e' /\ length (locals e') = length (locals e).
  Proof.
    intros e r z e' H E. pose proof (wf_all e H) as A. destruct H as [L _]. destruct r as [v|p k]; cbn [put i_scoping] in E.
    - destruct (assign_var v z (locals e)) as [l|] eqn:Q; inversion E; subst.
      destruct (assign_var_wf _ _ _ _ Q A) as [B C]. cbn [locals]. split; auto. apply wf_intro; auto.
      intros ->. destruct (locals e); [congruence|discriminate].
    - inversion E; subst. cbn [locals]. split; auto. apply wf_intro; auto.
  Qed.
  Lemma declare_sim : forall e v n z, wf e -> named (EVar v) m = Some n ->
    declare c_scoping (em e) n z = option_map em (declare i_scoping e v z).
  Proof.
    intros e v n z H N. pose proof (wf_all e H) as A. destruct H as [L _]. cbn [declare c_scoping i_scoping]. unfold em.
    destruct (locals e) as [|fr l]; [congruence|]. apply all_tl in A. destruct A as [A B].
    assert (X : loc ((v, z) :: fr) = (n, Num z) :: loc fr).
    { cbn [loc map fst snd]. rewrite (nmv_named v n N). auto. }
    destruct l as [|g l].
    - cbn [embed c_declare]. rewrite find_name_app, (loc_find_var v n fr), (var_not_base (fields e) v n) by auto.
      destruct (find_var v fr); cbn [option_map fields locals embed]; auto. rewrite X. auto.
    - rewrite embed_cons by discriminate. cbn [c_declare]. rewrite (loc_find_var v n fr) by auto.
      destruct (find_var v fr); cbn [option_map fields locals]; auto. rewrite (embed_cons (fields e) ((v, z) :: fr)) by discriminate. rewrite X. auto.
  Qed.
  Lemma declare_wf : forall e v n z e', wf e -> named (EVar v) m = Some n -> declare i_scoping e v z = Some e' ->
    wf e' /\ length (locals e') = length (locals e).
  Proof.
    intros e v n z e' H N E. pose proof (wf_all e H) as A. destruct H as [L _]. cbn [declare i_scoping] in E.
    destruct (locals e) as [|fr l]; [congruence|]. destruct (find_var v fr); inversion E; subst. cbn [locals length].
    apply all_tl in A. destruct A as [A B]. split; auto. apply wf_intro; [|discriminate].
    intros gr [<-|I]; auto. intros w x [J|J]; [inversion J; subst; exists n; auto | eapply B; eauto].
  Qed.
  Lemma enter_sim : forall e, wf e -> enter c_scoping (em e) = em (enter i_scoping e) /\ wf (enter i_scoping e).
  Proof.
    intros e H. pose proof (wf_all e H) as A. destruct H as [L _]. split.
    - cbn [enter c_scoping i_scoping]. unfold em. cbn [fields locals]. rewrite embed_cons by auto. auto.
    - apply wf_intro; [|discriminate]. intros fr [<-|I]; auto. intros v z [].
  Qed.
  Lemma leave_sim : forall e, wf e -> 2 <= length (locals e) ->
    leave c_scoping (em e) = em (leave i_scoping e) /\ wf (leave i_scoping e) /\
    length (locals (leave i_scoping e)) = length (locals e) - 1.
  Proof.
    intros e H G. pose proof (wf_all e H) as A. cbn [leave c_scoping i_scoping]. unfold em. cbn [fields locals].
    destruct (locals e) as [|fr [|g l]]; cbn [length] in G; try lia. apply all_tl in A. destruct A as [A B].
    cbn [tl]. split; [rewrite embed_cons by discriminate; auto|]. split; [apply wf_intro; auto; discriminate|].
    cbn [length]. lia.
  Qed.
  Lemma eval_sim : forall e h x x', wf e -> rename_expr m x = Some x' ->
    eval c_scoping (em e) h x' = eval i_scoping e h x.
  Proof.
    intros e h x. induction x as [z|r|a IHa i IHi|f a IHa b IHb]; intros x' H E; cbn [rename_expr] in E; cases E;
      inversion E; subst; cbn [eval]; auto.
    - apply get_sim; auto.
    - rewrite (IHa e0), (IHi e1); auto.
    - rewrite (IHa e0), (IHb e1); auto.
  Qed.

  Definition follows (e : ienv) (i : outcome (ienv * heap)) (c : outcome (cenv * heap)) : Prop :=
    match i with
    | Done (e', h') => c = Done (em e', h') /\ wf e' /\ length (locals e') = length (locals e)
    | Stuck => c = Stuck
    | NoFuel => c = NoFuel
    end.
  Lemma exec_sim : forall fuel s s' e h, rename m s = Some s' -> wf e ->
    follows e (exec i_scoping fuel s e h) (exec c_scoping fuel s' (em e) h).
  Proof.
    induction fuel as [|fuel IH]; intros s s' e h E H; [cbn; auto|].
    destruct s; cbn [rename] in E; cases E; inversion E; subst; cbn [exec];
      try (erewrite !(eval_sim e h) by eauto).
    - cbn [follows]. auto.
    - pose proof (IH _ _ e h E0 H) as A. destruct (exec i_scoping fuel s1 e h) as [[e1 h1]| |]; cbn [follows] in A.
      + destruct A as (-> & B & C). cbn [bind fst snd]. pose proof (IH _ _ e1 h1 E1 B) as D.
        destruct (exec i_scoping fuel s2 e1 h1) as [[e2 h2]| |]; cbn [follows] in *; auto. rewrite <- C. auto.
      + rewrite A. reflexivity.
      + rewrite A. reflexivity.
    - destruct (eval i_scoping e h e0) as [z|]; cbn [demand bind]; [|reflexivity].
      rewrite (declare_sim e v s) by auto. destruct (declare i_scoping e v z) as [e2|] eqn:D; cbn [option_map demand bind follows]; auto.
      split; auto. eapply declare_wf; eauto.
    - destruct (eval i_scoping e h e0) as [z|]; cbn [demand bind]; [|reflexivity].
      rewrite (put_sim e r s) by auto. destruct (put i_scoping e r z) as [e2|] eqn:D; cbn [option_map demand bind follows]; auto.
      split; auto. eapply put_wf; eauto.
    - destruct (eval i_scoping e h a) as [x|]; cbn [demand bind]; [|reflexivity].
      destruct (eval i_scoping e h i) as [y|]; cbn [demand bind]; [|reflexivity].
      destruct (eval i_scoping e h e0) as [z|]; cbn [demand bind]; [|reflexivity].
      destruct (store h x y z); cbn [demand bind follows]; auto.
    - destruct (eval i_scoping e h n) as [x|]; cbn [demand bind]; [|reflexivity].
      rewrite (get_sim e r s) by auto. destruct (get i_scoping e r) as [old|]; cbn [demand bind]; [|reflexivity].
      destruct (allocate k h old x) as [[h' a]|]; cbn [demand bind fst snd]; [|reflexivity].
      rewrite (put_sim e r s) by auto. destruct (put i_scoping e r a) as [e2|] eqn:D; cbn [option_map demand bind follows]; auto.
      split; auto. eapply put_wf; eauto.
    - destruct (eval i_scoping e h e0) as [x|]; cbn [demand bind]; [|reflexivity].
      destruct (release_block h x); cbn [demand bind follows]; auto.
    - destruct (eval i_scoping e h c) as [x|]; cbn [demand bind]; [|reflexivity].
      apply IH; auto. destruct (x =? 0)%Z; cbn [rename]; [rewrite E2 | rewrite E1]; auto.
    - destruct (eval i_scoping e h lo) as [x|]; cbn [demand bind]; [|reflexivity].
      destruct (enter_sim e H) as [P Q]. rewrite P, (declare_sim _ v s0) by auto.
      destruct (declare i_scoping (enter i_scoping e) v x) as [e5|] eqn:D; cbn [option_map demand bind]; [|reflexivity].
      destruct (declare_wf _ v s0 x e5 Q E0 D) as [X L].
      set (w := While (Bin less (Ref (RVar v)) hi)
                  (Seq (Braces s) (Assign (RVar v) (Bin Z.add (Ref (RVar v)) inc)))).
      eassert (R : rename m w = Some _).
      { unfold w. cbn [rename rename_expr entity_of option_map]. rewrite E0. cbn [option_map]. rewrite E2, E3, E4. reflexivity. }
      pose proof (IH _ _ e5 h R X) as A. cbn [this c_scoping i_scoping] in *. fold w.
      destruct (exec i_scoping fuel w e5 h) as [[e6 h6]| |]; cbn [follows] in A.
      + destruct A as (-> & B & C). cbn [bind fst snd follows].
        assert (G : length (locals e6) = S (length (locals e))) by (rewrite C, L; reflexivity).
        destruct H as [NE _]. destruct (locals e) as [|fr l] eqn:LE; [congruence|]. cbn [length] in G.
        destruct (leave_sim e6 B) as (U & V & Y); [lia|]. rewrite U. split; auto. split; auto. cbn [length]. lia.
      + rewrite A. reflexivity.
      + rewrite A. reflexivity.
    - destruct (eval i_scoping e h c) as [x|]; cbn [demand bind]; [|reflexivity].
      destruct (x =? 0)%Z; [cbn [follows]; auto|].
      assert (R : rename m (Braces s) = Some (Braces s0)) by (cbn [rename]; rewrite E1; auto).
      pose proof (IH _ _ e h R H) as A. destruct (exec i_scoping fuel (Braces s) e h) as [[e3 h3]| |]; cbn [follows] in A.
      + destruct A as (-> & B & C). cbn [bind fst snd].
        assert (R2 : rename m (While c s) = Some (While e0 s0)) by (cbn [rename]; rewrite E0, E1; auto).
        pose proof (IH _ _ e3 h3 R2 B) as D.
        destruct (exec i_scoping fuel (While c s) e3 h3) as [[e4 h4]| |]; cbn [follows] in *; auto. rewrite <- C. auto.
      + rewrite A. reflexivity.
      + rewrite A. reflexivity.
    - destruct (enter_sim e H) as [P Q]. rewrite P. pose proof (IH _ _ (enter i_scoping e) h E0 Q) as A.
      destruct (exec i_scoping fuel s (enter i_scoping e) h) as [[e6 h6]| |]; cbn [follows] in A.
      + destruct A as (-> & B & C). cbn [bind fst snd follows].
        change (length (locals (enter i_scoping e))) with (S (length (locals e))) in C.
        destruct H as [NE _]. destruct (locals e) as [|fr l] eqn:LE; [congruence|]. cbn [length] in C.
        destruct (leave_sim e6 B) as (U & V & Y); [lia|]. rewrite U. split; auto. split; auto. cbn [length]. lia.
      + rewrite A. reflexivity.
      + rewrite A. reflexivity.
  Qed.
End Simulation.

(** ** Properties in order *)
Definition prop_entries (m : naming) : list (property * string) :=
  flat_map (fun e => match e with (EProp p, n) => [(p, n)] | _ => [] end) m.
Lemma insert_perm : forall x l, Permutation (insert_sorted x l) (x :: l).
Proof.
  induction l as [|y l IH]; cbn [insert_sorted]; auto. destruct (before (fst x) (fst y)); auto.
  eapply Permutation_trans; [apply perm_skip, IH | apply perm_swap].
Qed.
Lemma sorted_perm : forall m, Permutation (sorted_props m) (prop_entries m).
Proof.
  intros m. unfold sorted_props. fold (prop_entries m). induction (prop_entries m) as [|x l IH]; cbn [fold_right]; auto.
  eapply Permutation_trans; [apply insert_perm | apply perm_skip, IH].
Qed.
Lemma prop_entries_in : forall m p n, In (p, n) (prop_entries m) <-> In (EProp p, n) m.
Proof.
  intros m p n. unfold prop_entries. rewrite in_flat_map. split.
  - intros ([[v|q] k] & I & J); [destruct J|]. destruct J as [J|[]]. inversion J; subst. auto.
  - intros I. exists (EProp p, n). split; auto. left. auto.
Qed.
Lemma prop_entries_fst : forall m, NoDup (map fst m) -> NoDup (map fst (prop_entries m)).
Proof.
  induction m as [|[[v|q] k] m IH]; intros N; cbn [map fst] in N.
  - constructor.
  - inversion N; subst. apply IH. auto.
  - inversion N; subst. change (prop_entries ((EProp q, k) :: m)) with ((q, k) :: prop_entries m). cbn [map fst]. constructor; auto.
    intros I. apply in_map_iff in I. destruct I as ([p n] & E & I). cbn [fst] in E. subst. apply prop_entries_in in I.
    apply H1. apply (in_map fst) in I. auto.
Qed.
Lemma prop_entries_snd : forall m, NoDup (map snd m) -> NoDup (map snd (prop_entries m)).
Proof.
  induction m as [|[[v|q] k] m IH]; intros N; cbn [map snd] in N.
  - constructor.
  - inversion N; subst. apply IH. auto.
  - inversion N; subst. change (prop_entries ((EProp q, k) :: m)) with ((q, k) :: prop_entries m). cbn [map snd]. constructor; auto.
    intros I. apply in_map_iff in I. destruct I as ([p n] & E & I). cbn [snd] in E. subst. apply prop_entries_in in I.
    apply H1. apply (in_map snd) in I. auto.
Qed.
Lemma nodup_right : forall A (a b : list A), NoDup (a ++ b) -> NoDup b.
Proof. induction a; cbn; intros b N; auto. inversion N; auto. Qed.

(** ** Only what is written changes *)
Lemma exec_fields : forall fuel s e h e' h' i k,
  exec i_scoping fuel s e h = Done (e', h') ->
  (forall p n, In (RProp p n) (written s) -> ~ (tensor p = i /\ field_of p = k)) ->
  fields e' i k = fields e i k.
Proof.
  assert (P : forall e r z e' i k, put i_scoping e r z = Some e' ->
    (forall p n, r = RProp p n -> ~ (tensor p = i /\ field_of p = k)) -> fields e' i k = fields e i k).
  { intros e r z e' i k E N. destruct r as [v|p n]; cbn [put i_scoping] in E.
    - destruct (assign_var v z (locals e)); inversion E; subst. auto.
    - inversion E; subst. cbn [fields]. apply set_field_other. eapply N. eauto. }
  assert (D : forall e v z e' i k, declare i_scoping e v z = Some e' -> fields e' i k = fields e i k).
  { intros e v z e' i k E. cbn [declare i_scoping] in E. destruct (locals e) as [|fr l]; [discriminate|].
    destruct (find_var v fr); inversion E; subst. auto. }
  induction fuel as [|fuel IH]; intros s e h e' h' i k E N; [discriminate|].
  destruct s; cbn [exec] in E; cbn [written] in N.
  - inversion E; subst; auto.
  - destruct (exec i_scoping fuel s1 e h) as [[e1 h1]| |] eqn:A; try discriminate. cbn [bind fst snd] in E.
    rewrite (IH _ _ _ _ _ i k E), (IH _ _ _ _ _ i k A); auto; intros; eapply N; apply in_or_app; eauto.
  - destruct (eval i_scoping e h e0) as [z|]; try discriminate. cbn [demand bind] in E.
    destruct (declare i_scoping e v z) eqn:A; try discriminate. inversion E; subst. eapply D; eauto.
  - destruct (eval i_scoping e h e0) as [z|]; try discriminate. cbn [demand bind] in E.
    destruct (put i_scoping e r z) eqn:A; try discriminate. inversion E; subst. eapply P; eauto.
    intros p n ->. eapply N. left. auto.
  - destruct (eval i_scoping e h a); try discriminate. cbn [demand bind] in E.
    destruct (eval i_scoping e h i0); try discriminate. cbn [demand bind] in E.
    destruct (eval i_scoping e h e0); try discriminate. cbn [demand bind] in E.
    destruct (store h z z0 z1); inversion E; subst; auto.
  - destruct (eval i_scoping e h n); try discriminate. cbn [demand bind] in E.
    destruct (get i_scoping e r); try discriminate. cbn [demand bind] in E.
    destruct (allocate k0 h z0 z) as [q|]; try discriminate. cbn [demand bind] in E.
    destruct (put i_scoping e r (snd q)) eqn:A; try discriminate. inversion E; subst. eapply P; eauto.
    intros p n' ->. eapply N. left. auto.
  - destruct (eval i_scoping e h e0); try discriminate. cbn [demand bind] in E.
    destruct (release_block h z); inversion E; subst; auto.
  - destruct (eval i_scoping e h c) as [z|]; try discriminate. cbn [demand bind] in E.
    apply (IH _ _ _ _ _ i k E). cbn [written]. intros. eapply N. apply in_or_app. destruct (z =? 0)%Z; eauto.
  - destruct (eval i_scoping e h lo) as [z|]; try discriminate. cbn [demand bind] in E.
    destruct (declare i_scoping (enter i_scoping e) v z) as [e1|] eqn:A; try discriminate. cbn [demand bind] in E.
    destruct (exec i_scoping fuel _ e1 h) as [[e2 h2]| |] eqn:B; try discriminate. cbn [bind fst snd] in E.
    inversion E; subst. cbn [leave i_scoping fields]. rewrite (IH _ _ _ _ _ i k B).
    + rewrite (D _ _ _ _ _ _ A). auto.
    + cbn [written this i_scoping]. intros p n I. apply in_app_or in I. destruct I as [I|[I|[]]]; [eauto|discriminate].
  - destruct (eval i_scoping e h c) as [z|]; try discriminate. cbn [demand bind] in E.
    destruct (z =? 0)%Z; [inversion E; subst; auto|].
    destruct (exec i_scoping fuel (Braces s) e h) as [[e1 h1]| |] eqn:A; try discriminate. cbn [bind fst snd] in E.
    rewrite (IH _ _ _ _ _ i k E), (IH _ _ _ _ _ i k A); auto.
  - destruct (exec i_scoping fuel s (enter i_scoping e) h) as [[e1 h1]| |] eqn:A; try discriminate. cbn [bind fst snd] in E.
    inversion E; subst. cbn [leave i_scoping fields]. rewrite (IH _ _ _ _ _ i k A); auto.
Qed.

Lemma written_refs : forall (s : stmt nat ref) r, In r (written s) -> In r (refs RVar s).
Proof.
  induction s; cbn [written refs]; intros q I; try (destruct I; fail); try (destruct I as [<-|[]]; left; auto; fail).
  - apply in_app_or in I. apply in_or_app. destruct I; auto.
  - apply in_app_or in I. apply in_or_app. right. apply in_or_app. destruct I; auto.
  - right. apply in_or_app. right. apply in_or_app. right. apply in_or_app. right. auto.
  - apply in_or_app. auto.
  - auto.
Qed.

(** ** Unpacking and packing *)
Lemma param_frame_ok : forall ts n fr, NoDup (map fst fr ++ ts) ->
  param_frame n ts fr = Some (fr ++ map (fun i => (nth i ts EmptyString, Param (n + i))) (seq 0 (length ts))).
Proof.
  induction ts as [|t ts IH]; intros n fr N; cbn [param_frame length seq map]. { rewrite app_nil_r. auto. }
  assert (X : find_name t fr = None).
  { apply find_name_none. intros I. apply NoDup_remove_2 in N. apply N, in_or_app. auto. }
  rewrite X, IH.
  - rewrite <- app_assoc. cbn [app nth]. rewrite Nat.add_0_r. f_equal. f_equal. f_equal.
    rewrite <- (seq_shift (length ts) 0), map_map. apply map_ext. intros i. cbn [nth]. f_equal. f_equal. lia.
  - rewrite map_app, <- app_assoc. auto.
Qed.

Section Whole.
  Variable f : func.
  Hypothesis K : known f.
  Hypothesis C : clear_names f.
  Let m := find_vars f.
  Let W : well_named (tensors f) m := clear_well_named f K C.
  Let props := rev (sorted_props m).

  Lemma props_perm : Permutation props (prop_entries m).
  Proof. eapply Permutation_trans; [apply Permutation_sym, Permutation_rev | apply sorted_perm]. Qed.
  Lemma props_in : forall p n, In (p, n) props <-> In (EProp p, n) m.
  Proof.
    intros p n. rewrite <- prop_entries_in. split; apply Permutation_in; [|apply Permutation_sym]; apply props_perm.
  Qed.
  Lemma props_nodup_fst : NoDup (map fst props).
  Proof.
    eapply Permutation_NoDup; [apply Permutation_map, Permutation_sym, props_perm|]. apply prop_entries_fst, W.
  Qed.
  Lemma props_nodup_snd : NoDup (map snd props).
  Proof.
    eapply Permutation_NoDup; [apply Permutation_map, Permutation_sym, props_perm|]. apply prop_entries_snd.
    destruct W as (_ & N & _). eapply nodup_right; eauto.
  Qed.

  Lemma unpack_ok : forall T l k, rev (k ++ l) = props ->
    run_unpack T (map (unpack_of f) l) (map (cell_of T) (rev k) ++ par (tensors f)) = Some (base (tensors f) props T).
  Proof.
    intros T l. induction l as [|[p n] l IH]; intros k E.
    - rewrite app_nil_r in E. cbn [map run_unpack]. rewrite E. auto.
    - cbn [map unpack_of fst snd run_unpack].
      assert (I : In (p, n) props). { rewrite <- E. apply in_rev. rewrite rev_involutive. apply in_or_app. right. left. auto. }
      assert (IN : named (EProp p) m = Some n) by (apply (prop_named (tensors f) m props W props_in); auto).
      assert (sub : forall x, In x (rev k) -> In x props).
      { intros x Hx. rewrite <- E. apply in_rev in Hx. apply in_rev. rewrite rev_involutive. apply in_or_app. auto. }
      assert (A : find_name n (map (cell_of T) (rev k) ++ par (tensors f)) = None).
      { apply find_name_none. rewrite map_app, par_names, in_app_iff. intros [J|J].
        - rewrite map_map in J. apply in_map_iff in J. destruct J as ([q n'] & Q & J). cbn [cell_of fst snd] in Q. subst n'.
          pose proof props_nodup_snd as N. rewrite <- E, map_rev in N. apply NoDup_rev in N. rewrite rev_involutive, map_app in N.
          cbn [map snd] in N. apply NoDup_remove_2 in N. apply N, in_or_app. left. apply in_rev in J.
          apply (in_map snd) in J. auto.
        - eapply (names_not_tensor (tensors f) m W); eauto. }
      assert (B : find_name (nth (tensor p) (tensors f) EmptyString) (map (cell_of T) (rev k) ++ par (tensors f))
                  = Some (Param (tensor p))).
      { assert (L : tensor p < length (tensors f)) by (eapply named_tensor; eauto).
        rewrite find_name_app. destruct (find_name (nth (tensor p) (tensors f) EmptyString) (map (cell_of T) (rev k))) eqn:F.
        - exfalso. assert (J : In (nth (tensor p) (tensors f) EmptyString) (map fst (map (cell_of T) (rev k)))).
          { destruct (in_dec string_dec (nth (tensor p) (tensors f) EmptyString) (map fst (map (cell_of T) (rev k)))) as [J|J]; auto.
            apply find_name_none in J. congruence. }
          rewrite map_map in J. apply in_map_iff in J. destruct J as ([q n'] & Q & J). cbn [cell_of fst snd] in Q.
          apply sub in J. apply (prop_named (tensors f) m props W props_in) in J.
          apply (names_not_tensor (tensors f) m W _ _ J). rewrite Q. apply nth_In. auto.
        - apply find_name_in.
          + rewrite par_names. apply (tensors_nodup (tensors f) m W).
          + unfold par. apply in_map_iff. exists (tensor p). split; auto. apply in_seq. lia. }
      rewrite A, B. specialize (IH (k ++ [(p, n)])). rewrite <- app_assoc in IH. specialize (IH E).
      rewrite rev_app_distr in IH. exact IH.
  Qed.

  Lemma pack_ok : forall e, wf m e -> forall l T, (forall x, In x l -> In x props) ->
    exists U, run_pack (em (tensors f) m props e) (flat_map (pack_of f) l) T = Some U /\
    forall i k, U i k = if in_dec (fun a b => property_eq_dec a b) (Property i (fkind k) (fmode k) (findex k))
                             (map fst (filter (fun x => match what (fst x) with Dimension | FillValue => false | _ => true end) l))
                        then fields e i k else T i k.
  Proof.
    intros e H. induction l as [|[p n] l IH]; intros T S; cbn [flat_map].
    - exists T. split; auto.
    - assert (S' : forall x, In x l -> In x props) by (intros; apply S; right; auto).
      assert (IN : named (EProp p) m = Some n) by (apply (prop_named (tensors f) m props W props_in); apply S; left; auto).
      assert (L : tensor p < length (tensors f)) by (eapply named_tensor; eauto).
      pose proof (wf_all m e H) as A. destruct H as [NE _].
      assert (go : what p <> Dimension -> what p <> FillValue -> exists U,
        run_pack (em (tensors f) m props e)
          ((((nth (tensor p) (tensors f) EmptyString), field_of p), n) :: flat_map (pack_of f) l) T = Some U /\
        forall i k, U i k = if in_dec (fun a b => property_eq_dec a b) (Property i (fkind k) (fmode k) (findex k))
                             (p :: map fst (filter (fun x => match what (fst x) with Dimension | FillValue => false | _ => true end) l))
                        then fields e i k else T i k).
      { intros N1 N2. cbn [run_pack]. unfold em at 1 2.
        rewrite (lookup_tensor_sim (tensors f) m props W props_in props_nodup_snd) by auto.
        rewrite (lookup_prop_sim (tensors f) m props W props_in props_nodup_snd _ p n) by auto.
        destruct (IH (set_field T (tensor p) (field_of p) (fields e (tensor p) (field_of p))) S') as (U & R & V).
        exists U. split; auto. intros i k. rewrite V.
        destruct (in_dec _ _ (map fst _)) as [I|I]; destruct (in_dec _ _ (p :: _)) as [J|J]; auto.
        - exfalso. apply J. right. auto.
        - destruct J as [J|J]; [|tauto]. subst p. cbn [tensor field_of what mode index].
          destruct k as [a b c]. cbn [fkind fmode findex]. rewrite set_field_same. auto.
        - apply set_field_other. intros [Q1 Q2]. apply J. left. subst. destruct p as [a b c d]. auto. }
      destruct (what p) eqn:Q; unfold pack_of at 1; cbn [fst snd]; rewrite Q; cbn [app filter fst]; rewrite Q;
        try (apply IH; auto; fail);
        (replace (Field (what p) (mode p) (index p)) with (field_of p) by auto || idtac);
        rewrite <- Q in *; apply go; rewrite Q; discriminate.
  Qed.
End Whole.

Lemma keywords_free : forall f c, known f -> clear_names f -> codegen f = Some c ->
  existsb is_keyword (c_names c) = false.
Proof.
  intros f c K C E. pose proof (clear_well_named f K C) as (_ & _ & W). unfold codegen in E.
  destruct (rename (find_vars f) (body f)) as [b|] eqn:R; [|discriminate]. inversion E; subst. clear E.
  unfold c_names. cbn [params unpack cbody]. apply not_true_is_false. intros H. apply existsb_exists in H.
  destruct H as (n & I & H). unfold is_keyword in H. destruct (in_dec string_dec n keywords) as [Q|]; [|discriminate].
  apply (W n); auto. apply in_or_app. apply in_app_or in I. destruct I as [I|I]; auto. right.
  apply in_app_or in I. destruct I as [I|I].
  - rewrite map_map in I. apply in_map_iff in I. destruct I as ([p k] & <- & I). cbn [unpack_of fst snd].
    eapply Permutation_in in I; [|apply sorted_perm]. apply prop_entries_in in I. apply (in_map snd) in I. auto.
  - eapply rename_names; eauto.
Qed.

Lemma allocated_has_alloc : forall (V R : Type) (s : stmt V R), allocated s <> [] -> has_alloc s = true.
Proof.
  induction s; cbn [allocated has_alloc]; intros H; auto; try congruence.
  - apply orb_true_iff. destruct (allocated s1); [right; apply IHs2; exact H | left; apply IHs1; discriminate].
  - apply orb_true_iff. destruct (allocated s1); [right; apply IHs2; exact H | left; apply IHs1; discriminate].
Qed.

Lemma kernel_ok : forall f, known f -> clear_names f -> sets_results f ->
  exists c, codegen f = Some c /\ forall fuel T h, same (run_c fuel c T h) (run_function fuel f T h).
Proof.
  intros f K C S0.
  assert (S : forall p n, In (RProp p n) (written (body f)) ->
    tensor p < results f /\ what p <> Dimension /\ what p <> FillValue /\ has_alloc (body f) = true).
  { intros p n H. destruct (S0 p n H) as (A & B & D & E). repeat split; auto. apply allocated_has_alloc; auto. }
  clear S0.
  destruct (rename_total (find_vars f) (body f)) as [b R]. { intros r I. apply mentioned_named; auto. }
  assert (E : codegen f = Some (CFunc (tensors f) (map (unpack_of f) (sorted_props (find_vars f))) b
             (if has_alloc (body f)
              then flat_map (pack_of f) (filter (is_result f) (sorted_props (find_vars f))) else []))).
  { unfold codegen. rewrite R. auto. }
  eexists. split; [exact E|]. intros fuel T h. unfold run_c. rewrite (keywords_free f _ K C E).
  cbn [params unpack cbody pack].
  pose proof (clear_well_named f K C) as W. set (m := find_vars f) in *. set (props := rev (sorted_props m)).
  pose proof (props_in f) as PI. pose proof (props_nodup_fst f K C) as PF. pose proof (props_nodup_snd f K C) as PS.
  fold m props in PI, PF, PS.
  rewrite (param_frame_ok (tensors f) 0 []) by (cbn [map app]; eapply tensors_nodup; eauto).
  cbn [demand bind app]. change (map (fun i => (nth i (tensors f) EmptyString, Param (0 + i))) (seq 0 (length (tensors f))))
    with (par (tensors f)).
  pose proof (unpack_ok f K C T (sorted_props m) [] eq_refl) as U. cbn [rev map app] in U. fold m props in U.
  unfold m in *. rewrite U. fold m in U |- *. fold props. cbn [demand bind].
  unfold run_function.
  assert (W0 : wf m (IEnv T [[]])). { split; [discriminate|]. intros fr v z [<-|[]] []. }
  pose proof (exec_sim (tensors f) m props W PI PF PS fuel (body f) b (IEnv T [[]]) h R W0) as X.
  change (em (tensors f) m props (IEnv T [[]])) with [base (tensors f) props T] in X.
  destruct (exec i_scoping fuel (body f) (IEnv T [[]]) h) as [[e' h']| |] eqn:RUN; cbn [follows] in X.
  2, 3: unfold props in *; rewrite X; exact I.
  destruct X as (X & W' & _). unfold props in *. rewrite X. cbn [bind fst snd].
  assert (FI : forall i k, (forall p n, In (RProp p n) (written (body f)) -> ~ (tensor p = i /\ field_of p = k)) ->
                      fields e' i k = T i k).
  { intros i k N. rewrite (exec_fields _ _ _ _ _ _ i k RUN N). auto. }
  set (l := if has_alloc (body f) then filter (is_result f) (sorted_props m) else []).
  replace (if has_alloc (body f) then flat_map (pack_of f) (filter (is_result f) (sorted_props m)) else [])
    with (flat_map (pack_of f) l) by (unfold l; destruct (has_alloc (body f)); auto).
  destruct (pack_ok f K C e' W' l T) as (V & RP & VV).
  { intros x I. apply in_rev. rewrite rev_involutive. unfold l in I. destruct (has_alloc (body f)); [|destruct I].
    apply filter_In in I. apply I. }
  unfold m in *. rewrite RP. cbn [demand bind same]. split; auto. intros i k. rewrite VV.
  destruct (in_dec _ _ _) as [I|I]; auto. symmetry. apply FI. intros p n J [Q1 Q2]. apply I.
  destruct (S p n J) as (A & B & D & H).
  destruct (mentioned_named f (RProp p n) K) as [nm N]; [apply written_refs; auto|]. cbn [entity_of] in N.
  apply named_in in N. apply PI in N. apply in_rev in N. subst i k.
  replace (Property (tensor p) (fkind (field_of p)) (fmode (field_of p)) (findex (field_of p))) with p by (destruct p; auto).
  apply in_map_iff. exists (p, nm). split; auto. apply filter_In. split.
  - unfold l. rewrite H. apply filter_In. split; auto. unfold is_result. cbn [fst]. apply Nat.ltb_lt. auto.
  - cbn [fst]. destruct (what p); auto; congruence.
Qed.
