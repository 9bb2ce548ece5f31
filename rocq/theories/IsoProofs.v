(** Proofs about isomorphic statements. *)
From Coq Require Import List Arith Bool Lia.
Import ListNotations.
From Verif Require Import IndexExpr Eval Notation NotationSpec Iso.
Local Open Scope nat_scope.

(** ** Renamings *)
Section Rel.
Context {V : Type}.
Variables pt pv : nat -> nat -> Prop.
Fixpoint rel_expr (a b : nexpr V) : Prop :=
  match a, b with
  | NLit v, NLit w => v = w
  | NAcc t vs, NAcc u ws => pt t u /\ Forall2 pv vs ws
  | NNeg a, NNeg b => rel_expr a b
  | NFun f a, NFun g b => f = g /\ rel_expr a b
  | NAdd a a', NAdd b b' | NSub a a', NSub b b' | NMul a a', NMul b b' | NDiv a a', NDiv b b' => rel_expr a b /\ rel_expr a' b'
  | NRed o i a, NRed o' j b => o = o' /\ pv i j /\ rel_expr a b
  | _, _ => False
  end.
Fixpoint rel_stmt (a b : nstmt V) : Prop :=
  match a, b with
  | NAssign t vs o e, NAssign u ws o' e' => pt t u /\ Forall2 pv vs ws /\ o = o' /\ rel_expr e e'
  | NForall _ i a, NForall _ j b => pv i j /\ rel_stmt a b
  | NWhere c p, NWhere c' p' => rel_stmt c c' /\ rel_stmt p p'
  | _, _ => False
  end.
End Rel.
Lemma Forall2_imp : forall (P Q : nat -> nat -> Prop) l l', (forall a b, P a b -> Q a b) -> Forall2 P l l' -> Forall2 Q l l'.
Proof. intros P Q l l' H F. induction F; constructor; auto. Qed.
Lemma rel_expr_mono : forall V (pt pv qt qv : nat -> nat -> Prop), (forall a b, pt a b -> qt a b) -> (forall a b, pv a b -> qv a b) ->
  forall a b : nexpr V, rel_expr pt pv a b -> rel_expr qt qv a b.
Proof.
  intros V pt pv qt qv Ht Hv. induction a; intros []; cbn; try tauto; intuition eauto using Forall2_imp.
Qed.
Lemma rel_stmt_mono : forall V (pt pv qt qv : nat -> nat -> Prop), (forall a b, pt a b -> qt a b) -> (forall a b, pv a b -> qv a b) ->
  forall a b : nstmt V, rel_stmt pt pv a b -> rel_stmt qt qv a b.
Proof.
  intros V pt pv qt qv Ht Hv. induction a; intros []; cbn; try tauto; intuition eauto using Forall2_imp, rel_expr_mono.
Qed.

(** ** isomorphic finds a renaming *)
Section Check.
Context {V : Type}.
Variable TY : Type.
Variable ty : tensor -> TY.
Variable ty_eqb : TY -> TY -> bool.
Variable lit_eqb : V -> V -> bool.
Hypothesis ty_ok : forall a b, ty_eqb a b = true -> a = b.
Hypothesis lit_ok : forall a b, lit_eqb a b = true -> a = b.
Definition Pt (m : isomaps) (a b : nat) : Prop := lookup a (tB m) = Some b.
Definition Pv (m : isomaps) (a b : nat) : Prop := lookup a (vB m) = Some b.
Definition okm (m : isomaps) : Prop :=
  (forall a b, lookup a (tB m) = Some b <-> lookup b (tA m) = Some a) /\ (forall a b, lookup a (tB m) = Some b -> ty a = ty b) /\
  (forall a b, lookup a (vB m) = Some b <-> lookup b (vA m) = Some a).
Definition sub (m m' : isomaps) : Prop := (forall a b, Pt m a b -> Pt m' a b) /\ (forall a b, Pv m a b -> Pv m' a b).
Lemma sub_refl : forall m, sub m m. Proof. split; auto. Qed.
Lemma sub_trans : forall a b c, sub a b -> sub b c -> sub a c. Proof. intros a b c [] []. split; auto. Qed.

Lemma check_tensor_ok : forall a b m m', okm m -> check_tensor TY ty ty_eqb a b m = Some m' -> okm m' /\ sub m m' /\ Pt m' a b.
Proof.
  intros a b m m' (O1 & O2 & O3) H. unfold check_tensor in H.
  destruct (lookup a (tB m)) as [b'|] eqn:La, (lookup b (tA m)) as [a'|] eqn:Lb; try discriminate.
  - destruct (Nat.eqb_spec b' b); [|discriminate]. destruct (Nat.eqb_spec a' a); [|discriminate]. injection H as <-. subst.
    split; [split; auto|]. split; [apply sub_refl|exact La].
  - destruct (ty_eqb (ty a) (ty b)) eqn:E; [|discriminate]. injection H as <-. apply ty_ok in E. unfold Pt, Pv, sub; cbn.
    split; [split; [|split]|split; [split|]]; cbn.
    + intros x y. destruct (Nat.eqb_spec a x) as [->|N], (Nat.eqb_spec b y) as [->|N']; try tauto.
      * split; [congruence|]. rewrite <- O1. congruence.
      * split; [rewrite O1; congruence|congruence].
      * apply O1.
    + intros x y. destruct (Nat.eqb_spec a x) as [->|N]; [congruence|apply O2].
    + exact O3.
    + intros x y. unfold Pt. cbn. destruct (Nat.eqb_spec a x) as [->|N]; auto. congruence.
    + intros x y. auto.
    + rewrite Nat.eqb_refl. auto.
Qed.
Lemma check_var_ok : forall a b m m', okm m -> check_var a b m = Some m' -> okm m' /\ sub m m' /\ Pv m' a b.
Proof.
  intros a b m m' (O1 & O2 & O3) H. unfold check_var in H.
  destruct (lookup a (vB m)) as [b'|] eqn:La, (lookup b (vA m)) as [a'|] eqn:Lb; try discriminate.
  - destruct (Nat.eqb_spec b' b); [|discriminate]. destruct (Nat.eqb_spec a' a); [|discriminate]. injection H as <-. subst.
    split; [split; auto|]. split; [apply sub_refl|exact La].
  - injection H as <-. unfold Pt, Pv, sub; cbn.
    split; [split; [|split]|split; [split|]]; cbn; auto.
    + intros x y. destruct (Nat.eqb_spec a x) as [->|N], (Nat.eqb_spec b y) as [->|N']; try tauto.
      * split; [congruence|]. rewrite <- O3. congruence.
      * split; [rewrite O3; congruence|congruence].
      * apply O3.
    + intros x y. unfold Pv. cbn. destruct (Nat.eqb_spec a x) as [->|N]; auto. congruence.
    + rewrite Nat.eqb_refl. auto.
Qed.
Lemma check_vars_ok : forall vs ws m m', okm m -> check_vars vs ws m = Some m' -> okm m' /\ sub m m' /\ Forall2 (Pv m') vs ws.
Proof.
  induction vs as [|v vs IH]; intros [|w ws] m m' O H; cbn in H; try discriminate.
  - injection H as <-. repeat split; auto; apply O.
  - destruct (check_var v w m) as [m1|] eqn:E; [|discriminate]. cbn in H.
    apply check_var_ok in E as (O1 & S1 & P1); auto. apply IH in H as (O2 & S2 & P2); auto.
    split; auto. split; [eapply sub_trans; eauto|]. constructor; auto. apply S2, P1.
Qed.
Lemma check_access_ok : forall t vs u ws m m', okm m -> check_access TY ty ty_eqb t vs u ws m = Some m' ->
  okm m' /\ sub m m' /\ Pt m' t u /\ Forall2 (Pv m') vs ws.
Proof.
  intros t vs u ws m m' O H. unfold check_access in H. destruct (check_tensor TY ty ty_eqb t u m) as [m1|] eqn:E; [|discriminate]. cbn in H.
  apply check_tensor_ok in E as (O1 & S1 & P1); auto. destruct (Nat.eqb (length vs) (length ws)); [|discriminate].
  apply check_vars_ok in H as (O2 & S2 & P2); auto. split; auto. split; [eapply sub_trans; eauto|]. split; auto. apply S2, P1.
Qed.
Lemma redop_ok : forall a b, redop_eqb a b = true -> a = b. Proof. intros [] []; cbn; congruence. Qed.
Lemma op_ok : forall a b, op_eqb a b = true -> a = b.
Proof. intros [a|] [b|]; cbn; try congruence. intros H. apply redop_ok in H. congruence. Qed.
Lemma iso_expr_ok : forall (a b : nexpr V) m m', okm m -> iso_expr TY ty ty_eqb lit_eqb a b m = Some m' ->
  okm m' /\ sub m m' /\ rel_expr (Pt m') (Pv m') a b.
Proof.
  assert (B : forall (a a' b b' : nexpr V) m m', okm m ->
    (forall m m', okm m -> iso_expr TY ty ty_eqb lit_eqb a b m = Some m' -> okm m' /\ sub m m' /\ rel_expr (Pt m') (Pv m') a b) ->
    (forall m m', okm m -> iso_expr TY ty ty_eqb lit_eqb a' b' m = Some m' -> okm m' /\ sub m m' /\ rel_expr (Pt m') (Pv m') a' b') ->
    bind_maps (iso_expr TY ty ty_eqb lit_eqb a b m) (iso_expr TY ty ty_eqb lit_eqb a' b') = Some m' ->
    okm m' /\ sub m m' /\ rel_expr (Pt m') (Pv m') a b /\ rel_expr (Pt m') (Pv m') a' b').
  { intros a a' b b' m m' O Ha Hb H. destruct (iso_expr TY ty ty_eqb lit_eqb a b m) as [m1|] eqn:E; [|discriminate]. cbn in H.
    apply Ha in E as (O1 & S1 & P1); auto. apply Hb in H as (O2 & S2 & P2); auto.
    split; auto. split; [eapply sub_trans; eauto|]. split; auto. eapply rel_expr_mono; [apply S2|apply S2|auto]. }
  induction a; intros [] m m' O H; cbn [iso_expr] in H; try discriminate; cbn [rel_expr]; eauto.
  - destruct (lit_eqb v v0) eqn:E; [|discriminate]. injection H as <-. split; auto. split; [apply sub_refl|auto].
  - apply check_access_ok in H; auto.
  - destruct (Nat.eqb_spec f f0); [|discriminate]. apply IHa in H; auto. tauto.
  - destruct (redop_eqb op op0) eqn:E; [|discriminate]. destruct (check_var i i0 m) as [m1|] eqn:E1; [|discriminate]. cbn in H.
    apply check_var_ok in E1 as (O1 & S1 & P1); auto. apply IHa in H as (O2 & S2 & P2); auto. split; auto.
    split; [eapply sub_trans; eauto|]. split; [apply redop_ok; auto|]. split; auto. apply S2, P1.
Qed.
Lemma iso_stmt_ok : forall (a b : nstmt V) m m', okm m -> iso_stmt TY ty ty_eqb lit_eqb a b m = Some m' ->
  okm m' /\ sub m m' /\ rel_stmt (Pt m') (Pv m') a b.
Proof.
  induction a; intros [] m m' O H; cbn [iso_stmt] in H; try discriminate; cbn [rel_stmt].
  - destruct (check_access TY ty ty_eqb t vs t0 vs0 m) as [m1|] eqn:E; [|discriminate]. cbn in H.
    apply check_access_ok in E as (O1 & S1 & P1 & P1'); auto.
    destruct (iso_expr TY ty ty_eqb lit_eqb e e0 m1) as [m2|] eqn:E2; [|discriminate]. cbn in H.
    apply iso_expr_ok in E2 as (O2 & S2 & P2); auto. destruct (op_eqb op op0) eqn:E3; [|discriminate]. injection H as <-.
    split; auto. split; [eapply sub_trans; eauto|]. split; [apply S2, P1|]. split; [|split; [apply op_ok; auto|auto]].
    eapply Forall2_imp; [|exact P1']. apply S2.
  - destruct (check_var i i0 m) as [m1|] eqn:E; [|discriminate]. cbn in H. apply check_var_ok in E as (O1 & S1 & P1); auto.
    destruct (iso_stmt TY ty ty_eqb lit_eqb a s m1) as [m2|] eqn:E2; [|discriminate]. cbn in H.
    apply IHa in E2 as (O2 & S2 & P2); auto. match type of H with (if ?c then _ else _) = _ => destruct c end; [|discriminate]. injection H as <-.
    split; auto. split; [eapply sub_trans; eauto|]. split; auto. apply S2, P1.
  - destruct (iso_stmt TY ty ty_eqb lit_eqb a1 consumer m) as [m1|] eqn:E; [|discriminate]. cbn in H.
    apply IHa1 in E as (O1 & S1 & P1); auto. apply IHa2 in H as (O2 & S2 & P2); auto.
    split; auto. split; [eapply sub_trans; eauto|]. split; auto. eapply rel_stmt_mono; [apply S2|apply S2|auto].
Qed.
End Check.

(** ** Renamed statements compute the same *)
Section Sim.
Context {V : Type}.
Variables pt pv : nat -> nat -> Prop.
Hypothesis bt : forall a b a' b', pt a b -> pt a' b' -> (a = a' <-> b = b').
Hypothesis bv : forall a b a' b', pv a b -> pv a' b' -> (a = a' <-> b = b').
Lemma b_eqb : forall (p : nat -> nat -> Prop), (forall a b a' b', p a b -> p a' b' -> (a = a' <-> b = b')) ->
  forall a b a' b', p a b -> p a' b' -> Nat.eqb a a' = Nat.eqb b b'.
Proof. intros p H a b a' b' P Q. specialize (H _ _ _ _ P Q). destruct (Nat.eqb_spec a a'), (Nat.eqb_spec b b'); tauto. Qed.
Lemma b_mem : forall (p : nat -> nat -> Prop), (forall a b a' b', p a b -> p a' b' -> (a = a' <-> b = b')) ->
  forall a b l l', p a b -> Forall2 p l l' -> mem a l = mem b l'.
Proof. intros p H a b l l' P F. unfold mem. induction F; cbn; auto. rewrite (b_eqb p H a b x y) by auto. rewrite IHF. auto. Qed.
Lemma b_index : forall (p : nat -> nat -> Prop), (forall a b a' b', p a b -> p a' b' -> (a = a' <-> b = b')) ->
  forall a b l l', p a b -> Forall2 p l l' -> index_of a l = index_of b l'.
Proof. intros p H a b l l' P F. induction F; cbn; auto. rewrite (b_eqb p H x y a b) by auto. rewrite IHF. auto. Qed.
Lemma b_dedup : forall (p : nat -> nat -> Prop), (forall a b a' b', p a b -> p a' b' -> (a = a' <-> b = b')) ->
  forall l l' s s', Forall2 p l l' -> Forall2 p s s' -> Forall2 p (add_vars s l) (add_vars s' l').
Proof.
  intros p H l l' s s' F. revert s s'. unfold add_vars. induction F; intros s s' G; cbn; auto. apply IHF.
  rewrite (b_mem p H x y s s') by auto. destruct (mem y s'); auto. apply Forall2_app; auto.
Qed.

Definition pacc (a b : tensor * list ivar) : Prop := pt (fst a) (fst b) /\ Forall2 pv (snd a) (snd b).
Lemma rel_accesses : forall a b : nexpr V, rel_expr pt pv a b -> Forall2 pacc (accesses a) (accesses b).
Proof. induction a; intros []; cbn; try tauto; intros; intuition auto using Forall2_app. repeat constructor; auto. Qed.
Lemma rel_stmt_accesses : forall a b : nstmt V, rel_stmt pt pv a b -> Forall2 pacc (stmt_accesses a) (stmt_accesses b).
Proof. induction a; intros []; cbn; try tauto; intros; intuition auto using Forall2_app, rel_accesses. Qed.
Lemma rel_assigned : forall a b : nstmt V, rel_stmt pt pv a b -> Forall2 pt (assigned a) (assigned b).
Proof. induction a; intros []; cbn; try tauto; intros; intuition auto using Forall2_app. Qed.
Lemma rel_res : forall a b : nstmt V, rel_stmt pt pv a b -> pt (res a) (res b).
Proof. induction a; intros []; cbn; try tauto; intros; intuition auto. Qed.
Lemma rel_temps : forall a b : nstmt V, rel_stmt pt pv a b -> Forall2 pt (getTemporaries a) (getTemporaries b).
Proof. intros a b H. apply rel_assigned in H. unfold getTemporaries. destruct H; cbn; auto. Qed.
Lemma rel_arguments : forall a b : nstmt V, rel_stmt pt pv a b -> Forall2 pt (getArguments a) (getArguments b).
Proof.
  intros a b H. assert (T := rel_temps _ _ H). assert (A := rel_stmt_accesses _ _ H). unfold getArguments, argument_accesses.
  apply b_dedup; auto. induction A; cbn [filter map fst]; auto. destruct H0 as [P Q].
  assert (E := b_mem pt bt (fst x) (fst y) _ _ P T). unfold tensor, ivar in *. rewrite E. destruct (mem (fst y) (getTemporaries b)); cbn [negb map]; auto.
Qed.
Definition popt (x y : option (tensor * nat)) : Prop :=
  match x, y with None, None => True | Some (t, k), Some (u, k') => pt t u /\ k = k' | _, _ => False end.
Lemma rel_dim_stmt : forall v w ts us, pv v w -> Forall2 pt ts us -> forall (a b : nstmt V), rel_stmt pt pv a b ->
  forall d d', popt d d' -> popt (dim_stmt ts v a d) (dim_stmt us w b d').
Proof.
  intros v w ts us P F. assert (D : forall l l', Forall2 pacc l l' -> forall d d', popt d d' ->
    popt (fold_left (dim_access ts v) l d) (fold_left (dim_access us w) l' d')).
  { intros l l' A. induction A as [|x y l l' [H1 H2] A IH]; intros d d' H; cbn [fold_left]; auto. apply IH. unfold dim_access.
    rewrite (b_mem pv bv v w _ _ P H2), (b_mem pt bt _ _ _ _ H1 F). destruct (_ && _); auto. cbn. split; auto. apply (b_index pv bv); auto. }
  induction a; intros []; cbn [dim_stmt rel_stmt]; try tauto.
  - intros (H1 & H2 & _ & H4) d d' H. apply rel_accesses in H4. specialize (D _ _ H4 _ _ H).
    destruct (fold_left (dim_access ts v) (accesses e) d) as [[x k]|], (fold_left (dim_access us w) (accesses e0) d') as [[x' k']|]; cbn in D; try tauto; try exact D.
    rewrite (b_mem pt bt _ _ _ _ H1 F). destruct (mem t0 us); cbn; auto. split; auto. apply (b_index pv bv); auto.
  - intros [H1 H2] d d' H. auto.
  - intros [H1 H2] d d' H. auto.
Qed.

Variable R : ring_ops V.
Variable fn : nat -> V -> V.
Variable dv : V -> V -> V.
Variables dim dim' : ivar -> nat.
Hypothesis dims : forall a b, pv a b -> dim a = dim' b.
Definition pval (r q : val) : Prop := forall a b, pv a b -> r a = q b.
Definition pstore (T U : @store V) : Prop := forall a b, pt a b -> forall x, T a x = U b x.
Lemma pval_ext : forall r q i j c, pval r q -> pv i j -> pval (ext r i c) (ext q j c).
Proof. intros r q i j c H P a b Q. unfold ext. rewrite (b_eqb pv bv a b i j) by auto. destruct (Nat.eqb b j); auto. Qed.
Lemma pval_map : forall r q l l', pval r q -> Forall2 pv l l' -> map r l = map q l'.
Proof. intros r q l l' H F. induction F; cbn; auto. f_equal; auto. Qed.
Lemma rel_neval : forall a b : nexpr V, rel_expr pt pv a b -> forall T U r q, pstore T U -> pval r q ->
  neval R fn dv dim T r a = neval R fn dv dim' U q b.
Proof.
  induction a; intros []; cbn [rel_expr]; try tauto; intros H T U r q S P; cbn [neval].
  - destruct H as [H1 H2]. rewrite (pval_map _ _ _ _ P H2). apply S; auto.
  - f_equal. auto.
  - destruct H as [-> H]. f_equal. auto.
  - destruct H. f_equal; auto.
  - destruct H. f_equal; auto.
  - destruct H. f_equal; auto.
  - destruct H. f_equal; auto.
  - destruct H as (-> & H1 & H2). assert (E : forall c, neval R fn dv dim T (ext r i c) a = neval R fn dv dim' U (ext q i0 c) e) by (intros; apply IHa; auto using pval_ext).
    rewrite (dims _ _ H1). destruct op0; unfold sum, prod; generalize (seq 0 (dim' i0)) as l; induction l as [|c l IHl]; cbn; auto; rewrite E, IHl; auto.
Qed.
Lemma pstore_upd : forall T U t u x v, pstore T U -> pt t u -> pstore (upd T t x v) (upd U u x v).
Proof. intros T U t u x v S P a b Q y. unfold upd. rewrite (b_eqb pt bt a b t u) by auto. destruct (Nat.eqb b u); auto. destruct (list_eqb y x); auto. Qed.
Lemma pstore_set : forall T U t u f g, pstore T U -> pt t u -> (forall x, f x = g x) -> pstore (set_tensor T t f) (set_tensor U u g).
Proof. intros T U t u f g S P E a b Q y. unfold set_tensor. rewrite (b_eqb pt bt a b t u) by auto. destruct (Nat.eqb b u); auto. Qed.
Lemma rel_run : forall a b : nstmt V, rel_stmt pt pv a b -> forall r q T U, pval r q -> pstore T U ->
  pstore (run R fn dv dim a r T) (run R fn dv dim' b q U).
Proof.
  induction a; intros []; cbn [rel_stmt]; try tauto; intros H r q T U P S; cbn [run].
  - destruct H as (H1 & H2 & -> & H4). cbn zeta. rewrite (pval_map _ _ _ _ P H2). rewrite (rel_neval _ _ H4 T U r q) by auto.
    destruct op0; [rewrite (S _ _ H1)|]; apply pstore_upd; auto.
  - destruct H as [H1 H2]. rewrite (dims _ _ H1). revert T U S. generalize (seq 0 (dim' i0)) as l.
    induction l as [|c l IHl]; intros T U S; cbn [fold_left]; auto. apply IHl. apply IHa; auto using pval_ext.
  - destruct H as [H1 H2]. cbn zeta. assert (Q := rel_res _ _ H2). apply pstore_set; auto. apply IHa1; auto. apply IHa2; auto. unfold clear. apply pstore_set; auto.
Qed.
End Sim.

(** ** Calls *)
Section Call.
Context {V : Type}.
Variable R : ring_ops V.
Variable fn : nat -> V -> V.
Variable dv : V -> V -> V.
Variable TY : Type.
Variable ty : tensor -> TY.
Variable ty_eqb : TY -> TY -> bool.
Variable lit_eqb : V -> V -> bool.
Hypothesis ty_ok : forall a b, ty_eqb a b = true -> a = b.
Hypothesis lit_ok : forall a b, lit_eqb a b = true -> a = b.
Variable fill : tensor -> V.
Lemma iso_call : forall a b : nstmt V, isomorphic TY ty ty_eqb lit_eqb a b = true ->
  ty (res a) = ty (res b) /\ Forall2 (fun t u => ty t = ty u) (getArguments a) (getArguments b) /\
  (fill (res a) = fill (res b) -> Forall2 (fun t u => fill t = fill u) (getArguments a) (getArguments b) ->
   forall result args x, call R fn dv fill a result args x = call R fn dv fill b result args x).
Proof.
  intros a b H. unfold isomorphic in H. destruct (iso_stmt TY ty ty_eqb lit_eqb a b no_maps) as [m|] eqn:E; [|discriminate].
  apply (iso_stmt_ok TY ty ty_eqb lit_eqb ty_ok lit_ok) in E as ((O1 & O2 & O3) & _ & Q); [|cbn; repeat split; cbn; discriminate].
  assert (bt : forall a b a' b', Pt m a b -> Pt m a' b' -> (a = a' <-> b = b')).
  { intros x y x' y' P P'. unfold Pt in *. split; [congruence|]. intros <-. apply O1 in P. apply O1 in P'. congruence. }
  assert (bv : forall a b a' b', Pv m a b -> Pv m a' b' -> (a = a' <-> b = b')).
  { intros x y x' y' P P'. unfold Pv in *. split; [congruence|]. intros <-. apply O3 in P. apply O3 in P'. congruence. }
  assert (AR := rel_arguments _ _ bt a b Q). assert (TR := rel_temps _ _ a b Q). assert (RR := rel_res _ _ a b Q).
  split; [apply O2; auto|]. split; [clear - AR O2; induction AR; constructor; auto; apply O2; auto|].
  intros FR FA result args x. unfold call.
  assert (BA : forall t u, Pt m t u -> bound_arg a result args t = bound_arg b result args u).
  { intros t u P. unfold bound_arg. rewrite (b_eqb _ bt _ _ _ _ P RR). destruct (Nat.eqb u (res b)); auto. rewrite (b_index _ bt _ _ _ _ P AR). auto. }
  (* tensors outside the arguments, the result and the temporaries do not matter *)
  set (ok := fun t u => Pt m t u /\ (mem t (getTemporaries a) = true \/ t = res a \/ In t (getArguments a))).
  assert (FF : forall t u, Pt m t u -> t = res a \/ In t (getArguments a) -> fill t = fill u).
  { intros t u P [->|I]. { assert (u = res b) by (apply (bt _ _ _ _ P RR); auto). congruence. }
    clear - AR FA I P bt. revert FA. induction AR as [|t' u' l l' P' AR IH]; intros FA; [destruct I|]. inversion FA; subst.
    destruct I as [->|I]; [|auto]. assert (u = u') by (apply (bt _ _ _ _ P P'); auto). congruence. }
  assert (K : rel_stmt ok (Pv m) a b).
  { assert (G : forall c d : nstmt V, rel_stmt (Pt m) (Pv m) c d ->
      (forall t, In t (assigned c) -> t = res a \/ In t (getTemporaries a)) -> (forall p, In p (stmt_accesses c) -> In p (stmt_accesses a)) -> rel_stmt ok (Pv m) c d).
    { assert (M : forall t, In t (getTemporaries a) -> mem t (getTemporaries a) = true).
      { intros t I. unfold mem. apply existsb_exists. exists t. split; auto. apply Nat.eqb_refl. }
      assert (GE : forall e f : nexpr V, rel_expr (Pt m) (Pv m) e f -> (forall p, In p (accesses e) -> In p (stmt_accesses a)) -> rel_expr ok (Pv m) e f).
      { induction e; intros []; cbn [rel_expr accesses]; try tauto; intros HR HI; try (destruct HR; split; auto; fail); try (destruct HR as [HR1 HR2]; split; [apply IHe1|apply IHe2]; auto; intros; apply HI; apply in_app_iff; auto; fail); auto.
        - destruct HR as [HR1 HR2]. split; auto. split; auto. destruct (mem t (getTemporaries a)) eqn:MT; auto. right. right.
          unfold getArguments, argument_accesses.
          assert (KI : In t (map fst (filter (fun a0 => negb (mem (fst a0) (getTemporaries a))) (stmt_accesses a)))).
          { apply in_map_iff. exists (t, vs). split; auto. apply filter_In. split; [apply HI; cbn; auto|]. cbn. rewrite MT. auto. }
          assert (GL : forall l s, In t l \/ In t s -> In t (add_vars s l)).
          { clear. unfold add_vars. induction l as [|y l IH]; cbn; intros s [I|I]; auto; try tauto.
            - apply IH. destruct I as [->|I]; auto. right. destruct (mem t s) eqn:ME; [unfold mem in ME; apply existsb_exists in ME as (z & Iz & Ez); apply Nat.eqb_eq in Ez; subst; auto|apply in_app_iff; cbn; auto].
            - apply IH. right. destruct (mem y s); auto. apply in_app_iff; auto. }
          apply GL. left. exact KI.
        - destruct HR as (H1 & H2 & H3). auto. }
      induction c; intros []; cbn [rel_stmt assigned stmt_accesses]; try tauto; intros HR HA HI.
      - destruct HR as (H1 & H2 & H3 & H4). split; [split; auto; destruct (HA t (or_introl eq_refl)); auto|]. auto.
      - destruct HR. split; auto.
      - destruct HR as [HR1 HR2]. split; [apply IHc1|apply IHc2]; auto; intros; try (apply HA, in_app_iff; auto); apply HI, in_app_iff; auto. }
    apply G; auto. intros t I. assert (HD : forall s : nstmt V, exists l, assigned s = res s :: l).
    { clear. induction s; cbn; eauto. destruct IHs1 as [l E1]. rewrite E1. cbn. eauto. }
    destruct (HD a) as [l E]. unfold getTemporaries. rewrite E in *. cbn in *. destruct I; auto. }
  assert (bt' : forall a b a' b', ok a b -> ok a' b' -> (a = a' <-> b = b')) by (intros ? ? ? ? [P _] [P' _]; eauto).
  assert (RR' := rel_res _ _ a b K).
  refine (rel_run ok (Pv m) bt' bv R fn dv (arg_dim a result args) (arg_dim b result args) _ a b K (fun _ => 0) (fun _ => 0) _ _ _ _ _ _ RR' x).
  - intros v w P. unfold arg_dim. assert (D := rel_dim_stmt (Pt m) (Pv m) bt bv v w _ _ P TR a b Q None None I). unfold var_dim.
    destruct (dim_stmt (getTemporaries a) v a None) as [[t k]|], (dim_stmt (getTemporaries b) w b None) as [[u k']|]; cbn in D; try tauto.
    destruct D as [D ->]. rewrite (BA _ _ D). auto.
  - intros v w P. auto.
  - intros t u [P O] y. unfold arg_store. rewrite <- (b_mem _ bt _ _ _ _ P TR). destruct (mem t (getTemporaries a)) eqn:MT; auto.
    rewrite (BA _ _ P). destruct (ar_data _ y); auto. apply FF; auto. destruct O as [O|O]; [discriminate|auto].
Qed.
End Call.

(** ** Renamed statements are isomorphic *)
From Verif Require Import IsoSpec.
Section Complete.
Context {V : Type}.
Variable TY : Type.
Variable ty : tensor -> TY.
Variable ty_eqb : TY -> TY -> bool.
Variable lit_eqb : V -> V -> bool.
Hypothesis ty_refl : forall a, ty_eqb a a = true.
Hypothesis lit_refl : forall a, lit_eqb a a = true.
Variable f : tensor -> tensor.
Variable g : ivar -> ivar.
Hypothesis fi : forall a b, f a = f b -> a = b.
Hypothesis gi : forall a b, g a = g b -> a = b.
Hypothesis fty : forall a, ty (f a) = ty a.
Definition graph (m : isomaps) : Prop :=
  (forall a b, lookup a (tB m) = Some b <-> lookup b (tA m) = Some a) /\ (forall a b, lookup a (tB m) = Some b -> b = f a) /\
  (forall a b, lookup a (vB m) = Some b <-> lookup b (vA m) = Some a) /\ (forall a b, lookup a (vB m) = Some b -> b = g a).
Lemma c_tensor : forall a m, graph m -> exists m', check_tensor TY ty ty_eqb a (f a) m = Some m' /\ graph m'.
Proof.
  intros a m (G1 & G2 & G3 & G4). unfold check_tensor. destruct (lookup a (tB m)) as [b|] eqn:L.
  - assert (b = f a) by auto. subst b. assert (L' := L). apply G1 in L'. rewrite L', !Nat.eqb_refl. cbn. eexists. split; [reflexivity|]. split; auto.
  - destruct (lookup (f a) (tA m)) as [c|] eqn:L'.
    { exfalso. apply G1 in L'. assert (E := G2 _ _ L'). apply fi in E. congruence. }
    rewrite fty, ty_refl. eexists. split; [reflexivity|]. split; [|split; [|split; auto]]; cbn.
    + intros x y. destruct (Nat.eqb_spec a x) as [<-|N], (Nat.eqb_spec (f a) y) as [<-|N']; try tauto.
      * split; [congruence|]. rewrite <- G1. congruence.
      * split; [rewrite G1; congruence|congruence].
      * auto.
    + intros x y. destruct (Nat.eqb_spec a x) as [->|N]; [congruence|auto].
Qed.
Lemma c_var : forall a m, graph m -> exists m', check_var a (g a) m = Some m' /\ graph m'.
Proof.
  intros a m (G1 & G2 & G3 & G4). unfold check_var. destruct (lookup a (vB m)) as [b|] eqn:L.
  - assert (b = g a) by auto. subst b. assert (L' := L). apply G3 in L'. rewrite L', !Nat.eqb_refl. cbn. eexists. split; [reflexivity|]. split; auto.
  - destruct (lookup (g a) (vA m)) as [c|] eqn:L'.
    { exfalso. apply G3 in L'. assert (E := G4 _ _ L'). apply gi in E. congruence. }
    eexists. split; [reflexivity|]. split; [|split; [|split; auto]]; cbn; auto.
    + intros x y. destruct (Nat.eqb_spec a x) as [<-|N], (Nat.eqb_spec (g a) y) as [<-|N']; try tauto.
      * split; [congruence|]. rewrite <- G3. congruence.
      * split; [rewrite G3; congruence|congruence].
      * auto.
    + intros x y. destruct (Nat.eqb_spec a x) as [->|N]; [congruence|auto].
Qed.
Lemma c_vars : forall vs m, graph m -> exists m', check_vars vs (map g vs) m = Some m' /\ graph m'.
Proof.
  induction vs as [|v vs IH]; intros m G; cbn; eauto. destruct (c_var v m G) as (m1 & -> & G1). cbn. auto.
Qed.
Lemma c_access : forall t vs m, graph m -> exists m', check_access TY ty ty_eqb t vs (f t) (map g vs) m = Some m' /\ graph m'.
Proof.
  intros t vs m G. unfold check_access. destruct (c_tensor t m G) as (m1 & -> & G1). cbn. rewrite map_length, Nat.eqb_refl. apply c_vars; auto.
Qed.
Lemma redop_refl : forall o, redop_eqb o o = true. Proof. intros []; auto. Qed.
Lemma c_expr : forall (e : nexpr V) m, graph m -> exists m', iso_expr TY ty ty_eqb lit_eqb e (rename_expr f g e) m = Some m' /\ graph m'.
Proof.
  induction e; intros m G; cbn [iso_expr rename_expr]; auto using c_access.
  - rewrite lit_refl. eauto.
  - rewrite Nat.eqb_refl. auto.
  - destruct (IHe1 m G) as (m1 & -> & G1). cbn. auto.
  - destruct (IHe1 m G) as (m1 & -> & G1). cbn. auto.
  - destruct (IHe1 m G) as (m1 & -> & G1). cbn. auto.
  - destruct (IHe1 m G) as (m1 & -> & G1). cbn. auto.
  - rewrite redop_refl. destruct (c_var i m G) as (m1 & -> & G1). cbn. auto.
Qed.
Lemma c_stmt : forall (s : nstmt V) m, graph m -> exists m', iso_stmt TY ty ty_eqb lit_eqb s (rename f g s) m = Some m' /\ graph m'.
Proof.
  induction s; intros m G; cbn [iso_stmt rename].
  - destruct (c_access t vs m G) as (m1 & -> & G1). cbn. destruct (c_expr e m1 G1) as (m2 & -> & G2). cbn.
    assert (op_eqb op op = true) as -> by (destruct op; cbn; auto using redop_refl). eauto.
  - destruct (c_var i m G) as (m1 & -> & G1). cbn. destruct (IHs m1 G1) as (m2 & -> & G2). cbn. rewrite !Nat.eqb_refl. cbn. eauto.
  - destruct (IHs1 m G) as (m1 & -> & G1). cbn. auto.
Qed.
Lemma iso_complete : forall s : nstmt V, isomorphic TY ty ty_eqb lit_eqb s (rename f g s) = true.
Proof.
  intros s. unfold isomorphic. destruct (c_stmt s no_maps) as (m & -> & _); auto.
  repeat split; cbn; discriminate.
Qed.
End Complete.

(** ** The cache *)
Section Cache.
Context {V : Type}.
Variable TY : Type.
Variable ty : tensor -> TY.
Variable ty_eqb : TY -> TY -> bool.
Variable lit_eqb : V -> V -> bool.
Lemma compile_kernel : forall h (q : nstmt V * bool), let k := fst (compile TY ty ty_eqb lit_eqb (compile_all TY ty ty_eqb lit_eqb h) q) in
  (k = q \/ isomorphic TY ty ty_eqb lit_eqb (fst q) (fst k) = true) /\ In k (h ++ [q]).
Proof.
  intros h q. cbn zeta. assert (I : forall h' e, In e (compile_all TY ty ty_eqb lit_eqb h') -> In (snd e) h' /\ fst e = fst (snd e)).
  { clear. intros h'. unfold compile_all. assert (G : forall h' c (P : nstmt V * kernel -> Prop), (forall e, In e c -> P e) -> (forall q, In q h' -> P (fst q, q)) ->
      forall e, In e (fold_left (fun c q => snd (compile TY ty ty_eqb lit_eqb c q)) h' c) -> P e).
    { clear. induction h' as [|q h' IH]; intros c P Hc Hh e I; cbn in I; auto. apply (IH (snd (compile TY ty ty_eqb lit_eqb c q)) P); auto; [|intros; apply Hh; cbn; auto].
      intros e' I'. unfold compile in I'. destruct (getComputeKernel _ _ _ _ c (fst q)); cbn in I'; auto. apply in_app_iff in I' as [I'|[<-|[]]]; auto. apply Hh; cbn; auto. }
    intros e Ie. apply (G h' [] (fun e => In (snd e) h' /\ fst e = fst (snd e))); auto. intros e' []. }
  unfold compile, getComputeKernel. destruct (find _ _) as [e|] eqn:F; cbn [fst].
  - apply find_some in F as [F1 F2]. apply in_rev in F1. apply I in F1 as [F1 F3]. split; [right; rewrite <- F3; auto|]. apply in_app_iff; auto.
  - split; auto. apply in_app_iff; cbn; auto.
Qed.
End Cache.
