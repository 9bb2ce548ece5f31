(** The loops generated for one index variable visit, in increasing order,
    exactly the coordinates at which something is left of the expression, with
    correct positions for all operands that are left. *)
From Coq Require Import List Arith Lia Bool.
Import ListNotations.
From Verif Require Import Storage StorageProofs IndexExpr Eval Lattice LatticeSpec
  LatticeProofs LatticeLoop LoopIR Lower Walk LowerBase.

Local Arguments inb : simpl never.

Section Exec.
Context {V : Type}.
Variable R : ring_ops V.
Variable fn : nat -> V -> V.
Variable T : nat -> storage V.
Variable junkV : nat -> V.
Variable junkI : nat -> nat.
Notation exec := (exec R fn T junkV junkI).
Notation ieval := (ieval T).
Notation beval := (beval T).

Lemma exec_seq_inv : forall s1 s2 (st st' : state V), exec (Seq s1 s2) st st' ->
  exists st1, exec s1 st st1 /\ exec s2 st1 st'.
Proof. intros. inversion H; subst. eauto. Qed.

Lemma block1 : forall s (st st' : state V), exec s st st' -> exec (Block [s]) st st'.
Proof. intros. simpl. econstructor; eauto. constructor. Qed.

Lemma block_cons : forall s l (st st1 st' : state V), exec s st st1 -> exec (Block l) st1 st' ->
  exec (Block (s :: l)) st st'.
Proof. intros. simpl. econstructor; eauto. Qed.

Lemma block2_inv : forall a b (st st' : state V), exec (Block [a; b]) st st' ->
  exists st1, exec a st st1 /\ exec b st1 st'.
Proof.
  intros a b st st' H. apply exec_seq_inv in H. destruct H as (st1 & H1 & H2).
  apply exec_seq_inv in H2. destruct H2 as (st2 & H2 & H3). inversion H3; subst. eauto.
Qed.

Lemma block_nil : forall (st : state V), exec (Block []) st st.
Proof. constructor. Qed.

Lemma ieval_env : forall x (st st' : state V),
  (forall v, env st' v = env st v) -> ibuf st' = ibuf st -> ieval st' x = ieval st x.
Proof.
  induction x; simpl; intros st st' H1 H2; auto;
    try (rewrite (IHx1 _ _ H1 H2), (IHx2 _ _ H1 H2); reflexivity);
    try (rewrite (IHx _ _ H1 H2); reflexivity).
  rewrite (IHx _ _ H1 H2), H2. reflexivity.
Qed.

Lemma conj_eval : forall A (f : A -> bexp) (g : A -> bool) l (st : state V),
  (forall x, In x l -> beval st (f x) = Some (g x)) ->
  beval st (Conj (map f l)) = Some (forallb g l).
Proof.
  induction l as [|x l IH]; intros st H; simpl; auto.
  destruct l as [|y l].
  - simpl. rewrite andb_true_r. apply H. simpl; auto.
  - change (beval st (BAnd (f x) (Conj (map f (y :: l)))) = Some (g x && forallb g (y :: l))).
    simpl. rewrite (H x) by (simpl; auto). destruct (g x); auto. apply IH. intros; apply H; simpl; auto.
Qed.

Lemma exec_case : forall l always (st st' : state V) (g : bexp * stmt V -> bool),
  (forall x, In x l -> beval st (fst x) = Some (g x)) ->
  match find g l with
  | Some x => exec (snd x) st st'
  | None => always = false /\ st' = st
  end ->
  exec (Case l always) st st'.
Proof.
  intros l always st st' g. unfold Case. generalize true as first.
  induction l as [|[b s] l IH]; intros first H F.
  - simpl in *. destruct F as [_ ->]. constructor.
  - assert (Hb := H (b, s) (or_introl eq_refl)). simpl in Hb.
    destruct l as [|x l].
    + simpl in *. destruct (g (b, s)) eqn:G.
      * simpl in F. destruct (always && negb first); auto.
        eapply X_if with (t := true); eauto.
      * destruct F as [-> ->]. simpl. eapply X_if with (t := false); eauto; constructor.
    + assert (E : cases_from always first ((b, s) :: x :: l) = If b s (cases_from always false (x :: l)))
        by reflexivity.
      rewrite E. clear E. simpl find in F. destruct (g (b, s)) eqn:G.
      * eapply X_if with (t := true); eauto.
      * eapply X_if with (t := false); eauto.
        apply IH; [intros; apply H; simpl in *; tauto|]. exact F.
Qed.

(** A block of assignments to distinct variables. *)
Lemma block_asg : forall (g : iter -> stmt V) (tgt : iter -> option var) (val : iter -> nat) l (st : state V),
  NoDup l ->
  (forall it, In it l -> tgt it = None -> g it = Skip) ->
  (forall it v, In it l -> tgt it = Some v -> exists x, g it = Asg v x /\
     forall st', ibuf st' = ibuf st -> vbuf st' = vbuf st ->
       (forall w, (forall it', In it' l -> it' <> it -> tgt it' <> Some w) -> env st' w = env st w) ->
       ieval st' x = Some (val it)) ->
  (forall it it' v, In it l -> In it' l -> tgt it = Some v -> tgt it' = Some v -> it = it') ->
  exists st', exec (Block (map g l)) st st' /\ ibuf st' = ibuf st /\ vbuf st' = vbuf st /\
    (forall w, (forall it, In it l -> tgt it <> Some w) -> env st' w = env st w) /\
    (forall it v, In it l -> tgt it = Some v -> env st' v = Some (val it)).
Proof.
  intros g tgt val. induction l as [|it l IH]; intros st ND HN HS INJ.
  - exists st. repeat split; auto; try (intros ? ? []). constructor.
  - inversion ND; subst. destruct (tgt it) as [v|] eqn:TG.
    + destruct (HS it v (or_introl eq_refl) TG) as (x & GX & EX).
      assert (E0 : ieval st x = Some (val it)) by (apply EX; auto).
      destruct (IH (setv st v (val it)) H2) as (st' & X & I1 & I2 & FR & VL).
      { intros; apply HN; simpl; auto. }
      { intros it' v' Hin TG'. destruct (HS it' v' (or_intror Hin) TG') as (x' & GX' & EX').
        exists x'. split; auto. intros st1 J1 J2 J3. apply EX'; auto.
        intros w W. rewrite J3.
        - apply setv_neq. intros ->. apply (W it); simpl; auto. intros ->. auto.
        - intros it2 H2' N2. apply W; simpl; auto. }
      { intros; eapply INJ; simpl; eauto. }
      exists st'. split; [|split; [|split; [|split]]]; auto.
      * simpl. rewrite GX. econstructor; [constructor; exact E0|]. exact X.
      * intros w W. rewrite FR by (intros; apply W; simpl; auto).
        apply setv_neq. intros ->. apply (W it); simpl; auto.
      * intros it' v' [<-|Hin] TG'.
        -- assert (v' = v) by congruence. subst.
           rewrite FR; [apply setv_eq|]. intros it2 H2' C.
           assert (it = it2) by (eapply INJ; simpl; eauto). subst. auto.
        -- eauto.
    + destruct (IH st H2) as (st' & X & I1 & I2 & FR & VL).
      { intros; apply HN; simpl; auto. }
      { intros it' v' Hin TG'. destruct (HS it' v' (or_intror Hin) TG') as (x' & GX' & EX').
        exists x'. split; auto. intros st1 J1 J2 J3. apply EX'; auto.
        intros w W. apply J3. intros it2 H2' N2. apply W; simpl; auto. }
      { intros; eapply INJ; simpl; eauto. }
      exists st'. split; [|split; [|split; [|split]]]; auto.
      * simpl. rewrite (HN it) by (simpl; auto). econstructor; [constructor|]. exact X.
      * intros w W. apply FR. intros; apply W; simpl; auto.
      * intros it' v' [<-|Hin] TG'; [congruence|eauto].
Qed.
End Exec.

(** ** Control state around one loop *)
(** Variables that code nested below [bound] leaves alone. *)
Definition prot (bound : list ivar) (v : var) : bool :=
  match v with
  | VIdx j => inb j bound
  | VPos a l | VEnd a l | VCrd a l => l <? depth bound (a_vars a)
  | _ => false
  end.

Section Loop.
Context {V : Type}.
Variable R : ring_ops V.
Variable fn : nat -> V -> V.
Variable T : nat -> storage V.
Variable junkV : nat -> V.
Variable junkI : nat -> nat.
Variable dimf : ivar -> nat.
Variable srt : list point -> list point.
Hypothesis SRT : admissible_sort srt.
Notation exec := (exec R fn T junkV junkI).
Notation ieval := (ieval T).
Notation beval := (beval T).
Notation apos := (apos T).

Definition agree (bound : list ivar) (st st' : state V) : Prop :=
  forall v, prot bound v = true -> env st' v = env st v.

Lemma agree_refl : forall b st, agree b st st.
Proof. intros b st v H; auto. Qed.
Lemma agree_trans : forall b st1 st2 st3, agree b st1 st2 -> agree b st2 st3 -> agree b st1 st3.
Proof. intros b st1 st2 st3 A B v H. rewrite B, A; auto. Qed.
Lemma prot_cons : forall i b v, prot b v = true -> prot (i :: b) v = true.
Proof.
  intros i b v. assert (M : forall vs, depth b vs <= depth (i :: b) vs) by (intros; apply depth_mono; simpl; auto).
  destruct v; simpl; auto; try (intros H; apply Nat.ltb_lt in H; apply Nat.ltb_lt;
                                eapply Nat.lt_le_trans; [exact H | apply M]).
  intros H. rewrite inb_cons, H. apply orb_true_r.
Qed.
Lemma agree_cons : forall i b st st', agree (i :: b) st st' -> agree b st st'.
Proof. intros i b st st' A v H. apply A, prot_cons. auto. Qed.

Definition posok (bound : list ivar) (rho : ivar -> nat) (acs : list access) (st : state V) : Prop :=
  idxok dimf bound rho st /\
  forall a, In a acs -> posok1 T (depth bound (a_vars a)) rho (VPos a) (a_tensor a) (a_vars a) st.

(** Does operand [a] store coordinate [c] of variable [i], under [rho] for the
    variables bound so far? *)
Definition stored (rho : ivar -> nat) (i : ivar) (c : nat) (a : access) : bool :=
  match find_level i a with
  | Some l => match apos (upd rho i c) (a_tensor a) (a_vars a) (S l) with Some _ => true | None => false end
  | None => false
  end.

(** States that differ in control variables only. *)
Definition ctl (st st' : state V) : Prop :=
  ibuf st' = ibuf st /\ vbuf st' = vbuf st /\ forall v, is_ctl v = false -> env st' v = env st v.

Lemma ctl_refl : forall st, ctl st st.
Proof. repeat split; auto. Qed.
Lemma ctl_trans : forall st1 st2 st3, ctl st1 st2 -> ctl st2 st3 -> ctl st1 st3.
Proof. intros st1 st2 st3 (A & B & C) (A' & B' & C'). repeat split; try congruence. intros. rewrite C', C; auto. Qed.
Lemma ctl_setv : forall st v n, is_ctl v = true -> ctl st (setv st v n).
Proof. intros. repeat split; auto. intros w W. apply setv_neq. congruence. Qed.

Variable i : ivar.
Variable bound : list ivar.
Variable rho : ivar -> nat.
Variable e : expr V.
Variable st0 : state V.
Hypothesis NI : ~ In i bound.
Hypothesis LIN : NoDup (accesses e).
Hypothesis ACC : forall a, In a (accesses e) ->
  wf_access T dimf (a_tensor a) (a_vars a) /\ legal bound (a_vars a) /\ legal (i :: bound) (a_vars a).
Hypothesis POS0 : posok bound rho (accesses e) st0.

Notation agr := (agree bound st0).
Notation hereat := (stored rho i).

(** *** The segment of a compressed operand *)
Definition comp_at (a : access) (l : nat) : Prop :=
  In a (accesses e) /\ find_level i a = Some l /\ level_kind a l = KComp.

Lemma upd_same : forall c a l q, l <= depth bound (a_vars a) -> In a (accesses e) ->
  apos rho (a_tensor a) (a_vars a) l = q -> apos (upd rho i c) (a_tensor a) (a_vars a) l = q.
Proof.
  intros c a l q L Ha <-. apply apos_ext. intros m M _. apply upd_neq.
  assert (B := depth_bound bound (a_vars a) m ltac:(lia)). apply inb_In in B. congruence.
Qed.

Lemma idx_not_bound : forall a l, In a (accesses e) -> find_level i a = Some l -> depth bound (a_vars a) <= l.
Proof.
  intros a l Ha F. destruct (index_of_nth _ _ _ F) as [L VA].
  destruct (Nat.le_gt_cases (depth bound (a_vars a)) l); auto.
  apply depth_bound in H. rewrite VA in H. apply inb_In in H. contradiction.
Qed.

Lemma comp_depth : forall a l, comp_at a l ->
  depth bound (a_vars a) = l /\ depth (i :: bound) (a_vars a) = S l /\ l < length (a_vars a).
Proof.
  intros a l (Ha & F & K). destruct (ACC a Ha) as (W & LG & LG').
  assert (ND : NoDup (map fst (a_vars a))) by apply W.
  destruct (index_of_nth _ _ _ F) as [L VA].
  assert (D1 := idx_not_bound a l Ha F).
  assert (UP : forall m, m < l -> In (var_at (a_vars a) m) bound).
  { intros m M. assert (X : In (var_at (a_vars a) m) (i :: bound)).
    { apply (LG' m l); auto. rewrite VA. simpl; auto. }
    destruct X as [X|X]; auto. exfalso. rewrite <- VA in X.
    assert (l = m) by (apply (var_at_inj (a_vars a)); auto; lia). lia. }
  assert (D2 : l <= depth bound (a_vars a)).
  { apply depth_ge; [lia|]. intros m M. apply inb_In. auto. }
  split; [lia|]. split; auto.
  assert (S l <= depth (i :: bound) (a_vars a)).
  { apply depth_ge; [lia|]. intros m M. apply inb_In. destruct (Nat.eq_dec m l) as [->|N].
    - rewrite VA. simpl; auto.
    - right. apply UP. lia. }
  destruct (Nat.le_gt_cases (depth (i :: bound) (a_vars a)) (S l)); [lia|].
  exfalso. assert (B := depth_bound _ _ _ H0). apply inb_In in B.
  assert (LL := depth_le (i :: bound) (a_vars a)).
  destruct B as [B|B].
  - rewrite <- VA in B. assert (l = S l) by (apply (var_at_inj (a_vars a)); auto; lia). lia.
  - apply NI. rewrite <- VA. apply (LG l (S l)); auto; lia.
Qed.

Definition seg (a : access) : nat * nat * list nat :=
  match find_level i a with
  | Some l =>
      match nth_error (st_levels (T (a_tensor a))) l, apos rho (a_tensor a) (a_vars a) l with
      | Some (LComp pos crd), Some q => (nth q pos 0, nth (S q) pos 0, crd)
      | _, _ => (0, 0, [])
      end
  | None => (0, 0, [])
  end.
Definition lo a := fst (fst (seg a)).
Definition hi a := snd (fst (seg a)).
Definition cr a (p : nat) := nth p (snd (seg a)) 0.

Record segok (a : access) (l : nat) : Prop := {
  sg_le : lo a <= hi a;
  sg_len : hi a <= length (snd (seg a));
  sg_sorted : forall p q, lo a <= p -> p < q -> q < hi a -> cr a p < cr a q;
  sg_dim : forall p, lo a <= p -> p < hi a -> cr a p < dimf i;
  sg_pos : forall p, lo a <= p -> p < hi a ->
     apos (upd rho i (cr a p)) (a_tensor a) (a_vars a) (S l) = Some p;
  sg_here : forall c, hereat c a = true -> exists p, lo a <= p < hi a /\ cr a p = c;
  sg_begin : forall st, agr st -> ieval st (pos_begin a l) = Some (lo a);
  sg_end : forall st, agr st -> ieval st (pos_end a l) = Some (hi a);
  sg_crd : forall st p, env st (VPos a l) = Some p -> p < hi a ->
     ieval st (crd_at a l) = Some (cr a p) }.

Lemma parent_val : forall a l st, In a (accesses e) -> l <= depth bound (a_vars a) -> agr st ->
  exists q, apos rho (a_tensor a) (a_vars a) l = Some q /\ ieval st (parent_pos (VPos a) l) = Some q.
Proof.
  intros a l st Ha L AG. apply ieval_parent. intros m M.
  destruct POS0 as [_ P]. destruct (P a Ha m ltac:(lia)) as (q & A & E). exists q. split; auto.
  rewrite AG; auto. simpl. apply Nat.ltb_lt. lia.
Qed.

Lemma seg_ok : forall a l, comp_at a l -> segok a l.
Proof.
  intros a l C. assert (CD := comp_depth a l C). destruct CD as (D & D' & L). destruct C as (Ha & F & K).
  destruct (ACC a Ha) as (W & _). destruct (wf_level_get _ _ _ _ l W L) as (lv & NE & KE & OK).
  change (kind_at (a_vars a) l) with (level_kind a l) in KE. rewrite K in KE.
  destruct lv as [|pos crd]; [discriminate|].
  destruct (index_of_nth _ _ _ F) as [_ VA].
  destruct (parent_val a l st0 Ha ltac:(lia) (agree_refl _ _)) as (q & A & _).
  specialize (OK rho q A). rewrite VA in OK. simpl in OK. destruct OK as (O1 & O2 & O3 & O4 & O5).
  assert (SG : seg a = (nth q pos 0, nth (S q) pos 0, crd)) by (unfold seg; rewrite F, NE, A; auto).
  assert (STEP : forall c, apos (upd rho i c) (a_tensor a) (a_vars a) (S l) =
                 find_crd crd c (nth q pos 0) (nth (S q) pos 0 - nth q pos 0)).
  { intros c. rewrite (apos_S _ _ _ _ _ _ _ W L NE). rewrite (upd_same c a l (Some q)); auto; [|lia].
    simpl. rewrite VA, upd_eq. auto. }
  constructor; unfold lo, hi, cr; rewrite ?SG; cbn [fst snd]; auto.
  - intros p P1 P2. apply O5. lia.
  - intros p P1 P2. rewrite STEP. apply find_crd_sorted; auto.
  - unfold stored. rewrite F. intros c. rewrite STEP.
    assert (FC := find_crd_spec (nth (S q) pos 0 - nth q pos 0) crd c (nth q pos 0)).
    destruct (find_crd crd c (nth q pos 0) (nth (S q) pos 0 - nth q pos 0)) as [p|]; [|discriminate].
    intros _. exists p. destruct FC as (F1 & F2 & F3 & _). split; auto. lia.
  - intros st AG. destruct (parent_val a l st Ha ltac:(lia) AG) as (q' & A' & E').
    assert (q' = q) by congruence. subst. unfold pos_begin. cbn [LoopIR.ieval]. rewrite E', NE.
    apply nth_error_nth'. lia.
  - intros st AG. destruct (parent_val a l st Ha ltac:(lia) AG) as (q' & A' & E').
    assert (q' = q) by congruence. subst. unfold pos_end. cbn [LoopIR.ieval]. rewrite E', NE.
    rewrite Nat.add_1_r. apply nth_error_nth'. lia.
  - intros st p E P. unfold crd_at. cbn [LoopIR.ieval]. rewrite E, NE. apply nth_error_nth'. lia.
Qed.

(** *** The merge lattice of the loop *)
Definition L := makeLattice srt i e.
Lemma LS : loopsem i e L.
Proof. apply loopsem_of_sem, sem_build; auto. Qed.

Lemma pt_lev : forall p a l, In p L -> In (Lev a l) (p_iters p) -> comp_at a l.
Proof.
  intros p a l Hp Hin. destruct (wfp_it _ _ _ (ls_wf _ _ _ LS _ Hp) _ Hin) as [|(a' & l' & E & F & K & Ha)]; [discriminate|].
  inversion E; subst. split; auto.
Qed.

Lemma comp_level : forall a l l', comp_at a l -> comp_at a l' -> l = l'.
Proof. intros a l l' (_ & F & _) (_ & F' & _). congruence. Qed.

(** Operands with coordinates left. *)
Definition live (st : state V) (a : access) : bool :=
  if in_dec access_eq_dec a (accesses e) then
    match find_level i a with
    | Some l => match level_kind a l with
                | KComp => match env st (VPos a l) with Some p => p <? hi a | None => false end
                | KDense => true
                end
    | None => true
    end
  else true.

Lemma live_comp : forall st a l p, comp_at a l -> env st (VPos a l) = Some p -> live st a = (p <? hi a).
Proof.
  intros st a l p (Ha & F & K) E. unfold live. destruct (in_dec access_eq_dec a (accesses e)); [|tauto].
  rewrite F, K, E. auto.
Qed.

Variable enter : stmt V.
Variable inner : expr V -> stmt V.
Variable exit : stmt V.
Variable Inv : nat -> state V -> Prop.
Variable InvE : nat -> state V -> Prop.
Hypothesis INVC : forall c st st', ctl st st' -> Inv c st -> Inv c st'.
Hypothesis INVEC : forall c st st', ctl st st' -> InvE c st -> InvE c st'.
Hypothesis SKIP : forall c st, c < dimf i -> restrict i (hereat c) e = None -> Inv c st -> Inv (S c) st.
Hypothesis ENTER : forall c st, c < dimf i -> restrict i (hereat c) e <> None -> Inv c st ->
  agr st -> env st (VIdx i) = Some c ->
  exists st', exec enter st st' /\ (forall v, is_ctl v = true -> env st' v = env st v) /\ InvE c st'.
Hypothesis INNER : forall c e' st, c < dimf i -> restrict i (hereat c) e = Some e' -> InvE c st ->
  agr st -> posok (i :: bound) (upd rho i c) (accesses e') st ->
  exists st', exec (Block [inner e'; exit]) st st' /\ agree (i :: bound) st st' /\ Inv (S c) st'.

Lemma prot_ctl : forall b v, prot b v = true -> is_ctl v = true.
Proof. destruct v; simpl; auto. Qed.

(** One visit, with the positions declared before. *)
Lemma body_ok : forall c e' st, c < dimf i -> restrict i (hereat c) e = Some e' -> Inv c st ->
  agr st -> posok (i :: bound) (upd rho i c) (accesses e') st ->
  exists st', exec (Block [enter; inner e'; exit]) st st' /\ agree (i :: bound) st st' /\ Inv (S c) st'.
Proof.
  intros c e' st C RS I AG PO.
  destruct (ENTER c st) as (st1 & X1 & CT & I1); auto; [congruence| |].
  { destruct PO as [IX _]. destruct (IX i) as [E _]; [simpl; auto|]. rewrite upd_eq in E. auto. }
  destruct (INNER c e' st1) as (st2 & X2 & AG2 & I2); auto.
  - intros v Hv. rewrite CT by (eapply prot_ctl; eauto). apply AG. auto.
  - destruct PO as [IX PO]. split.
    + intros j Hj. rewrite CT; auto.
    + intros a Ha l Hl. destruct (PO a Ha l Hl) as (q & A & E). exists q. split; auto. rewrite CT; auto.
  - exists st2. split; [eapply block_cons; eauto|]. split; auto.
    intros v Hv. rewrite AG2 by auto. apply CT. eapply prot_ctl; eauto.
Qed.

(** *** Locators *)
Lemma decl_locators_ok : forall acs locs c st,
  (forall it, In it locs -> dense_iter i acs it) -> incl acs (accesses e) ->
  agr st -> idxok dimf (i :: bound) (upd rho i c) st ->
  (forall a, In a (accesses e) -> posok1 T (depth bound (a_vars a)) (upd rho i c) (VPos a) (a_tensor a) (a_vars a) st) ->
  exists st', exec (decl_locators (i :: bound) locs) st st' /\
    only_var (fun v => exists a l, In (Lev a l) locs /\ exists m, depth bound (a_vars a) <= m /\ v = VPos a m) st st' /\
    (forall a l, In (Lev a l) locs ->
       posok1 T (depth (i :: bound) (a_vars a)) (upd rho i c) (VPos a) (a_tensor a) (a_vars a) st').
Proof.
  intros acs. induction locs as [|it locs IH]; intros c st DI IC AG IX PO.
  - exists st. split; [constructor|]. split; [repeat split; auto|]. intros a l [].
  - destruct (DI it (or_introl eq_refl)) as (a & l & -> & F & K & Ha).
    assert (Ha' := IC a Ha). destruct (ACC a Ha') as (W & LG & LG').
    destruct (decl_locate_ok R fn T junkV junkI dimf i bound (upd rho i c) (VPos a) (a_tensor a) (a_vars a) l st)
      as (st1 & X1 & (O1 & O2 & O3) & P1); auto.
    { split; congruence. }
    destruct (IH c st1) as (st2 & X2 & (Q1 & Q2 & Q3) & P2); auto.
    { intros; apply DI; simpl; auto. }
    { intros v Hv. rewrite O3; [apply AG; auto|]. intros (m & M & ->). simpl in Hv. apply Nat.ltb_lt in Hv. lia. }
    { intros j Hj. rewrite O3; auto. intros (m & M & E). discriminate. }
    { intros b Hb m M. destruct (PO b Hb m M) as (q & A & E). exists q. split; auto.
      rewrite O3; auto. intros (m' & M' & E'). inversion E'; subst. lia. }
    exists st2. split; [|split].
    + simpl. econstructor; eauto.
    + repeat split; try congruence. intros v N. rewrite Q3, O3; auto.
      * intros (m & M & ->). apply N. exists a, l. split; [simpl; auto|]. exists m. split; auto. lia.
      * intros (b & lb & Hb & m & M & ->). apply N. exists b, lb. split; [simpl; auto|]. eauto.
    + intros b lb Hb. 
      destruct (in_dec iter_eq_dec (Lev b lb) locs) as [H|H]; [eapply P2; eauto|].
      destruct Hb as [Hb|Hb]; [|contradiction]. inversion Hb; subst.
      intros m M. destruct (P1 m M) as (q & A & E). exists q. split; auto.
      rewrite Q3; auto. intros (b' & lb' & Hb' & m' & M' & E'). inversion E'; subst.
      assert (lb' = lb).
      { destruct (DI (Lev b' lb') (or_intror Hb')) as (a2 & l2 & E2 & F2 & _). inversion E2; subst. congruence. }
      subst. contradiction.
Qed.

(** Positions below the outer loops, under the extended assignment. *)
Lemma outer_pos : forall c st, agr st ->
  forall a, In a (accesses e) -> posok1 T (depth bound (a_vars a)) (upd rho i c) (VPos a) (a_tensor a) (a_vars a) st.
Proof.
  intros c st AG a Ha m M. destruct POS0 as [_ P]. destruct (P a Ha m M) as (q & A & E).
  exists q. split.
  - apply upd_same; auto.
  - rewrite AG; auto. simpl. apply Nat.ltb_lt. auto.
Qed.

Lemma outer_idx : forall c st, agr st -> env st (VIdx i) = Some c -> c < dimf i ->
  idxok dimf (i :: bound) (upd rho i c) st.
Proof.
  intros c st AG E C j [<-|Hj].
  - rewrite upd_eq. auto.
  - assert (j <> i) by (intros ->; contradiction). rewrite upd_neq by auto.
    destruct POS0 as [IX _]. destruct (IX j Hj) as [E1 L1]. split; auto.
    rewrite AG; auto. simpl. apply inb_In. auto.
Qed.

(** All positions of what is left at coordinate [c]. *)
Lemma visit_pos : forall c e' st locs,
  c < dimf i -> restrict i (hereat c) e = Some e' -> agr st -> env st (VIdx i) = Some c ->
  (forall a l, In a (accesses e') -> find_level i a = Some l -> level_kind a l = KDense -> In (Lev a l) locs) ->
  (forall a l, In (Lev a l) locs ->
     posok1 T (depth (i :: bound) (a_vars a)) (upd rho i c) (VPos a) (a_tensor a) (a_vars a) st) ->
  (forall a l, In a (accesses e') -> comp_at a l ->
     exists p, lo a <= p < hi a /\ cr a p = c /\ env st (VPos a l) = Some p) ->
  posok (i :: bound) (upd rho i c) (accesses e') st.
Proof.
  intros c e' st locs C RS AG E LC LP CP. split; [apply outer_idx; auto|].
  intros a Ha. destruct (zero_accesses _ _ _ RS a Ha) as [Hae _].
  destruct (find_level i a) as [l|] eqn:F.
  - destruct (level_kind a l) eqn:K.
    + eapply LP. eapply LC; eauto.
    + assert (CA : comp_at a l) by (split; auto).
      destruct (comp_depth a l CA) as (D & D' & _). rewrite D'.
      intros m M. destruct (Nat.eq_dec m l) as [->|N].
      * destruct (CP a l Ha CA) as (p & P & CC & EP). exists p. split; auto.
        rewrite <- CC. apply (sg_pos _ _ (seg_ok a l CA)); lia.
      * apply (outer_pos c st AG a Hae). lia.
  - unfold find_level in F. rewrite (depth_cons_none _ _ _ F). apply outer_pos; auto.
Qed.

(** *** One iteration of a merge loop *)
Definition synced (st : state V) (c : nat) (a : access) (l : nat) : Prop :=
  exists p, env st (VPos a l) = Some p /\ forall q, p <= q < hi a -> c <= cr a q.

Record MI (done rest : list point) (c : nat) (st : state V) : Prop := {
  mi_agr : agr st;
  mi_inv : Inv c st;
  mi_le : c <= dimf i;
  mi_pos : forall a l, comp_at a l -> exists p, env st (VPos a l) = Some p /\ env st (VEnd a l) = Some (hi a) /\
     lo a <= p <= hi a /\ forall q, lo a <= q < p -> cr a q < c;
  mi_dim : hdim i e = true -> env st (VIdx i) = Some c;
  mi_done : forall p, In p done -> applies (live st) p = false;
  mi_sync : forall p, In p rest -> applies (live st) p = true ->
     forall a l, In (Lev a l) (p_iters p) -> synced st c a l }.

Lemma here_live : forall done rest c st c' a, MI done rest c st -> c <= c' ->
  hereat c' a = true -> live st a = true.
Proof.
  intros done rest c st c' a M C H. unfold live.
  destruct (in_dec access_eq_dec a (accesses e)) as [Ha|]; auto.
  destruct (find_level i a) as [l|] eqn:F; auto. destruct (level_kind a l) eqn:K; auto.
  assert (CA : comp_at a l) by (split; auto).
  destruct (mi_pos _ _ _ _ M a l CA) as (p & E & _ & P & Q). rewrite E.
  destruct (sg_here _ _ (seg_ok a l CA) _ H) as (q & Q1 & Q2).
  apply Nat.ltb_lt. destruct (Nat.le_gt_cases (hi a) p); auto.
  specialize (Q q ltac:(lia)). lia.
Qed.

Lemma applies_mono : forall h h' p, (forall a, h a = true -> h' a = true) ->
  applies h p = true -> applies h' p = true.
Proof. intros h h' p H A. rewrite applies_iff in *. intros a l Hin. apply H. eauto. Qed.

Lemma find_rest : forall done lp rest h, L = done ++ lp :: rest ->
  (forall p, In p done -> applies h p = false) -> applies h lp = true ->
  find (applies h) L = Some lp.
Proof.
  intros done lp rest h E D A. rewrite E. clear E. induction done; simpl.
  - rewrite A. auto.
  - rewrite D by (simpl; auto). apply IHdone. intros; apply D; simpl; auto.
Qed.

(** Points that apply to fewer operands have fewer iterators. *)
Lemma point_sub : forall h lp p, find (applies h) L = Some lp -> In p L -> applies h p = true ->
  incl (p_iters p) (p_iters lp) /\ incl (region p) (region lp).
Proof.
  intros h lp p F Hp A. destruct (find_first i e L LS _ _ F) as (Hl & Al & Rl).
  destruct (ls_sound _ _ _ LS _ _ Hp A) as [_ I].
  assert (IR : incl (region p) (region lp)) by (eapply incl_tran; [apply I | apply Rl]).
  split; auto. apply (iters_of_region i e L LS); auto.
Qed.

Lemma no_point_none : forall c, find (applies (hereat c)) L = None -> restrict i (hereat c) e = None.
Proof. intros c F. assert (C := case_exact i e L LS LIN (hereat c)). rewrite F in C. auto. Qed.

(** Skipping coordinates. *)
Lemma skip_range : forall k c st, c + k <= dimf i ->
  (forall c', c <= c' < c + k -> restrict i (hereat c') e = None) ->
  Inv c st -> Inv (c + k) st.
Proof.
  induction k; intros c st B H I; [rewrite Nat.add_0_r; auto|].
  rewrite Nat.add_succ_r. apply SKIP; [lia | apply H; lia |]. apply IHk; auto; [lia|]. intros; apply H; lia.
Qed.

Lemma mergers_lp : forall lp, In lp L ->
  (hdim i e = true -> mergers lp = [Dim]) /\
  (hdim i e = false -> mergers lp = p_iters lp /\ forall it, In it (p_iters lp) -> it <> Dim).
Proof.
  intros lp Hl. assert (W := ls_wf _ _ _ LS _ Hl). assert (D := ls_dim _ _ _ LS _ Hl).
  assert (FI := fun it H => full_iters i (accesses e) lp it W H).
  split; intros HD.
  - rewrite HD in D. apply has_dim_iff in D. unfold mergers.
    assert (existsb is_full (p_iters lp) = true) as -> by (apply existsb_exists; exists Dim; auto).
    assert (ND := wfp_nd1 _ _ _ W). clear -FI D ND.
    induction (p_iters lp) as [|it t IH]; [destruct D|]. inversion ND; subst.
    simpl. rewrite (FI it) by (simpl; auto). destruct it as [|a l]; simpl.
    + f_equal. clear IH. assert (G : forall it, In it t -> is_full it = false).
      { intros it Hit. rewrite (FI it) by (simpl; auto). destruct it; auto. contradiction. }
      clear -G. induction t; simpl; auto. rewrite (G a) by (simpl; auto). apply IHt. intros; apply G; simpl; auto.
    + apply IH; auto; [simpl in D; destruct D; [discriminate|auto]|]. intros; apply FI; simpl; auto.
  - rewrite HD in D. assert (N : ~ In Dim (p_iters lp)) by (rewrite <- has_dim_iff; congruence).
    split; [|intros it Hit ->; auto]. unfold mergers.
    destruct (existsb is_full (p_iters lp)) eqn:X; auto.
    apply existsb_exists in X. destruct X as (it & Hit & Fi). rewrite FI in Fi by auto.
    destruct it; [contradiction|discriminate].
Qed.

Lemma rangers_lp : forall lp, In lp L ->
  (p_iters lp = [Dim] /\ rangers lp = [Dim]) \/
  (p_iters lp <> [Dim] /\ rangers lp = filter (fun it => negb (is_dim it)) (p_iters lp) /\
   exists a l, In (Lev a l) (p_iters lp)).
Proof.
  intros lp Hl. assert (W := ls_wf _ _ _ LS _ Hl).
  assert (FI := fun it H => full_iters i (accesses e) lp it W H).
  assert (FE : filter (fun it => negb (is_full it)) (p_iters lp) = filter (fun it => negb (is_dim it)) (p_iters lp)).
  { apply filter_ext_in. intros it Hit. rewrite FI; auto. }
  unfold rangers. destruct (existsb (fun it => negb (is_full it)) (p_iters lp)) eqn:X.
  - right. apply existsb_exists in X. destruct X as (it & Hit & Fi). rewrite FI in Fi by auto.
    destruct it as [|a l]; [discriminate|]. split; [intros E; rewrite E in Hit; destruct Hit as [|[]]; discriminate|].
    split; eauto.
  - left. assert (A : forall it, In it (p_iters lp) -> it = Dim).
    { intros it Hit. destruct it as [|a l]; auto.
      assert (existsb (fun it => negb (is_full it)) (p_iters lp) = true); [|congruence].
      apply existsb_exists. exists (Lev a l). split; auto. rewrite FI; auto. }
    assert (ND := wfp_nd1 _ _ _ W). assert (NE := wfp_ne _ _ _ W).
    destruct (p_iters lp) as [|x [|y t]]; try congruence.
    + rewrite (A x) by (simpl; auto). auto.
    + exfalso. inversion ND; subst. apply H1. rewrite (A x), (A y) by (simpl; auto). simpl; auto.
Qed.

Lemma min_of_eval : forall l (f : iter -> iexp) (g : iter -> nat) st,
  l <> [] -> (forall it, In it l -> ieval st (f it) = Some (g it)) ->
  exists m, ieval st (min_of (map f l)) = Some m /\ (forall it, In it l -> m <= g it) /\
            exists it, In it l /\ m = g it.
Proof.
  induction l as [|x l IH]; intros f g st N H; [congruence|]. destruct l as [|y l].
  - simpl. exists (g x). split; [apply H; simpl; auto|]. split.
    + intros it [<-|[]]; auto.
    + exists x. simpl; auto.
  - destruct (IH f g st) as (m & E & M1 & it & Hit & M2); [congruence|intros; apply H; simpl in *; tauto|].
    exists (Nat.min (g x) m). split; [|split].
    + change (ieval st (IMin (f x) (min_of (map f (y :: l)))) = Some (Nat.min (g x) m)).
      cbn [LoopIR.ieval]. rewrite (H x) by (simpl; auto). cbn [LoopIR.ieval] in E. rewrite E. auto.
    + intros it' [<-|Hit']; [lia|]. specialize (M1 it' Hit'). lia.
    + destruct (Nat.min_spec (g x) m) as [[_ ->]|[_ ->]].
      * exists x. simpl; auto.
      * exists it. split; auto. simpl; auto.
Qed.

(** Steps 1 and 2: load the coordinates and resolve the smallest. *)
Lemma resolve_ok : forall done lp rest c st, L = done ++ lp :: rest ->
  MI done (lp :: rest) c st -> applies (live st) lp = true ->
  (p_iters lp = [Dim] -> c < dimf i) ->
  exists st' c', exec (Block [load_coords (p_iters lp); resolve i (mergers lp)]) st st' /\
    only_ctl (fun v => v = VIdx i \/ exists a l, v = VCrd a l /\ In (Lev a l) (p_iters lp)) st st' /\
    env st' (VIdx i) = Some c' /\ c <= c' < dimf i /\
    (forall a l, In (Lev a l) (p_iters lp) -> exists p, env st (VPos a l) = Some p /\ lo a <= p < hi a /\
       c' <= cr a p /\ (1 < length (p_iters lp) -> env st' (VCrd a l) = Some (cr a p))) /\
    (hdim i e = true -> c' = c) /\
    (hdim i e = false -> exists a l p, In (Lev a l) (p_iters lp) /\ env st (VPos a l) = Some p /\ c' = cr a p).
Proof.
  intros done lp rest c st EL M A CD.
  assert (Hl : In lp L) by (rewrite EL; apply in_app_iff; simpl; auto).
  assert (W := ls_wf _ _ _ LS _ Hl).
  destruct (mergers_lp lp Hl) as [MD MN].
  assert (PP : forall a l, In (Lev a l) (p_iters lp) -> comp_at a l /\ exists p, env st (VPos a l) = Some p /\
              lo a <= p < hi a /\ c <= cr a p /\ cr a p < dimf i).
  { intros a l Hin. assert (CA := pt_lev lp a l Hl Hin). split; auto.
    destruct (mi_pos _ _ _ _ M a l CA) as (p & E & _ & P & _). exists p. split; auto.
    assert (A' := A). rewrite applies_iff in A'. specialize (A' a l Hin). rewrite (live_comp st a l p CA E) in A'.
    apply Nat.ltb_lt in A'. split; [lia|].
    destruct (mi_sync _ _ _ _ M lp (or_introl eq_refl) A a l Hin) as (p' & E' & S').
    assert (p' = p) by congruence. subst p'.
    split; [apply S'; lia|]. apply (sg_dim _ _ (seg_ok a l CA)); lia. }
  set (val := fun it => match it with
                        | Dim => 0
                        | Lev a l => match env st (VPos a l) with Some p => cr a p | None => 0 end end).
  (* load the coordinates *)
  assert (LOAD : exists st1, exec (load_coords (p_iters lp)) st st1 /\
     only_ctl (fun v => v = VIdx i \/ exists a l, v = VCrd a l /\ In (Lev a l) (p_iters lp)) st st1 /\
     env st1 (VIdx i) = env st (VIdx i) /\ (forall a l, env st1 (VPos a l) = env st (VPos a l)) /\
     forall a l, In (Lev a l) (p_iters lp) -> 1 < length (p_iters lp) -> env st1 (VCrd a l) = Some (val (Lev a l))).
  { unfold load_coords. destruct (1 <? length (p_iters lp)) eqn:LN.
    - destruct (block_asg R fn T junkV junkI
        (fun it => match it with Dim => Skip | Lev a l => Asg (VCrd a l) (crd_at a l) end)
        (fun it => match it with Dim => None | Lev a l => Some (VCrd a l) end) val (p_iters lp) st)
        as (st1 & X & I1 & I2 & FR & VL).
      + apply (wfp_nd1 _ _ _ W).
      + intros [|a l] _ H; [auto|discriminate].
      + intros [|a l] v Hin H; [discriminate|]. inversion H; subst. exists (crd_at a l). split; auto.
        intros st' _ _ FR. destruct (PP a l Hin) as (CA & p & E & P & _).
        simpl val. rewrite E. apply (sg_crd _ _ (seg_ok a l CA)); [|lia].
        rewrite FR; auto. intros [|] _ _; congruence.
      + intros [|a l] [|a' l'] v _ _ H H'; try discriminate. congruence.
      + exists st1. split; auto. split; [|split; [|split]].
        * repeat split; auto. intros v N. apply FR. intros [|a l] Hin C; [discriminate|].
          inversion C; subst. apply N. split; auto. right. eauto.
        * apply FR. intros [|] _; congruence.
        * intros a l. apply FR. intros [|] _; congruence.
        * intros a l Hin _. apply (VL (Lev a l)); auto.
    - exists st. split; [constructor|]. split; [apply only_refl|]. split; [auto|]. split; [auto|].
      intros a l _ H. apply Nat.ltb_ge in LN. lia. }
  destruct LOAD as (st1 & X1 & O1 & EI & EP & EC).
  destruct (hdim i e) eqn:HD.
  - exists st1, c. rewrite (MD eq_refl). split; [|split; [|split; [|split; [|split]]]]; auto.
    + eapply block_cons; eauto. apply block1. constructor.
    + rewrite EI. apply (mi_dim _ _ _ _ M). auto.
    + split; [lia|]. destruct (rangers_lp lp Hl) as [[E1 _]|(_ & _ & a & l & Hin)]; auto.
      destruct (PP a l Hin) as (_ & p & _ & _ & C1 & C2). lia.
    + intros a l Hin. destruct (PP a l Hin) as (_ & p & E & P & C1 & _). exists p. split; auto. split; auto. split; auto.
      intros LN. rewrite (EC a l Hin LN). simpl. rewrite E. auto.
    + split; auto. discriminate.
  - destruct (MN eq_refl) as [MM ND]. rewrite MM.
    assert (RES : exists c', exec (resolve i (p_iters lp)) st1 (setv st1 (VIdx i) c') /\
       (forall a l, In (Lev a l) (p_iters lp) -> c' <= val (Lev a l)) /\
       exists a l, In (Lev a l) (p_iters lp) /\ c' = val (Lev a l)).
    { assert (NE := wfp_ne _ _ _ W). destruct (p_iters lp) as [|x [|y t]] eqn:PI; [congruence| |].
      - destruct x as [|a l]; [exfalso; apply (ND Dim); simpl; auto|].
        destruct (PP a l (or_introl eq_refl)) as (CA & p & E & P & _).
        exists (cr a p). split; [|split].
        + constructor. apply (sg_crd _ _ (seg_ok a l CA)); [rewrite EP; auto | lia].
        + intros a' l' [H|[]]. inversion H; subst. simpl. rewrite E. auto.
        + exists a, l. split; [simpl; auto|]. simpl. rewrite E. auto.
      - destruct (min_of_eval (x :: y :: t) (crd_var i) val st1) as (m & EM & M1 & it & Hit & M2); [congruence| |].
        + intros [|a l] Hin; [exfalso; apply (ND Dim); auto|]. simpl crd_var. cbn [LoopIR.ieval].
          apply EC; auto. simpl; lia.
        + exists m. split; [|split].
          * unfold resolve. destruct x as [|a l]; constructor; exact EM.
          * intros a l Hin. apply (M1 (Lev a l)); auto.
          * destruct it as [|a l]; [exfalso; apply (ND Dim); auto|]. exists a, l. auto. }
    destruct RES as (c' & X2 & M1 & am & lm & Hm & M2).
    destruct (PP am lm Hm) as (CAm & pm & Em & Pm & Cm1 & Cm2).
    assert (VM : val (Lev am lm) = cr am pm) by (simpl; rewrite Em; auto).
    exists (setv st1 (VIdx i) c'), c'. split; [|split; [|split; [|split; [|split]]]].
    + eapply block_cons; eauto. apply block1. auto.
    + eapply only_trans; [exact O1|]. apply only_setv; auto.
    + apply setv_eq.
    + rewrite M2, VM. lia.
    + intros a l Hin. destruct (PP a l Hin) as (_ & p & E & P & C1 & _). exists p. split; auto. split; auto.
      specialize (M1 a l Hin). simpl in M1. rewrite E in M1. split; auto.
      intros LN. rewrite setv_neq by congruence. rewrite (EC a l Hin LN). simpl. rewrite E. auto.
    + split; [discriminate|]. intros _. exists am, lm, pm. split; auto. split; auto. congruence.
Qed.

Lemma here_iff : forall a l p c, comp_at a l -> lo a <= p < hi a ->
  (forall q, lo a <= q < p -> cr a q < c) -> c <= cr a p ->
  hereat c a = (cr a p =? c).
Proof.
  intros a l p c CA P Q C. assert (SG := seg_ok a l CA). apply bool_iff. rewrite Nat.eqb_eq. split.
  - intros H. destruct (sg_here _ _ SG _ H) as (q & Q1 & Q2).
    destruct (Nat.lt_trichotomy q p) as [X|[->|X]]; auto.
    + specialize (Q q ltac:(lia)). lia.
    + assert (cr a p < cr a q) by (apply (sg_sorted _ _ SG); lia). lia.
  - intros E. unfold stored. destruct CA as (Ha & F & K). rewrite F.
    assert (X := sg_pos _ _ SG p ltac:(lia) ltac:(lia)). rewrite E in X. rewrite X. auto.
Qed.

Lemma cr_mono : forall a l p q, comp_at a l -> lo a <= p -> p <= q -> q < hi a -> cr a p <= cr a q.
Proof.
  intros a l p q CA P PQ Q. destruct (Nat.eq_dec p q) as [->|]; auto.
  assert (cr a p < cr a q) by (apply (sg_sorted _ _ (seg_ok a l CA)); lia). lia.
Qed.

(** What is left at a coordinate only uses operands of the selected point. *)
Lemma restrict_region : forall h p e' a l, find (applies h) L = Some p -> restrict i h e = Some e' ->
  In a (accesses e') -> find_level i a = Some l ->
  In a (accesses e) /\ In (Lev a l) (region p).
Proof.
  intros h p e' a l F RS Ha FL. destruct (find_first i e L LS _ _ F) as (Hp & Ap & Rp).
  rewrite <- (zero_outside i h e LIN) in RS.
  destruct (zero_accesses _ _ _ RS a Ha) as [Hae O]. split; auto.
  unfold outside in O. rewrite FL in O. apply negb_false_iff, mem_In in O. apply Rp. auto.
Qed.

Lemma not_agr_idx : prot bound (VIdx i) = false.
Proof. simpl. apply inb_false. auto. Qed.

Notation body := (fun e' : expr V => Block [enter; inner e'; exit]).

Lemma visit_ok : forall c h lp p e' st, c < dimf i -> Inv c st -> agr st -> env st (VIdx i) = Some c ->
  h = hereat c -> find (applies h) L = Some p -> restrict i h e = Some e' ->
  In lp L -> incl (region p) (region lp) ->
  (forall a l, In (Lev a l) (p_locs lp) ->
     posok1 T (depth (i :: bound) (a_vars a)) (upd rho i c) (VPos a) (a_tensor a) (a_vars a) st) ->
  (forall a l, In (Lev a l) (p_iters lp) -> exists q, env st (VPos a l) = Some q /\ lo a <= q < hi a /\
     hereat c a = (cr a q =? c)) ->
  exists st', exec (body e') st st' /\ agree (i :: bound) st st' /\ Inv (S c) st'.
Proof.
  intros c h lp p e' st C I AG EI -> F RS Hl IR LP IP.
  apply (body_ok c e' st); auto.
  assert (W := ls_wf _ _ _ LS _ Hl).
  apply (visit_pos c e' st (p_locs lp)); auto.
  - intros a l Ha FL K. destruct (restrict_region _ _ _ _ _ F RS Ha FL) as [Hae Hr].
    apply IR, region_In in Hr. destruct Hr as [[Hr _]|Hr]; auto.
    destruct (pt_lev _ _ _ Hl Hr) as (_ & _ & K'). congruence.
  - intros a l Ha CA. destruct CA as (Hae & FL & K).
    destruct (restrict_region _ _ _ _ _ F RS Ha FL) as [_ Hr].
    apply IR, (region_comp _ _ _ _ _ W K) in Hr.
    destruct (IP a l Hr) as (q & Eq & Q & HQ). exists q. split; auto. split; auto.
    destruct (zero_accesses _ _ _ RS a Ha) as [_ AB]. unfold absent, compressed in AB.
    rewrite FL, K in AB. simpl in AB. apply negb_false_iff in AB. rewrite HQ in AB.
    apply Nat.eqb_eq. auto.
Qed.

Lemma cases_ok : forall c lp lv st, c < dimf i -> Inv c st -> agr st -> env st (VIdx i) = Some c ->
  In lp L -> find (applies lv) L = Some lp -> (forall a, hereat c a = true -> lv a = true) ->
  (forall a l, In (Lev a l) (p_locs lp) ->
     posok1 T (depth (i :: bound) (a_vars a)) (upd rho i c) (VPos a) (a_tensor a) (a_vars a) st) ->
  (forall a l, In (Lev a l) (p_iters lp) -> exists q, env st (VPos a l) = Some q /\ lo a <= q < hi a /\
     hereat c a = (cr a q =? c) /\ (1 < length (p_iters lp) -> env st (VCrd a l) = Some (cr a q))) ->
  (hdim i e = false -> exists a l, In (Lev a l) (p_iters lp) /\ hereat c a = true) ->
  exists st', exec (merge_cases i (subLattice L lp) (zero (exhaustedAccess L lp) e) body) st st' /\
              agree (i :: bound) st st' /\ Inv (S c) st'.
Proof.
  intros c lp lv st C I AG EI Hl FL HL LP IP HD.
  assert (W := ls_wf _ _ _ LS _ Hl).
  assert (IP' : forall a l, In (Lev a l) (p_iters lp) -> exists q, env st (VPos a l) = Some q /\ lo a <= q < hi a /\
     hereat c a = (cr a q =? c)).
  { intros a l Hin. destruct (IP a l Hin) as (q & ? & ? & ? & _). eauto. }
  assert (SUB : forall p, In p (subLattice L lp) -> In p L /\ incl (p_iters p) (p_iters lp)).
  { intros p Hp. apply filter_In in Hp. destruct Hp as [Hp S]. apply subset_incl in S. auto. }
  assert (CE := case_exact i e L LS LIN (hereat c)).
  unfold merge_cases. rewrite (getLoopLattice_sub i e L LS lp Hl).
  assert (LI : lat_iters (subLattice L lp) = p_iters lp).
  { unfold lat_iters. rewrite (sub_first i e L LS lp Hl). auto. }
  rewrite LI.
  assert (SC := sub_cases i e L LS lv (hereat c) lp FL HL).
  assert (EXI : exists it, In it (p_iters lp) /\ match it with Dim => True | Lev a _ => hereat c a = true end).
  { destruct (hdim i e) eqn:HE.
    - exists Dim. split; auto. apply has_dim_iff. rewrite (ls_dim _ _ _ LS _ Hl). auto.
    - destruct (HD eq_refl) as (a & l & H1 & H2). exists (Lev a l). auto. }
  assert (SINGLE : forall it, p_iters lp = [it] -> exists e', zero (exhaustedAccess L lp) e = Some e' /\
     find (applies (hereat c)) L = Some lp /\ restrict i (hereat c) e = Some e').
  { intros it E1. assert (A : applies (hereat c) lp = true).
    { apply applies_iff. rewrite E1. intros a l [->|[]]. destruct EXI as (it' & Hit & P).
      rewrite E1 in Hit. destruct Hit as [<-|[]]. auto. }
    assert (F : find (applies (hereat c)) L = Some lp).
    { destruct (find (applies (hereat c)) L) as [p|] eqn:F.
      - assert (Hp : In p (subLattice L lp)) by (apply find_some in SC; tauto).
        destruct (SUB p Hp) as [HpL IS]. f_equal. apply (distinct_iters i e L LS); auto. split; auto.
        assert (NE := wfp_ne _ _ _ (ls_wf _ _ _ LS _ HpL)). rewrite E1 in *.
        destruct (p_iters p) as [|x t]; [congruence|]. assert (x = it) by (destruct (IS x); simpl; auto; tauto).
        subst. intros y [<-|[]]. simpl; auto.
      - rewrite (find_none _ _ F lp Hl) in A. discriminate. }
    rewrite F in CE. destruct CE as [CE CN]. rewrite CE.
    destruct (restrict i (hereat c) e) as [e'|]; [|congruence]. eauto. }
  assert (BODY : forall p e', find (applies (hereat c)) L = Some p -> restrict i (hereat c) e = Some e' ->
     exists st', exec (body e') st st' /\ agree (i :: bound) st st' /\ Inv (S c) st').
  { intros p e' F RS. apply (visit_ok c (hereat c) lp p e' st); auto.
    destruct (find_first i e L LS _ _ F) as (Hp & Ap & _).
    apply (point_sub lv lp p FL Hp). apply (applies_mono (hereat c)); auto. }
  destruct (p_iters lp) as [|it0 [|it1 t]] eqn:PI.
  - exfalso. apply (wfp_ne _ _ _ W). auto.
  - destruct (SINGLE it0 eq_refl) as (e' & Z & F & RS). rewrite Z. simpl oexpr. apply (BODY lp e'); auto.
  - assert (COND : forall p, In p (subLattice L lp) -> beval st (case_cond i p) = Some (applies (hereat c) p)).
    { intros p Hp. destruct (SUB p Hp) as [HpL IS].
      unfold case_cond.
      rewrite (conj_eval T _ _ (fun it => match it with Dim => true | Lev a _ => hereat c a end)).
      - f_equal. destruct (rangers_lp p HpL) as [[E1 E2]|(_ & E2 & _)]; rewrite E2.
        + unfold applies. rewrite E1. auto.
        + unfold applies. clear. induction (p_iters p) as [|[|a l] t IH]; simpl; auto. rewrite IH. auto.
      - intros it Hit.
        assert (Hin : In it (p_iters p)).
        { destruct (rangers_lp p HpL) as [[E1 E2]|(_ & E2 & _)]; rewrite E2 in Hit; [rewrite E1; auto|].
          apply filter_In in Hit. tauto. }
        destruct it as [|a l].
        + simpl. rewrite EI, Nat.eqb_refl. auto.
        + destruct (IP a l (IS _ Hin)) as (q & E & Q & HQ & EC). simpl. rewrite EC, EI by (simpl; lia).
          rewrite HQ. auto. }
    assert (GEN : forall st', match find (applies (hereat c)) L with
         | Some p => match restrict i (hereat c) e with Some e' => exec (body e') st st' | None => False end
         | None => exact (subLattice L lp) = false /\ st' = st end ->
       exec (Case (map (fun p => (case_cond i p, oexpr body (ozero (exhaustedAccess (subLattice L lp) p)
              (zero (exhaustedAccess L lp) e)))) (subLattice L lp)) (exact (subLattice L lp))) st st').
    { intros st' H.
      set (f := fun p => (case_cond i p, oexpr body (ozero (exhaustedAccess (subLattice L lp) p)
              (zero (exhaustedAccess L lp) e)))).
      set (g := fun x : bexp * stmt V => match beval st (fst x) with Some b => b | None => false end).
      assert (GP : forall p, In p (subLattice L lp) -> g (f p) = applies (hereat c) p).
      { intros p Hp. unfold g. simpl. rewrite COND; auto. }
      apply exec_case with (g := g).
      - intros x Hx. apply in_map_iff in Hx. destruct Hx as (p & <- & Hp).
        rewrite (GP p Hp). simpl. apply COND. auto.
      - assert (FM : find g (map f (subLattice L lp)) = option_map f (find (applies (hereat c)) (subLattice L lp))).
        { clear -GP. clearbody f g. induction (subLattice L lp) as [|p M IH]; simpl; auto.
          rewrite (GP p) by (simpl; auto). destruct (applies (hereat c) p); auto.
          apply IH. intros; apply GP; simpl; auto. }
        rewrite FM, SC. destruct (find (applies (hereat c)) L) as [p|] eqn:F; simpl; auto.
        change (LatticeLoop.ozero (exhaustedAccess (subLattice L lp) p) (zero (exhaustedAccess L lp) e))
          with (ozero (exhaustedAccess (subLattice L lp) p) (zero (exhaustedAccess L lp) e)).
        assert (SZ := sub_zero i e L LS LIN lv (hereat c) lp p FL HL SC).
        change (LatticeLoop.ozero (exhaustedAccess (subLattice L lp) p) (zero (exhaustedAccess L lp) e))
          with (ozero (exhaustedAccess (subLattice L lp) p) (zero (exhaustedAccess L lp) e)) in SZ.
        rewrite SZ. destruct (restrict i (hereat c) e); [exact H|tauto]. }
    destruct (find (applies (hereat c)) L) as [p|] eqn:F.
    + destruct CE as [_ CN]. destruct (restrict i (hereat c) e) as [e'|] eqn:RS; [|congruence].
      destruct (BODY p e' eq_refl eq_refl) as (st' & X & AG' & I'). exists st'. split; auto.
    + exists st. split; [apply GEN; split; auto|].
      * destruct (exact (subLattice L lp)) eqn:EX; auto. exfalso.
        apply (exact_covers i (subLattice L lp) (hereat c) (accesses e)); auto.
        -- intros q Hq. apply (ls_wf _ _ _ LS). apply SUB; auto.
        -- rewrite LI. auto.
      * split; [apply agree_refl|]. apply SKIP; auto.
Qed.

Lemma inc_ok : forall lp c st (pa : access -> nat), In lp L -> env st (VIdx i) = Some c ->
  (forall a l, In (Lev a l) (p_iters lp) -> env st (VPos a l) = Some (pa a) /\
     (1 < length (p_iters lp) -> env st (VCrd a l) = Some (cr a (pa a))) /\
     (p_iters lp = [Lev a l] -> cr a (pa a) = c)) ->
  exists st', exec (inc_iters i (p_iters lp)) st st' /\
    only_ctl (fun v => v = VIdx i \/ exists a l, v = VPos a l /\ In (Lev a l) (p_iters lp)) st st' /\
    (forall a l, In (Lev a l) (p_iters lp) ->
       env st' (VPos a l) = Some (pa a + if cr a (pa a) =? c then 1 else 0)) /\
    (In Dim (p_iters lp) -> env st' (VIdx i) = Some (S c)).
Proof.
  intros lp c st pa Hl EI IP. assert (W := ls_wf _ _ _ LS _ Hl).
  assert (ND := wfp_nd1 _ _ _ W). assert (NE := wfp_ne _ _ _ W).
  destruct (p_iters lp) as [|x [|y t]] eqn:PI; [congruence| |].
  - unfold inc_iters. destruct x as [|a l]; simpl iter_var.
    + exists (setv st (VIdx i) (S c)). split; [|split; [|split]].
      * constructor. simpl. rewrite EI, Nat.add_1_r. auto.
      * apply only_setv; auto.
      * intros a l [H|[]]; discriminate.
      * intros _. apply setv_eq.
    + destruct (IP a l (or_introl eq_refl)) as (E1 & _ & E3). specialize (E3 eq_refl).
      exists (setv st (VPos a l) (pa a + 1)). split; [|split; [|split]].
      * constructor. simpl. rewrite E1. auto.
      * apply only_setv; auto. right. exists a, l. simpl; auto.
      * intros a' l' [H|[]]. inversion H; subst a' l'. rewrite setv_eq, E3, Nat.eqb_refl. auto.
      * intros [H|[]]; discriminate.
  - change (inc_iters i (x :: y :: t)) with
      (Seq (Block (map (fun it => match it with
                                 | Dim => Skip
                                 | Lev a l => @Asg V (VPos a l)
                                     (IAdd (IVar (VPos a l)) (IEqb (IVar (VCrd a l)) (IVar (VIdx i))))
                                 end) (x :: y :: t)))
          (Block (map (fun it => match it with
                                 | Dim => Asg (VIdx i) (IAdd (IVar (VIdx i)) (ICst 1))
                                 | Lev _ _ => Skip
                                 end) (x :: y :: t)))).
    assert (LN : 1 < length (x :: y :: t)) by (simpl; lia).
    set (its := x :: y :: t) in *. clearbody its.
    destruct (block_asg R fn T junkV junkI
       (fun it => match it with Dim => Skip | Lev a l => @Asg V (VPos a l)
                   (IAdd (IVar (VPos a l)) (IEqb (IVar (VCrd a l)) (IVar (VIdx i)))) end)
       (fun it => match it with Dim => None | Lev a l => Some (VPos a l) end)
       (fun it => match it with Dim => 0 | Lev a l => pa a + if cr a (pa a) =? c then 1 else 0 end) its st)
      as (st1 & X1 & I1 & I2 & FR & VL); auto.
    { intros [|a l] _ H; [auto|discriminate]. }
    { intros [|a l] v Hin H; [discriminate|]. inversion H; subst. eexists. split; [reflexivity|].
      intros st' _ _ FR. destruct (IP a l Hin) as (E1 & E2 & _). specialize (E2 LN).
      assert (P1 : env st' (VPos a l) = Some (pa a)).
      { rewrite FR; auto. intros [|a' l'] _ N; congruence. }
      assert (P2 : env st' (VCrd a l) = Some (cr a (pa a))).
      { rewrite FR; auto. intros [|a' l'] _ N; congruence. }
      assert (P3 : env st' (VIdx i) = Some c).
      { rewrite FR; auto. intros [|a' l'] _ N; congruence. }
      simpl. rewrite P1, P2, P3. auto. }
    { intros [|a l] [|a' l'] v _ _ H H'; congruence. }
    destruct (block_asg R fn T junkV junkI
       (fun it => match it with Dim => @Asg V (VIdx i) (IAdd (IVar (VIdx i)) (ICst 1)) | Lev _ _ => Skip end)
       (fun it => match it with Dim => Some (VIdx i) | Lev a l => None end)
       (fun it => S c) its st1)
      as (st2 & X2 & J1 & J2 & FR2 & VL2); auto.
    { intros [|a l] _ H; [discriminate|auto]. }
    { intros [|a l] v Hin H; [|discriminate]. inversion H; subst. eexists. split; [reflexivity|].
      intros st' _ _ FR'. simpl. rewrite FR'.
      - rewrite FR; [rewrite EI, Nat.add_1_r; auto|]. intros [|] _; congruence.
      - intros [|] _ N; congruence. }
    { intros [|a l] [|a' l'] v _ _ H H'; congruence. }
    exists st2. split; [econstructor; eauto|]. split; [|split].
    + repeat split; try congruence. intros v N. rewrite FR2, FR; auto.
      * intros [|a l] Hin H; [discriminate|]. inversion H; subst. apply N. split; auto. right; eauto.
      * intros [|a l] Hin H; [|discriminate]. inversion H; subst. apply N. split; auto.
    + intros a l Hin. rewrite FR2 by (intros [|] _; congruence). apply (VL (Lev a l)); auto.
    + intros Hin. apply (VL2 Dim); auto.
Qed.

Lemma iter_ok : forall done lp rest c st, L = done ++ lp :: rest ->
  MI done (lp :: rest) c st -> applies (live st) lp = true ->
  (p_iters lp = [Dim] -> c < dimf i) ->
  exists st' c', c < c' /\
    exec (Block [load_coords (p_iters lp); resolve i (mergers lp);
                 decl_locators (i :: bound) (p_locs lp);
                 merge_cases i (subLattice L lp) (zero (exhaustedAccess L lp) e) body;
                 inc_iters i (p_iters lp)]) st st' /\
    MI done (lp :: rest) c' st'.
Proof.
  intros done lp rest c st EL M A CD.
  assert (Hl : In lp L) by (rewrite EL; apply in_app_iff; simpl; auto).
  assert (W := ls_wf _ _ _ LS _ Hl).
  assert (FL : find (applies (live st)) L = Some lp).
  { apply (find_rest done lp rest); auto. apply (mi_done _ _ _ _ M). }
  destruct (resolve_ok done lp rest c st EL M A CD) as (st2 & c' & X12 & O2 & EI2 & CB & PC & HDT & HDF).
  destruct O2 as (OI & OV & OE).
  assert (CTL2 : ctl st st2).
  { repeat split; auto. intros v Hv. apply OE. intros [H _]. congruence. }
  assert (CRDD : forall a l, comp_at a l -> prot bound (VCrd a l) = false /\ prot bound (VPos a l) = false).
  { intros a l CA. destruct (comp_depth a l CA) as (D & _). simpl. rewrite D, Nat.ltb_irrefl. auto. }
  assert (AG2 : agr st2).
  { intros v Hv. rewrite OE; [apply (mi_agr _ _ _ _ M); auto|].
    intros [_ [->|(a & l & -> & Hin)]].
    - rewrite not_agr_idx in Hv. discriminate.
    - destruct (CRDD a l (pt_lev _ _ _ Hl Hin)). congruence. }
  assert (I2 : Inv c' st2).
  { apply (INVC c' st); auto. replace c' with (c + (c' - c)) by lia. apply skip_range; [lia| |apply (mi_inv _ _ _ _ M)].
    intros k K. apply no_point_none. destruct (find (applies (hereat k)) L) as [p|] eqn:F; auto. exfalso.
    destruct (find_some _ _ F) as [Hp Ap].
    assert (Ap' : applies (live st) p = true).
    { apply (applies_mono (hereat k)); auto. intros a Ha. apply (here_live done (lp :: rest) c st k a); auto. lia. }
    destruct (point_sub _ _ _ FL Hp Ap') as [IS _].
    destruct (hdim i e) eqn:HD; [specialize (HDT eq_refl); lia|].
    assert (NE := wfp_ne _ _ _ (ls_wf _ _ _ LS _ Hp)).
    destruct (mergers_lp p Hp) as [_ MN]. destruct (MN HD) as [_ NDm].
    destruct (p_iters p) as [|x t] eqn:PI; [congruence|].
    destruct x as [|a l]; [apply (NDm Dim); simpl; auto|].
    rewrite applies_iff in Ap. assert (HK := Ap a l ltac:(rewrite PI; simpl; auto)).
    destruct (PC a l (IS _ (or_introl eq_refl))) as (q & Eq & Q & CQ & _).
    assert (CA := pt_lev lp a l Hl (IS _ (or_introl eq_refl))).
    destruct (sg_here _ _ (seg_ok a l CA) _ HK) as (r & R1 & R2).
    destruct (mi_pos _ _ _ _ M a l CA) as (q' & Eq' & _ & _ & QL). assert (q' = q) by congruence. subst q'.
    destruct (Nat.le_gt_cases q r).
    - assert (cr a q <= cr a r) by (apply (cr_mono a l); auto; lia). lia.
    - specialize (QL r ltac:(lia)). lia. }
  destruct (decl_locators_ok (accesses e) (p_locs lp) c' st2) as (st3 & X3 & (P1 & P2 & P3) & LP); auto.
  { intros it Hit. apply (wfp_loc _ _ _ W). auto. }
  { apply incl_refl. }
  { apply outer_idx; auto. lia. }
  { apply outer_pos; auto. }
  assert (AG3 : agr st3).
  { intros v Hv. rewrite P3; [apply AG2; auto|]. intros (a & l & _ & m & Dm & ->).
    simpl in Hv. apply Nat.ltb_lt in Hv. lia. }
  assert (CTL3 : ctl st2 st3).
  { repeat split; auto. intros v Hv. apply P3. intros (a & l & _ & m & _ & ->). discriminate. }
  assert (SAME3 : forall v, (forall a m, v = VPos a m -> exists l, comp_at a l) -> env st3 v = env st2 v).
  { intros v Hv. apply P3. intros (a & l & Hin & m & _ & ->).
    destruct (Hv a m eq_refl) as (l' & CA). destruct (wfp_loc _ _ _ W _ Hin) as (a1 & l1 & E1 & F1 & K1 & _).
    inversion E1; subst. destruct CA as (_ & F2 & K2). congruence. }
  assert (POS23 : forall a l, comp_at a l -> env st3 (VPos a l) = env st (VPos a l)).
  { intros a l CA. rewrite SAME3.
    - apply OE. intros [_ [H|(a' & l' & H & _)]]; discriminate.
    - intros a' m H. inversion H; subst. eauto. }
  assert (EI3 : env st3 (VIdx i) = Some c').
  { rewrite SAME3; auto. intros a m H. discriminate. }
  assert (HQ : forall a l, In (Lev a l) (p_iters lp) -> exists q, env st3 (VPos a l) = Some q /\ lo a <= q < hi a /\
     hereat c' a = (cr a q =? c') /\ (1 < length (p_iters lp) -> env st3 (VCrd a l) = Some (cr a q))).
  { intros a l Hin. assert (CA := pt_lev lp a l Hl Hin). destruct (PC a l Hin) as (q & Eq & Q & CQ & EC).
    exists q. rewrite POS23 by auto. split; auto. split; auto. split.
    - apply (here_iff a l); auto. intros r Rr. destruct (mi_pos _ _ _ _ M a l CA) as (q' & Eq' & _ & _ & QL).
      assert (q' = q) by congruence. subst q'. specialize (QL r Rr). lia.
    - intros LN. rewrite SAME3 by (intros; discriminate). auto. }
  destruct (cases_ok c' lp (live st) st3) as (st4 & X4 & AG4 & I4); auto; try lia.
  { apply (INVC c' st2); auto. }
  { intros a Ha. apply (here_live done (lp :: rest) c st c' a); auto. lia. }
  { intros HD. destruct (HDF HD) as (a & l & q & Hin & Eq & CQ). exists a, l. split; auto.
    destruct (HQ a l Hin) as (q' & Eq' & _ & HH & _). rewrite POS23 in Eq' by (apply (pt_lev lp); auto).
    assert (q' = q) by congruence. subst q'. rewrite HH, CQ. apply Nat.eqb_refl. }
  assert (PROT : forall a l, comp_at a l -> env st4 (VPos a l) = env st3 (VPos a l) /\
                   env st4 (VEnd a l) = env st3 (VEnd a l) /\ env st4 (VCrd a l) = env st3 (VCrd a l)).
  { intros a l CA. destruct (comp_depth a l CA) as (_ & D & _).
    repeat split; apply AG4; simpl; rewrite D; apply Nat.ltb_lt; lia. }
  assert (EI4 : env st4 (VIdx i) = Some c').
  { rewrite AG4; auto. simpl. apply inb_In. simpl; auto. }
  destruct (inc_ok lp c' st4 (fun a => match find_level i a with
                                       | Some l => match env st (VPos a l) with Some q => q | None => 0 end
                                       | None => 0 end)) as (st5 & X5 & O5 & VP & VD); auto.
  { intros a l Hin. assert (CA := pt_lev lp a l Hl Hin). assert (CA' := CA). destruct CA' as (_ & F & _). rewrite F.
    destruct (HQ a l Hin) as (q & Eq & Q & HH & EC). destruct (PROT a l CA) as (R1 & R2 & R3).
    assert (Eq0 : env st (VPos a l) = Some q) by (rewrite <- POS23; auto). rewrite Eq0.
    split; [congruence|]. split; [intros LN; rewrite R3; auto|].
    intros E1. assert (HD : hdim i e = false).
    { destruct (hdim i e) eqn:HD; auto. rewrite <- (ls_dim _ _ _ LS _ Hl) in HD. apply has_dim_iff in HD.
      rewrite E1 in HD. destruct HD as [|[]]; discriminate. }
    destruct (HDF HD) as (a' & l' & q' & Hin' & Eq' & CQ). rewrite E1 in Hin'. destruct Hin' as [H|[]].
    inversion H; subst a' l'. congruence. }
  destruct O5 as (OI5 & OV5 & OE5).
  assert (POSN : forall a l q, comp_at a l -> env st (VPos a l) = Some q ->
     exists q', env st5 (VPos a l) = Some q' /\ q <= q' <= S q /\
       (In (Lev a l) (p_iters lp) -> q' = q + if cr a q =? c' then 1 else 0) /\
       (~ In (Lev a l) (p_iters lp) -> q' = q)).
  { intros a l q CA Eq. destruct (in_dec iter_eq_dec (Lev a l) (p_iters lp)) as [Hin|NIn].
    - exists (q + if cr a q =? c' then 1 else 0). split.
      + rewrite (VP a l Hin). destruct CA as (_ & F & _). rewrite F, Eq. auto.
      + split; [destruct (cr a q =? c'); lia|]. split; [auto|tauto].
    - exists q. split; [|split; [lia|tauto]].
      rewrite OE5.
      + destruct (PROT a l CA) as (-> & _ & _). rewrite POS23; auto.
      + intros [_ [H|(a' & l' & H & Hin)]]; [discriminate|]. inversion H; subst. contradiction. }
  assert (LIVE : forall a, live st5 a = true -> live st a = true).
  { intros a. unfold live. destruct (in_dec access_eq_dec a (accesses e)) as [Ha|]; auto.
    destruct (find_level i a) as [l|] eqn:F; auto. destruct (level_kind a l) eqn:K; auto.
    assert (CA : comp_at a l) by (split; auto).
    destruct (mi_pos _ _ _ _ M a l CA) as (q & Eq & _). rewrite Eq.
    destruct (POSN a l q CA Eq) as (q' & Eq' & B & _). rewrite Eq', !Nat.ltb_lt. lia. }
  exists st5, (S c'). split; [lia|]. split.
  { apply block2_inv in X12. destruct X12 as (st1 & X1 & X2).
    eapply block_cons; [eassumption|]. eapply block_cons; [eassumption|]. eapply block_cons; [exact X3|].
    eapply block_cons; [exact X4|]. apply block1. exact X5. }
  constructor.
  - intros v Hv. rewrite OE5.
    + rewrite (agree_cons i bound st3 st4 AG4 v Hv). apply AG3. auto.
    + intros [_ [->|(a & l & -> & Hin)]]; [rewrite not_agr_idx in Hv; discriminate|].
      destruct (CRDD a l (pt_lev _ _ _ Hl Hin)). congruence.
  - apply (INVC (S c') st4); auto. repeat split; auto. intros v Hv. apply OE5. intros [H _]. congruence.
  - lia.
  - intros a l CA. destruct (mi_pos _ _ _ _ M a l CA) as (q & Eq & Een & Q & QL).
    destruct (POSN a l q CA Eq) as (q' & Eq' & B & Pin & Pout). exists q'. split; auto. split; [|split].
    + rewrite OE5 by (intros [_ [H|(a' & l' & H & _)]]; discriminate).
      destruct (PROT a l CA) as (_ & -> & _). rewrite SAME3 by (intros; discriminate).
      rewrite OE by (intros [_ [H|(a' & l' & H & _)]]; discriminate). auto.
    + split; [lia|]. destruct (in_dec iter_eq_dec (Lev a l) (p_iters lp)) as [Hin|N].
      * destruct (HQ a l Hin) as (q2 & Eq2 & Q2 & _). rewrite POS23, Eq in Eq2 by auto. inversion Eq2; subst. lia.
      * rewrite (Pout N). lia.
    + intros r Rr. destruct (in_dec iter_eq_dec (Lev a l) (p_iters lp)) as [Hin|N].
      * rewrite (Pin Hin) in Rr. destruct (cr a q =? c') eqn:E; [|specialize (QL r ltac:(lia)); lia].
        apply Nat.eqb_eq in E. destruct (Nat.eq_dec r q) as [->|]; [lia|]. specialize (QL r ltac:(lia)). lia.
      * rewrite (Pout N) in Rr. specialize (QL r Rr). lia.
  - intros HD. apply VD. apply has_dim_iff. rewrite (ls_dim _ _ _ LS _ Hl). auto.
  - intros p Hp. destruct (applies (live st5) p) eqn:Ap; auto.
    assert (X := mi_done _ _ _ _ M p Hp). rewrite (applies_mono _ _ p LIVE Ap) in X. discriminate.
  - intros p Hp Ap a l Hin.
    assert (HpL : In p L) by (rewrite EL; apply in_app_iff; auto).
    destruct (point_sub _ _ _ FL HpL (applies_mono _ _ p LIVE Ap)) as [IS _].
    assert (Hin' := IS _ Hin). assert (CA := pt_lev lp a l Hl Hin').
    destruct (mi_sync _ _ _ _ M lp (or_introl eq_refl) A a l Hin') as (q & Eq & SY).
    destruct (POSN a l q CA Eq) as (q' & Eq' & B & Pin & _). exists q'. split; auto.
    specialize (Pin Hin'). intros r Rr.
    destruct (PC a l Hin') as (q2 & Eq2 & Q2 & CQ & _). assert (q2 = q) by congruence. subst q2.
    destruct (cr a q =? c') eqn:E.
    + apply Nat.eqb_eq in E. assert (cr a q < cr a r) by (apply (sg_sorted _ _ (seg_ok a l CA)); lia). lia.
    + apply Nat.eqb_neq in E. assert (cr a q <= cr a r) by (apply (cr_mono a l); auto; lia). lia.
Qed.

(** *** The loops of the points *)
Notation mpoint := (fun p => merge_point dimf i bound (subLattice L p) (zero (exhaustedAccess L p) e) body).

Lemma none_exhausted_conj : forall rs, none_exhausted dimf i rs =
  Conj (map (fun it => match it with
                       | Dim => BLt (IVar (VIdx i)) (ICst (dimf i))
                       | Lev a l => BLt (IVar (VPos a l)) (IVar (VEnd a l))
                       end) rs).
Proof. destruct rs as [|[|] [|]]; reflexivity. Qed.

Lemma cond_dim : forall done rest lp c st, In lp L -> MI done rest c st -> p_iters lp = [Dim] ->
  beval st (none_exhausted dimf i (rangers lp)) = Some (c <? dimf i).
Proof.
  intros done rest lp c st Hl M E1. destruct (rangers_lp lp Hl) as [[_ E2]|[N _]]; [|congruence].
  rewrite E2. simpl. rewrite (mi_dim _ _ _ _ M); auto.
  rewrite <- (ls_dim _ _ _ LS _ Hl). apply has_dim_iff. rewrite E1. simpl; auto.
Qed.

Lemma cond_lev : forall done rest lp c st, In lp L -> MI done rest c st -> p_iters lp <> [Dim] ->
  beval st (none_exhausted dimf i (rangers lp)) = Some (applies (live st) lp).
Proof.
  intros done rest lp c st Hl M N. destruct (rangers_lp lp Hl) as [[E1 _]|(_ & E2 & _)]; [congruence|].
  rewrite none_exhausted_conj, E2.
  rewrite (conj_eval T _ _ (fun it => match it with Dim => true | Lev a _ => live st a end)).
  - f_equal. unfold applies. clear. induction (p_iters lp) as [|[|a l] t IH]; simpl; auto. rewrite IH. auto.
  - intros it Hit. apply filter_In in Hit. destruct Hit as [Hin D]. destruct it as [|a l]; [discriminate|].
    assert (CA := pt_lev lp a l Hl Hin). destruct (mi_pos _ _ _ _ M a l CA) as (q & Eq & Ee & _).
    simpl. rewrite Eq, Ee. rewrite (live_comp st a l q CA Eq). auto.
Qed.

Lemma point_loop : forall n done lp rest c st, dimf i - c <= n -> L = done ++ lp :: rest ->
  MI done (lp :: rest) c st -> p_iters lp <> [Dim] ->
  exists st' c', exec (mpoint lp) st st' /\ MI done (lp :: rest) c' st' /\ applies (live st') lp = false.
Proof.
  induction n; intros done lp rest c st N EL M ND;
    assert (Hl : In lp L) by (rewrite EL; apply in_app_iff; simpl; auto);
    assert (CE := cond_lev _ _ lp c st Hl M ND);
    unfold merge_point; rewrite (sub_first i e L LS lp Hl);
    destruct (applies (live st) lp) eqn:A;
    try (exists st, c; split; [apply X_while_end; auto | auto]; fail);
    destruct (iter_ok done lp rest c st EL M A) as (st1 & c1 & LT & X & M1); try congruence.
  - assert (C1 := mi_le _ _ _ _ M1). lia.
  - assert (C1 := mi_le _ _ _ _ M1).
    destruct (IHn done lp rest c1 st1) as (st' & c' & X' & M' & A'); auto; [lia|].
    unfold merge_point in X'. rewrite (sub_first i e L LS lp Hl) in X'.
    exists st', c'. split; auto. eapply X_while; eauto.
Qed.

Lemma dim_loop : forall n done lp rest c st, dimf i - c <= n -> L = done ++ lp :: rest ->
  MI done (lp :: rest) c st -> p_iters lp = [Dim] ->
  exists st', exec (mpoint lp) st st' /\ MI done (lp :: rest) (dimf i) st'.
Proof.
  induction n; intros done lp rest c st N EL M ND;
    assert (Hl : In lp L) by (rewrite EL; apply in_app_iff; simpl; auto);
    assert (CE := cond_dim _ _ lp c st Hl M ND);
    assert (CL := mi_le _ _ _ _ M);
    unfold merge_point; rewrite (sub_first i e L LS lp Hl);
    destruct (c <? dimf i) eqn:A;
    [apply Nat.ltb_lt in A; lia| |apply Nat.ltb_lt in A|];
    try (apply Nat.ltb_ge in A; assert (c = dimf i) by lia; subst c;
         exists st; split; [apply X_while_end; auto | auto]; fail).
  assert (AP : applies (live st) lp = true).
  { apply applies_iff. rewrite ND. intros a l [H|[]]; discriminate. }
  destruct (iter_ok done lp rest c st EL M AP) as (st1 & c1 & LT & X & M1); auto.
  assert (C1 := mi_le _ _ _ _ M1).
  destruct (IHn done lp rest c1 st1) as (st' & X' & M'); auto; [lia|].
  unfold merge_point in X'. rewrite (sub_first i e L LS lp Hl) in X'.
  exists st'. split; auto. eapply X_while; eauto.
Qed.

Lemma L_NoDup : NoDup L.
Proof.
  assert (D := ls_distinct _ _ _ LS). induction D; constructor; auto.
  intros Hin. rewrite Forall_forall in H. specialize (H _ Hin).
  assert (same_set (p_iters a) (p_iters a) = true) by (apply same_set_iff, eqset_refl). congruence.
Qed.

Lemma dim_last : forall done lp rest, L = done ++ lp :: rest -> p_iters lp = [Dim] -> rest = [].
Proof.
  intros done lp rest EL E1. destruct rest as [|p rest]; auto. exfalso.
  assert (Hp : In p L) by (rewrite EL; apply in_app_iff; simpl; auto).
  assert (F := find_only i e L LS LIN p Hp) || assert (F := find_only i e L LS p Hp).
  assert (AP : applies (only p) lp = true).
  { apply applies_iff. rewrite E1. intros a l [H|[]]; discriminate. }
  assert (G : forall M, (exists q, In q (done ++ [lp]) /\ find (applies (only p)) ((done ++ [lp]) ++ M) = Some q)).
  { intros M. clear -AP. induction done; simpl.
    - rewrite AP. exists lp. auto.
    - destruct (applies (only p) a); [exists a; auto|]. destruct IHdone as (q & Hq & Fq). exists q. auto. }
  assert (EL' : L = (done ++ [lp]) ++ p :: rest) by (rewrite <- app_assoc; auto).
  destruct (G (p :: rest)) as (q & Hq & Fq). rewrite <- EL', F in Fq. inversion Fq; subst q.
  assert (ND := L_NoDup). rewrite EL' in ND. apply NoDup_remove_2 in ND. apply ND. apply in_app_iff. auto.
Qed.

Lemma all_skip : forall c st, c <= dimf i -> Inv c st ->
  (forall k, c <= k < dimf i -> restrict i (hereat k) e = None) -> Inv (dimf i) st.
Proof.
  intros c st C I H. replace (dimf i) with (c + (dimf i - c)) by lia. apply skip_range; auto; [lia|].
  intros; apply H; lia.
Qed.

Lemma points_loop : forall rest done c st, L = done ++ rest -> MI done rest c st ->
  exists st', exec (Block (map mpoint rest)) st st' /\ agr st' /\ Inv (dimf i) st'.
Proof.
  induction rest as [|lp rest IH]; intros done c st EL M.
  - exists st. split; [constructor|]. split; [apply (mi_agr _ _ _ _ M)|].
    apply (all_skip c); [apply (mi_le _ _ _ _ M)|apply (mi_inv _ _ _ _ M)|].
    intros k K. apply no_point_none. destruct (find (applies (hereat k)) L) as [p|] eqn:F; auto.
    exfalso. destruct (find_some _ _ F) as [Hp Ap]. rewrite app_nil_r in EL. rewrite EL in Hp.
    assert (X := mi_done _ _ _ _ M p Hp). rewrite (applies_mono (hereat k)) in X; [discriminate| |auto].
    intros a Ha. apply (here_live done [] c st k a); auto. lia.
  - destruct (list_eq_dec iter_eq_dec (p_iters lp) [Dim]) as [E1|N1].
    + assert (rest = []) by (apply (dim_last done lp); auto). subst rest.
      destruct (dim_loop (dimf i) done lp [] c st ltac:(lia) EL M E1) as (st' & X & M').
      exists st'. split; [apply block1; auto|]. split; [apply (mi_agr _ _ _ _ M')|apply (mi_inv _ _ _ _ M')].
    + destruct (point_loop (dimf i) done lp rest c st ltac:(lia) EL M N1) as (st1 & c1 & X1 & M1 & A1).
      destruct (IH (done ++ [lp]) c1 st1) as (st' & X' & AG' & I').
      * rewrite <- app_assoc. auto.
      * destruct M1. constructor; auto.
        -- intros p Hp. apply in_app_iff in Hp. destruct Hp as [Hp|[<-|[]]]; auto.
        -- intros p Hp. apply mi_sync0. simpl; auto.
      * exists st'. split; [|auto]. simpl map. eapply block_cons; eauto.
Qed.

(** *** Initialisation *)
Lemma init_ok : forall its st, (forall it, In it its -> In it (p_iters (hd pt0 L))) -> agr st ->
  exists st', exec (Block (map (init_iter i) its)) st st' /\ agr st' /\
    only_ctl (fun v => v = VIdx i \/ exists a l, (v = VPos a l \/ v = VEnd a l) /\ In (Lev a l) its) st st' /\
    (forall a l, In (Lev a l) its -> env st' (VPos a l) = Some (lo a) /\ env st' (VEnd a l) = Some (hi a)) /\
    (In Dim its -> env st' (VIdx i) = Some 0) /\
    (~ In Dim its -> env st' (VIdx i) = env st (VIdx i)).
Proof.
  assert (Hh : In (hd pt0 L) L).
  { assert (N := loop_nonempty i e L LS). destruct L; [congruence|]. simpl; auto. }
  induction its as [|it its IH]; intros st HI AG.
  - exists st. split; [constructor|]. split; auto. split; [apply only_refl|]. split; [intros a l []|]. split; [intros []|auto].
  - destruct it as [|a l].
    + destruct (IH (setv st (VIdx i) 0)) as (st' & X & AG' & (O1 & O2 & O3) & P & D & DN).
      { intros; apply HI; simpl; auto. }
      { intros v Hv. rewrite setv_neq; [apply AG; auto|]. intros ->. rewrite not_agr_idx in Hv. discriminate. }
      exists st'. split; [|split; [|split; [|split; [|split]]]]; auto.
      * simpl. econstructor; [|exact X]. constructor. auto.
      * repeat split; auto. intros v N. rewrite O3.
        -- apply setv_neq. intros ->. apply N. simpl; auto.
        -- intros [C [H|(a & l & H & Hin)]]; apply N; split; auto. right. exists a, l. simpl; auto.
      * intros a l [H|Hin]; [discriminate|auto].
      * intros _. destruct (in_dec iter_eq_dec Dim its) as [Y|Y]; [auto|]. rewrite DN by auto. apply setv_eq.
      * intros N. exfalso. apply N. simpl; auto.
    + assert (CA : comp_at a l). { apply (pt_lev (hd pt0 L)); auto. apply HI. simpl; auto. }
      assert (SG := seg_ok a l CA). destruct (comp_depth a l CA) as (DP & _).
      set (st1 := setv st (VPos a l) (lo a)).
      assert (AG1 : agr st1).
      { intros v Hv. unfold st1. rewrite setv_neq; [apply AG; auto|]. intros ->. simpl in Hv. rewrite DP, Nat.ltb_irrefl in Hv. discriminate. }
      set (st2 := setv st1 (VEnd a l) (hi a)).
      assert (AG2 : agr st2).
      { intros v Hv. unfold st2. rewrite setv_neq; [apply AG1; auto|]. intros ->. simpl in Hv. rewrite DP, Nat.ltb_irrefl in Hv. discriminate. }
      destruct (IH st2) as (st' & X & AG' & (O1 & O2 & O3) & P & D & DN); auto.
      { intros; apply HI; simpl; auto. }
      exists st'. split; [|split; [|split; [|split; [|split]]]]; auto.
      * simpl. econstructor; [|exact X]. econstructor.
        -- constructor. apply (sg_begin _ _ SG). auto.
        -- constructor. apply (sg_end _ _ SG). auto.
      * repeat split; auto. intros v N. rewrite O3.
        -- unfold st2, st1. rewrite !setv_neq; auto; intros ->; apply N; split; auto; right; exists a, l; simpl; auto.
        -- intros [C [H|(a' & l' & H & Hin)]]; apply N; split; auto. right. exists a', l'. simpl; auto.
      * intros a' l' Hin. destruct (in_dec iter_eq_dec (Lev a' l') its) as [Y|Y]; [auto|].
        destruct Hin as [H|Hin]; [|contradiction]. inversion H; subst a' l'.
        split; rewrite O3.
        -- unfold st2. rewrite setv_neq by congruence. apply setv_eq.
        -- intros [_ [H'|(a' & l' & [H'|H'] & Hin)]]; try discriminate. inversion H'; subst. contradiction.
        -- apply setv_eq.
        -- intros [_ [H'|(a' & l' & [H'|H'] & Hin)]]; try discriminate. inversion H'; subst. contradiction.
      * intros [H|H]; [discriminate|auto].
      * intros N. rewrite DN by (intros H; apply N; simpl; auto). unfold st2, st1. rewrite !setv_neq by congruence. auto.
Qed.

Lemma hd_L : In (hd pt0 L) L.
Proof. assert (N := loop_nonempty i e L LS). destruct L; [congruence|]. simpl; auto. Qed.

Lemma comp_top : forall a l, comp_at a l -> In (Lev a l) (p_iters (hd pt0 L)).
Proof.
  intros a l (Ha & F & K). apply (region_comp _ _ _ _ _ (ls_wf _ _ _ LS _ hd_L) K).
  apply (top_region i e L LS). apply reg_all; auto.
Qed.

Lemma dense_top : forall a l, In a (accesses e) -> find_level i a = Some l -> level_kind a l = KDense ->
  In (Lev a l) (p_locs (hd pt0 L)).
Proof.
  intros a l Ha F K. assert (X : In (Lev a l) (region (hd pt0 L))).
  { apply (top_region i e L LS). apply reg_all; auto. }
  apply region_In in X. destruct X as [[X _]|X]; auto.
  destruct (pt_lev _ _ _ hd_L X) as (_ & _ & K'). congruence.
Qed.

Lemma loop_lattice_id : getLoopLattice L = L.
Proof.
  assert (E : subLattice L (hd pt0 L) = L).
  { unfold subLattice. apply filter_all. intros p Hp. apply subset_incl.
    apply (iters_of_region i e L LS); auto; [apply hd_L|].
    destruct (ls_sound _ _ _ LS (fun _ => true) p Hp) as [_ I]; [apply applies_iff; auto|].
    eapply incl_tran; [exact I|]. apply (top_region i e L LS). }
  rewrite <- E at 1. rewrite (getLoopLattice_sub i e L LS _ hd_L). auto.
Qed.

Lemma merge_ok : forall st, agr st -> Inv 0 st ->
  exists st', exec (merge_lattice dimf i bound L e body) st st' /\ agr st' /\ Inv (dimf i) st'.
Proof.
  intros st AG I. unfold merge_lattice. rewrite loop_lattice_id. unfold init_iters.
  set (p := hd pt0 L).
  set (its := mergers p ++ filter (fun it => negb (mem it (mergers p))) (rangers p)).
  assert (ITS : forall it, In it its <-> In it (p_iters p)).
  { intros it. unfold its. rewrite in_app_iff, filter_In.
    destruct (mergers_lp p hd_L) as [MD MN].
    assert (RI : forall it, In it (rangers p) -> In it (p_iters p)).
    { intros it' H. destruct (rangers_lp p hd_L) as [[E1 E2]|(_ & E2 & _)]; rewrite E2 in H; [rewrite E1; auto|].
      apply filter_In in H. tauto. }
    destruct (hdim i e) eqn:HD.
    - assert (Din : In Dim (p_iters p)) by (apply has_dim_iff; unfold p; rewrite (ls_dim _ _ _ LS _ hd_L); auto).
      rewrite (MD eq_refl). split.
      + intros [[<-|[]]|[H _]]; auto.
      + intros H. destruct it as [|a l]; [left; simpl; auto|]. right. split; auto.
        destruct (rangers_lp p hd_L) as [[E1 E2]|(_ & E2 & _)].
        * rewrite E1 in H. destruct H as [H|[]]; discriminate.
        * rewrite E2. apply filter_In. auto.
    - destruct (MN eq_refl) as [E2 _]. rewrite E2. split; [intros [|[]]; auto|auto]. }
  destruct (init_ok its st) as (st1 & X1 & AG1 & (O1 & O2 & O3) & P & D & _); auto.
  { intros it H. apply ITS. auto. }
  destruct (points_loop L [] 0 st1) as (st2 & X2 & AG2 & I2); auto.
  - constructor; auto.
    + apply (INVC 0 st); auto. repeat split; auto. intros v Hv. apply O3. intros [H _]. congruence.
    + lia.
    + intros a l CA. destruct (P a l) as [E1 E2]; [apply ITS, comp_top; auto|].
      exists (lo a). assert (SL := sg_le _ _ (seg_ok a l CA)). split; auto. split; auto. split; [lia|]. intros; lia.
    + intros HD. apply D, ITS, has_dim_iff. unfold p. rewrite (ls_dim _ _ _ LS _ hd_L). auto.
    + intros p' [].
    + intros p' Hp' _ a l Hin. destruct (P a l) as [E1 _]; [apply ITS, comp_top; apply (pt_lev p'); auto|].
      exists (lo a). split; auto. intros; lia.
  - exists st2. split; auto. econstructor; eauto.
Qed.

(** *** Loops over a single iterator *)
Lemma zero_nothing : forall z (x : expr V), (forall a, In a (accesses x) -> z a = false) -> zero z x = Some x.
Proof.
  induction x; simpl; intros H; auto;
    try (rewrite IHx by auto; reflexivity);
    try (rewrite IHx1, IHx2 by (intros; apply H, in_app_iff; auto); reflexivity).
  rewrite H; auto.
Qed.

Notation single := (Block [enter; decl_locators (i :: bound) (p_locs (hd pt0 L)); inner e; exit]).

Lemma single_ok : forall c st, c < dimf i -> restrict i (hereat c) e = Some e -> Inv c st -> agr st ->
  env st (VIdx i) = Some c ->
  (forall a l, comp_at a l -> exists p, lo a <= p < hi a /\ cr a p = c /\ env st (VPos a l) = Some p) ->
  exists st', exec single st st' /\ agr st' /\ Inv (S c) st' /\
    env st' (VIdx i) = Some c /\
    (forall a l, comp_at a l -> env st' (VPos a l) = env st (VPos a l)).
Proof.
  intros c st C RS I AG EI CP.
  destruct (ENTER c st) as (st1 & X1 & CT & I1); auto; [congruence|].
  assert (AG1 : agr st1) by (intros v Hv; rewrite CT by (eapply prot_ctl; eauto); auto).
  assert (EI1 : env st1 (VIdx i) = Some c) by (rewrite CT; auto).
  assert (W := ls_wf _ _ _ LS _ hd_L).
  destruct (decl_locators_ok (accesses e) (p_locs (hd pt0 L)) c st1) as (st2 & X2 & (O1 & O2 & O3) & LP); auto.
  { intros it Hit. apply (wfp_loc _ _ _ W). auto. }
  { apply incl_refl. }
  { apply outer_idx; auto. }
  { apply outer_pos; auto. }
  assert (AG2 : agr st2).
  { intros v Hv. rewrite O3; [apply AG1; auto|]. intros (a & l & _ & m & Dm & ->).
    simpl in Hv. apply Nat.ltb_lt in Hv. lia. }
  assert (EI2 : env st2 (VIdx i) = Some c).
  { rewrite O3; auto. intros (a & l & _ & m & _ & H). discriminate. }
  assert (SP : forall a l, comp_at a l -> env st2 (VPos a l) = env st (VPos a l)).
  { intros a l CA. rewrite O3.
    - apply CT. auto.
    - intros (a' & l' & Hin & m & _ & H). inversion H; subst.
      destruct (wfp_loc _ _ _ W _ Hin) as (a1 & l1 & E1 & F1 & K1 & _).
      inversion E1; subst. destruct CA as (_ & F2 & K2). congruence. }
  destruct (INNER c e st2) as (st3 & X3 & AG3 & I3); auto.
  { apply (INVEC c st1); auto. repeat split; auto. intros v Hv. apply O3. intros (a & l & _ & m & _ & ->). discriminate. }
  { apply (visit_pos c e st2 (p_locs (hd pt0 L))); auto.
    - intros a l Ha F K. apply dense_top; auto.
    - intros a l _ CA. destruct (CP a l CA) as (q & Q1 & Q2 & Q3). exists q. rewrite SP; auto. }
  exists st3. split; [|split; [|split; [|split]]]; auto.
  - eapply block_cons; eauto. eapply block_cons; eauto.
  - intros v Hv. rewrite (AG3 v); [apply AG2; auto|]. apply prot_cons. auto.
  - rewrite AG3; auto. simpl. apply inb_In. simpl; auto.
  - intros a l CA. rewrite AG3; [apply SP; auto|]. simpl. destruct (comp_depth a l CA) as (_ & -> & _).
    apply Nat.ltb_lt. lia.
Qed.

Lemma for_dim : lat_iters L = [Dim] -> forall n c st, dimf i - c <= n -> c <= dimf i -> agr st -> Inv c st ->
  env st (VIdx i) = Some c ->
  exists st', exec (While (BLt (IVar (VIdx i)) (ICst (dimf i)))
                      (Seq single (Asg (VIdx i) (IAdd (IVar (VIdx i)) (ICst 1))))) st st' /\
              agr st' /\ Inv (dimf i) st'.
Proof.
  intros LI. assert (NC : forall a l, ~ comp_at a l).
  { intros a l CA. apply comp_top in CA. unfold lat_iters in LI. rewrite LI in CA. destruct CA as [H|[]]; discriminate. }
  assert (RS : forall c, restrict i (hereat c) e = Some e).
  { intros c. apply zero_nothing. intros a Ha. unfold absent, compressed.
    destruct (find_level i a) as [l|] eqn:F; auto. destruct (level_kind a l) eqn:K; auto.
    exfalso. apply (NC a l). split; auto. }
  assert (BASE : forall c st, c = dimf i -> agr st -> Inv c st -> env st (VIdx i) = Some c ->
    exists st', exec (While (BLt (IVar (VIdx i)) (ICst (dimf i)))
                      (Seq single (Asg (VIdx i) (IAdd (IVar (VIdx i)) (ICst 1))))) st st' /\
              agr st' /\ Inv (dimf i) st').
  { intros c st -> AG I EI. exists st. split; auto. apply X_while_end. simpl. rewrite EI, Nat.ltb_irrefl. auto. }
  induction n; intros c st N C AG I EI.
  - apply (BASE c); auto. lia.
  - destruct (Nat.eq_dec c (dimf i)) as [EQ|NE]; [apply (BASE c); auto|].
    destruct (single_ok c st) as (st1 & X1 & AG1 & I1 & EI1 & _); auto; [lia| |].
    { intros a l CA. exfalso. apply (NC a l CA). }
    set (st2 := setv st1 (VIdx i) (c + 1)).
    destruct (IHn (S c) st2) as (st' & X' & AG' & I'); try lia.
    + intros v Hv. unfold st2. rewrite setv_neq; [apply AG1; auto|]. intros ->. rewrite not_agr_idx in Hv. discriminate.
    + apply (INVC (S c) st1); auto. apply ctl_setv. auto.
    + unfold st2. rewrite setv_eq. f_equal. lia.
    + exists st'. split; auto. eapply X_while; [| |exact X'].
      * simpl. rewrite EI. f_equal. apply Nat.ltb_lt. lia.
      * econstructor; [exact X1|]. constructor. simpl. rewrite EI1. auto.
Qed.

Lemma for_pos : forall a l, lat_iters L = [Lev a l] -> forall n p c st, hi a - p <= n -> lo a <= p <= hi a ->
  c <= dimf i -> (forall q, lo a <= q < p -> cr a q < c) -> (forall q, p <= q < hi a -> c <= cr a q) ->
  agr st -> Inv c st -> env st (VPos a l) = Some p ->
  exists st', exec (While (BLt (IVar (VPos a l)) (pos_end a l))
                      (Seq (Seq (Asg (VIdx i) (crd_at a l)) single)
                           (Asg (VPos a l) (IAdd (IVar (VPos a l)) (ICst 1))))) st st' /\
              agr st' /\ Inv (dimf i) st'.
Proof.
  intros a l LI.
  assert (Hin : In (Lev a l) (p_iters (hd pt0 L))) by (unfold lat_iters in LI; rewrite LI; simpl; auto).
  assert (CA := pt_lev _ _ _ hd_L Hin). assert (SG := seg_ok a l CA). destruct (comp_depth a l CA) as (DP & _).
  assert (UN : forall a' l', comp_at a' l' -> a' = a /\ l' = l).
  { intros a' l' CA'. apply comp_top in CA'. unfold lat_iters in LI. rewrite LI in CA'. destruct CA' as [H|[]].
    inversion H; auto. }
  assert (HD : hdim i e = false).
  { rewrite <- (ls_dim _ _ _ LS _ hd_L). destruct (has_dim (hd pt0 L)) eqn:X; auto. apply has_dim_iff in X.
    unfold lat_iters in LI. rewrite LI in X. destruct X as [H|[]]; discriminate. }
  assert (YES : forall c, hereat c a = true -> restrict i (hereat c) e = Some e).
  { intros c Hc. apply zero_nothing. intros b Hb. unfold absent, compressed.
    destruct (find_level i b) as [lb|] eqn:F; auto. destruct (level_kind b lb) eqn:K; auto.
    destruct (UN b lb) as [-> ->]; [split; auto|]. rewrite Hc. auto. }
  assert (NO : forall c, hereat c a = false -> restrict i (hereat c) e = None).
  { intros c Hc. apply no_point_none. destruct (find (applies (hereat c)) L) as [p|] eqn:F; auto. exfalso.
    destruct (find_some _ _ F) as [Hp Ap]. assert (NE := wfp_ne _ _ _ (ls_wf _ _ _ LS _ Hp)).
    destruct (mergers_lp p Hp) as [_ MN]. destruct (MN HD) as [_ ND].
    destruct (p_iters p) as [|[|b lb] t] eqn:PI; [congruence|apply (ND Dim); simpl; auto|].
    assert (Hb : In (Lev b lb) (p_iters p)) by (rewrite PI; simpl; auto).
    destruct (UN b lb (pt_lev p b lb Hp Hb)) as [-> ->].
    rewrite applies_iff in Ap. rewrite (Ap a l Hb) in Hc. discriminate. }
  induction n; intros p c st N P C Q1 Q2 AG I EP.
  - assert (p = hi a) by lia. subst p. exists st. split; [|split; auto].
    + apply X_while_end. unfold pos_end in *. cbn [LoopIR.beval]. change (ieval st (IVar (VPos a l))) with (env st (VPos a l)).
      rewrite EP. assert (X := sg_end _ _ SG st AG). unfold pos_end in X. rewrite X. rewrite Nat.ltb_irrefl. auto.
    + apply (all_skip c); auto. intros k K. apply NO. destruct (hereat k a) eqn:X; auto.
      destruct (sg_here _ _ SG _ X) as (q & A1 & A2). specialize (Q1 q ltac:(lia)). lia.
  - destruct (Nat.eq_dec p (hi a)) as [->|NE]; [apply (IHn (hi a) c st); auto; lia|].
    set (c' := cr a p).
    assert (CD : c' < dimf i) by (apply (sg_dim _ _ SG); lia).
    assert (CC : c <= c') by (apply Q2; lia).
    set (st1 := setv st (VIdx i) c').
    assert (AG1 : agr st1).
    { intros v Hv. unfold st1. rewrite setv_neq; [apply AG; auto|]. intros ->. rewrite not_agr_idx in Hv. discriminate. }
    assert (HH : hereat c' a = true).
    { rewrite (here_iff a l p c'); auto; [apply Nat.eqb_refl|lia|].
      intros q Q. specialize (Q1 q Q). lia. }
    destruct (single_ok c' st1) as (st2 & X2 & AG2 & I2 & EI2 & SP); auto.
    { apply (INVC c' st); [apply ctl_setv; auto|]. replace c' with (c + (c' - c)) by lia.
      apply skip_range; auto; [lia|]. intros k K. apply NO. destruct (hereat k a) eqn:X; auto.
      destruct (sg_here _ _ SG _ X) as (q & A1 & A2).
      destruct (Nat.le_gt_cases p q).
      - assert (cr a p <= cr a q) by (apply (cr_mono a l); auto; lia). lia.
      - specialize (Q1 q ltac:(lia)). lia. }
    { unfold st1. apply setv_eq. }
    { intros a' l' CA'. destruct (UN a' l' CA') as [-> ->]. exists p. split; [lia|]. split; auto. }
    assert (EP2 : env st2 (VPos a l) = Some p).
    { rewrite SP by auto. unfold st1. rewrite setv_neq by congruence. auto. }
    set (st3 := setv st2 (VPos a l) (p + 1)).
    destruct (IHn (S p) (S c') st3) as (st' & X' & AG' & I'); try lia.
    + intros q Q. destruct (Nat.eq_dec q p) as [->|]; [unfold c'; lia|]. specialize (Q1 q ltac:(lia)). lia.
    + intros q Q. assert (cr a p < cr a q) by (apply (sg_sorted _ _ SG); lia). unfold c'. lia.
    + intros v Hv. unfold st3. rewrite setv_neq; [apply AG2; auto|]. intros ->. simpl in Hv.
      rewrite DP, Nat.ltb_irrefl in Hv. discriminate.
    + apply (INVC (S c') st2); auto. apply ctl_setv. auto.
    + unfold st3. rewrite setv_eq. f_equal. lia.
    + exists st'. split; auto. eapply X_while; [| |exact X'].
      * unfold pos_end in *. cbn [LoopIR.beval]. change (ieval st (IVar (VPos a l))) with (env st (VPos a l)).
        rewrite EP. assert (X := sg_end _ _ SG st AG). unfold pos_end in X. rewrite X.
        f_equal. apply Nat.ltb_lt. lia.
      * econstructor; [econstructor; [|exact X2]|].
        -- constructor. apply (sg_crd _ _ SG); auto. lia.
        -- constructor. simpl. rewrite EP2. auto.
Qed.

(** The loop rule. *)
Theorem loop_rule : forall st, agr st -> Inv 0 st ->
  exists st', exec (loop_code srt dimf i bound e enter inner exit) st st' /\ agr st' /\ Inv (dimf i) st'.
Proof.
  intros st AG I. unfold loop_code. fold L. rewrite loop_lattice_id.
  destruct (lat_iters L) as [|[|a l] [|y t]] eqn:LI; try (apply merge_ok; auto).
  - set (st1 := setv st (VIdx i) 0).
    destruct (for_dim LI (dimf i) 0 st1) as (st' & X & AG' & I'); try lia.
    + intros v Hv. unfold st1. rewrite setv_neq; [apply AG; auto|]. intros ->. rewrite not_agr_idx in Hv. discriminate.
    + apply (INVC 0 st); auto. apply ctl_setv. auto.
    + apply setv_eq.
    + exists st'. split; auto. unfold For. econstructor; [|exact X]. constructor. auto.
  - assert (Hin : In (Lev a l) (p_iters (hd pt0 L))) by (unfold lat_iters in LI; rewrite LI; simpl; auto).
    assert (CA := pt_lev _ _ _ hd_L Hin). assert (SG := seg_ok a l CA). destruct (comp_depth a l CA) as (DP & _).
    set (st1 := setv st (VPos a l) (lo a)). assert (SL := sg_le _ _ SG).
    destruct (for_pos a l LI (hi a) (lo a) 0 st1) as (st' & X & AG' & I'); try lia.
    + intros v Hv. unfold st1. rewrite setv_neq; [apply AG; auto|]. intros ->. simpl in Hv.
      rewrite DP, Nat.ltb_irrefl in Hv. discriminate.
    + apply (INVC 0 st); auto. apply ctl_setv. auto.
    + apply setv_eq.
    + exists st'. split; auto. unfold For. econstructor; [|exact X]. constructor. apply (sg_begin _ _ SG). auto.
Qed.
End Loop.
