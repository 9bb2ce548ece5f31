(** Proofs about AttrQuery.v: the coordinates a statement inserts, loop by loop,
    under scalar promotion and renaming. *)
From Coq Require Import List Arith ZArith Bool Lia.
Import ListNotations.
From Verif Require Import Notation NotationSpec NotationProofs Transform TransformSpec PromoteProofs PromoteSem AttrQuery AttrQuerySpec.
Local Open Scope nat_scope.
Notation stmt := (nstmt Z).

Lemma mem_in : forall i l, mem i l = true <-> In i l.
Proof.
  intros. unfold mem. rewrite existsb_exists. split; [intros (x & I & E); apply Nat.eqb_eq in E; subst; auto|intros I; exists i; split; auto; apply Nat.eqb_refl].
Qed.
Lemma mem_out : forall i l, mem i l = false <-> ~ In i l.
Proof. intros. rewrite <- mem_in. destruct (mem i l); intuition congruence. Qed.

Section Hits.
Variable dim : ivar -> nat.
Notation mark_run := (mark_run dim).

(** The valuations at which the assignment to the result is executed. *)
Fixpoint hits (s : stmt) (r : val) (M : marks) : list val :=
  match s with
  | NAssign _ _ _ e => if present M r e then [r] else []
  | NForall _ i b =>
      fst (fold_left (fun HM c => (fst HM ++ hits b (ext r i c) (snd HM), mark_run b (ext r i c) (snd HM)))
                     (seq 0 (dim i)) ([], M))
  | NWhere c p => hits c r (mark_run p r (unmark (res p) M))
  end.

(** One induction principle for loops. *)
Section Loop.
Variables (b : stmt) (i : ivar) (r : val).
Definition lhits (cs : list nat) (HM : list val * marks) : list val * marks :=
  fold_left (fun HM c => (fst HM ++ hits b (ext r i c) (snd HM), mark_run b (ext r i c) (snd HM))) cs HM.
Lemma lhits_cons : forall c cs H M, lhits (c :: cs) (H, M) = lhits cs (H ++ hits b (ext r i c) M, mark_run b (ext r i c) M).
Proof. reflexivity. Qed.
Lemma lhits_app : forall cs H M, fst (lhits cs (H, M)) = H ++ fst (lhits cs ([], M)).
Proof.
  induction cs as [|c cs IH]; intros H M; [cbn; rewrite app_nil_r; auto|].
  rewrite !lhits_cons. rewrite IH, (IH ([] ++ _)). rewrite app_assoc. auto.
Qed.
Lemma lhits_snd : forall cs H M, snd (lhits cs (H, M)) = fold_left (fun M c => mark_run b (ext r i c) M) cs M.
Proof. induction cs as [|c cs IH]; intros; [auto|]. rewrite lhits_cons. apply IH. Qed.
Lemma lhits_step : forall c cs M, fst (lhits (c :: cs) ([], M)) = hits b (ext r i c) M ++ fst (lhits cs ([], mark_run b (ext r i c) M)).
Proof. intros. rewrite lhits_cons, lhits_app. auto. Qed.
End Loop.
Lemma hits_forall : forall an i b r M, hits (NForall an i b) r M = fst (lhits b i r (seq 0 (dim i)) ([], M)).
Proof. reflexivity. Qed.

Lemma fold_inv : forall (A : Type) (P : A -> Prop) (f : A -> nat -> A) l a,
  P a -> (forall a c, In c l -> P a -> P (f a c)) -> P (fold_left f l a).
Proof. induction l; intros a0 H0 HS; cbn; auto. apply IHl; [apply HS; [left; auto|auto]|intros; apply HS; [right; auto|auto]]. Qed.

Lemma unmark_other : forall t M t' x, t' <> t -> unmark t M t' x = M t' x.
Proof. intros. unfold unmark. destruct (Nat.eqb_spec t' t); congruence. Qed.
Lemma mark_other : forall t x M t' y, t' <> t -> mark M t x t' y = M t' y.
Proof. intros. unfold mark. destruct (Nat.eqb_spec t' t); [congruence|auto]. Qed.

(** Only the result and the temporaries are written. *)
Lemma mark_off : forall s r M t x, ~ In t (res s :: temps s) -> mark_run s r M t x = M t x.
Proof.
  induction s as [t' vs op e|an i b IH|c IHc p IHp]; intros r M t x N; cbn [AttrQuerySpec.mark_run res temps] in *.
  - destruct (present M r e); auto. apply mark_other. cbn in N. intuition congruence.
  - apply (fold_inv _ (fun M' => M' t x = M t x)); auto. intros M' k _ E. rewrite IH; auto.
  - cbn in N. rewrite in_app_iff in N. rewrite IHc, IHp by (cbn; tauto). apply unmark_other. intuition congruence.
Qed.

(** The result's coordinates are those of the hits. *)
Definition hit_at (vs : list ivar) (x : list nat) (r : val) : bool := list_eqb (map r vs) x.
Lemma hits_mark : forall s r M x, ~ In (res s) (temps s) ->
  mark_run s r M (res s) x = M (res s) x || existsb (hit_at (lhs s) x) (hits s r M).
Proof.
  induction s as [t' vs op e|an i b IH|c IHc p IHp]; intros r M x N; cbn [AttrQuerySpec.mark_run res temps lhs] in *.
  - cbn [hits]. destruct (present M r e); cbn; [|rewrite orb_false_r; auto].
    unfold mark, hit_at. rewrite Nat.eqb_refl. cbn [andb].
    destruct (list_eqb_spec x (map r vs)), (list_eqb_spec (map r vs) x); try congruence; destruct (M t' x); auto.
  - rewrite hits_forall. revert M. induction (seq 0 (dim i)) as [|k l IHl]; intros M.
    + cbn. rewrite orb_false_r. auto.
    + cbn [fold_left]. rewrite lhits_cons, lhits_app. cbn [app]. rewrite existsb_app. rewrite IHl, IH by auto.
      destruct (M (res b) x), (existsb (hit_at (lhs b) x) (hits b (ext r i k) M)); auto.
  - cbn [hits]. cbn in N. rewrite in_app_iff in N. rewrite IHc by tauto. f_equal.
    rewrite mark_off by (cbn; tauto). rewrite unmark_other; auto.
Qed.

(** Hits differ from the valuation outside in the variables of the loops only. *)
Lemma hits_spine : forall s r M r', In r' (hits s r M) ->
  (forall j, ~ In j (spine s) -> r' j = r j) /\ (forall j, In j (spine s) -> r' j < dim j).
Proof.
  induction s as [t' vs op e|an i b IH|c IHc p IHp]; intros r M r' I; cbn [spine] in *.
  - cbn [hits] in I. destruct (present M r e); [destruct I as [<-|[]]|destruct I]. split; [auto|intros j []].
  - rewrite hits_forall in I. revert M I. assert (B : forall k, In k (seq 0 (dim i)) -> k < dim i) by (intros k K; apply in_seq in K; lia).
    induction (seq 0 (dim i)) as [|k l IHl]; intros M I; [destruct I|].
    rewrite lhits_cons, lhits_app in I. apply in_app_iff in I. destruct I as [I|I].
    + apply IH in I. destruct I as [Io Ii]. assert (r' i < dim i).
      { destruct (in_dec Nat.eq_dec i (spine b)); auto. rewrite Io, ext_same by auto. apply B. left; auto. }
      split; intros j J.
      * rewrite Io by (intro; apply J; right; auto). apply ext_other. intro; apply J; left; auto.
      * destruct J as [<-|J]; auto.
    + apply (IHl (fun k K => B k (or_intror K)) _ I).
  - cbn [hits] in I. eapply IHc; eauto.
Qed.
Lemma hits_loop_var : forall an i b r M r', ~ In i (spine b) -> In r' (hits (NForall an i b) r M) -> r' i < dim i.
Proof. intros. apply (hits_spine _ _ _ _ H0). left; auto. Qed.

(** Different hits have different coordinates, if the coordinates contain the
    variables of all loops. *)
Lemma nodup_app : forall (A : Type) (l l' : list A), NoDup l -> NoDup l' -> (forall x, In x l -> ~ In x l') -> NoDup (l ++ l').
Proof.
  induction l; cbn; intros l' H H' D; auto. inversion H; subst. constructor; auto.
  rewrite in_app_iff. intros [?|?]; [auto|]. eapply D; [left; reflexivity|auto].
Qed.
Lemma hits_nodup : forall s vs, NoDup (spine s) -> (forall v, In v (spine s) -> In v vs) ->
  forall r M, NoDup (map (fun r' => map r' vs) (hits s r M)).
Proof.
  induction s as [t' vs' op e|an i b IH|c IHc p IHp]; intros vs ND SUB r M; cbn [spine] in *.
  - cbn [hits]. destruct (present M r e); cbn; constructor; auto. constructor.
  - inversion ND as [|? ? Ni NDb]; subst. rewrite hits_forall.
    assert (G : forall l M, NoDup l -> NoDup (map (fun r' => map r' vs) (fst (lhits b i r l ([], M)))) /\
                forall r', In r' (fst (lhits b i r l ([], M))) -> In (r' i) l).
    { induction l as [|k l IHl]; intros M0 NL; [split; [constructor|intros r' []]|].
      inversion NL; subst. rewrite lhits_cons, lhits_app. cbn [app]. destruct (IHl (mark_run b (ext r i k) M0) H2) as [A B].
      assert (C : forall r', In r' (hits b (ext r i k) M0) -> r' i = k).
      { intros r' I. apply hits_spine in I. destruct I as [Io _]. rewrite Io, ext_same; auto. }
      split.
      - rewrite map_app. apply nodup_app; auto. { apply IH; auto. intros; apply SUB; right; auto. }
        intros x I J. apply in_map_iff in I. destruct I as (r1 & <- & I1). apply in_map_iff in J. destruct J as (r2 & E & I2).
        apply C in I1. apply B in I2. assert (r2 i = r1 i). { assert (Iv : In i vs) by (apply SUB; left; auto). clear - E Iv. induction vs; [destruct Iv|]. cbn in E. injection E; intros. destruct Iv as [->|]; auto. }
        congruence.
      - intros r' I. apply in_app_iff in I. destruct I as [I|I]; [left; symmetry; auto|right; auto]. }
    apply G. apply seq_NoDup.
  - cbn [hits]. auto.
Qed.

(** Only the operands matter. *)
Lemma present_ext : forall (bad : tensor -> Prop) e r M M', (forall t, In t (reads e) -> ~ bad t) ->
  (forall t x, ~ bad t -> M t x = M' t x) -> present M r e = present M' r e.
Proof.
  intros bad e r M M'. induction e; intros R E; cbn [present reads] in *; auto; try (rewrite IHe1, IHe2; auto; intros; apply R; apply in_app_iff; auto).
  apply E. apply R. left; auto.
Qed.
Lemma run_marks_ext : forall (bad : tensor -> Prop) s, (forall t, In t (rhs_reads s) -> ~ bad t) ->
  forall r (M M' : marks), (forall t x, ~ bad t -> M t x = M' t x) ->
  hits s r M = hits s r M' /\ (forall t x, ~ bad t -> mark_run s r M t x = mark_run s r M' t x).
Proof.
  intros bad. induction s as [t' vs op e|an i b IH|c IHc p IHp]; intros R r M M' E; cbn [rhs_reads AttrQuerySpec.mark_run] in *.
  - cbn [hits]. rewrite (present_ext bad e r M M' R E). split; auto. intros t x B.
    destruct (present M' r e); auto. unfold mark. destruct (_ && _); auto.
  - rewrite !hits_forall. cut (forall l (M M' : marks), (forall t x, ~ bad t -> M t x = M' t x) ->
      fst (lhits b i r l ([], M)) = fst (lhits b i r l ([], M')) /\
      forall t x, ~ bad t -> fold_left (fun M c => mark_run b (ext r i c) M) l M t x = fold_left (fun M c => mark_run b (ext r i c) M) l M' t x).
    { intros G. apply G; auto. }
    clear M M' E. induction l as [|k l IHl]; intros M M' E; [cbn; auto|].
    rewrite !lhits_step. cbn [fold_left].
    destruct (IH R (ext r i k) M M' E) as [H1 H2]. destruct (IHl _ _ H2) as [H3 H4]. rewrite H1, H3. auto.
  - cbn [hits]. assert (E1 : forall t x, ~ bad t -> unmark (res p) M t x = unmark (res p) M' t x).
    { intros t x B. unfold unmark. destruct (_ =? _); auto. }
    destruct (IHp (fun t I => R t (in_or_app _ _ _ (or_introl I))) r _ _ E1) as [_ H2].
    exact (IHc (fun t I => R t (in_or_app _ _ _ (or_intror I))) r _ _ H2).
Qed.

(** *** Scalar promotion *)
Lemma subst_hits : forall A vs w (s : stmt), res s = A -> lhs s = vs -> ~ In A (temps s) ->
  ~ In A (rhs_reads s) -> ~ In w (rhs_reads s) -> w <> A ->
  forall r (M M' : marks), (forall t x, t <> A -> t <> w -> M t x = M' t x) ->
  hits (subst_lhs (A, vs) w s) r M' = hits s r M /\
  (forall t x, t <> A -> t <> w -> mark_run (subst_lhs (A, vs) w s) r M' t x = mark_run s r M t x) /\
  (forall x, mark_run (subst_lhs (A, vs) w s) r M' A x = M' A x).
Proof.
  intros A vs w. induction s as [t' vs' op e|an i b IH|c IHc p IHp]; intros HA HV N RA RW WA r M M' E; cbn [subst_lhs res lhs temps rhs_reads] in *.
  - subst. rewrite acc_eqb_refl. cbn [hits AttrQuerySpec.mark_run].
    rewrite (present_ext (fun t => t = A \/ t = w) e r M' M).
    2: { intros t I [->| ->]; auto. } 2: { intros t x B. symmetry. apply E; intro; apply B; auto. }
    split; auto. split; [|intros x; destruct (present M r e); auto; rewrite mark_other; auto].
    intros t x T1 T2. destruct (present M r e); [rewrite !mark_other by auto|]; symmetry; auto.
  - rewrite !hits_forall. cbn [AttrQuerySpec.mark_run].
    cut (forall l (M M' : marks), (forall t x, t <> A -> t <> w -> M t x = M' t x) ->
      fst (lhits (subst_lhs (A, vs) w b) i r l ([], M')) = fst (lhits b i r l ([], M)) /\
      (forall t x, t <> A -> t <> w -> fold_left (fun M c => mark_run (subst_lhs (A, vs) w b) (ext r i c) M) l M' t x =
                                        fold_left (fun M c => mark_run b (ext r i c) M) l M t x) /\
      (forall x, fold_left (fun M c => mark_run (subst_lhs (A, vs) w b) (ext r i c) M) l M' A x = M' A x)).
    { intros G. apply G; auto. }
    clear M M' E. induction l as [|k l IHl]; intros M M' E; [cbn; split; auto; split; auto; intros; symmetry; auto|].
    rewrite !lhits_step. cbn [fold_left].
    destruct (IH HA HV N RA RW WA (ext r i k) M M' E) as (H1 & H2 & H3).
    destruct (IHl (mark_run b (ext r i k) M) (mark_run (subst_lhs (A, vs) w b) (ext r i k) M')) as (H4 & H5 & H6). { intros; symmetry; auto. }
    rewrite H1, H4. split; auto. split; auto. intros x. rewrite H6. auto.
  - rewrite in_app_iff in RA, RW. cbn in N. rewrite in_app_iff in N.
    rewrite (subst_id (fun x => x)) with (s := p) by (cbn; tauto).
    assert (E1 : forall t x, ~ (t = A \/ t = w) -> mark_run p r (unmark (res p) M) t x = mark_run p r (unmark (res p) M') t x).
    { apply run_marks_ext; [intros t I [->| ->]; tauto|]. intros t x B. unfold unmark. destruct (_ =? _); auto. }
    destruct (IHc HA HV (fun I => N (or_intror (or_intror I))) (fun I => RA (or_intror I)) (fun I => RW (or_intror I)) WA r
      (mark_run p r (unmark (res p) M)) (mark_run p r (unmark (res p) M'))) as (H1 & H2 & H3). { intros; apply E1; tauto. }
    cbn [hits AttrQuerySpec.mark_run]. split; auto. split; auto. intros x. rewrite H3.
    rewrite mark_off by (cbn; tauto). rewrite unmark_other; auto.
Qed.

Section Promote.
Variable tmp : tensor -> tensor.
Hypothesis inj : forall A B, tmp A = tmp B -> A = B.
Notation prom := (prom true false tmp).
Definition wf1 (s : stmt) : Prop := NoDup (res s :: temps s) /\ (forall A, ~ In (tmp A) (tensors s)) /\
  every (fun p => sums_or_assigns p /\ not_own_operand p) s.
Lemma wf1_forall : forall an i b, wf1 (NForall an i b) -> wf1 b.
Proof.
  intros an i b (ND & TF & (SA & NO) & PR). unfold not_own_operand, sums_or_assigns in *.
  split; auto. split; auto. split; auto. unfold not_own_operand, sums_or_assigns. cbn [res rhs_reads op_of spine lhs] in *.
  split; auto. destruct SA as [?|[? H]]; auto. right. split; auto. intros; apply H; right; auto.
Qed.
Lemma wf1_where : forall c p, wf1 (NWhere c p) -> wf1 c /\ wf1 p /\ ~ In (res p) (res c :: temps c) /\ ~ In (res c) (res p :: temps p) /\ ~ In (res p) (temps p)
  /\ (forall t, In t (temps p) -> ~ In t (res c :: temps c)).
Proof.
  intros c p (ND & TF & (SA & NO) & PR). unfold not_own_operand, sums_or_assigns in *. cbn [res temps rhs_reads op_of spine lhs tensors producers] in *.
  inversion ND as [|? ? N1 ND1]; subst. inversion ND1 as [|? ? N2 ND2]; subst. rewrite in_app_iff in N2. cbn [In] in N1. rewrite in_app_iff in N1.
  assert (D : forall t, In t (temps p) -> ~ In t (res c :: temps c)).
  { intros t I [<-|J]; [tauto|]. clear - ND2 I J. induction (temps p) as [|a l IH]; [destruct I|]. cbn in ND2. inversion ND2; subst.
    destruct I as [->|I]; auto. apply H1. apply in_app_iff. auto. }
  assert (T : forall A, ~ In (tmp A) (tensors c) /\ ~ In (tmp A) (tensors p)).
  { intros A. specialize (TF A). unfold tensors in *. cbn [res temps rhs_reads In] in *. rewrite !in_app_iff in *. cbn [In] in *. rewrite in_app_iff in *. tauto. }
  split; [|split; [|split; [|split; [|split]]]].
  - split; [constructor; [tauto|eapply nodup_r; eauto]|]. split; [intros A; apply T|].
    split; [split; [exact SA|intro I; apply NO; apply in_app_iff; auto]|]. intros q I. apply PR. right. apply in_app_iff. auto.
  - split; [constructor; [tauto|eapply nodup_l; eauto]|]. split; [intros A; apply T|].
    split; [apply (PR p); left; auto|]. intros q I. apply PR. right. apply in_app_iff. auto.
  - intros [E|E]; [apply N1; left; auto|tauto].
  - intros [E|E]; [apply N1; left; auto|tauto].
  - tauto.
  - exact D.
Qed.

Definition is_tmp (t : tensor) : Prop := exists A, t = tmp A.
Lemma prom_marks : forall (s : stmt) hd idx, wf1 s -> no_shadow idx s ->
  forall r (M M' : marks), (forall t x, ~ is_tmp t -> M t x = M' t x) ->
  (hd = true -> hits (prom hd idx s) r M' = hits s r M) /\
  (forall t x, ~ is_tmp t -> mark_run (prom hd idx s) r M' t x = mark_run s r M t x).
Proof.
  assert (BAD : forall (s : stmt), wf1 s -> forall t, In t (rhs_reads s) -> ~ is_tmp t).
  { intros s (_ & TF & _) t I (A & ->). apply (TF A). unfold tensors. right. apply in_app_iff. auto. }
  induction s as [t' vs op e|an i b IH|c IHc p IHp]; intros hd idx WF NS r M M' E.
  - cbn [PromoteProofs.prom hits AttrQuerySpec.mark_run]. rewrite (present_ext is_tmp e r M' M).
    2: { apply (BAD _ WF). } 2: { intros; symmetry; auto. }
    split; auto. intros t x B. destruct (present M r e); [unfold mark; destruct (_ && _); auto|]; symmetry; auto.
  - cbn [no_shadow] in NS. destruct NS as [Ni NS]. pose proof (wf1_forall _ _ _ WF) as WB. cbn [PromoteProofs.prom].
    assert (L : forall hd' l (M M' : marks), (forall t x, ~ is_tmp t -> M t x = M' t x) ->
      (hd' = true -> fst (lhits (prom hd' (i :: idx) b) i r l ([], M')) = fst (lhits b i r l ([], M))) /\
      (forall t x, ~ is_tmp t -> fold_left (fun M c => mark_run (prom hd' (i :: idx) b) (ext r i c) M) l M' t x =
                                  fold_left (fun M c => mark_run b (ext r i c) M) l M t x)).
    { intros hd'. clear M M' E. induction l as [|k l IHl]; intros M M' E; [cbn; split; auto; intros; symmetry; auto|].
      rewrite !lhits_step. cbn [fold_left].
      destruct (IH hd' (i :: idx) WB NS (ext r i k) M M' E) as (H1 & H2).
      destruct (IHl (mark_run b (ext r i k) M) (mark_run (prom hd' (i :: idx) b) (ext r i k) M')) as (H3 & H4). { intros; symmetry; auto. }
      split; auto. intros HD. rewrite H1, H3; auto. }
    destruct (negb hd && cond false idx b) eqn:C.
    + apply andb_true_iff in C. destruct C as [Ch C]. apply negb_true_iff in Ch. subst hd. split; [congruence|].
      rewrite C. cbn [orb]. unfold cond in C. apply andb_true_iff in C. destruct C as [_ C]. rewrite subset_spec in C.
      set (b' := prom true (i :: idx) b). set (A := res b). set (w := tmp A).
      pose proof WB as (ND & TF & (SA & NO) & PR). unfold not_own_operand in NO. inversion ND as [|? ? NA NDt]; subst.
      assert (TF' : forall B, ~ In (tmp B) (res b :: temps b)).
      { intros B I. apply (TF B). unfold tensors. destruct I as [I|I]; [left; auto|right; apply in_app_iff; auto]. }
      destruct (prom_names tmp (fun _ x => x) dim true false b ND TF' true (i :: idx)) as (PN1 & PN2 & PN3).
      fold b' in PN1, PN2, PN3. cbn [own] in *. 
      assert (Aw : w <> A). { intro Ew. apply (TF' A). left. symmetry. exact Ew. }
      assert (NotTmp : forall t, In t (res b :: temps b) -> ~ In t (map tmp (temps b))).
      { intros t I J. apply in_map_iff in J. destruct J as (B & <- & _). apply (TF' B); auto. }
      assert (HA' : res b' = A) by apply prom_res. assert (HV' : lhs b' = lhs b) by apply prom_lhs.
      assert (N' : ~ In A (temps b')). { intro I. apply PN2 in I. destruct I as [I|I]; auto. eapply NotTmp; eauto. left; auto. }
      assert (RA' : ~ In A (rhs_reads b')). { intro I. apply PN1 in I. destruct I as [I|I]; auto. eapply NotTmp; eauto. left; auto. }
      assert (RW' : ~ In w (rhs_reads b')).
      { intro I. apply PN1 in I. destruct I as [I|I]. { apply (TF A). unfold tensors. right. apply in_app_iff. auto. }
        apply in_map_iff in I. destruct I as (B & EB & IB). apply inj in EB. subst B. auto. }
      destruct (subst_hits A (lhs b) w (NForall an i b') HA' HV' N' RA' RW' Aw r (unmark w M') (unmark w M')) as (SH & SM & SA'); auto.
      cbn [subst_lhs] in SH, SM, SA'.
      set (P := NForall an i (subst_lhs (A, lhs b) w b')) in *.
      assert (RP : res P = w). { unfold P. cbn [res]. apply (subst_facts (fun x => x)); auto. }
      assert (TP : ~ In w (temps P)).
      { unfold P. cbn [temps]. rewrite (proj1 (proj2 (subst_facts (fun x => x) A (lhs b) w b' HA' HV' N'))).
        intro I. apply PN2 in I. destruct I as [I|I]; [apply (TF' A); right; auto|]. apply in_map_iff in I. destruct I as (B & EB & IB). apply inj in EB. subst B. auto. }
      assert (E1 : forall t x, ~ is_tmp t -> M t x = unmark w M' t x). { intros t x B. rewrite unmark_other; auto. intros ->. apply B. exists A; auto. }
      destruct (L true (seq 0 (dim i)) M (unmark w M') E1) as [L1 L2]. specialize (L1 eq_refl). fold b' in L1, L2.
      cbn [hits AttrQuerySpec.mark_run] in SH. change (hits P r (unmark w M') = fst (lhits b' i r (seq 0 (dim i)) ([], unmark w M'))) in SH.
      rewrite L1 in SH.
      assert (WM : mark_run P r (unmark w M') w [] = negb (is_nil (fst (lhits b i r (seq 0 (dim i)) ([], M))))).
      { pose proof (hits_mark P r (unmark w M') [] ltac:(rewrite RP; exact TP)) as HM. rewrite RP in HM. rewrite HM, SH.
        unfold unmark at 1. rewrite Nat.eqb_refl. cbn [orb].
        assert (LP : lhs P = []). { unfold P. cbn [lhs]. clear - HA' HV' N'. revert HA' HV' N'. generalize (lhs b) as vs. intros vs.
          induction b' as [t0 vs0 op0 e0|an0 i0 b0 IH0|c0 IHc0 p0 IHp0]; intros; cbn [subst_lhs res lhs temps] in *; auto.
          - subst. rewrite acc_eqb_refl. auto.
          - apply IHc0; auto. cbn in N'. rewrite in_app_iff in N'. tauto. }
        rewrite LP. destruct (fst (lhits b i r (seq 0 (dim i)) ([], M))); auto. }
      intros t x B. cbn [AttrQuerySpec.mark_run present map]. fold P. rewrite RP. rewrite WM.
      set (H := fst (lhits b i r (seq 0 (dim i)) ([], M))) in *.
      assert (BW : t <> w) by (intros ->; apply B; exists A; auto).
      destruct (Nat.eq_dec t A) as [->|NT].
      * pose proof (hits_mark (NForall an i b) r M x NA) as HM. cbn [res lhs AttrQuerySpec.mark_run] in HM. fold A in HM. rewrite HM.
        rewrite hits_forall. fold H.
        assert (EX : existsb (hit_at (lhs b) x) H = negb (is_nil H) && list_eqb (map r (lhs b)) x).
        { assert (SAME : forall r', In r' H -> map r' (lhs b) = map r (lhs b)).
          { intros r' I. change H with (hits (NForall an i b) r M) in I. apply hits_spine in I. destruct I as [Io _]. apply map_ext_in. intros v Iv. apply Io.
            cbn [spine]. intros [->|J]; [apply Ni; auto|]. eapply shadow_spine with (idx := i :: idx); eauto. right; auto. }
          clear - SAME. destruct H as [|r0 H]; auto. cbn [is_nil negb andb].
          destruct (existsb (hit_at (lhs b) x) (r0 :: H)) eqn:Q.
          - apply existsb_exists in Q. destruct Q as (r' & I & Q). unfold hit_at in Q. rewrite SAME in Q; auto.
          - cbn [existsb] in Q. apply orb_false_iff in Q. destruct Q as [Q _]. unfold hit_at in Q. rewrite SAME in Q; [auto|left; auto]. }
        rewrite EX. assert (MA : forall y, mark_run P r (unmark w M') A y = M A y).
        { intros y. rewrite SA'. rewrite unmark_other; auto. symmetry; auto. }
        destruct (is_nil H); cbn [negb andb].
        -- rewrite MA, orb_false_r. auto.
        -- unfold mark. rewrite Nat.eqb_refl. cbn [andb].
           destruct (list_eqb_spec x (map r (lhs b))), (list_eqb_spec (map r (lhs b)) x); try congruence; rewrite ?MA; destruct (M A x); auto.
      * assert (MT : mark_run P r (unmark w M') t x = fold_left (fun M c => mark_run b (ext r i c) M) (seq 0 (dim i)) M t x).
        { rewrite SM; auto. cbn [AttrQuerySpec.mark_run]. apply L2; auto. }
        destruct (negb (is_nil H)); [rewrite mark_other by auto|]; exact MT.
    + split.
      * intros ->. cbn [orb]. rewrite !hits_forall. apply L; auto.
      * cbn [AttrQuerySpec.mark_run]. apply L; auto.
  - cbn [no_shadow] in NS. destruct NS as [NSc NSp]. destruct (wf1_where _ _ WF) as (Wc & Wp & _).
    cbn [PromoteProofs.prom]. cbn [hits AttrQuerySpec.mark_run]. rewrite prom_res.
    assert (E1 : forall t x, ~ is_tmp t -> mark_run p r (unmark (res p) M) t x = mark_run (prom false idx p) r (unmark (res p) M') t x).
    { intros t x B. symmetry. apply (proj2 (IHp false idx Wp NSp r (unmark (res p) M) (unmark (res p) M')
        ltac:(intros; unfold unmark; destruct (_ =? _); auto))); auto. }
    exact (IHc hd idx Wc NSc r _ _ E1).
Qed.
End Promote.
End Hits.
