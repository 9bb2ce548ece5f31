(** Scalar promotion keeps the result (C27). *)
From Coq Require Import List Arith Lia Bool Ring_theory Ring Permutation.
Import ListNotations.
From Verif Require Import IndexExpr Eval Notation NotationSpec NotationProofs NotationRun NotationConv NotationConc Transform TransformSpec PromoteProofs.
Local Open Scope nat_scope.

Section S.
Context {V : Type}.
Variable tmp : tensor -> tensor.
Notation stmt := (nstmt V).

(** *** Substituting the left-hand side *)
Lemma subst_id : forall A vs t (s : stmt), ~ In A (res s :: temps s) -> subst_lhs (A, vs) t s = s.
Proof.
  intros A vs t. induction s as [t' vs' op e|an i b IH|c IHc p IHp]; intros N; cbn [subst_lhs res temps] in *.
  - destruct (acc_eqb_spec (t', vs') (A, vs)) as [E|]; auto. exfalso. apply N. cbn. left. congruence.
  - rewrite IH; auto.
  - cbn in N. rewrite in_app_iff in N. rewrite IHc, IHp; auto; cbn; tauto.
Qed.
Lemma subst_facts : forall A vs t (s : stmt), res s = A -> lhs s = vs -> ~ In A (temps s) ->
  res (subst_lhs (A, vs) t s) = t /\ temps (subst_lhs (A, vs) t s) = temps s /\ rhs_reads (subst_lhs (A, vs) t s) = rhs_reads s /\
  op_of (subst_lhs (A, vs) t s) = op_of s.
Proof.
  intros A vs t. induction s as [t' vs' op e|an i b IH|c IHc p IHp]; intros HA HV N; cbn [subst_lhs res lhs temps rhs_reads op_of] in *.
  - subst. rewrite acc_eqb_refl. auto.
  - auto.
  - assert (P : subst_lhs (A, vs) t p = p) by (apply subst_id; cbn in N |- *; rewrite in_app_iff in N; tauto). rewrite P.
    destruct (IHc HA HV) as (-> & -> & -> & ->); auto. cbn in N. rewrite in_app_iff in N. tauto.
Qed.

Variable R : ring_ops V.
Hypothesis RT : ring_theory (r0 R) (r1 R) (radd R) (rmul R) (rsub R) (ropp R) eq.
Variable fn : nat -> V -> V.
Variable dv : V -> V -> V.
Variable dim : ivar -> nat.
Add Ring Rr6 : RT.
Notation "0r" := (r0 R). Notation "a +r b" := (radd R a b) (at level 50, left associativity).
Notation ev := (neval R fn dv dim).
Notation run := (run R fn dv dim).
Notation ups := (ups R fn dv dim).
Notation store := (@store V).

Lemma ups_subst : forall A vs t (s : stmt), res s = A -> lhs s = vs -> ~ In A (temps s) -> (forall v, In v vs -> ~ In v (spine s)) ->
  forall r T, ups (subst_lhs (A, vs) t s) r T [] = ups s r T (map r vs).
Proof.
  intros A vs t. induction s as [t' vs' op e|an i b IH|c IHc p IHp]; intros HA HV N SP r T; cbn [subst_lhs res lhs temps spine] in *.
  - subst. rewrite acc_eqb_refl. cbn. rewrite list_eqb_refl. auto.
  - cbn [NotationRun.ups]. rewrite !flat_map_concat_map. f_equal. apply map_ext_in. intros k _.
    rewrite IH; auto. 2: { intros v Iv J. apply (SP v Iv). right; auto. }
    f_equal. apply map_ext_in. intros v Iv. apply ext_other. intro; subst v. apply (SP i Iv). left; auto.
  - assert (P : subst_lhs (A, vs) t p = p) by (apply subst_id; cbn in N |- *; rewrite in_app_iff in N; tauto). rewrite P.
    cbn [NotationRun.ups]. apply IHc; auto. cbn in N. rewrite in_app_iff in N. tauto.
Qed.
Lemma ups_miss : forall (s : stmt), (forall v, In v (lhs s) -> ~ In v (spine s)) ->
  forall r T x, x <> map r (lhs s) -> ups s r T x = [].
Proof.
  induction s as [t' vs' op e|an i b IH|c IHc p IHp]; intros SP r T x NE; cbn [lhs spine NotationRun.ups] in *.
  - destruct (list_eqb_spec x (map r vs')); congruence.
  - apply flat_map_nil. intros k _. apply IH. { intros v Iv J. apply (SP v Iv). right; auto. }
    intros ->. apply NE. apply map_ext_in. intros v Iv. apply ext_other. intro; subst v. apply (SP i Iv). left; auto.
  - auto.
Qed.
Lemma shadow_spine : forall (s : stmt) idx, no_shadow idx s -> forall v, In v idx -> ~ In v (spine s).
Proof.
  induction s as [t' vs' op e|an i b IH|c IHc p IHp]; intros idx N v I; cbn [spine no_shadow] in *; auto.
  - destruct N as [Ni N]. intros [->|J]; [auto|]. eapply IH; eauto. right; auto.
  - destruct N. eauto.
Qed.

Variables whole scalars : bool.
Notation prom := (prom whole scalars tmp).
Notation cond := (@cond V scalars).

Lemma prom_res : forall (s : stmt) hd idx, res (prom hd idx s) = res s.
Proof.
  induction s as [t' vs' op e|an i b IH|c IHc p IHp]; intros hd idx; cbn [PromoteProofs.prom res]; auto.
  destruct (negb hd && cond idx b); cbn [res]; auto.
Qed.
Lemma prom_lhs : forall (s : stmt) hd idx, lhs (prom hd idx s) = lhs s.
Proof.
  induction s as [t' vs' op e|an i b IH|c IHc p IHp]; intros hd idx; cbn [PromoteProofs.prom lhs]; auto.
  destruct (negb hd && cond idx b); cbn [lhs]; auto.
Qed.
Definition own (hd : bool) (s : stmt) : list tensor := if hd then temps s else res s :: temps s.
Lemma prom_names : forall (s : stmt), NoDup (res s :: temps s) -> (forall A, ~ In (tmp A) (res s :: temps s)) ->
  forall hd idx, 
  (forall u, In u (rhs_reads (prom hd idx s)) -> In u (rhs_reads s) \/ In u (map tmp (own hd s))) /\
  (forall u, In u (temps (prom hd idx s)) -> In u (temps s) \/ In u (map tmp (own hd s))) /\
  (hd = true -> spine (prom hd idx s) = spine s /\ op_of (prom hd idx s) = op_of s).
Proof.
  induction s as [t' vs' op e|an i b IH|c IHc p IHp]; intros ND TF hd idx; cbn [PromoteProofs.prom res temps rhs_reads spine op_of] in *; auto.
  - destruct (IH ND TF (hd || cond idx b) (i :: idx)) as (I1 & I2 & I3).
    destruct (negb hd && cond idx b) eqn:E.
    + apply andb_true_iff in E as [Eh Ec]. destruct hd; [discriminate|]. rewrite Ec in *. cbn [orb] in *.
      inversion ND as [|? ? NA ND']; subst.
      destruct (subst_facts (res b) (lhs b) (tmp (res b)) (prom true (i :: idx) b)) as (S1 & S2 & S3 & _).
      { apply prom_res. } { apply prom_lhs. }
      { intro J. apply I2 in J as [J|J]; [auto|]. apply in_map_iff in J as (B & Q & J). apply (TF B). left. auto. }
      cbn [temps rhs_reads res reads]. rewrite S1, S2, S3. cbn [own map In]. split; [|split; [|discriminate]].
      * intros u. rewrite in_app_iff. cbn [In]. intros [J|[<-|[]]]; auto. apply I1 in J. cbn [own] in J. tauto.
      * intros u J. rewrite app_nil_r in J. destruct J as [<-|J]; auto. apply I2 in J. cbn [own] in J. tauto.
    + assert (HH : hd || cond idx b = hd) by (destruct hd, (cond idx b); auto; discriminate). rewrite HH in *.
      cbn [temps rhs_reads spine op_of]. destruct hd; cbn [own] in *; (split; [auto|split; [auto|]]); [|discriminate].
      intros _. destruct (I3 eq_refl) as [-> ->]. auto.
  - inversion ND as [|? ? N1 ND1]; subst. inversion ND1 as [|? ? N2 ND2]; subst. rewrite in_app_iff in N2. cbn [In] in N1. rewrite in_app_iff in N1.
    assert (NDp : NoDup (res p :: temps p)). { constructor; [tauto|]. eapply nodup_l; eauto. }
    assert (NDc : NoDup (res c :: temps c)). { constructor; [tauto|]. eapply nodup_r; eauto. }
    destruct (IHc NDc) with (hd := hd) (idx := idx) as (C1 & C2 & C3). { intros A J. apply (TF A). cbn in J |- *. rewrite in_app_iff. tauto. }
    destruct (IHp NDp) with (hd := false) (idx := idx) as (P1 & P2 & _). { intros A J. apply (TF A). cbn in J |- *. rewrite in_app_iff. tauto. }
    assert (OC : forall u, In u (map tmp (own hd c)) -> In u (map tmp (own hd (NWhere c p)))).
    { intros u. rewrite !in_map_iff. intros (B & <- & J). exists B. split; auto. destruct hd; cbn in J |- *; rewrite in_app_iff; tauto. }
    assert (OP : forall u, In u (map tmp (own false p)) -> In u (map tmp (own hd (NWhere c p)))).
    { intros u. rewrite !in_map_iff. intros (B & <- & J). exists B. split; auto. destruct hd; cbn in J |- *; rewrite in_app_iff; tauto. }
    cbn [temps rhs_reads spine op_of]. rewrite prom_res. split; [|split].
    + intros u. rewrite !in_app_iff. intros [J|J]; [apply P1 in J as [J|J]|apply C1 in J as [J|J]]; auto.
    + intros u. cbn [In]. rewrite !in_app_iff. intros [J|[J|J]]; [|apply P2 in J as [J|J]|apply C2 in J as [J|J]]; auto.
    + intros Hd. apply C3. auto.
Qed.

(** *** The result of promotion *)
Definition zero_at (idx : list ivar) (s : stmt) (r : val) (T : store) : Prop :=
  whole = true -> (forall v, In v idx -> In v (lhs s)) ->
  forall x, (exists r' : val, x = map r' (lhs s) /\ forall v, In v idx -> r' v = r v) -> T (res s) x = 0r.
Definition good (s : stmt) : Prop :=
  NoDup (res s :: temps s) /\ (forall A, ~ In (tmp A) (tensors s)) /\
  every (fun q => sums_or_assigns q /\ not_own_operand q) s.

Lemma good_forall : forall an i b, good (NForall an i b) ->
  NoDup (res b :: temps b) /\ (forall A, ~ In (tmp A) (tensors b)) /\ not_own_operand b /\
  (op_of b = Some RSum \/ op_of b = None) /\ (op_of b = None -> In i (lhs b)) /\ good b.
Proof.
  intros an i b (ND & TF & (SA & NO) & PR). unfold not_own_operand, sums_or_assigns in *. cbn [res temps rhs_reads op_of spine lhs tensors producers] in *.
  assert (O : op_of b = Some RSum \/ op_of b = None) by tauto.
  assert (G : good b). { split; auto. split; auto. split; auto. split; auto. unfold sums_or_assigns. destruct SA as [?|[? H]]; auto. right. split; auto. intros. apply H. right; auto. }
  split; [auto|]. split; [auto|]. split; [auto|]. split; [auto|]. split; [|auto].
  intros E. destruct SA as [SA|[_ SA]]; [congruence|]. apply SA. left; auto.
Qed.
Lemma good_where : forall c p, good (NWhere c p) -> good c /\ good p /\ res c <> res p.
Proof.
  intros c p (ND & TF & (SA & NO) & PR). unfold not_own_operand, sums_or_assigns in *. cbn [res temps rhs_reads op_of spine lhs tensors producers] in *.
  inversion ND as [|? ? N1 ND1]; subst. inversion ND1 as [|? ? N2 ND2]; subst. rewrite in_app_iff in N2. cbn [In] in N1. rewrite in_app_iff in N1.
  split; [|split]; [| |intro E; apply N1; left; auto].
  - split; [constructor; [tauto|eapply nodup_r; eauto]|]. split.
    + intros A J. apply (TF A). unfold tensors in *. cbn [res temps rhs_reads In] in *. rewrite !in_app_iff in *. cbn [In]. rewrite in_app_iff. tauto.
    + split; [split; auto; intro J; apply NO; apply in_app_iff; auto|]. intros q Q. apply PR. right. apply in_app_iff. auto.
  - split; [constructor; [tauto|eapply nodup_l; eauto]|]. split.
    + intros A J. apply (TF A). unfold tensors in *. cbn [res temps rhs_reads In] in *. rewrite !in_app_iff in *. cbn [In]. rewrite in_app_iff. tauto.
    + split; [apply PR; left; auto|]. intros q Q. apply PR. right. apply in_app_iff. auto.
Qed.

Lemma forall_cong : forall an i (b b' : stmt) r T, (forall r T, eqT (run b' r T) (run b r T)) ->
  eqT (run (NForall an i b') r T) (run (NForall an i b) r T).
Proof.
  intros an i b b' r T H. cbn [NotationSpec.run]. apply fold_ext; [|apply eqT_refl]. intros T1 T2 k _ E.
  eapply eqT_trans; [apply H|]. apply run_ext; auto.
Qed.

Hypothesis tmp_inj : forall A B, tmp A = tmp B -> A = B.
Lemma prom_ok : forall (s : stmt) hd idx, good s -> no_shadow idx s ->
  forall r T, (hd = false -> zero_at idx s r T) -> eqT (run (prom hd idx s) r T) (run s r T).
Proof.
  induction s as [t' vs' op e|an i b IH|c IHc p IHp]; intros hd idx G NS r T Z.
  - apply eqT_refl.
  - destruct (good_forall _ _ _ G) as (ND & TF & NO & OP & OPN & Gb). cbn [no_shadow] in NS. destruct NS as [Ni NS].
    cbn [PromoteProofs.prom]. destruct (negb hd && cond idx b) eqn:E.
    + (* hoisted here *)
      apply andb_true_iff in E as [Eh Ec]. destruct hd; [discriminate|]. rewrite Ec. cbn [orb].
      set (A := res b) in *. set (vs := lhs b) in *. set (t := tmp A). set (b' := prom true (i :: idx) b).
      assert (Hb : forall r T, eqT (run b' r T) (run b r T)). { intros. apply IH; auto. discriminate. }
      eapply eqT_trans; [|apply (forall_cong an i b b' r T Hb)].
      assert (SUB : forall v, In v vs -> In v idx). { unfold PromoteProofs.cond in Ec. apply andb_true_iff in Ec as [_ Ec]. apply subset_spec. auto. }
      destruct (prom_names b ND) with (hd := true) (idx := i :: idx) as (N1 & N2 & N3).
      { intros B J. apply (TF B). unfold tensors. cbn in J |- *. rewrite in_app_iff. tauto. }
      fold b' in N1, N2, N3. destruct (N3 eq_refl) as [Nsp Nop]. cbn [own] in N1, N2.
      assert (Rb : res b' = A) by apply prom_res. assert (Lb : lhs b' = vs) by apply prom_lhs.
      inversion ND as [|? ? NA ND']; subst.
      assert (tA : t <> A). { intro Q. apply (TF A). fold t. rewrite Q. left. auto. }
      assert (At : ~ In A (temps b')). { intro J. apply N2 in J as [J|J]; [auto|]. apply in_map_iff in J as (B & Q & J). apply (TF B). left. auto. }
      assert (Ar : ~ In A (rhs_reads b')). { intro J. apply N1 in J as [J|J]; [auto|]. apply in_map_iff in J as (B & Q & J). apply (TF B). left. auto. }
      assert (tt : ~ In t (temps b')). { intro J. apply N2 in J as [J|J]; [apply (TF A); right; apply in_app_iff; auto|]. apply in_map_iff in J as (B & Q & J). apply tmp_inj in Q. subst B. auto. }
      assert (tr : ~ In t (rhs_reads b')). { intro J. apply N1 in J as [J|J]; [apply (TF A); right; apply in_app_iff; auto|]. apply in_map_iff in J as (B & Q & J). apply tmp_inj in Q. subst B. auto. }
      assert (SPb : forall v, In v vs -> ~ In v (spine b')). { intros v Iv. rewrite Nsp. apply (shadow_spine b (i :: idx)); auto. right. auto. }
      assert (Ivs : ~ In i vs) by (intro; auto).
      destruct (subst_facts A vs t b' Rb Lb At) as (S1 & S2 & S3 & S4).
      set (p0 := NForall an i (subst_lhs (A, vs) t b')).
      assert (Rp : res p0 = t) by exact S1.
      assert (OPb : op_of b = Some RSum). { destruct OP; auto. exfalso. apply Ivs. apply OPN. auto. }
      set (U := ups (NForall an i b') r T (map r vs)).
      assert (EU : ups p0 r (clear R t T) [] = U).
      { rewrite (ups_off R fn dv dim t p0 r _ T).
        - unfold U, p0. cbn [NotationRun.ups]. rewrite !flat_map_concat_map. f_equal. apply map_ext_in. intros k _.
          rewrite ups_subst; auto. f_equal. apply map_ext_in. intros v Iv. apply ext_other. intro; subst; auto.
        - unfold p0. cbn [rhs_reads]. rewrite S3. auto.
        - intros t0 x0 Q. unfold clear, set_tensor. destruct (Nat.eqb_spec t0 t); congruence. }
      assert (OU : forall u, In u U -> fst u = Some RSum). { intros u Iu. apply (ups_op R fn dv dim) in Iu. cbn [op_of] in Iu. congruence. }
      assert (Tp : run p0 r (clear R t T) t [] = 0r +r sumv R U).
      { transitivity (run p0 r (clear R t T) (res p0) []); [rewrite Rp; auto|]. rewrite run_ups; [|rewrite Rp; unfold p0; cbn [rhs_reads temps]; rewrite ?S2, ?S3; auto..].
        rewrite Rp, EU. rewrite (apply_sum R RT) by auto. f_equal. unfold clear, set_tensor. rewrite Nat.eqb_refl. auto. }
      assert (Fp : forall t0 x0, t0 <> t -> run p0 r (clear R t T) t0 x0 = T t0 x0).
      { intros t0 x0 Q. rewrite frame by congruence. unfold clear, set_tensor. destruct (Nat.eqb_spec t0 t); congruence. }
      intros t0 x0. set (RH := run (NForall an i b') r T). cbn [NotationSpec.run]. fold p0. rewrite Rp.
      destruct (Nat.eq_dec t0 t) as [->|Nt].
      { unfold set_tensor at 1. rewrite Nat.eqb_refl. unfold RH. rewrite (frame R fn dv dim (NForall an i b')); auto. cbn [res]. congruence. }
      unfold set_tensor at 1. destruct (Nat.eqb_spec t0 t) as [|_]; [congruence|].
      destruct (Nat.eq_dec t0 A) as [->|NtA].
      2: { unfold upd. destruct (Nat.eqb_spec t0 A); [congruence|]. rewrite Fp by auto.
           change (T t0 x0 = run (NForall an i b') r T t0 x0). rewrite frame; auto. cbn [res]. congruence. }
      change (upd (run p0 r (clear R t T)) A (map r vs) match opx whole idx b with
         | Some o => opf R o (run p0 r (clear R t T) A (map r vs)) (ev (run p0 r (clear R t T)) r (NAcc t []))
         | None => ev (run p0 r (clear R t T)) r (NAcc t []) end A x0 = run (NForall an i b') r T A x0).
      replace (run (NForall an i b') r T A x0) with (apply R (T A x0) (ups (NForall an i b') r T x0)).
      2: { change A with (res b). rewrite <- (prom_res b true (i :: idx)). fold b'. change (res b') with (res (NForall an i b')).
           rewrite run_ups; auto; cbn [res rhs_reads temps]; rewrite Rb; auto. }
      unfold upd. rewrite Nat.eqb_refl. destruct (list_eqb_spec x0 (map r vs)) as [->|Nx].
      * fold U. rewrite (apply_sum R RT) by auto. cbn [NotationSpec.neval map]. rewrite Tp, Fp by auto.
        unfold opx. fold vs. destruct (negb whole || negb (set_eqb vs idx)) eqn:Ow.
        -- rewrite OPb. cbn [opf]. ring.
        -- apply orb_false_iff in Ow as [Ow1 Ow2]. apply negb_false_iff in Ow1, Ow2. f_equal.
           symmetry. apply Z; auto.
           ++ intros v Iv. apply (proj1 (set_eqb_spec _ _) Ow2). auto.
           ++ exists r. split; auto.
      * rewrite Fp by auto. rewrite ups_miss; auto.
        -- cbn [lhs spine]. rewrite Lb. intros v Iv [->|J]; [auto|]. eapply SPb; eauto.
        -- cbn [lhs]. rewrite Lb. auto.
    + assert (HH : hd || cond idx b = hd) by (destruct hd, (cond idx b); auto; discriminate). rewrite HH. clear HH E.
      cbn [NotationSpec.run].
      assert (K : forall l, NoDup l -> forall T1 T2, eqT T1 T2 -> (forall k, In k l -> hd = false -> zero_at (i :: idx) b (ext r i k) T2) ->
        eqT (fold_left (fun T k => run (prom hd (i :: idx) b) (ext r i k) T) l T1) (fold_left (fun T k => run b (ext r i k) T) l T2)).
      { induction l as [|k l IHl]; intros NDl T1 T2 E12 Zl; cbn [fold_left]; auto. inversion NDl; subst. apply IHl; auto.
        - eapply eqT_trans; [apply run_ext; [exact E12|auto]|]. apply IH; auto. apply Zl. left; auto.
        - intros k' Ik Hd. intros W SUB x X. pose proof (Zl k' (or_intror Ik) Hd W SUB x X) as Zx.
          rewrite run_ups; auto. 2: { inversion ND; auto. }
          assert (UN : ups b (ext r i k) T2 x = []).
          { destruct (ups b (ext r i k) T2 x) as [|u us] eqn:Eu; auto. exfalso.
            destruct (hit R fn dv dim b (ext r i k) T2 x u i) as (n & Hn & Ln).
            - rewrite Eu. left; auto.
            - apply SUB. left; auto.
            - apply (shadow_spine b (i :: idx)); auto. left; auto.
            - destruct X as (r' & -> & Xr). rewrite nth_error_map, Ln in Hn. cbn in Hn. rewrite ext_same in Hn. injection Hn as Hn.
              rewrite (Xr i) in Hn by (left; auto). rewrite ext_same in Hn. subst k'. auto. }
          rewrite UN. exact Zx. }
      apply K; [apply seq_NoDup|apply eqT_refl|]. intros k _ Hd W SUB x (r' & -> & Xr). apply (Z Hd W).
      * cbn [lhs]. intros v Iv. apply SUB. right; auto.
      * exists r'. split; auto. intros v Iv. rewrite (Xr v) by (right; auto). apply ext_other. intro; subst; auto.
  - destruct (good_where _ _ G) as (Gc & Gp & Ncp). cbn [no_shadow] in NS. destruct NS as [NSc NSp].
    cbn [PromoteProofs.prom NotationSpec.run]. rewrite prom_res. apply set_ext; auto.
    eapply eqT_trans; [|apply (IHc hd idx); auto].
    + apply run_ext; auto. apply IHp; auto. intros _ W SUB x _. unfold clear, set_tensor. rewrite Nat.eqb_refl. auto.
    + intros Hd W SUB x X. rewrite frame by auto. unfold clear, set_tensor. destruct (Nat.eqb_spec (res c) (res p)); [congruence|].
      apply (Z Hd W SUB x X).
Qed.
End S.
