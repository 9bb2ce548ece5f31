(** Proofs about AttrQuery.v: the value of the query, and which statements are
    refused. *)
From Coq Require Import List Arith ZArith Bool Lia Permutation.
Import ListNotations.
From Verif Require Import Notation NotationSpec NotationProofs Transform TransformSpec PromoteProofs PromoteSem AttrQuery AttrQuerySpec AttrQueryHits AttrQueryWf AttrQuerySim.
Local Open Scope nat_scope.

(** *** Levels *)
Lemma first_query_some : forall ls par ch g ps, first_query ls par ch = Some (g, ps) ->
  exists k u c, nth_error ls k = Some (LCompressed u) /\ (forall j u', j < k -> nth_error ls j <> Some (LCompressed u')) /\
    nth_error ch k = Some c /\ g = par ++ firstn k ch /\ ps = c :: (if u then [] else skipn (S k) ch).
Proof.
  induction ls as [|l ls IH]; intros par ch g ps E; [discriminate|]. destruct ch as [|c ch]; [discriminate|]. cbn [first_query] in E.
  destruct l; cbn [attrQueries] in E.
  - apply IH in E. destruct E as (k & u & c0 & E1 & E2 & E3 & -> & ->). exists (S k), u, c0. cbn. repeat split; auto; [|rewrite <- app_assoc; auto].
    intros [|j] u' J; cbn; [congruence|]. apply E2. lia.
  - injection E; intros <- <-. exists 0, unique, c. cbn. rewrite last_last, removelast_last, app_nil_r. repeat split; auto. intros; lia.
  - apply IH in E. destruct E as (k & u & c0 & E1 & E2 & E3 & -> & ->). exists (S k), u, c0. cbn. repeat split; auto; [|rewrite <- app_assoc; auto].
    intros [|j] u' J; cbn; [congruence|]. apply E2. lia.
Qed.
Lemma first_query_none : forall ls par ch, length ls = length ch -> (first_query ls par ch = None <-> forall u, ~ In (LCompressed u) ls).
Proof.
  induction ls as [|l ls IH]; intros par ch L; [split; auto|]. destruct ch as [|c ch]; [discriminate|]. cbn [first_query]. cbn in L.
  destruct l; cbn [attrQueries].
  - rewrite IH by lia. split; intros H u; [intros [E|I]; [discriminate|eapply H; eauto]|intro; apply (H u); right; auto].
  - split; [discriminate|]. intros H. exfalso. apply (H unique). left; auto.
  - rewrite IH by lia. split; intros H u; [intros [E|I]; [discriminate|eapply H; eauto]|intro; apply (H u); right; auto].
Qed.
Lemma supported_after : forall ls c, supported true c true ls = true <-> ls = repeat LSingleton (length ls).
Proof.
  induction ls as [|l ls IH]; intros c; [cbn; tauto|]. cbn [supported repeat length]. destruct l; cbn.
  - split; [discriminate|congruence].
  - split; [discriminate|congruence].
  - rewrite IH. split; [congruence|]. intros E; injection E; auto.
Qed.
Lemma supported_coord : forall ls, supported false true false ls = true <-> forall u, ~ In (LCompressed u) ls.
Proof.
  induction ls as [|l ls IH]; [cbn; split; auto|]. cbn [supported]. destruct l; cbn.
  - rewrite IH. split; intros H u; [intros [E|I]; [discriminate|eapply H; eauto]|intro; apply (H u); auto].
  - split; [discriminate|]. intros H. exfalso. apply (H unique). auto.
  - rewrite IH. split; intros H u; [intros [E|I]; [discriminate|eapply H; eauto]|intro; apply (H u); auto].
Qed.
Lemma supported_levels : forall ls, supported false false false ls = true <->
  (forall u, ~ In (LCompressed u) ls) \/ exists n u m, ls = repeat LDense n ++ LCompressed u :: repeat LSingleton m.
Proof.
  induction ls as [|l ls IH]; [cbn; split; auto|]. cbn [supported]. destruct l; cbn [hasSeqInsertEdge hasInsertCoord isBranchless isYieldPosPure andb orb negb].
  - rewrite IH. split; (intros [H|(n & u & m & E)]; [left; intros u|right]).
    + intros [E|I]; [discriminate|eapply H; eauto].
    + exists (S n), u, m. cbn. congruence.
    + intro; apply (H u); right; auto.
    + destruct n; [discriminate|]. exists n, u, m. cbn in E. injection E; auto.
  - rewrite supported_after. split.
    + intros E. right. exists 0, unique, (length ls). cbn. congruence.
    + intros [H|(n & u & m & E)]; [exfalso; apply (H unique); left; auto|]. destruct n; [|discriminate]. injection E; intros ->. intros _. rewrite repeat_length. auto.
  - rewrite supported_coord. split.
    + intros H. left. intros u [E|I]; [discriminate|eapply H; eauto].
    + intros [H|(n & u & m & E)]; [intros u I; apply (H u); right; auto|]. destruct n; discriminate.
Qed.

(** *** Scattering *)
Lemma prom_op : forall tmp (s : stmt) idx, no_shadow idx s -> (op_of (prom true false tmp false idx s) = None <->
  op_of s = None \/ (lhs s <> [] /\ exists pre post, spine s = pre ++ post /\ post <> [] /\ forall v, In v (lhs s) <-> In v (pre ++ idx))).
Proof.
  intros tmp. induction s as [t' vs op e|an i b IH|c IHc p IHp]; intros idx N; cbn [prom op_of spine lhs no_shadow] in *.
  - split; auto. intros [H|(_ & pre & post & E & NE & _)]; auto. destruct pre, post; try discriminate. congruence.
  - destruct N as [Ni N]. cbn [negb andb orb]. destruct (cond false idx b) eqn:C.
    + cbn [op_of]. pose proof C as C'. unfold cond in C. apply andb_true_iff in C. destruct C as [C1 C2]. rewrite subset_spec in C2. cbn [orb] in C1.
      assert (NE : lhs b <> []) by (destruct (lhs b); [discriminate|congruence]).
      unfold opx. cbn [negb orb]. destruct (set_eqb (lhs b) idx) eqn:S; cbn [negb].
      * split; auto. intros _. right. split; auto. exists [], (i :: spine b). split; auto. split; [discriminate|]. intros v. cbn. apply set_eqb_spec with (v := v) in S. auto.
      * split; auto. intros [H|(_ & pre & post & E & NP & H)]; auto. exfalso. destruct pre as [|j pre].
        -- assert (T : set_eqb (lhs b) idx = true); [|congruence]. unfold set_eqb. apply andb_true_iff. rewrite !subset_spec. split; intros v I; apply H; auto.
        -- cbn in E. injection E; intros _ <-. apply Ni. apply C2. apply H. left; auto.
    + cbn [op_of]. rewrite IH by auto. split; (intros [H|(NE & pre & post & E & NP & H)]; [auto|right; split; auto]).
      * exists (i :: pre), post. split; [cbn; congruence|]. split; auto. intros v. rewrite H. rewrite !in_app_iff. cbn. tauto.
      * destruct pre as [|j pre].
        -- exfalso. assert (T : cond false idx b = true); [|congruence]. unfold cond. destruct (lhs b) eqn:L; [congruence|]. cbn [is_nil orb negb andb]. rewrite <- L in *. apply subset_spec. intros v I. apply H. auto.
        -- cbn in E. injection E; intros E' <-. exists pre, post. split; auto. split; auto. intros v. rewrite H. rewrite !in_app_iff. cbn. tauto.
  - destruct N as [Nc Np]. apply IHc; auto.
Qed.
Lemma prom_temps_sub : forall tmp (inj : forall A B, tmp A = tmp B -> A = B) (s : stmt) hd idx, wf1 tmp s -> forall t, In t (temps s) -> In t (temps (prom true false tmp hd idx s)).
Proof.
  intros tmp inj. induction s as [t' vs op e|an i b IH|c IHc p IHp]; intros hd idx W t I; cbn [prom temps] in *; auto.
  - pose proof (wf1_forall _ _ _ _ W) as WB. destruct (negb hd && cond false idx b) eqn:C; [|cbn [temps]; auto].
    set (b' := prom true false tmp (hd || cond false idx b) (i :: idx) b). assert (N' : ~ In (res b) (temps b')).
    { intro J. apply prom_temps_in in J; auto. destruct J as [J|J]; [destruct WB as (ND & _); inversion ND; auto|]. apply in_map_iff in J. destruct J as (B & E & _). apply (wf1_names _ _ WB B). left; auto. }
    destruct (subst_facts (fun x => x) (res b) (lhs b) (tmp (res b)) b' (prom_res _ _ _ _ _ _) (prom_lhs _ _ _ _ _ _) N') as (_ & T & _).
    cbn [temps res]. rewrite app_nil_r. right. rewrite T. apply IH; auto.
  - destruct (wf1_where (fun _ => 0) tmp inj _ _ W) as (Wc & Wp & _). rewrite prom_res. destruct I as [I|I]; [left; auto|right]. apply in_app_iff in I. apply in_app_iff. destruct I; auto.
Qed.

(** *** Loops over all coordinates *)
Section Epilog.
Variable dim : ivar -> nat.
Fixpoint envs (vs : list ivar) (r : val) : list val :=
  match vs with [] => [r] | v :: vs => flat_map (fun c => envs vs (ext r v c)) (seq 0 (dim v)) end.
Lemma fold_flat_map : forall (X Y : Type) (f : X -> val -> X) (g : Y -> list val) l a,
  fold_left f (flat_map g l) a = fold_left (fun a y => fold_left f (g y) a) l a.
Proof. induction l; intros; cbn; auto. rewrite fold_left_app. auto. Qed.
Lemma qrun_foralls : forall stored sparse nz b vs r T,
  qrun dim stored sparse nz (qforalls vs b) r T = fold_left (fun T e => qrun dim stored sparse nz b e T) (envs vs r) T.
Proof.
  induction vs as [|v vs IH]; intros r T; cbn [qforalls fold_right envs]; auto. cbn [qrun]. rewrite fold_flat_map. apply fold_step. intros. apply IH.
Qed.
Lemma envs_off : forall vs r e, In e (envs vs r) -> forall j, ~ In j vs -> e j = r j.
Proof.
  induction vs as [|v vs IH]; intros r e I j J; cbn [envs] in I; [destruct I as [<-|[]]; auto|].
  apply in_flat_map in I. destruct I as (c & _ & I). rewrite (IH _ _ I) by (intro; apply J; right; auto). apply ext_other. intro; apply J; left; auto.
Qed.
Lemma envs_nodup : forall vs r, NoDup vs -> NoDup (map (fun e => map e vs) (envs vs r)).
Proof.
  induction vs as [|v vs IH]; intros r ND; cbn [envs]; [constructor; [intros []|constructor]|]. inversion ND; subst.
  induction (seq_NoDup (dim v) 0) as [|c l Nc NL IHl]; [constructor|]. cbn [flat_map]. rewrite map_app. apply nodup_app; auto.
  - specialize (IH (ext r v c) H2). assert (V : forall e, In e (envs vs (ext r v c)) -> e v = c). { intros e I. rewrite (envs_off _ _ _ I), ext_same; auto. }
    clear - IH. induction (envs vs (ext r v c)); cbn in *; [constructor|]. inversion IH; subst. constructor; auto.
    intros I. apply H1. apply in_map_iff in I. destruct I as (e & E & I). injection E; intros. apply in_map_iff. exists e. auto.
  - intros y I J. apply in_map_iff in I. destruct I as (e & <- & I). apply in_map_iff in J. destruct J as (e' & E & J). apply in_flat_map in J. destruct J as (c' & Jc & J).
    cbn in E. injection E; intros _ E'. rewrite (envs_off _ _ _ I), (envs_off _ _ _ J), !ext_same in E' by auto. subst c'. auto.
Qed.
Lemma envs_all : forall vs r (r' : val), NoDup vs -> (forall j, In j vs -> r' j < dim j) -> exists e, In e (envs vs r) /\ map e vs = map r' vs.
Proof.
  induction vs as [|v vs IH]; intros r r' ND B; [exists r; cbn; auto|]. inversion ND; subst.
  destruct (IH (ext r v (r' v)) r' H2) as (e & I & E). { intros; apply B; right; auto. }
  exists e. split. { cbn [envs]. apply in_flat_map. exists (r' v). split; auto. apply in_seq. specialize (B v (or_introl eq_refl)). lia. }
  cbn. rewrite E, (envs_off _ _ _ I), ext_same; auto.
Qed.

Lemma epilog_run : forall stored sparse dd nz g ps r T D, dd <> nz -> (forall y, T dd y = of_bool (D y)) -> forall x,
  qrun dim stored sparse nz (epi dd nz g ps) r T nz x =
  (T nz x + Z.of_nat (length (filter (fun e => hit_at g x e && D (map e (g ++ ps))) (envs (g ++ ps) r))))%Z.
Proof.
  intros stored sparse dd nz g ps r T D NE HD x. unfold epi. rewrite qrun_foralls. revert T HD.
  induction (envs (g ++ ps) r) as [|e l IH]; intros T HD; [cbn; lia|]. cbn [fold_left filter].
  assert (ST : forall t y, qrun dim stored sparse nz (QAssign nz g true (QCast (QAcc dd (g ++ ps)))) e T t y =
               if Nat.eqb t nz && list_eqb y (map e g) then (T nz y + of_bool (D (map e (g ++ ps))))%Z else T t y).
  { intros t y. cbn [qrun qeval]. rewrite HD, to_of. destruct (sparse dd && negb (D (map e (g ++ ps)))) eqn:S.
    - apply andb_true_iff in S. destruct S as [_ S]. destruct (D (map e (g ++ ps))); [discriminate|]. cbn [of_bool].
      destruct (Nat.eqb_spec t nz) as [->|]; cbn [andb]; auto. destruct (list_eqb y (map e g)); auto. lia.
    - unfold qupd. destruct (Nat.eqb_spec t nz) as [->|]; cbn [andb]; auto. destruct (list_eqb_spec y (map e g)) as [->|]; auto.
      unfold qstored, is_bool. rewrite Nat.eqb_refl. cbn [negb qbool]. auto. }
  rewrite IH.
  - rewrite ST, Nat.eqb_refl. cbn [andb]. unfold hit_at. destruct (list_eqb_spec x (map e g)), (list_eqb_spec (map e g) x); try congruence; cbn [andb]; [|lia].
    destruct (D (map e (g ++ ps))); cbn [of_bool length]; lia.
  - intros y. rewrite ST. destruct (Nat.eqb_spec dd nz); [congruence|]. cbn [andb]. auto.
Qed.
End Epilog.

(** *** Lists *)
Lemma nodup_fibre : forall (g p : list ivar) x (l : list val), NoDup (map (fun e : val => map e (g ++ p)) l) -> NoDup (map (fun e : val => map e p) (filter (hit_at g x) l)).
Proof.
  induction l as [|e l IH]; intros ND; [constructor|]. cbn in ND. inversion ND; subst. cbn [filter]. destruct (hit_at g x e) eqn:H; auto. cbn. constructor; auto.
  intros I. apply H1. apply in_map_iff in I. destruct I as (e' & E & I). apply filter_In in I. destruct I as [I H']. apply in_map_iff. exists e'. split; auto.
  unfold hit_at in *. destruct (list_eqb_spec (map e g) x), (list_eqb_spec (map e' g) x); try discriminate. rewrite !map_app. congruence.
Qed.
Lemma nodup_sub : forall (X Y : Type) (f : X -> Y) q l, NoDup (map f l) -> NoDup (map f (filter q l)).
Proof.
  induction l as [|e l IH]; intros ND; [constructor|]. cbn in ND. inversion ND; subst. cbn [filter]. destruct (q e); auto. cbn. constructor; auto.
  intros I. apply H1. apply in_map_iff in I. destruct I as (e' & E & I). apply filter_In in I. apply in_map_iff. exists e'. tauto.
Qed.
Lemma filter_filter : forall (X : Type) (p q : X -> bool) l, filter (fun x => p x && q x) l = filter p (filter q l).
Proof. induction l; cbn; auto. rewrite IHl. destruct (p a) eqn:P, (q a) eqn:Q; cbn; rewrite ?P; auto. Qed.
Lemma app_len : forall (X : Type) (a b c d : list X), length a = length c -> a ++ b = c ++ d -> a = c /\ b = d.
Proof. induction a; intros b [|x c] d L E; cbn in *; try discriminate; auto. injection E; intros. destruct (IHa b c d); auto. subst; auto. Qed.
Lemma bumps_count : forall g x H v, bumps g (fun v => v + 1)%Z x H v = (v + Z.of_nat (length (filter (hit_at g x) H)))%Z.
Proof.
  intros g x. unfold bumps. induction H as [|e H IH]; intros v; [cbn; lia|]. cbn [fold_left filter]. rewrite IH. destruct (hit_at g x e); cbn [length]; lia.
Qed.
Lemma bumps_or : forall g x H b, bumps g (fun _ => 1%Z) x H (of_bool b) = of_bool (b || existsb (hit_at g x) H).
Proof.
  intros g x. unfold bumps. induction H as [|e H IH]; intros b; [cbn; rewrite orb_false_r; auto|]. cbn [fold_left existsb]. destruct (hit_at g x e); cbn [orb].
  - change 1%Z with (of_bool true) at 2. rewrite IH. rewrite orb_true_r. auto.
  - apply IH.
Qed.
Lemma split_at : forall (X : Type) k (l : list X) c, nth_error l k = Some c -> l = firstn k l ++ c :: skipn (S k) l.
Proof. induction k; intros [|a l] c E; cbn in *; try discriminate; [congruence|]. f_equal. auto. Qed.

(** *** The value of the query *)
Section Main.
Variable dim : ivar -> nat.
Variable stored : marks.
Variable sparse : tensor -> bool.
Variables (levels : list level) (ord : list nat) (rho : ivar -> ivar) (tmp qtmp : tensor -> tensor) (dd nz : tensor).
Variable s : stmt.
Hypothesis C : countable s.
Hypothesis FR : fresh_tensors s tmp qtmp dd nz.
Hypothesis rinj : forall i j, rho i = rho j -> i = j.
Hypothesis rdim : forall i, dim (rho i) = dim i.
Hypothesis PO : Permutation ord (seq 0 (length (lhs s))).
Hypothesis LL : length levels = length (lhs s).

Let s0 : stmt := rename rho s.
Let s1 : stmt := prom true false tmp false [] s0.
Let args := query_args s1.

Lemma tinj : forall A B, tmp A = tmp B -> A = B.
Proof. exact (proj1 (proj1 FR)). Qed.
Lemma C0 : countable s0.
Proof. apply ren_countable; auto. Qed.
Lemma tensors0 : tensors s0 = tensors s.
Proof. unfold tensors, s0. rewrite ren_res, ren_temps, ren_reads. reflexivity. Qed.
Lemma W0 : wf1 tmp s0.
Proof.
  destruct C0 as (D & _ & E & _). split; [exact D|split; [|exact E]]. intros A. rewrite tensors0. exact (proj2 (proj1 FR) A).
Qed.
Lemma promoted : scalarPromote tmp true false s0 = s1.
Proof. destruct C0 as (D & N & _). apply promote_prom; auto. Qed.
Lemma res1 : res s1 = res s.
Proof. unfold s1. rewrite prom_res. apply ren_res. Qed.
Lemma lhs1 : lhs s1 = lhs s0.
Proof. unfold s1. apply prom_lhs. Qed.
Lemma reads1 : forall t, In t (rhs_reads s1) -> In t args \/ In t (temps s1).
Proof.
  intros t I. unfold args, query_args. destruct (in_dec Nat.eq_dec t (temps s1)) as [J|J]; auto. left. apply filter_In. split; auto.
  apply negb_true_iff. apply mem_out. intros [E|K]; auto. 
  unfold s1 in I. apply prom_reads_in in I; [|exact W0]. unfold s1 in E. rewrite prom_res in E. destruct I as [I|I].
  - destruct C0 as (_ & _ & [[_ NO] _] & _). apply NO. rewrite E. auto.
  - apply in_map_iff in I. destruct I as (B & <- & _). apply (wf1_names tmp _ W0 B). left; auto.
Qed.
Lemma ok1 : okc args (temps s1) s1.
Proof.
  split; [apply prom_distinct; [exact tinj|exact W0]|]. split; auto. split; [exact reads1|]. destruct C0 as (_ & N & _ & _ & _ & P).
  split; [apply prom_once; [exact tinj|exact W0|exact N]|]. apply prom_positive. auto.
Qed.
Lemma args_not : forall t, In t args -> ~ In t (res s1 :: temps s1).
Proof. intros t I. apply filter_In in I. destruct I as [_ I]. apply negb_true_iff in I. apply mem_out in I. auto. Qed.
Lemma args_new : forall t, In t args -> t <> dd /\ t <> nz.
Proof.
  intros t I. assert (J : In t (tensors s) \/ exists B, tmp B = t).
  { apply filter_In in I. destruct I as [I _]. unfold s1 in I. apply prom_reads_in in I; [|exact W0]. rewrite <- tensors0.
    unfold tensors. destruct I as [I|I]; [left; right; apply in_app_iff; auto|]. apply in_map_iff in I. destruct I as (B & E & I). eauto. }
  destruct FR as (_ & _ & _ & F). split; intros ->.
  - destruct (F dd (or_introl eq_refl)) as [F1 F2]. destruct J as [J|[B J]]; [auto|]. apply (F2 B); auto.
  - destruct (F nz (or_intror eq_refl)) as [F1 F2]. destruct J as [J|[B J]]; [auto|]. apply (F2 B); auto.
Qed.

Let r0 : val := fun _ => 0.
Let H : list val := hits dim s1 r0 (operands_only s1 stored).
Lemma inserts_hits : forall x, inserts dim stored s x <-> exists r', In r' H /\ map r' (lhs s1) = x.
Proof.
  intros x. rewrite <- (ren_inserts rho rinj dim rdim). fold s0. unfold inserts. fold r0.
  assert (NT : ~ is_tmp tmp (res s0)). { intros [B E]. apply (wf1_names tmp _ W0 B). left; auto. }
  destruct (prom_marks dim tmp tinj s0 false [] W0) with (r := r0) (M := operands_only s0 stored) (M' := operands_only s1 stored) as [_ PM].
  - destruct C0 as (_ & N & _). exact N.
  - intros t y N. unfold operands_only. replace (mem t (res s1 :: temps s1)) with (mem t (res s0 :: temps s0)); auto.
    destruct (mem t (res s0 :: temps s0)) eqn:M; symmetry; [apply mem_in in M; apply mem_in|apply mem_out in M; apply mem_out].
    + unfold s1. rewrite prom_res. destruct M as [M|M]; [left; auto|right]. apply prom_temps_sub; auto using W0. exact tinj.
    + unfold s1. rewrite prom_res. intros [I|I]; [apply M; left; auto|]. apply prom_temps_in in I; [|exact W0]. destruct I as [I|I]; [apply M; right; auto|].
      apply in_map_iff in I. destruct I as (B & E & _). apply N. exists B; auto.
  - rewrite <- PM by auto. fold s1. replace (res s0) with (res s1) by (unfold s1; apply prom_res).
    destruct ok1 as (ND & _). rewrite hits_mark by (inversion ND; auto). unfold operands_only at 1. replace (mem (res s1) (res s1 :: temps s1)) with true by (symmetry; apply mem_in; left; auto).
    cbn [orb]. fold H. rewrite existsb_exists. unfold hit_at. split; intros (r' & I & E); exists r'; split; auto; destruct (list_eqb_spec (map r' (lhs s1)) x); auto; discriminate.
Qed.

Lemma storage_map : forall (r' : val), in_storage_order ord (map r' (lhs s1)) = map r' (storage_vars ord (lhs s1)).
Proof.
  intros r'. unfold in_storage_order, storage_vars. rewrite map_map. apply map_ext_in. intros m I.
  assert (B : m < length (lhs s1)). { apply (Permutation_in _ PO) in I. apply in_seq in I. rewrite lhs1. unfold s0. rewrite ren_lhs, map_length. lia. }
  rewrite (nth_indep _ 0 (r' 0)) by (rewrite map_length; auto). apply map_nth.
Qed.
Lemma storage_nodup : NoDup (storage_vars ord (lhs s1)).
Proof.
  unfold storage_vars. assert (NO : NoDup ord). { apply (Permutation_NoDup (Permutation_sym PO)). apply seq_NoDup. }
  assert (NL : NoDup (lhs s1)). { rewrite lhs1. destruct C0 as (_ & _ & _ & N & _). exact N. }
  assert (B : forall m, In m ord -> m < length (lhs s1)). { intros m I. apply (Permutation_in _ PO) in I. apply in_seq in I. rewrite lhs1. unfold s0. rewrite ren_lhs, map_length. lia. }
  clear - NO NL B. induction NO as [|m l Nm NO IH]; [constructor|]. cbn. constructor; [|apply IH; intros; apply B; right; auto].
  intros I. apply in_map_iff in I. destruct I as (m' & E & I). apply Nm. rewrite NoDup_nth with (d := 0) in NL. apply NL in E; [subst; auto|apply B; right; auto|apply B; left; auto].
Qed.
Lemma storage_in : forall v, In v (storage_vars ord (lhs s1)) -> In v (spine s1).
Proof.
  intros v I. unfold storage_vars in I. apply in_map_iff in I. destruct I as (m & <- & I).
  assert (B : m < length (lhs s1)). { apply (Permutation_in _ PO) in I. apply in_seq in I. rewrite lhs1. unfold s0. rewrite ren_lhs, map_length. lia. }
  assert (J : In (nth m (lhs s1) 0) (lhs s0)) by (rewrite <- lhs1; apply nth_In; auto).
  destruct C0 as (_ & _ & _ & _ & L & _). destruct (prom_loops tmp tinj s0 false [] _ J (or_introl (L _ J))) as [K|[]]. exact K.
Qed.

(** The queries of an accepted statement. *)
Lemma assemble_cases : setAssembleInsert levels ord qtmp dd nz rho tmp s =
  if negb (supported false false false levels) then ARefused
  else match op_of s1 with
       | Some _ => ARefused
       | None => match first_query levels [] (storage_vars ord (lhs s1)) with
                 | None => AQueries None
                 | Some (g, ps) => AQueries (Some (if set_eqb (g ++ ps) (rev (spine s1)) then form levels ord qtmp dd args (temps s1) (res s1) true nz g QCast s1
                                                   else QWhere (epi dd nz g ps) (form levels ord qtmp dd args (temps s1) (res s1) true dd (g ++ ps) (fun e => e) s1)))
                 end
       end.
Proof.
  destruct FR as (_ & QI & DN & F).
  assert (qdd : forall a, qtmp a <> dd) by (intros a; apply (F dd); auto).
  assert (qnz : forall a, qtmp a <> nz) by (intros a; apply (F nz); auto).
  assert (DJ : forall t, In t (temps s1) -> ~ In t args). { intros t I J. apply args_not in J. apply J. right; auto. }
  assert (AT : ~ In (res s1) (temps s1)). { destruct ok1 as (ND & _). inversion ND; auto. }
  unfold setAssembleInsert. destruct (supported false false false levels); auto. cbn [negb]. fold s0. rewrite promoted. unfold lower_queries. fold args.
  rewrite (lower_chain dim sparse levels ord qtmp dd args (temps s1) (res s1) QI DJ AT s1 ok1 eq_refl).
  destruct (op_of s1); auto. unfold epilog. destruct (first_query levels [] (storage_vars ord (lhs s1))) as [[g ps]|] eqn:FQ; auto.
  pose proof (first_query_some _ _ _ _ _ FQ) as (k & u & c & _ & _ & E3 & -> & ->). cbn [app].
  f_equal. fold (epi dd nz (firstn k (storage_vars ord (lhs s1))) (c :: (if u then [] else skipn (S k) (storage_vars ord (lhs s1))))).
  apply (simplify_ok dim stored sparse levels ord qtmp dd nz args (temps s1) (res s1) QI qdd qnz DN DJ AT args_new s1); [exact ok1|].
  pose proof storage_nodup as ND. rewrite (split_at _ _ _ _ E3) in ND. apply NoDup_remove_2 in ND. intro I. apply ND. apply in_app_iff. auto.
Qed.

Lemma query_counts : forall q, setAssembleInsert levels ord qtmp dd nz rho tmp s = AQueries (Some q) ->
  exists k u, nth_error levels k = Some (LCompressed u) /\ (forall j u', j < k -> nth_error levels j <> Some (LCompressed u')) /\
 forall g, length g = k -> exists L, NoDup L /\ query_value dim stored sparse nz q g = Z.of_nat (length L) /\
   forall p, In p L <-> length p = (if u then 1 else length levels - k) /\
      exists x rest, inserts dim stored s x /\ in_storage_order ord x = g ++ p ++ rest.
Proof.
  intros q E. rewrite assemble_cases in E. destruct (supported false false false levels); cbn [negb] in E; [|discriminate].
  destruct (op_of s1); [discriminate|]. destruct (first_query levels [] (storage_vars ord (lhs s1))) as [[gv ps]|] eqn:FQ; [|discriminate].
  pose proof (first_query_some _ _ _ _ _ FQ) as (k & u & c & E1 & E2 & E3 & EG & EP). cbn [app] in EG.
  exists k, u. split; auto. split; auto. intros g LG.
  set (vs := storage_vars ord (lhs s1)) in *. pose proof storage_nodup as NV. fold vs in NV.
  assert (LV : length vs = length levels). { unfold vs, storage_vars. rewrite map_length, (Permutation_length PO), seq_length. auto. }
  assert (LK : k < length vs) by (apply nth_error_Some; congruence).
  assert (SP : exists rv, vs = gv ++ ps ++ rv).
  { rewrite (split_at _ _ _ _ E3), EG, EP. destruct u; [exists (skipn (S k) vs)|exists []; rewrite app_nil_r]; auto. }
  destruct SP as [rv SP]. assert (LGV : length gv = k) by (rewrite EG; apply firstn_length_le; lia).
  assert (LPS : length ps = if u then 1 else length levels - k). { rewrite EP. destruct u; cbn [length]; auto. rewrite skipn_length. lia. }
  destruct FR as (_ & QI & DN & F).
  assert (qdd : forall a, qtmp a <> dd) by (intros a; apply (F dd); auto).
  assert (qnz : forall a, qtmp a <> nz) by (intros a; apply (F nz); auto).
  assert (DJ : forall t, In t (temps s1) -> ~ In t args). { intros t I J. apply args_not in J. apply J. right; auto. }
  assert (AT : ~ In (res s1) (temps s1)). { destruct ok1 as (ND & _). inversion ND; auto. }
  assert (AA : ~ In (res s1) args). { intros I. apply args_not in I. apply I. left; auto. }
  assert (IN : Inv stored qtmp args (temps s1) (fun _ _ => 0%Z) (operands_only s1 stored)).
  { split; intros t x I; unfold operands_only.
    - apply args_not in I. apply mem_out in I. rewrite I. auto.
    - replace (mem t (res s1 :: temps s1)) with true by (symmetry; apply mem_in; right; auto). auto. }
  (* the coordinates, from the hits *)
  assert (KEY : forall p, (exists r', In r' H /\ map r' gv = g /\ map r' ps = p) <-> length p = (if u then 1 else length levels - k) /\
                 exists x rest, inserts dim stored s x /\ in_storage_order ord x = g ++ p ++ rest).
  { intros p. split.
    - intros (r' & I & <- & <-). split; [rewrite map_length; auto|]. exists (map r' (lhs s1)), (map r' rv). split; [apply inserts_hits; eauto|].
      rewrite storage_map. fold vs. rewrite SP, !map_app. auto.
    - intros (LP & x & rest & I & EX). apply inserts_hits in I. destruct I as (r' & I & <-). rewrite storage_map in EX. fold vs in EX. rewrite SP, !map_app in EX.
      apply app_len in EX; [|rewrite map_length; congruence]. destruct EX as [EX1 EX2]. apply app_len in EX2; [|rewrite map_length; congruence]. exists r'. tauto. }
  destruct (set_eqb (gv ++ ps) (rev (spine s1))) eqn:SE; injection E; intros <-; clear E.
  - (* counted in the statement itself *)
    exists (map (fun r' : val => map r' ps) (filter (hit_at gv g) H)). split; [|split].
    + apply nodup_fibre. apply hits_nodup; [destruct ok1 as (_ & _ & _ & [[_ N] _] & _); auto|]. intros v I. apply set_eqb_spec with (v := v) in SE. apply SE. rewrite <- in_rev. auto.
    + unfold query_value. fold r0.
      destruct (chain_ok dim stored sparse levels ord qtmp dd nz args (temps s1) (res s1) QI qnz DJ AT true nz gv QCast qnz) with (bt := false) (good := fun _ : Z => True) (step := fun v => (v + 1)%Z)
        (s := s1) (r := r0) (T := fun (_ : tensor) (_ : list nat) => 0%Z) (M := operands_only s1 stored) as (_ & _ & R & _); auto using ok1.
      * intros v _. unfold qstored, is_bool. rewrite Nat.eqb_refl. cbn [negb]. lia.
      * intros v _. unfold qstored, is_bool. rewrite Nat.eqb_refl. cbn [negb]. auto.
      * rewrite R. fold H. rewrite bumps_count, map_length. lia.
    + intros p. rewrite <- KEY. rewrite in_map_iff. split.
      * intros (r' & EP' & I). apply filter_In in I. destruct I as [I HA]. unfold hit_at in HA. destruct (list_eqb_spec (map r' gv) g); [|discriminate]. eauto.
      * intros (r' & I & EG' & EP'). exists r'. split; auto. apply filter_In. split; auto. unfold hit_at. destruct (list_eqb_spec (map r' gv) g); auto; congruence.
  - (* marked first, then counted *)
    set (D := fun y => existsb (hit_at (gv ++ ps) y) H).
    exists (map (fun e : val => map e ps) (filter (fun e => hit_at gv g e && D (map e (gv ++ ps))) (envs dim (gv ++ ps) r0))).
    assert (NDC : NoDup (gv ++ ps)). { rewrite SP, app_assoc in NV. eapply nodup_l; eauto. }
    assert (SUB : forall v, In v (gv ++ ps) -> In v (spine s1)). { intros v I. apply storage_in. fold vs. rewrite SP, app_assoc. apply in_app_iff. auto. }
    split; [|split].
    + rewrite filter_filter. apply nodup_fibre. apply nodup_sub. apply envs_nodup. auto.
    + unfold query_value. fold r0. cbn [qrun]. rewrite form_res by exact QI.
      destruct (chain_ok dim stored sparse levels ord qtmp dd nz args (temps s1) (res s1) QI qnz DJ AT true dd (gv ++ ps) (fun e => e) qdd) with (bt := true) (good := fun v : Z => v = 0%Z \/ v = 1%Z) (step := fun _ : Z => 1%Z)
        (s := s1) (r := r0) (T := qclear dd (fun (_ : tensor) (_ : list nat) => 0%Z)) (M := operands_only s1 stored) as (_ & _ & R & FF); auto using ok1.
      * intros v G. unfold qstored, is_bool. destruct (Nat.eqb_spec dd nz); [congruence|]. cbn [negb]. destruct G as [->| ->]; auto.
      * intros v G. unfold qstored, is_bool. destruct (Nat.eqb_spec dd nz); [congruence|]. cbn [negb]. destruct G as [->| ->]; auto.
      * destruct IN as [I1 I2]. split; auto. intros t x I. unfold qclear. rewrite <- I2 by auto. destruct (_ =? _); auto.
      * intros x. left. unfold qclear. rewrite Nat.eqb_refl. auto.
      * rewrite (epilog_run dim stored sparse dd nz gv ps r0 _ D DN).
        -- rewrite FF; [|congruence|intros t _; auto]. unfold qclear. destruct (nz =? dd); rewrite map_length; lia.
        -- intros y. rewrite R. fold H. unfold qclear. rewrite Nat.eqb_refl. change 0%Z with (of_bool false) at 1. rewrite bumps_or. auto.
    + intros p. rewrite <- KEY. rewrite in_map_iff. split.
      * intros (e & EP' & I). apply filter_In in I. destruct I as [I HA]. apply andb_true_iff in HA. destruct HA as [HA HD]. unfold hit_at in HA. destruct (list_eqb_spec (map e gv) g) as [EG'|]; [|discriminate].
        unfold D in HD. apply existsb_exists in HD. destruct HD as (r' & I' & HD). unfold hit_at in HD. destruct (list_eqb_spec (map r' (gv ++ ps)) (map e (gv ++ ps))) as [EE|]; [|discriminate].
        rewrite !map_app in EE. apply app_len in EE; [|rewrite !map_length; auto]. exists r'. destruct EE as [-> ->]. auto.
      * intros (r' & I & EG' & EP'). destruct (envs_all dim (gv ++ ps) r0 r' NDC) as (e & Ie & Ee). { intros j J. apply (hits_spine _ _ _ _ _ I). auto. }
        exists e. assert (EE := Ee). rewrite !map_app in EE. apply app_len in EE; [|rewrite !map_length; auto]. destruct EE as [EE1 EE2]. split; [congruence|].
        apply filter_In. split; auto. apply andb_true_iff. split.
        -- unfold hit_at. destruct (list_eqb_spec (map e gv) g); auto. congruence.
        -- unfold D. apply existsb_exists. exists r'. split; auto. unfold hit_at. destruct (list_eqb_spec (map r' (gv ++ ps)) (map e (gv ++ ps))); auto.
Qed.

Lemma assemble_none : setAssembleInsert levels ord qtmp dd nz rho tmp s = AQueries None -> forall u, ~ In (LCompressed u) levels.
Proof.
  rewrite assemble_cases. destruct (supported false false false levels); cbn [negb]; [|discriminate]. destruct (op_of s1); [discriminate|].
  destruct (first_query levels [] (storage_vars ord (lhs s1))) as [[g ps]|] eqn:FQ; [discriminate|]. intros _. apply (first_query_none levels [] (storage_vars ord (lhs s1))); auto.
  unfold storage_vars. rewrite map_length, (Permutation_length PO), seq_length. auto.
Qed.

Lemma assemble_refused : setAssembleInsert levels ord qtmp dd nz rho tmp s <> ARefused <->
  ((forall u, ~ In (LCompressed u) levels) \/ exists n u m, levels = repeat LDense n ++ LCompressed u :: repeat LSingleton m) /\
  (op_of s = None \/ (lhs s <> [] /\ exists pre post, spine s = pre ++ post /\ post <> [] /\ forall v, In v (lhs s) <-> In v pre)).
Proof.
  assert (OP : op_of s1 = None <-> (op_of s = None \/ (lhs s <> [] /\ exists pre post, spine s = pre ++ post /\ post <> [] /\ forall v, In v (lhs s) <-> In v pre))).
  { unfold s1. destruct C0 as (_ & N & _). rewrite prom_op by exact N. unfold s0. rewrite ren_op, ren_lhs, ren_spine. split; (intros [O|(NE & pre & post & E & NP & I)]; [auto|right; split]).
    - destruct (lhs s); [cbn in NE; congruence|discriminate].
    - apply map_eq_app in E. destruct E as (a & b & E & <- & <-). exists a, b. split; auto. split; [destruct b; [cbn in NP; congruence|discriminate]|].
      intros v. specialize (I (rho v)). rewrite app_nil_r, !ren_in in I by exact rinj. exact I.
    - destruct (lhs s); [congruence|discriminate].
    - exists (map rho pre), (map rho post). rewrite E, map_app. split; auto. split; [destruct post; [congruence|discriminate]|].
      intros v. rewrite app_nil_r. rewrite !in_map_iff. split; intros (w & <- & J); exists w; split; auto; apply I; auto. }
  rewrite <- OP, <- supported_levels. rewrite assemble_cases. destruct (supported false false false levels); cbn [negb]; [|intuition congruence].
  destruct (op_of s1); [intuition congruence|]. destruct (first_query levels [] (storage_vars ord (lhs s1))) as [[g ps]|]; intuition congruence.
Qed.
End Main.
