(** Proofs about replacing variables, tensors and nodes. *)
From Coq Require Import ZArith List Bool Lia.
From Verif Require Import Replace ReplaceSpec.
Import ListNotations.
Local Open Scope Z_scope.

Section ExprInd.
Variable P : expr -> Prop.
Hypotheses (HR : forall i a, P (Read i a)) (HV : forall i v, P (IVar i v)) (HL : forall i z, P (Lit i z))
  (HU : forall i o a, P a -> P (Un i o a)) (HB : forall i o a b, P a -> P b -> P (Bin i o a b))
  (HC : forall i t a, P a -> P (Cast i t a)) (HF : forall i f l, (forall a, In a l -> P a) -> P (Call i f l))
  (HD : forall i o v a, P a -> P (Red i o v a)).
Fixpoint expr_ind' (e : expr) : P e :=
  match e with
  | Read i a => HR i a | IVar i v => HV i v | Lit i z => HL i z
  | Un i o a => HU i o a (expr_ind' a)
  | Bin i o a b => HB i o a b (expr_ind' a) (expr_ind' b)
  | Cast i t a => HC i t a (expr_ind' a)
  | Call i f l => HF i f l ((fix go (l : list expr) : forall a, In a l -> P a :=
      match l with
      | [] => fun a H => match H with end
      | x :: r => fun a H => match H with or_introl E => eq_ind x P (expr_ind' x) a E | or_intror H => go r a H end
      end) l)
  | Red i o v a => HD i o v a (expr_ind' a)
  end.
End ExprInd.

Lemma sub_call : forall i f l a x, In a l -> In x (subexprs a) -> In x (subexprs (Call i f l)).
Proof. intros i f l a x H I. right. apply in_flat_map. exists a. split; assumption. Qed.

(** Pieces of statements. *)
Lemma self_sub : forall s, In s (substmts s). Proof. intros []; left; reflexivity. Qed.

Section Vars.
Variable O : operators.
Variable m : list (nat * nat).
Variable vs : list var.
Variables dim dim' : var -> nat.
Let sg := subst_of m.
Hypothesis Hinj : forall v w, In v vs -> In w vs -> sg v = sg w -> v = w.
Hypothesis Hdim : forall v, In v vs -> dim' (sg v) = dim v.

Definition rel (s s' : env) : Prop := forall v, In v vs -> s' (sg v) = s v.
Definition acc_ok (a : access) : Prop :=
  incl (a_vars a) vs /\ (a_structure a = true -> forall v, In v (a_vars a) -> lookup m v = None).
Definition fixed (v : var) : Prop := In v vs /\ sg v = v.
Definition node_ok (e : expr) : Prop :=
  match e with
  | Read _ a => acc_ok a
  | IVar _ v => In v vs
  | Red _ _ v _ => fixed v
  | _ => True
  end.
Definition rel_ok (r : relation) : Prop := fixed (r_parent r) /\ fixed (r_outer r) /\ fixed (r_inner r).

Lemma rel_bind : forall s s' v x, rel s s' -> In v vs -> rel (bind s v x) (bind s' (sg v) x).
Proof.
  intros s s' v x R Hv w Hw. unfold bind. destruct (Nat.eqb_spec (sg w) (sg v)) as [E|E].
  - rewrite (Hinj w v Hw Hv E), Nat.eqb_refl. reflexivity.
  - destruct (Nat.eqb_spec w v) as [->|_]; [contradiction|]. exact (R w Hw).
Qed.
Lemma rel_bind_fixed : forall s s' v x, rel s s' -> fixed v -> rel (bind s v x) (bind s' v x).
Proof. intros s s' v x R [Hv E]. rewrite <- E at 2. apply rel_bind; assumption. Qed.

Lemma subst_none : forall v, lookup m v = None -> sg v = v.
Proof. intros v H. unfold sg, subst_of. rewrite H. reflexivity. Qed.
Lemma rename_fields : forall a, acc_ok a -> a_tensor (rename_access m a) = a_tensor a /\
  a_mods (rename_access m a) = a_mods a /\ a_structure (rename_access m a) = a_structure a /\
  a_vars (rename_access m a) = map sg (a_vars a).
Proof.
  intros a [_ H]. unfold rename_access. destruct (existsb _ _) eqn:E.
  - cbn [a_tensor a_mods a_structure a_vars]. repeat split. destruct (a_structure a); [|reflexivity].
    apply existsb_exists in E. destruct E as (v & I & E). rewrite (H eq_refl v I) in E. discriminate.
  - repeat split. symmetry. erewrite map_ext_in; [apply map_id|]. intros v I. apply subst_none.
    destruct (lookup m v) eqn:L; [|reflexivity]. exfalso.
    assert (X : existsb (fun v => match lookup m v with Some _ => true | None => false end) (a_vars a) = true).
    { apply existsb_exists. exists v. rewrite L. auto. }
    congruence.
Qed.
Lemma place_rename : forall a s s', acc_ok a -> rel s s' -> place s' (rename_access m a) = place s a.
Proof.
  intros a s s' A R. destruct (rename_fields a A) as (_ & E2 & _ & E4). unfold place. rewrite E2, E4, map_map.
  f_equal. apply map_ext_in. intros v I. apply R. destruct A as [A _]. exact (A v I).
Qed.

Lemma eval_rename : forall e, (forall x, In x (subexprs e) -> node_ok x) -> forall M s s', rel s s' ->
  eval O dim' M s' (replace_vars m e) = eval O dim M s e.
Proof.
  unfold replace_vars.
  induction e using expr_ind'; intros K M s s' R; cbn [rewrite_expr var_node eval];
    try (pose proof (K _ (or_introl eq_refl)) as N; cbn [node_ok] in N).
  - destruct (rename_fields a N) as (E1 & _ & E3 & _). rewrite E1, E3, (place_rename a s s' N R). reflexivity.
  - f_equal. exact (R v N).
  - reflexivity.
  - f_equal. apply IHe; auto. intros x I. apply K. right. exact I.
  - f_equal; [apply IHe1|apply IHe2]; auto; intros x I; apply K; right; apply in_or_app; auto.
  - f_equal. apply IHe; auto. intros x I. apply K. right. exact I.
  - f_equal. rewrite map_map. apply map_ext_in. intros a I. apply H; auto. intros x Ix. apply K. exact (sub_call i f l a x I Ix).
  - assert (D : dim' v = dim v) by (destruct N as [N1 N2]; rewrite <- N2 at 1; apply Hdim, N1).
    rewrite D. f_equal. apply map_ext. intros x. apply IHe.
    + intros y I. apply K. right. exact I.
    + apply rel_bind_fixed; assumption.
Qed.

Lemma recovered_rename : forall rels s s', (forall r, In r rels -> rel_ok r) -> rel s s' ->
  rel (recovered rels s) (recovered rels s').
Proof.
  induction rels as [|r rest IH]; intros s s' H R; [exact R|]. cbn [recovered].
  assert (R' : rel (recovered rest s) (recovered rest s')) by (apply IH; auto; intros; apply H; right; assumption).
  destruct (H r (or_introl eq_refl)) as (Fp & [Ho Eo] & [Hi Ei]).
  assert (E : recovered rest s' (r_outer r) * r_factor r + recovered rest s' (r_inner r) =
              recovered rest s (r_outer r) * r_factor r + recovered rest s (r_inner r)).
  { rewrite <- (R' _ Ho), <- (R' _ Hi), Eo, Ei. reflexivity. }
  rewrite E. apply rel_bind_fixed; assumption.
Qed.
Lemma in_range_rename : forall rels s s', (forall r, In r rels -> rel_ok r) -> rel s s' ->
  in_range dim' rels s' = in_range dim rels s.
Proof.
  intros rels s s' H R. unfold in_range. induction rels as [|r rest IH]; [reflexivity|]. cbn [forallb].
  rewrite IH by (intros; apply H; right; assumption). f_equal.
  destruct (H r (or_introl eq_refl)) as ([Hp Ep] & _). rewrite <- (R _ Hp), <- (Hdim _ Hp), Ep. reflexivity.
Qed.

Fixpoint stmt_ok (st : stmt) : Prop :=
  match st with
  | Assign _ l r _ => acc_ok l /\ (forall x, In x (subexprs r) -> node_ok x)
  | Forall _ v b => In v vs /\ stmt_ok b
  | Where _ a b | Sequence _ a b | Assemble _ a b | Multi _ a b => stmt_ok a /\ stmt_ok b
  | SuchThat _ b rs => (forall r, In r rs -> rel_ok r) /\ stmt_ok b
  end.

Lemma results_rename : forall st, stmt_ok st -> results (replace_vars_stmt m st) = results st.
Proof.
  induction st; cbn [stmt_ok replace_vars_stmt results]; intros H; try (destruct H as [H1 H2]); auto;
    try (rewrite IHst1, IHst2 by assumption; reflexivity).
  destruct (rename_fields lhs H1) as (E & _). rewrite E. reflexivity.
Qed.

Lemma loop_ext : forall n f g M, (forall x M, f x M = g x M) -> loop O n f M = loop O n g M.
Proof.
  intros n f g M H. unfold loop. revert M. induction (range n); intros M; [reflexivity|]. cbn [fold_left].
  rewrite H. apply IHl.
Qed.

Lemma exec_rename : forall st, stmt_ok st -> forall rels s s' M, (forall r, In r rels -> rel_ok r) -> rel s s' ->
  exec O dim' rels (replace_vars_stmt m st) s' M = exec O dim rels st s M.
Proof.
  induction st; cbn [stmt_ok replace_vars_stmt exec]; intros H rels0 s s' M Hr R.
  - destruct H as [Hl He]. pose proof (recovered_rename rels0 s s' Hr R) as R'.
    rewrite (in_range_rename rels0 _ _ Hr R'). destruct (in_range dim rels0 (recovered rels0 s)); [|reflexivity].
    destruct (rename_fields lhs Hl) as (E & _). rewrite E, (place_rename lhs _ _ Hl R'), (eval_rename rhs He M _ _ R').
    reflexivity.
  - destruct H as [Hv Hb]. fold (sg v). rewrite (Hdim v Hv). apply loop_ext. intros x M'. apply IHst; auto. apply rel_bind; assumption.
  - destruct H as [Ha Hb]. rewrite (results_rename st2 Hb), (IHst2 Hb rels0 s s' _ Hr R). apply IHst1; assumption.
  - destruct H as [Ha Hb]. rewrite (IHst1 Ha rels0 s s' _ Hr R). apply IHst2; assumption.
  - destruct H as [Ha Hb]. rewrite (IHst1 Ha rels0 s s' _ Hr R). apply IHst2; assumption.
  - destruct H as [Ha Hb]. rewrite (IHst1 Ha rels0 s s' _ Hr R). apply IHst2; assumption.
  - destruct H as [Hs Hb]. apply IHst; auto. intros r I. apply in_app_or in I. destruct I; auto.
Qed.
End Vars.

(** From the parts of the statement to the conditions node by node. *)
Lemma stmt_ok_parts : forall m vs st,
  (forall a, In a (accesses st) -> acc_ok m vs a) -> (forall e, In e (exprs st) -> node_ok m vs e) ->
  (forall r, In r (relations st) -> rel_ok m vs r) ->
  (forall s, In s (substmts st) -> match s with Forall _ v _ => In v vs | _ => True end) -> stmt_ok m vs st.
Proof.
  intros m vs st HA HE HR HF.
  assert (G : forall t, incl (substmts t) (substmts st) -> stmt_ok m vs t).
  { induction t; intros I; cbn [stmt_ok].
    - pose proof (I _ (self_sub _)) as J. split.
      + apply HA. apply in_or_app. left. apply in_flat_map. eexists. split; [exact J|left; reflexivity].
      + intros x Ix. apply HE. apply in_flat_map. eexists. split; [exact J|exact Ix].
    - split; [exact (HF _ (I _ (self_sub _)))|]. apply IHt. intros x Ix. apply I. right. exact Ix.
    - split; [apply IHt1|apply IHt2]; intros x Ix; apply I; right; apply in_or_app; auto.
    - split; [apply IHt1|apply IHt2]; intros x Ix; apply I; right; apply in_or_app; auto.
    - split; [apply IHt1|apply IHt2]; intros x Ix; apply I; right; apply in_or_app; auto.
    - split; [apply IHt1|apply IHt2]; intros x Ix; apply I; right; apply in_or_app; auto.
    - split.
      + intros r Ir. apply HR. apply in_flat_map. eexists. split; [exact (I _ (self_sub _))|exact Ir].
      + apply IHt. intros x Ix. apply I. right. exact Ix. }
  apply G. intros x Ix. exact Ix.
Qed.

Lemma replace_vars_means : forall O m st dim dim' s s' M,
  (forall v w, In v (variables st) -> In w (variables st) -> subst_of m v = subst_of m w -> v = w) ->
  (forall v, In v (reduced st ++ related st) -> subst_of m v = v) ->
  (forall a v, In a (accesses st) -> a_structure a = true -> In v (a_vars a) -> lookup m v = None) ->
  (forall v, In v (variables st) -> dim' (subst_of m v) = dim v /\ s' (subst_of m v) = s v) ->
  exec O dim' [] (replace_vars_stmt m st) s' M = exec O dim [] st s M.
Proof.
  intros O m st dim dim' s s' M Hinj Hfix Hst Hv.
  assert (VF : forall v, In v (flat_map (fun s => match s with Forall _ v _ => [v] | _ => [] end) (substmts st)) -> In v (variables st)) by
    (intros; apply in_or_app; left; assumption).
  assert (VI : forall v, In v (flat_map (fun e => match e with IVar _ v => [v] | _ => [] end) (exprs st)) -> In v (variables st)) by
    (intros; apply in_or_app; right; apply in_or_app; left; assumption).
  assert (VA : forall v, In v (flat_map a_vars (accesses st)) -> In v (variables st)) by
    (intros; apply in_or_app; right; apply in_or_app; right; apply in_or_app; left; assumption).
  assert (VR : forall v, In v (reduced st ++ related st) -> In v (variables st)) by
    (intros; apply in_or_app; right; apply in_or_app; right; apply in_or_app; right; assumption).
  apply (exec_rename O m (variables st) dim dim').
  - exact Hinj.
  - intros v I. apply Hv, I.
  - assert (A : forall a, In a (accesses st) -> acc_ok m (variables st) a).
    { intros a I. split; [|intros E v J; exact (Hst a v I E J)]. intros v J. apply VA, in_flat_map. exists a. auto. }
    apply stmt_ok_parts.
    + exact A.
    + intros e I. destruct e; cbn [node_ok]; auto.
      * apply A. apply in_or_app. right. apply in_flat_map. eexists. split; [exact I|left; reflexivity].
      * apply VI, in_flat_map. eexists. split; [exact I|left; reflexivity].
      * assert (J : In v (reduced st ++ related st)).
        { apply in_or_app. left. apply in_flat_map. eexists. split; [exact I|left; reflexivity]. }
        split; auto.
    + intros r I. assert (J : forall v, In v [r_parent r; r_outer r; r_inner r] -> In v (reduced st ++ related st)).
      { intros v J. apply in_or_app. right. apply in_flat_map. exists r. auto. }
      split; [|split]; split; auto; try apply VR; try apply Hfix; apply J; cbn; auto.
    + intros t I. destruct t; auto. apply VF, in_flat_map. eexists. split; [exact I|left; reflexivity].
  - intros r [].
  - intros v I. apply Hv, I.
Qed.

(** Tensors. *)
Section Tensors.
Variable O : operators.
Variable m : list (nat * nat).
Variable ts : list tensor.
Variable dim : var -> nat.
Let tau := subst_of m.
Hypothesis Hinj : forall t u, In t ts -> In u ts -> tau t = tau u -> t = u.

Definition trel (M M' : store O) : Prop := forall t p, In t ts -> M' (tau t) p = M t p.
Definition tacc_ok (a : access) : Prop :=
  In (a_tensor a) ts /\ (lookup m (a_tensor a) <> None -> a_structure a = false /\ forall x, In x (a_mods a) -> x = Plain).

Lemma coordinates_plain : forall ms xs, (forall x, In x ms -> x = Plain) -> coordinates ms xs = xs.
Proof.
  induction ms as [|a ms IH]; intros [|x xs] H; try reflexivity. cbn [coordinates].
  rewrite (H a (or_introl eq_refl)), IH by (intros; apply H; right; assumption). reflexivity.
Qed.
Lemma retarget_ok : forall a, tacc_ok a -> a_tensor (retarget m a) = tau (a_tensor a) /\
  a_structure (retarget m a) = a_structure a /\ (forall s, place s (retarget m a) = place s a).
Proof.
  intros a [_ H]. unfold retarget, tau, subst_of. destruct (lookup m (a_tensor a)) eqn:E; [|auto].
  destruct H as [H1 H2]; [discriminate|]. cbn [a_tensor a_structure]. split; [reflexivity|]. split; [auto|].
  intros s. unfold place. cbn [a_mods a_vars]. rewrite !coordinates_plain; auto.
  intros x I. apply in_map_iff in I. destruct I as (y & <- & _). reflexivity.
Qed.
Definition tnode_ok (e : expr) : Prop := match e with Read _ a => tacc_ok a | _ => True end.

Lemma eval_tensors : forall e, (forall x, In x (subexprs e) -> tnode_ok x) -> forall M M' s, trel M M' ->
  eval O dim M' s (replace_tensors_expr m e) = eval O dim M s e.
Proof.
  unfold replace_tensors_expr.
  induction e using expr_ind'; intros K M M' s R; cbn [rewrite_expr tensor_node eval]; auto.
  - pose proof (K _ (or_introl eq_refl)) as N. cbn [tnode_ok] in N.
    destruct (retarget_ok a N) as (E1 & E2 & E3). rewrite E1, E2, E3, R by apply N. reflexivity.
  - f_equal. apply IHe; auto. intros x I. apply K. right. exact I.
  - f_equal; [apply IHe1|apply IHe2]; auto; intros x I; apply K; right; apply in_or_app; auto.
  - f_equal. apply IHe; auto. intros x I. apply K. right. exact I.
  - f_equal. rewrite map_map. apply map_ext_in. intros a I. apply H; auto. intros x Ix. apply K. exact (sub_call i f l a x I Ix).
  - f_equal. apply map_ext. intros x. apply IHe; auto. intros y I. apply K. right. exact I.
Qed.

Fixpoint tstmt_ok (st : stmt) : Prop :=
  match st with
  | Assign _ l r _ => tacc_ok l /\ (forall x, In x (subexprs r) -> tnode_ok x)
  | Forall _ _ b | SuchThat _ b _ => tstmt_ok b
  | Where _ a b | Sequence _ a b | Assemble _ a b | Multi _ a b => tstmt_ok a /\ tstmt_ok b
  end.
Lemma results_tensors : forall st, tstmt_ok st -> results (replace_tensors m st) = map tau (results st).
Proof.
  induction st; cbn [tstmt_ok replace_tensors results]; intros H; auto; try (destruct H as [H1 H2]);
    try (rewrite IHst1, IHst2 by assumption; symmetry; apply map_app); auto.
  destruct (retarget_ok lhs H1) as (E & _). rewrite E. reflexivity.
Qed.
Lemma results_in : forall st, tstmt_ok st -> incl (results st) ts.
Proof.
  induction st; cbn [tstmt_ok results]; intros H; auto; try (destruct H as [H1 H2]); auto using incl_app.
  intros t [<-|[]]. apply H1.
Qed.
Lemma zeroed_rel : forall l M M', incl l ts -> trel M M' -> trel (zeroed O l M) (zeroed O (map tau l) M').
Proof.
  intros l M M' I R t p Ht. unfold zeroed.
  replace (existsb (Nat.eqb (tau t)) (map tau l)) with (existsb (Nat.eqb t) l); [|].
  - destruct (existsb (Nat.eqb t) l); [reflexivity|]. exact (R t p Ht).
  - apply eq_true_iff_eq. rewrite !existsb_exists. split.
    + intros (u & Iu & E). apply Nat.eqb_eq in E. subst. exists (tau u). split; [apply in_map; exact Iu|apply Nat.eqb_refl].
    + intros (u & Iu & E). apply Nat.eqb_eq in E. subst. apply in_map_iff in Iu. destruct Iu as (w & E & Iw).
      exists w. split; [exact Iw|]. apply Nat.eqb_eq. apply Hinj; auto.
Qed.
Lemma write_rel : forall M M' t p x, In t ts -> trel M M' -> trel (write O M t p x) (write O M' (tau t) p x).
Proof.
  intros M M' t p x Ht R u q Hu. unfold write. destruct (Nat.eqb_spec (tau u) (tau t)) as [E|E].
  - rewrite (Hinj u t Hu Ht E), Nat.eqb_refl. destruct (list_eq_dec Z.eq_dec q p); cbn [andb]; [reflexivity|exact (R t q Ht)].
  - destruct (Nat.eqb_spec u t) as [->|_]; [contradiction|]. cbn [andb]. exact (R u q Hu).
Qed.

Lemma exec_tensors : forall st, tstmt_ok st -> forall rels s M M', trel M M' ->
  trel (exec O dim rels st s M) (exec O dim rels (replace_tensors m st) s M').
Proof.
  induction st; cbn [tstmt_ok replace_tensors exec]; intros H rels0 s M M' R.
  - destruct H as [Hl He]. destruct (in_range dim rels0 (recovered rels0 s)); [|exact R].
    destruct (retarget_ok lhs Hl) as (E1 & _ & E3). rewrite E1, E3, (eval_tensors rhs He M M' _ R).
    destruct Hl as [Hl _]. rewrite R by exact Hl. apply write_rel; assumption.
  - unfold loop. revert M M' R. induction (range (dim v)); intros M M' R; [exact R|]. cbn [fold_left]. apply IHl. apply IHst; assumption.
  - destruct H as [Ha Hb]. apply IHst1; auto. apply IHst2; auto. rewrite (results_tensors _ Hb). apply zeroed_rel; auto. apply results_in, Hb.
  - destruct H as [Ha Hb]. apply IHst2; auto.
  - destruct H as [Ha Hb]. apply IHst2; auto.
  - destruct H as [Ha Hb]. apply IHst2; auto.
  - apply IHst; assumption.
Qed.
End Tensors.

Lemma replace_tensors_means : forall O m st dim s M M',
  (forall t u, In t (tensors st) -> In u (tensors st) -> subst_of m t = subst_of m u -> t = u) ->
  (forall a, In a (accesses st) -> lookup m (a_tensor a) <> None ->
     a_structure a = false /\ forall x, In x (a_mods a) -> x = Plain) ->
  (forall t p, In t (tensors st) -> M' (subst_of m t) p = M t p) ->
  forall t p, In t (tensors st) ->
  exec O dim [] (replace_tensors m st) s M' (subst_of m t) p = exec O dim [] st s M t p.
Proof.
  intros O m st dim s M M' Hinj Hacc HM t p Ht.
  assert (A : forall a, In a (accesses st) -> tacc_ok m (tensors st) a).
  { intros a I. split; [apply in_map, I|exact (Hacc a I)]. }
  assert (K : tstmt_ok m (tensors st) st).
  { assert (G : forall t, incl (substmts t) (substmts st) -> tstmt_ok m (tensors st) t).
    { induction t0; intros I; cbn [tstmt_ok];
        try (split; [apply IHt0_1|apply IHt0_2]; intros x Ix; apply I; right; apply in_or_app; auto; fail);
        try (apply IHt0; intros x Ix; apply I; right; exact Ix).
      pose proof (I _ (self_sub _)) as J. split.
      - apply A. apply in_or_app. left. apply in_flat_map. eexists. split; [exact J|left; reflexivity].
      - intros x Ix. destruct x; cbn [tnode_ok]; auto. apply A. apply in_or_app. right. apply in_flat_map.
        exists (Read id0 a). split; [|left; reflexivity]. apply in_flat_map. eexists. split; [exact J|exact Ix]. }
    apply G. intros x Ix. exact Ix. }
  exact (exec_tensors O m (tensors st) dim Hinj st K [] s M M' HM t p Ht).
Qed.

(** Nodes. *)
Lemma eval_nodes : forall O dim m e,
  (forall x x', In x (subexprs e) -> look_expr m x = Some x' -> forall M s, eval O dim M s x' = eval O dim M s x) ->
  forall M s, eval O dim M s (replace_nodes m e) = eval O dim M s e.
Proof.
  unfold replace_nodes. intros O dim m.
  induction e using expr_ind'; intros K M s; cbn [rewrite_expr];
    (destruct (look_expr m _) eqn:E; [apply (K _ _ (or_introl eq_refl) E)|]); cbn [eval]; auto.
  - f_equal. apply IHe. intros x x' I. apply K. right. exact I.
  - f_equal; [apply IHe1|apply IHe2]; intros x x' I; apply K; right; apply in_or_app; auto.
  - f_equal. apply IHe. intros x x' I. apply K. right. exact I.
  - f_equal. rewrite map_map. apply map_ext_in. intros a I. apply H; auto. intros x x' Ix. apply K. exact (sub_call i f l a x I Ix).
  - f_equal. apply map_ext. intros x. apply IHe. intros y y' I. apply K. right. exact I.
Qed.
Lemma results_nodes : forall node st, results (rewrite_stmt node (fun _ => None) st) = results st.
Proof. induction st; cbn [rewrite_stmt results]; auto; rewrite IHst1, IHst2; reflexivity. Qed.

Lemma exec_nodes : forall O dim m st,
  (forall x x', In x (exprs st) -> look_expr m x = Some x' -> forall M s, eval O dim M s x' = eval O dim M s x) ->
  forall rels s M, exec O dim rels (replace_nodes_stmt m st) s M = exec O dim rels st s M.
Proof.
  intros O dim m st H. unfold replace_nodes_stmt.
  assert (G : forall t, incl (substmts t) (substmts st) -> forall rels s M,
    exec O dim rels (rewrite_stmt (look_expr m) (fun _ => None) t) s M = exec O dim rels t s M).
  { induction t; intros I rels0 s M; cbn [rewrite_stmt exec].
    - rewrite (eval_nodes O dim m rhs); [reflexivity|]. intros x x' Ix. apply H. apply in_flat_map.
      eexists. split; [exact (I _ (self_sub _))|exact Ix].
    - apply loop_ext. intros x M'. apply IHt. intros y Iy. apply I. right. exact Iy.
    - rewrite results_nodes, IHt2, IHt1; [reflexivity|..]; intros y Iy; apply I; right; apply in_or_app; auto.
    - rewrite IHt1, IHt2; [reflexivity|..]; intros y Iy; apply I; right; apply in_or_app; auto.
    - rewrite IHt1, IHt2; [reflexivity|..]; intros y Iy; apply I; right; apply in_or_app; auto.
    - rewrite IHt1, IHt2; [reflexivity|..]; intros y Iy; apply I; right; apply in_or_app; auto.
    - apply IHt. intros y Iy. apply I. right. exact Iy. }
  apply G. intros x Ix. exact Ix.
Qed.

Lemma exec_stmts : forall O dim m st,
  (forall x x', In x (substmts st) -> lookup m (stmt_id x) = Some x' ->
     results x' = results x /\ forall rels s M, exec O dim rels x' s M = exec O dim rels x s M) ->
  results (replace_stmts m st) = results st /\
  forall rels s M, exec O dim rels (replace_stmts m st) s M = exec O dim rels st s M.
Proof.
  intros O dim m st H. unfold replace_stmts.
  assert (G : forall t, incl (substmts t) (substmts st) ->
    results (rewrite_stmt (fun _ => None) (fun s => lookup m (stmt_id s)) t) = results t /\
    forall rels s M, exec O dim rels (rewrite_stmt (fun _ => None) (fun s => lookup m (stmt_id s)) t) s M = exec O dim rels t s M).
  { assert (N : forall e, rewrite_expr (fun _ => None) e = e).
    { induction e using expr_ind'; cbn [rewrite_expr]; try reflexivity; try (rewrite IHe; reflexivity).
      - rewrite IHe1, IHe2. reflexivity.
      - f_equal. erewrite map_ext_in; [apply map_id|]. exact H0. }
    induction t; intros I; cbn [rewrite_stmt];
      (destruct (lookup m _) eqn:E; [exact (H _ _ (I _ (self_sub _)) E)|]); cbn [results exec].
    - rewrite N. auto.
    - destruct IHt as [A B]; [intros y Iy; apply I; right; exact Iy|]. split; [exact A|].
      intros rels s M. apply loop_ext. intros x M'. apply B.
    - destruct IHt1 as [A1 B1]; [intros y Iy; apply I; right; apply in_or_app; auto|].
      destruct IHt2 as [A2 B2]; [intros y Iy; apply I; right; apply in_or_app; auto|].
      split; [exact A1|]. intros. rewrite A2, B2, B1. reflexivity.
    - destruct IHt1 as [A1 B1]; [intros y Iy; apply I; right; apply in_or_app; auto|].
      destruct IHt2 as [A2 B2]; [intros y Iy; apply I; right; apply in_or_app; auto|].
      split; [rewrite A1, A2; reflexivity|]. intros. rewrite B1, B2. reflexivity.
    - destruct IHt1 as [A1 B1]; [intros y Iy; apply I; right; apply in_or_app; auto|].
      destruct IHt2 as [A2 B2]; [intros y Iy; apply I; right; apply in_or_app; auto|].
      split; [rewrite A1, A2; reflexivity|]. intros. rewrite B1, B2. reflexivity.
    - destruct IHt1 as [A1 B1]; [intros y Iy; apply I; right; apply in_or_app; auto|].
      destruct IHt2 as [A2 B2]; [intros y Iy; apply I; right; apply in_or_app; auto|].
      split; [rewrite A1, A2; reflexivity|]. intros. rewrite B1, B2. reflexivity.
    - destruct IHt as [A B]; [intros y Iy; apply I; right; exact Iy|]. split; [exact A|]. intros. apply B. }
  apply G. intros x Ix. exact Ix.
Qed.

(** What is not concerned is left alone. *)
Lemma nodes_same : forall m e, (forall x, In x (subexprs e) -> look_expr m x = None) -> replace_nodes m e = e.
Proof.
  unfold replace_nodes. intros m.
  induction e using expr_ind'; intros K; cbn [rewrite_expr]; rewrite (K _ (or_introl eq_refl)); try reflexivity.
  - f_equal. apply IHe. intros x I. apply K. right. exact I.
  - f_equal; [apply IHe1|apply IHe2]; intros x I; apply K; right; apply in_or_app; auto.
  - f_equal. apply IHe. intros x I. apply K. right. exact I.
  - f_equal. erewrite map_ext_in; [apply map_id|]. intros a I. apply H; auto. intros x Ix. apply K. exact (sub_call i f l a x I Ix).
  - f_equal. apply IHe. intros x I. apply K. right. exact I.
Qed.
