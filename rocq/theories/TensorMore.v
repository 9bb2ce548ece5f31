(** Proofs about wrapping arrays, transposing, comparing and removing zeros
    (Tensor.v). *)
From Coq Require Import List Arith ZArith Lia Bool Sorting.Sorted Permutation Ring_theory Ring.
Import ListNotations.
From Verif Require Import Outcome Storage Eval StorageProofs StorageMore PackKernel Compare Tensor TensorSpec PackKernelProofs TensorProofs.
Local Open Scope nat_scope.
Local Arguments list_eq_dec : simpl never.

(** ** A sort that qsort may be *)
Section Sort.
Context {V : Type}.
Notation row := (@Storage.row V).
Definition before (a b : row) : bool := (lexicographicalCmp (map Z.of_nat (fst a)) (map Z.of_nat (fst b)) <=? 0)%Z.
Fixpoint put_row (r : row) (l : list row) : list row :=
  match l with [] => [r] | x :: l => if before r x then r :: x :: l else x :: put_row r l end.
Definition sort_rows (l : list row) : list row := fold_right put_row [] l.

Lemma put_row_perm : forall r l, Permutation (r :: l) (put_row r l).
Proof.
  induction l as [|x l IH]; cbn [put_row]; auto. destruct (before r x); auto.
  eapply Permutation_trans; [apply perm_swap|]. constructor. auto.
Qed.
Lemma sort_rows_perm : forall l, Permutation l (sort_rows l).
Proof. induction l; cbn; auto. eapply Permutation_trans; [constructor; apply IHl|apply put_row_perm]. Qed.

Lemma lexle_total : forall a b, lexle a b \/ lexle b a.
Proof.
  induction a as [|x a IH]; intros [|y b]; cbn; auto. destruct (lt_eq_lt_dec x y) as [[|]|]; auto. destruct (IH b); auto.
Qed.
Lemma lexle_trans : forall a b c, length a = length b -> length b = length c -> lexle a b -> lexle b c -> lexle a c.
Proof.
  induction a as [|x a IH]; intros [|y b] [|z c] L1 L2; cbn; auto; try discriminate. intros [A|[A A']] [B|[B B']].
  - left. lia.
  - left. lia.
  - left. lia.
  - right. split; [lia|]. apply IH with b; auto.
Qed.

Lemma sort_rows_sorts : sorts sort_rows.
Proof.
  intros n rows H. split; [apply sort_rows_perm|].
  assert (X : forall l, (forall r, In r l -> length (fst r) = n /\ Forall (fun c => (Z.of_nat c < 2 ^ 31)%Z) (fst r)) ->
    StronglySorted (fun a b => lexle a b) (map fst (sort_rows l))).
  { induction l as [|r l IH]; intros HL; [constructor|]. cbn [sort_rows fold_right]. fold (sort_rows l).
    specialize (IH (fun x Hx => HL x (or_intror Hx))).
    assert (HR := HL r (or_introl eq_refl)).
    assert (HS : forall x, In x (sort_rows l) -> length (fst x) = n /\ Forall (fun c => (Z.of_nat c < 2 ^ 31)%Z) (fst x)).
    { intros x Hx. apply HL. right. eapply Permutation_in; [apply Permutation_sym, sort_rows_perm|auto]. }
    clear HL. revert IH HS. generalize (sort_rows l). induction l0 as [|x m IHm]; intros S HS; cbn [put_row].
    - repeat constructor.
    - cbn [map] in S. inversion S; subst. assert (HX := HS x (or_introl eq_refl)). unfold before.
      destruct (Z.leb_spec (lexicographicalCmp (map Z.of_nat (fst r)) (map Z.of_nat (fst x))) 0) as [L|L].
      + apply cmp_lexle in L; try tauto; [|destruct HR, HX; congruence]. cbn [map]. constructor; auto. constructor; auto.
        rewrite Forall_forall in *. intros c Hc. apply in_map_iff in Hc. destruct Hc as (y & <- & Hy).
        apply lexle_trans with (fst x); auto; [destruct HR, HX; congruence|destruct HX, (HS y (or_intror Hy)); congruence|].
        apply H3. apply in_map. auto.
      + cbn [map]. constructor; [apply IHm; auto; intros y Hy; apply HS; right; auto|].
        apply Forall_forall. intros c Hc. apply in_map_iff in Hc. destruct Hc as (y & <- & Hy).
        apply (Permutation_in _ (Permutation_sym (put_row_perm r m))) in Hy. destruct Hy as [<-|Hy].
        * destruct (lexle_total (fst x) (fst r)) as [T|T]; auto. apply cmp_lexle in T; try tauto; [lia|destruct HR, HX; congruence].
        * rewrite Forall_forall in H3. apply H3. apply in_map. auto. }
  specialize (X rows H).
  assert (HS : forall x, In x (sort_rows rows) -> length (fst x) = n /\ Forall (fun c => (Z.of_nat c < 2 ^ 31)%Z) (fst x)).
  { intros x Hx. apply H. eapply Permutation_in; [apply Permutation_sym, sort_rows_perm|auto]. }
  revert X HS. generalize (sort_rows rows). induction l as [|x m IHm]; intros S HS; [constructor|]. cbn [map] in *. inversion S; subst.
  constructor; [apply IHm; auto; intros y Hy; apply HS; right; auto|]. rewrite Forall_forall in *. intros c Hc. specialize (H3 c Hc).
  apply in_map_iff in Hc. destruct Hc as (y & <- & Hy). destruct (HS x (or_introl eq_refl)), (HS y (or_intror Hy)).
  apply cmp_lexle; auto. congruence.
Qed.
End Sort.

(** ** A new tensor that is filled and packed once *)
Section Fresh.
Context {V : Type}.
Variable R : ring_ops V.
Hypothesis HR : ring_theory (r0 R) (r1 R) (radd R) (rmul R) (rsub R) (ropp R) eq.
Add Ring VRing3 : HR.
Notation row := (@Storage.row V).
Notation tensor := (@tensor V).
Variable sort : list row -> list row.
Hypothesis SORT : sorts sort.

Definition ins (r : row) : @call V := Insert (fst r) (snd r).
Lemma inserts_ins : forall rows, inserts (map ins rows) = rows.
Proof. induction rows as [|[c v] rows IH]; auto. cbn. f_equal. exact IH. Qed.

Lemma run_app : forall a b (t : tensor), run R sort (a ++ b) t = obind (run R sort a t) (run R sort b).
Proof. induction a as [|c a IH]; intros b t; auto. cbn [app run]. destruct (do_call R sort c t); cbn [obind]; auto. Qed.

Lemma run_inserts : forall rows (t : tensor) pre, buffer_ok t pre ->
  exists t', run R sort (map ins rows) t = Val t' /\ buffer_ok t' (pre ++ rows) /\ t_dims t' = t_dims t /\ t_kinds t' = t_kinds t /\
    t_ord t' = t_ord t /\ t_store t' = t_store t /\ t_never t' = t_never t /\ (t_needs t = true -> t_needs t' = true).
Proof.
  induction rows as [|r rows IH]; intros t pre B.
  - exists t. rewrite app_nil_r. cbn. auto 10.
  - cbn [map run]. unfold ins at 1. cbn [do_call]. unfold insert. rewrite <- surjective_pairing.
    destruct (insert_ok r t pre B) as (t1 & E & B1 & D1 & K1 & O1 & S1 & N1 & P1). rewrite E. cbn [obind].
    destruct (IH (with_flags t1 (t_never t1) true) (pre ++ [r]) B1) as (t2 & E2 & B2 & D2 & K2 & O2 & S2 & N2 & P2).
    exists t2. rewrite E2, <- app_assoc in *. cbn in *. split; auto. split; auto. repeat split; try congruence. auto.
Qed.

Definition fresh dims kinds ord rows : tensor := Tensor dims kinds ord [] 0 (packed_store R sort dims kinds ord rows) false false.

Lemma pack_fresh : forall (t : tensor) dims kinds ord rows, dims <> [] -> t_dims t = dims -> t_kinds t = kinds -> t_ord t = ord ->
  t_never t = true -> t_needs t = true -> buffer_ok t rows -> pack_tensor R sort t = Val (fresh dims kinds ord rows).
Proof.
  intros t dims kinds ord rows NE D K O N P (B & U). unfold pack_tensor. rewrite P, N. cbn [negb obind].
  cbn [with_flags t_used t_slots t_dims]. rewrite B. cbn [obind]. rewrite D. destruct dims; [congruence|].
  unfold fresh, with_store, with_buffer, level_fmt. cbn. rewrite D, K, O. auto.
Qed.
Lemma fresh_run : forall dims kinds ord rows, dims <> [] ->
  run R sort (map ins rows ++ [Pack]) (new_tensor dims kinds ord) = Val (fresh dims kinds ord rows).
Proof.
  intros dims kinds ord rows NE. rewrite run_app.
  destruct (run_inserts rows (new_tensor dims kinds ord) []) as (t & E & B & D & K & O & S & N & P); [split; auto|].
  rewrite E. cbn [obind run do_call]. rewrite (pack_fresh t dims kinds ord rows); auto.
Qed.

Section One.
Variable dims : list nat.
Variable kinds : list kind.
Variable ord : list nat.
Hypothesis OK : format_ok dims kinds ord.
Hypothesis NE : dims <> [].
Variable rows : list row.
Hypothesis IR : forall r, In r rows -> in_range dims (fst r).

Lemma fresh_packed : is_packed (fresh dims kinds ord rows).
Proof.
  split; [exact OK|]. split; [exact NE|]. split; [auto|]. cbn. split.
  - apply (packed_store_kinds R HR sort SORT); auto.
  - apply (packed_store_wf R HR sort SORT); auto.
Qed.
Lemma fresh_value : forall cs, in_range dims cs -> tvalue R (fresh dims kinds ord rows) cs = inserted_at R rows cs.
Proof. intros cs RC. apply (packed_store_value R HR sort SORT); auto. Qed.
Lemma fresh_stored : forall cs, In cs (map fst (iterate R (fresh dims kinds ord rows))) <->
  in_range dims cs /\
  (comp_depth (fmt dims kinds ord) = 0 \/
   exists r, In r rows /\ firstn (comp_depth (fmt dims kinds ord)) (permute ord (fst r)) = firstn (comp_depth (fmt dims kinds ord)) (permute ord cs)).
Proof.
  intros cs. assert (W := packed_store_wf R HR sort SORT dims kinds ord OK rows IR). split.
  - intros H. apply in_map_iff in H. destruct H as ((c & v) & E & H). cbn [fst] in E. subst c.
    apply (iterate_in R dims kinds ord OK (fresh dims kinds ord rows) eq_refl W) in H. destruct H as (RC & L & _). split; auto.
    apply (packed_store_stored R HR sort SORT dims kinds ord OK rows cs IR RC). auto.
  - intros (RC & H). apply in_map_iff. exists (cs, logical R ord (t_store (fresh dims kinds ord rows)) cs). split; auto.
    apply (iterate_in R dims kinds ord OK (fresh dims kinds ord rows) eq_refl W). split; auto. split; auto.
    apply (packed_store_stored R HR sort SORT dims kinds ord OK rows cs IR RC). auto.
Qed.
End One.

(** ** Packed tensors *)
Section Packed.
Variable t : tensor.
Hypothesis P : is_packed t.
Notation n := (length (t_dims t)).

Lemma p_ok : format_ok (t_dims t) (t_kinds t) (t_ord t). Proof. apply P. Qed.
Lemma p_wf : wf_storage (permute (t_ord t) (t_dims t)) (t_store t). Proof. apply P. Qed.
Lemma p_pack : pack_tensor R sort t = Val t.
Proof. unfold pack_tensor. destruct P as (_ & _ & N & _). rewrite N. auto. Qed.
Lemma p_mo : mode_order (t_ord t) n. Proof. apply p_ok. Qed.
Lemma p_range : forall r, In r (iterate R t) -> in_range (t_dims t) (fst r).
Proof. apply (iterate_range R _ _ _ p_ok t eq_refl p_wf). Qed.
Lemma p_value : forall cs, in_range (t_dims t) cs -> inserted_at R (iterate R t) cs = tvalue R t cs.
Proof. apply (iterate_value R HR _ _ _ p_ok t eq_refl p_wf). Qed.
Lemma p_in : forall cs v, In (cs, v) (iterate R t) <->
    in_range (t_dims t) cs /\ In cs (map fst (iterate R t)) /\ v = tvalue R t cs.
Proof.
  intros cs v. split.
  - intros H. split; [apply (p_range (cs, v) H)|]. split; [apply in_map_iff; exists (cs, v); auto|].
    apply (iterate_in R _ _ _ p_ok t eq_refl p_wf) in H. apply H.
  - intros (RC & H & ->). apply in_map_iff in H. destruct H as ((c & v) & E & H). cbn [fst] in E. subst c.
    apply (iterate_in R _ _ _ p_ok t eq_refl p_wf). apply (iterate_in R _ _ _ p_ok t eq_refl p_wf) in H. tauto.
Qed.
Lemma p_sorted : StronglySorted lexlt (map (fun r => permute (t_ord t) (fst r)) (iterate R t)).
Proof.
  unfold iterate. rewrite map_map. cbn [fst].
  rewrite (map_ext_in _ fst).
  - unfold components. rewrite map_map. cbn [fst]. eapply enum_sorted; [apply p_wf|lia].
  - intros (c & v) H. cbn [fst]. apply (components_in _ _ _ _ _ p_wf) in H. destruct H as [H _]. apply in_range_nth in H. destruct H as [H _].
    rewrite (permute_length _ _ p_mo) in H. apply (permute_unpermute _ _ p_mo); auto.
Qed.
Lemma p_len : forall r, In r (iterate R t) -> length (fst r) = n.
Proof. intros r H. apply p_range in H. apply in_range_nth in H. tauto. Qed.
End Packed.

(** tensors with the same mode order, coordinates and values have the same sequence *)
Lemma iterate_ext : forall t u : tensor, is_packed t -> is_packed u -> t_dims t = t_dims u -> t_ord t = t_ord u ->
  (forall cs, In cs (map fst (iterate R t)) <-> In cs (map fst (iterate R u))) ->
  (forall cs, in_range (t_dims t) cs -> tvalue R t cs = tvalue R u cs) -> iterate R t = iterate R u.
Proof.
  intros t u Pt Pu D O ST VAL.
  assert (X : map (fun r : row => (permute (t_ord t) (fst r), snd r)) (iterate R t) =
              map (fun r : row => (permute (t_ord t) (fst r), snd r)) (iterate R u)).
  { apply sorted_same.
    - rewrite map_map. cbn [fst]. apply p_sorted; auto.
    - rewrite map_map. cbn [fst]. rewrite O. apply p_sorted; auto.
    - assert (EL : forall x, In x (iterate R t) <-> In x (iterate R u)).
      { intros (c & v). rewrite (p_in t Pt), (p_in u Pu), (ST c), <- D. split; intros (A & B & C); repeat split; auto.
        - rewrite <- VAL; auto. - rewrite VAL; auto. }
      intros x. rewrite !in_map_iff. split; intros (y & E & H); exists y; split; auto; apply EL; auto. }
  assert (IL : forall l : list row, (forall r, In r l -> length (fst r) = length (t_dims t)) ->
     map (fun r : row => (unpermute (t_ord t) (fst r), snd r)) (map (fun r : row => (permute (t_ord t) (fst r), snd r)) l) = l).
  { intros l HL. rewrite map_map. cbn [fst snd]. rewrite <- (map_id l) at 2. apply map_ext_in. intros (c & v) Hc. cbn [fst snd].
    rewrite (unpermute_permute _ _ (p_mo t Pt)); auto. apply (HL (c, v) Hc). }
  rewrite <- (IL (iterate R t)), <- (IL (iterate R u)), X; auto.
  - intros r Hr. rewrite D. apply p_len; auto.
  - intros r Hr. apply p_len; auto.
Qed.

(** ** Levels below the last compressed one *)
Lemma find_crd_bound : forall n crd c b q, find_crd crd c b n = Some q -> q < length crd.
Proof.
  induction n as [|n IH]; intros crd c b q F; cbn [find_crd] in F; [discriminate|].
  destruct (nth_error crd b) eqn:E; [|discriminate]. destruct (n0 =? c); [|eauto]. injection F as <-.
  apply nth_error_Some. congruence.
Qed.
Lemma map_const : forall A B (x : B) (l : list A), map (fun _ => x) l = repeat x (length l).
Proof. induction l; cbn; congruence. Qed.
Lemma locate_dense : forall ls n dims nv p, wf_levels n ls dims nv -> map lkind ls = map (fun _ => KDense) ls ->
  forall cs, in_range dims cs -> locate ls p cs <> None.
Proof.
  induction ls as [|[d|pos crd] ls IH]; intros n dims nv p W K cs RC; destruct dims as [|dd dims]; cbn [wf_levels] in W; try tauto; try discriminate.
  - inversion RC; subst. cbn. discriminate.
  - destruct cs as [|c cs]; [inversion RC|]. apply in_range_cons in RC. destruct RC as [RC0 RC].
    destruct W as [-> W]. cbn [locate]. rewrite (proj2 (Nat.ltb_lt _ _) RC0). eapply IH; eauto. cbn in K. congruence.
Qed.
Lemma locate_prefix : forall ls n fmt nv p, wf_levels n ls (dims_of fmt) nv -> p < n -> map lkind ls = map fst fmt ->
  forall cs cs', in_range (dims_of fmt) cs -> in_range (dims_of fmt) cs' ->
  firstn (comp_depth fmt) cs = firstn (comp_depth fmt) cs' -> locate ls p cs <> None -> locate ls p cs' <> None.
Proof.
  induction ls as [|l ls IH]; intros n fmt nv p W PN K cs cs' R1 R2 E L.
  - destruct fmt; try discriminate. inversion R2; subst. cbn. discriminate.
  - destruct fmt as [|[k d] fmt]; [discriminate|]. cbn [map lkind fst] in K. injection K as K1 K2.
    destruct cs as [|c cs], cs' as [|c' cs']; [inversion R1|inversion R1|inversion R2|].
    change (dims_of ((k, d) :: fmt)) with (d :: dims_of fmt) in *.
    apply in_range_cons in R1. apply in_range_cons in R2. destruct R1 as [C1 R1], R2 as [C2 R2].
    destruct l as [d0|pos crd]; cbn [lkind] in K1; subst k; cbn [wf_levels] in W.
    + destruct W as [-> W]. cbn [locate] in *. rewrite (proj2 (Nat.ltb_lt _ _) C1) in L. rewrite (proj2 (Nat.ltb_lt _ _) C2).
      cbn [comp_depth] in E. destruct (comp_depth fmt) eqn:CD.
      * eapply locate_dense; eauto. clear -CD K2. revert ls K2. induction fmt as [|[k dd] fmt IHf]; intros ls K2.
        -- destruct ls; auto; discriminate.
        -- cbn [comp_depth] in CD. destruct (comp_depth fmt) eqn:CF; [|discriminate]. destruct k; [|discriminate].
           destruct ls; [discriminate|]. cbn [map] in *. injection K2 as K0 K2. rewrite K0. f_equal. apply IHf; auto.
      * cbn [firstn] in E. injection E as -> E. assert (PD : p * d + c' < n * d) by nia.
        eapply (IH _ fmt nv _ W PD K2 cs cs'); auto. rewrite CD. exact E.
    + destruct W as (A1 & A2 & A3 & A4 & A5 & A6 & W). cbn [locate] in *.
      assert (EC : c = c' /\ firstn (comp_depth fmt) cs = firstn (comp_depth fmt) cs').
      { cbn [comp_depth] in E. destruct (comp_depth fmt); cbn [firstn] in E |- *; inversion E; auto. }
      destruct EC as [-> E']. destruct (find_crd crd c' (nth p pos 0) (nth (S p) pos 0 - nth p pos 0)) as [q|] eqn:F; [|congruence].
      assert (q < length crd).
      { apply find_crd_bound in F. auto. }
      eapply IH; eauto.
Qed.

Lemma p_closed : forall t : tensor, is_packed t -> forall cs cs', In cs (map fst (iterate R t)) -> in_range (t_dims t) cs' ->
  comp_depth (fmt (t_dims t) (t_kinds t) (t_ord t)) = 0 \/
  firstn (comp_depth (fmt (t_dims t) (t_kinds t) (t_ord t))) (permute (t_ord t) cs) =
  firstn (comp_depth (fmt (t_dims t) (t_kinds t) (t_ord t))) (permute (t_ord t) cs') -> In cs' (map fst (iterate R t)).
Proof.
  intros t P cs cs' H RC E. apply in_map_iff in H. destruct H as ((c & v) & X & H). cbn [fst] in X. subst c.
  apply (iterate_in R _ _ _ (p_ok t P) t eq_refl (p_wf t P)) in H. destruct H as (RC0 & L & _).
  apply in_map_iff. exists (cs', tvalue R t cs'). split; auto.
  apply (iterate_in R _ _ _ (p_ok t P) t eq_refl (p_wf t P)). split; auto. split; auto.
  assert (FD := fmt_dims _ _ _ (p_ok t P)).
  assert (W := p_wf t P). unfold wf_storage in W. rewrite <- FD in W.
  assert (K : map lkind (st_levels (t_store t)) = map fst (fmt (t_dims t) (t_kinds t) (t_ord t))).
  { destruct P as (OK & _ & _ & K & _). change (map lkind (st_levels (t_store t)) = t_kinds t) in K. rewrite K. unfold fmt.
    assert (LL : length (t_kinds t) = length (permute (t_ord t) (t_dims t))).
    { rewrite (permute_length _ _ (proj1 (proj2 OK))). apply OK. }
    revert LL. generalize (permute (t_ord t) (t_dims t)). generalize (t_kinds t). clear.
    induction l as [|k ks IH]; intros [|d l] L; simpl in *; try discriminate; auto. f_equal. apply IH. lia. }
  assert (LC : forall x, in_range (t_dims t) x -> in_range (dims_of (fmt (t_dims t) (t_kinds t) (t_ord t))) (permute (t_ord t) x)).
  { intros x RX. rewrite FD. apply (in_range_permute _ _ (p_mo t P)); auto. apply in_range_nth in RX. tauto. }
  refine (locate_prefix _ 1 _ _ 0 W _ K _ _ (LC cs RC0) (LC cs' RC) _ L); auto.
  destruct E as [E|E]; [rewrite E; auto|auto].
Qed.
Lemma all_stored : forall t : tensor, is_packed t -> comp_depth (fmt (t_dims t) (t_kinds t) (t_ord t)) = 0 ->
  forall cs, in_range (t_dims t) cs -> In cs (map fst (iterate R t)).
Proof.
  intros t P CD cs RC. apply in_map_iff. exists (cs, tvalue R t cs). split; auto.
  apply (iterate_in R _ _ _ (p_ok t P) t eq_refl (p_wf t P)). split; auto. split; auto.
  eapply locate_dense; [apply (p_wf t P)| |].
  - destruct P as (OK & _ & _ & K & _). change (map lkind (st_levels (t_store t)) = t_kinds t) in K.
    rewrite map_const. rewrite K. rewrite <- (map_length lkind), K.
    assert (LL : length (t_kinds t) = length (permute (t_ord t) (t_dims t))).
    { rewrite (permute_length _ _ (proj1 (proj2 OK))). apply OK. }
    unfold fmt in CD. revert LL CD. generalize (permute (t_ord t) (t_dims t)). generalize (t_kinds t). clear.
    induction l as [|k ks IH]; intros [|d l] L CD; simpl in *; try discriminate; auto.
    destruct (comp_depth (combine ks l)) eqn:E; [|discriminate]. destruct k; [|discriminate]. f_equal. apply (IH l); auto.
  - apply (in_range_permute _ _ (p_mo t P)); auto. apply in_range_nth in RC. tauto.
Qed.
End Fresh.
