(** Proofs about the annotations of loops. *)
From Coq Require Import List Arith Bool Lia Permutation.
From Verif Require Import Annot AnnotSpec.
Import ListNotations.

Lemma mem_in v l : mem v l = true <-> In v l.
Proof.
  unfold mem. rewrite existsb_exists. split.
  - intros [x [I E]]. apply Nat.eqb_eq in E. now subst.
  - intros I. exists v. split; [exact I|apply Nat.eqb_refl].
Qed.
Lemma annots_annotated v s : annots v s = map snd (filter (fun p => fst p =? v) (annotated s)).
Proof.
  induction s as [a|w x s IH|c IHc p IHp|a IHa b IHb|s IH r]; cbn; auto.
  - destruct (w =? v); cbn; now rewrite IH.
  - now rewrite filter_app, map_app, IHc, IHp.
  - now rewrite filter_app, map_app, IHa, IHb.
Qed.
Lemma loops_annotated s : loops s = map fst (annotated s).
Proof.
  induction s as [a|w x s IH|c IHc p IHp|a IHa b IHb|s IH r]; cbn; auto;
    rewrite ?map_app; congruence.
Qed.
Lemma annots_none v s : ~ In v (loops s) -> annots v s = [].
Proof.
  induction s as [a|w x s IH|c IHc p IHp|a IHa b IHb|s IH r]; cbn; intros N; auto.
  - destruct (w =? v) eqn:E; [apply Nat.eqb_eq in E; tauto|]. cbn. apply IH. tauto.
  - rewrite in_app_iff in N. rewrite IHc, IHp; tauto.
  - rewrite in_app_iff in N. rewrite IHa, IHb; tauto.
Qed.
Lemma annots_some v s : In v (loops s) -> annots v s <> [].
Proof.
  induction s as [a|w x s IH|c IHc p IHp|a IHa b IHb|s IH r]; cbn; intros N; auto; try tauto.
  - destruct (w =? v) eqn:E; cbn; [discriminate|]. apply Nat.eqb_neq in E. destruct N; [tauto|now apply IH].
  - rewrite in_app_iff in N. intros K. apply app_eq_nil in K. destruct N; [now apply IHp|now apply IHc].
  - rewrite in_app_iff in N. intros K. apply app_eq_nil in K. destruct N; [now apply IHa|now apply IHb].
Qed.
Lemma annots_fresh v vs s : annots v (fresh_loops vs s) = repeat default (count_occ Nat.eq_dec vs v) ++ annots v s.
Proof.
  induction vs as [|w vs IH]; cbn; auto. unfold fresh_loops in IH. rewrite IH.
  destruct (Nat.eq_dec w v) as [->|N]; [now rewrite Nat.eqb_refl|].
  apply Nat.eqb_neq in N. now rewrite N.
Qed.
Lemma annots_add v r s : annots v (add_predicate r s) = annots v s.
Proof. destruct s; reflexivity. Qed.
Lemma loops_add r s : loops (add_predicate r s) = loops s.
Proof. destruct s; reflexivity. Qed.
Lemma annotated_map f s : annotated (map_assign f s) = annotated s.
Proof.
  induction s as [a|w x s IH|c IHc p IHp|a IHa b IHb|s IH r]; cbn; congruence.
Qed.
Lemma annots_map v f s : annots v (map_assign f s) = annots v s.
Proof. now rewrite !annots_annotated, annotated_map. Qed.

(** ** ForAllReplace *)
Lemma replace_past P R : forall s k, length P <= k -> replace P R k s = Some (s, false).
Proof.
  induction s as [a|w x s IH|c IHc p IHp|a IHa b IHb|s IH r]; cbn; intros k L; auto.
  - destruct (length P <=? k) eqn:E; [|apply Nat.leb_gt in E; lia]. now rewrite IH.
  - now rewrite IHc, IHp.
  - now rewrite IHa, IHb.
  - now rewrite IH.
Qed.
(** Loops over the variables [vs] around [b]. *)
Fixpoint chain (vs : list var) (s b : stmt) : Prop :=
  match vs with
  | [] => s = b
  | v :: vs => exists x s', s = SForall v x s' /\ chain vs s' b
  end.
Lemma replace_inside P R : forall s k r, 0 < k -> k < length P -> is_forall s = true ->
  replace P R k s = Some r -> exists b, chain (skipn k P) s b /\ fst r = b.
Proof.
  induction s as [a|w x s IH|c IHc p IHp|a IHa b IHb|s IH r0]; cbn [replace is_forall]; intros k r K L F E; try discriminate.
  destruct (length P <=? k) eqn:G; [apply Nat.leb_le in G; lia|].
  destruct (w =? nth k P 0) eqn:M.
  2: { destruct (0 <? k) eqn:Z; [discriminate|]. apply Nat.ltb_ge in Z. lia. }
  apply Nat.eqb_eq in M.
  assert (SK : skipn k P = w :: skipn (S k) P).
  { rewrite M. clear -L. revert k L. induction P as [|p P IH]; cbn; intros k L; [lia|].
    destruct k; [reflexivity|]. cbn. apply IH. lia. }
  destruct ((S k <? length P) && negb (is_forall s)) eqn:B; [discriminate|].
  destruct (replace P R (S k) s) as [[s' f]|] eqn:Q; [|discriminate].
  cbn in E. injection E as <-. destruct (k =? 0) eqn:Z; [apply Nat.eqb_eq in Z; lia|]. cbn.
  destruct (S k <? length P) eqn:Y.
  - cbn in B. apply negb_false_iff in B. apply Nat.ltb_lt in Y.
    destruct (IH (S k) (s', f) ltac:(lia) Y B Q) as [b [C D]]. exists b. split; [|exact D].
    rewrite SK. cbn [chain]. eauto.
  - apply Nat.ltb_ge in Y. rewrite replace_past in Q by lia. injection Q as <- <-.
    exists s. split; [|reflexivity]. rewrite SK. cbn [chain]. exists x, s. split; [reflexivity|].
    rewrite skipn_all2 by lia. reflexivity.
Qed.
(** How a pattern is cut out: the relation between a statement and the rewritten one. *)
Inductive cut (P R : list var) : stmt -> stmt -> bool -> Prop :=
| cut_assign a : cut P R (SAssign a) (SAssign a) false
| cut_match s b : chain P s b -> cut P R s (fresh_loops R b) true
| cut_forall w x s s' f : w <> hd 0 P -> cut P R s s' f -> cut P R (SForall w x s) (SForall w x s') f
| cut_where c c' p p' f g : cut P R p p' f -> cut P R c c' g -> cut P R (SWhere c p) (SWhere c' p') (f || g)
| cut_pair a a' b b' f g : cut P R a a' f -> cut P R b b' g -> cut P R (SPair a b) (SPair a' b') (f || g)
| cut_such s s' rels f : cut P R s s' f -> cut P R (SSuchThat s rels) (SSuchThat s' rels) f.
Lemma replace_cut P R : P <> [] -> forall s s' f, replace P R 0 s = Some (s', f) -> cut P R s s' f.
Proof.
  intros NE. induction s as [a|w x s IH|c IHc p IHp|a IHa b IHb|s IH r]; cbn [replace]; intros s' f E.
  - injection E as <- <-. constructor.
  - destruct P as [|v P]; [congruence|]. cbn [length Nat.leb nth] in E.
    destruct (w =? v) eqn:M.
    + apply Nat.eqb_eq in M. subst w.
      destruct ((1 <? S (length P)) && negb (is_forall s)) eqn:B; [discriminate|].
      destruct (replace (v :: P) R 1 s) as [[q g]|] eqn:Q; [|discriminate].
      cbn in E. injection E as <- <-.
      apply cut_match with (b := q). cbn [chain]. exists x, s. split; [reflexivity|].
      destruct (1 <? S (length P)) eqn:Y.
      * cbn in B. apply negb_false_iff in B. apply Nat.ltb_lt in Y.
        destruct (replace_inside (v :: P) R s 1 (q, g) ltac:(lia) ltac:(cbn; lia) B Q) as [b [C D]].
        cbn in C, D. now subst.
      * apply Nat.ltb_ge in Y. destruct P; [|cbn in Y; lia]. rewrite replace_past in Q by (cbn; lia).
        injection Q as <- <-. reflexivity.
    + cbn in E. destruct (replace (v :: P) R 0 s) as [[q g]|] eqn:Q; [|discriminate].
      cbn in E. injection E as <- <-. apply Nat.eqb_neq in M. apply cut_forall; [exact M|auto].
  - destruct (replace P R 0 p) as [[p' g]|] eqn:Q; [|discriminate].
    destruct (replace P R 0 c) as [[c' h]|] eqn:Q2; [|discriminate]. injection E as <- <-. constructor; auto.
  - destruct (replace P R 0 a) as [[p' g]|] eqn:Q; [|discriminate].
    destruct (replace P R 0 b) as [[c' h]|] eqn:Q2; [|discriminate]. injection E as <- <-. constructor; auto.
  - destruct (replace P R 0 s) as [[q g]|] eqn:Q; [|discriminate]. cbn in E. injection E as <- <-. constructor; auto.
Qed.
Lemma chain_annots v : forall P s b, chain P s b -> ~ In v P -> annots v s = annots v b.
Proof.
  induction P as [|w P IH]; cbn; intros s b C N; [now subst|].
  destruct C as [x [s' [-> C]]]. cbn. destruct (w =? v) eqn:E; [apply Nat.eqb_eq in E; tauto|].
  cbn. apply IH; tauto.
Qed.
Lemma chain_loops : forall P s b, chain P s b -> loops s = P ++ loops b.
Proof.
  induction P as [|w P IH]; cbn; intros s b C; [now subst|].
  destruct C as [x [s' [-> C]]]. cbn. f_equal. auto.
Qed.
Lemma count_none v R : ~ In v R -> count_occ Nat.eq_dec R v = 0.
Proof. intros. now apply count_occ_not_In. Qed.
Lemma cut_kept P R v : ~ In v P -> ~ In v R -> forall s s' f, cut P R s s' f -> annots v s' = annots v s.
Proof.
  intros NP NR s s' f C. induction C; cbn; try congruence.
  rewrite annots_fresh, (count_none _ _ NR). cbn. symmetry. eapply chain_annots; eauto.
Qed.
(** New variables: their loops have no annotations. *)
Lemma cut_new P R v : In v R -> forall s s' f, cut P R s s' f -> annots v s = [] ->
  Forall (eq default) (annots v s') /\ (f = true -> annots v s' <> []).
Proof.
  intros I s s' f C. induction C as [a|s b C|w x s s' f N C IH|c c' p p' f g C1 IH1 C2 IH2|a a' b b' f g C1 IH1 C2 IH2|s s' rels f C IH];
    cbn; intros A.
  - split; [constructor|discriminate].
  - rewrite annots_fresh. assert (B : annots v b = []).
    { destruct (in_dec Nat.eq_dec v (loops b)) as [J|J]; [|now apply annots_none].
      exfalso. apply (annots_some v s); [|exact A]. rewrite (chain_loops _ _ _ C). apply in_app_iff. now right. }
    rewrite B, app_nil_r. split.
    + apply Forall_forall. intros y Y. apply repeat_spec in Y. now subst.
    + intros _ K. apply (count_occ_In Nat.eq_dec) in I. destruct (count_occ Nat.eq_dec R v); [lia|discriminate].
  - destruct (w =? v); [discriminate|]. cbn in *. auto.
  - apply app_eq_nil in A. destruct A as [A1 A2]. destruct (IH1 A1) as [G1 G2], (IH2 A2) as [G3 G4]. split; [now apply Forall_app|].
    intros F K. apply app_eq_nil in K. apply orb_true_iff in F.
    destruct K as [K1 K2], F as [F|F]; [now apply G2|now apply G4].
  - apply app_eq_nil in A. destruct A as [A1 A2]. destruct (IH1 A1) as [G1 G2], (IH2 A2) as [G3 G4]. split; [now apply Forall_app|].
    intros F K. apply app_eq_nil in K. apply orb_true_iff in F.
    destruct K as [K1 K2], F as [F|F]; [now apply G2|now apply G4].
  - auto.
Qed.
(** How many loops are over variables of the pattern. *)
Definition hits (P : list var) (s : stmt) : nat := length (filter (fun v => mem v P) (loops s)).
Lemma filter_all P : filter (fun v => mem v P) P = P.
Proof.
  assert (G : forall l, (forall x, In x l -> In x P) -> filter (fun v => mem v P) l = l).
  { induction l as [|x l IH]; cbn; intros H; auto.
    assert (M : mem x P = true) by (apply mem_in; auto). rewrite M. f_equal. auto. }
  apply G. auto.
Qed.
Lemma chain_hits P s b : chain P s b -> hits P s = length P + hits P b.
Proof.
  intros C. unfold hits. rewrite (chain_loops _ _ _ C), filter_app, app_length.
  f_equal. now rewrite filter_all.
Qed.
Lemma hits_none P s v : hits P s = 0 -> In v P -> annots v s = [].
Proof.
  intros H I. apply annots_none. intros J. unfold hits in H.
  assert (In v (filter (fun v => mem v P) (loops s))) by (apply filter_In; split; [exact J|now apply mem_in]).
  destruct (filter (fun v => mem v P) (loops s)); [contradiction|discriminate].
Qed.
Lemma cut_false P R : P <> [] -> forall s s' f, cut P R s s' f -> f = false -> s' = s.
Proof.
  intros NE s s' f C. induction C as [a|s b C|w x s s' f N C IH|c c' p p' f g C1 IH1 C2 IH2|a a' b b' f g C1 IH1 C2 IH2|s s' rels f C IH];
    intros F; try discriminate; auto.
  - now rewrite IH.
  - apply orb_false_iff in F. destruct F. now rewrite IH1, IH2.
  - apply orb_false_iff in F. destruct F. now rewrite IH1, IH2.
  - now rewrite IH.
Qed.
Lemma cut_true_hits P R : forall s s' f, cut P R s s' f -> f = true -> length P <= hits P s.
Proof.
  intros s s' f C. unfold hits.
  induction C as [a|s b C|w x s s' f N C IH|c c' p p' f g C1 IH1 C2 IH2|a a' b b' f g C1 IH1 C2 IH2|s s' rels f C IH];
    intros F; try discriminate; auto.
  - pose proof (chain_hits _ _ _ C). unfold hits in *. lia.
  - cbn [loops filter]. specialize (IH F). destruct (mem w P); cbn; lia.
  - cbn [loops]. rewrite filter_app, app_length. apply orb_true_iff in F.
    destruct F as [F|F]; [specialize (IH1 F)|specialize (IH2 F)]; lia.
  - cbn [loops]. rewrite filter_app, app_length. apply orb_true_iff in F.
    destruct F as [F|F]; [specialize (IH1 F)|specialize (IH2 F)]; lia.
Qed.
Lemma cut_once P R v : P <> [] -> In v P -> forall s s' f, cut P R s s' f -> f = true -> hits P s = length P ->
  annots v s' = repeat default (count_occ Nat.eq_dec R v).
Proof.
  intros NE I s s' f C.
  assert (LP : 0 < length P) by (destruct P; [congruence|cbn; lia]).
  induction C as [a|s b C|w x s s' f N C IH|c c' p p' f g C1 IH1 C2 IH2|a a' b b' f g C1 IH1 C2 IH2|s s' rels f C IH];
    intros F H; try discriminate; auto.
  - rewrite annots_fresh. rewrite (chain_hits _ _ _ C) in H. rewrite (hits_none P b v); [|lia|exact I].
    apply app_nil_r.
  - pose proof (cut_true_hits _ _ _ _ _ C F) as G. unfold hits in *. cbn [loops filter] in H.
    destruct (mem w P) eqn:M; cbn in H; [lia|]. cbn.
    destruct (w =? v) eqn:E; [|cbn; auto]. apply Nat.eqb_eq in E. subst w.
    rewrite (proj2 (mem_in v P) I) in M. discriminate.
  - unfold hits in *. cbn [loops] in H. rewrite filter_app, app_length in H. cbn.
    destruct f.
    + pose proof (cut_true_hits _ _ _ _ _ C1 eq_refl) as G. unfold hits in G.
      destruct g.
      * pose proof (cut_true_hits _ _ _ _ _ C2 eq_refl) as G'. unfold hits in G'. lia.
      * rewrite (cut_false _ _ NE _ _ _ C2 eq_refl). rewrite (hits_none P c v); [|unfold hits; lia|exact I].
        rewrite app_nil_r. apply IH1; auto. lia.
    + cbn in F. subst g. pose proof (cut_true_hits _ _ _ _ _ C2 eq_refl) as G'. unfold hits in G'.
      rewrite (cut_false _ _ NE _ _ _ C1 eq_refl). rewrite (hits_none P p v); [|unfold hits; lia|exact I].
      cbn. apply IH2; auto. lia.
  - unfold hits in *. cbn [loops] in H. rewrite filter_app, app_length in H. cbn.
    destruct f.
    + pose proof (cut_true_hits _ _ _ _ _ C1 eq_refl) as G. unfold hits in G.
      destruct g.
      * pose proof (cut_true_hits _ _ _ _ _ C2 eq_refl) as G'. unfold hits in G'. lia.
      * rewrite (cut_false _ _ NE _ _ _ C2 eq_refl). rewrite (hits_none P b v); [|unfold hits; lia|exact I].
        rewrite app_nil_r. apply IH1; auto. lia.
    + cbn in F. subst g. pose proof (cut_true_hits _ _ _ _ _ C2 eq_refl) as G'. unfold hits in G'.
      rewrite (cut_false _ _ NE _ _ _ C1 eq_refl). rewrite (hits_none P a v); [|unfold hits; lia|exact I].
      cbn. apply IH2; auto. lia.
Qed.
Lemma forall_replace_cut P R s s' : P <> [] -> forall_replace P R s = Some s' -> cut P R s s' true.
Proof.
  unfold forall_replace. intros NE E. destruct (replace P R 0 s) as [[q [|]]|] eqn:Q; try discriminate.
  injection E as <-. now apply replace_cut.
Qed.
Lemma forall_replace_nil R s : forall_replace [] R s = None.
Proof. unfold forall_replace. rewrite replace_past by (cbn; lia). reflexivity. Qed.

(** ** reorder *)
Lemma collect_spec P : forall l cur fl, exists fl', collect P cur fl l = (cur ++ filter (fun v => mem v P) l, fl').
Proof.
  induction l as [|v l IH]; cbn; intros cur fl; [rewrite app_nil_r; eauto|].
  destruct (mem v P) eqn:M; [|apply IH].
  destruct (IH (cur ++ [v]) fl) as [f' E]. exists f'. rewrite E, <- app_assoc. reflexivity.
Qed.
Lemma same_eq : forall a b, same a b = true -> a = b.
Proof.
  induction a as [|x a IH]; destruct b as [|y b]; cbn; intros H; try discriminate; auto.
  apply andb_true_iff in H. destruct H as [H1 H2]. apply Nat.eqb_eq in H1. f_equal; auto.
Qed.
(** A reordering that is not refused replaces the loops of the pattern by those of a list
    with the same variables. *)
Lemma reorder_inv o P s s' : reorder o P s = Some s' ->
  exists C R, C = filter (fun v => mem v P) (loops s) /\ length C = length P /\ C <> [] /\
    (R = P \/ R = rev P) /\ (o = true -> R = P) /\ cut C R s s' true.
Proof.
  unfold reorder. destruct (collect_spec P (loops s) [] false) as [fl E]. cbn in E. rewrite E.
  set (C := filter (fun v => mem v P) (loops s)) in *.
  set (R := if negb o && same C P then rev P else P).
  destruct (fl || negb (length C =? length R)) eqn:B; [discriminate|]. intros F.
  apply orb_false_iff in B. destruct B as [_ B]. apply negb_false_iff, Nat.eqb_eq in B.
  assert (RP : (R = P \/ R = rev P) /\ (o = true -> R = P)).
  { unfold R. destruct o; cbn; [auto|]. destruct (same C P); auto. split; auto; discriminate. }
  exists C, R. destruct RP as [RP RO].
  assert (LR : length R = length P) by (destruct RP as [->| ->]; rewrite ?rev_length; reflexivity).
  destruct C as [|c C'] eqn:EC; [rewrite forall_replace_nil in F; discriminate|].
  repeat split; auto; try congruence. apply forall_replace_cut in F; [exact F|discriminate].
Qed.
Lemma reorder_kept o P v s s' : reorder o P s = Some s' -> ~ In v P -> annots v s' = annots v s.
Proof.
  intros H N. destruct (reorder_inv _ _ _ _ H) as [C [R [EC [L [NE [RP [_ CU]]]]]]].
  eapply cut_kept; [..|exact CU].
  - rewrite EC. intros I. apply filter_In in I. apply N. now apply mem_in.
  - destruct RP as [->| ->]; [exact N|]. now rewrite <- in_rev.
Qed.
Lemma count_rev v (l : list var) : count_occ Nat.eq_dec (rev l) v = count_occ Nat.eq_dec l v.
Proof.
  apply (Permutation_count_occ Nat.eq_dec). apply Permutation_sym, Permutation_rev.
Qed.
(** All loops of the pattern lose their annotations. *)
Lemma reorder_reset o P v s s' : reorder o P s = Some s' -> In v (loops s) -> In v P ->
  annots v s' = repeat default (count_occ Nat.eq_dec P v).
Proof.
  intros H IL I. destruct (reorder_inv _ _ _ _ H) as [C [R [EC [L [NE [RP [_ CU]]]]]]].
  assert (HC : hits C s = length C).
  { unfold hits. f_equal. transitivity (filter (fun v => mem v P) (loops s)); [|now symmetry]. apply filter_ext_in. intros w W.
    destruct (mem w P) eqn:M.
    - apply mem_in. rewrite EC. apply filter_In. auto.
    - destruct (mem w C) eqn:M'; [|reflexivity]. apply mem_in in M'. rewrite EC in M'. apply filter_In in M'.
      destruct M'. congruence. }
  assert (IC : In v C) by (rewrite EC; apply filter_In; split; [exact IL|now apply mem_in]).
  rewrite (cut_once C R v NE IC s s' true CU eq_refl HC).
  destruct RP as [->| ->]; rewrite ?count_rev; reflexivity.
Qed.

(** ** Annotating *)
Lemma on_loops_other v w f s : v <> w -> annots w (on_loops v f s) = annots w s.
Proof.
  intros N. induction s as [a|u x s IH|c IHc p IHp|a IHa b IHb|s IH r]; cbn; try congruence.
  rewrite IH. destruct (u =? w) eqn:E; [|reflexivity]. apply Nat.eqb_eq in E. subst u.
  destruct (w =? v) eqn:E; [|reflexivity]. apply Nat.eqb_eq in E. congruence.
Qed.
Lemma on_loops_same v f s : annots v (on_loops v f s) = map f (annots v s).
Proof.
  induction s as [a|u x s IH|c IHc p IHp|a IHa b IHb|s IH r]; cbn; rewrite ?map_app; try congruence.
  rewrite IH. destruct (u =? v); reflexivity.
Qed.
Lemma on_loops_comm v w f g s : (v <> w \/ forall x, f (g x) = g (f x)) ->
  on_loops v f (on_loops w g s) = on_loops w g (on_loops v f s).
Proof.
  intros H. induction s as [a|u x s IH|c IHc p IHp|a IHa b IHb|s IH r]; cbn; try congruence.
  rewrite IH. f_equal. destruct (u =? v) eqn:E1, (u =? w) eqn:E2; try reflexivity.
  apply Nat.eqb_eq in E1, E2. destruct H as [H|H]; [congruence|apply H].
Qed.
Lemma fold_where_annots v (h : list (assignment * (assignment -> assignment))) : forall s,
  annots v (fold_left (fun s c => SWhere (SAssign (fst c)) s) h s) = annots v s.
Proof. induction h as [|c h IH]; cbn; intros s; auto. rewrite IH. cbn. apply app_nil_r. Qed.
Lemma fold_map_annots v (h : list (assignment * (assignment -> assignment))) : forall b,
  annots v (fold_left (fun b c => map_assign (snd c) b) h b) = annots v b.
Proof. induction h as [|c h IH]; cbn; intros s; auto. rewrite IH. apply annots_map. Qed.
Lemma promote_annots v hoist s : annots v (promote hoist s) = annots v s.
Proof.
  induction s as [a|u x s IH|c IHc p IHp|a IHa b IHb|s IH r]; cbn; try congruence.
  rewrite fold_where_annots. cbn. now rewrite fold_map_annots, IH.
Qed.
Lemma parallelize_other h red ru v w u r s : v <> w -> annots w (parallelize h red ru v u r s) = annots w s.
Proof.
  intros N. assert (NE : (v =? w) = false) by now apply Nat.eqb_neq.
  induction s as [a|z x s IH|c IHc p IHp|a IHa b IHb|s IH q]; cbn; try congruence.
  destruct (z =? v) eqn:E; [|cbn; now rewrite IH].
  apply Nat.eqb_eq in E. subst z. rewrite NE.
  destruct r; cbn; rewrite ?NE; cbn; auto using promote_annots.
  destruct (red s) as [[c e]|]; cbn; rewrite NE; cbn; rewrite ?app_nil_r; auto using annots_map.
Qed.
(** The annotations that a loop with annotations [x] gets. *)
Lemma parallelize_same h red ru v u r s : unnested v s -> (r = Temporary -> forall b, red b = None) ->
  annots v (parallelize h red ru v u r s) = map (set_parallel u r) (annots v s).
Proof.
  intros U T. induction s as [a|z x s IH|c IHc p IHp|a IHa b IHb|s IH q]; cbn in *; rewrite ?map_app; auto.
  - destruct U as [U1 U2]. destruct (z =? v) eqn:E; [|cbn; rewrite E; cbn; now apply IH].
    apply Nat.eqb_eq in E. rewrite (U1 E).
    destruct r; cbn; rewrite ?Nat.eqb_refl; cbn; rewrite ?promote_annots, ?(U1 E); auto.
    rewrite T by reflexivity. cbn. rewrite Nat.eqb_refl. cbn. now rewrite (U1 E).
  - destruct U. now rewrite IHc, IHp.
  - destruct U. now rewrite IHa, IHb.
Qed.
Lemma parallelize_temporary h red ru v u s : unnested v s -> (forall b, red b <> None) ->
  annots v (parallelize h red ru v u Temporary s) =
  flat_map (fun x => [set_parallel u Temporary x; Annot (merge x) ru ParallelReduction 0]) (annots v s).
Proof.
  intros U T. induction s as [a|z x s IH|c IHc p IHp|a IHa b IHb|s IH q]; cbn in *; rewrite ?flat_map_app; auto.
  - destruct U as [U1 U2]. destruct (z =? v) eqn:E; [|cbn; rewrite E; cbn; now apply IH].
    apply Nat.eqb_eq in E. rewrite (U1 E). destruct (red s) as [[c e]|] eqn:R; [|now destruct (T s)].
    cbn. rewrite Nat.eqb_refl. cbn. rewrite annots_map, (U1 E). reflexivity.
  - destruct U. now rewrite IHc, IHp.
  - destruct U. now rewrite IHa, IHb.
Qed.

(** ** Commands *)
Lemma forall_replace_kept P R v s s' : forall_replace P R s = Some s' -> ~ In v P -> ~ In v R -> annots v s' = annots v s.
Proof.
  intros H NP NR. destruct P as [|p P]; [rewrite forall_replace_nil in H; discriminate|].
  eapply cut_kept; [..|apply forall_replace_cut; [|exact H]]; auto. discriminate.
Qed.
Lemma exec_kept e c s s' v : exec e c s = Some s' -> ~ names c v -> annots v s' = annots v s.
Proof.
  unfold exec. destruct (accepts e c s); [|discriminate]. destruct c; cbn [names]; intros H N; try tauto.
  - rewrite <- (annots_add v predicate s). apply forall_replace_kept with (1 := H); tauto.
  - now apply reorder_kept with (1 := H).
  - injection H as <-. now apply on_loops_other.
  - injection H as <-. now apply on_loops_other.
  - injection H as <-. now apply parallelize_other.
  - injection H as <-. apply promote_annots.
Qed.
Lemma run_kept e v : forall cs s s', run e cs s = Some s' -> (forall c, In c cs -> ~ names c v) -> annots v s' = annots v s.
Proof.
  induction cs as [|c cs IH]; cbn; intros s s' H N; [congruence|].
  destruct (exec e c s) as [t|] eqn:E; [|discriminate].
  rewrite (IH t s' H) by auto. eapply exec_kept; eauto.
Qed.

(** ** precompute *)
Lemma generate_annotated vs : forall s, Forall (fun p => snd p = default) (annotated s) ->
  Forall (fun p => snd p = default) (annotated (generate_foralls s vs)).
Proof.
  unfold generate_foralls. induction vs as [|v vs IH]; cbn; intros s H; auto.
  apply IH. constructor; auto.
Qed.
Lemma rebuild_default p s : Forall (fun q => snd q = default) (annotated (rebuild p s)).
Proof.
  unfold rebuild. destruct (distribute p false (rev (loops s))) as [[pr co] out].
  apply generate_annotated. cbn. apply Forall_app. split; apply generate_annotated; constructor.
Qed.
Lemma add_all_annotated preds : forall s, annotated (fold_left (fun s r => add_predicate r s) preds s) = annotated s.
Proof.
  induction preds as [|r preds IH]; cbn; intros s; auto. rewrite IH. destruct s; reflexivity.
Qed.
Lemma add_all_such preds : forall s rels, exists rels',
  fold_left (fun s r => add_predicate r s) preds (SSuchThat s rels) = SSuchThat s rels'.
Proof. induction preds as [|r preds IH]; cbn; intros s rels; eauto. Qed.
Lemma precompute_default p preds v x b :
  has_where b = false -> existsb (contains p) (assigns b) = true ->
  Forall (fun q => snd q = default) (annotated (precompute p preds (SForall v x b))).
Proof.
  intros W C. unfold precompute. rewrite annotated_map.
  assert (G : Forall (fun q => snd q = default) (annotated (precompute_loops p (SForall v x b)))).
  { cbn [precompute_loops]. rewrite W, C. cbn [negb andb]. apply rebuild_default. }
  destruct preds as [|r preds]; cbn [fold_left]; [exact G|].
  cbn [add_predicate]. destruct (add_all_such preds (SForall v x b) [r]) as [rels ->]. exact G.
Qed.
Lemma on_loops_absent v f s : ~ In v (loops s) -> on_loops v f s = s.
Proof.
  induction s as [a|u x s IH|c IHc q IHq|a IHa b IHb|s IH r]; cbn; intros H; auto.
  - destruct (u =? v) eqn:E; [apply Nat.eqb_eq in E; tauto|]. rewrite IH; tauto.
  - rewrite in_app_iff in H. rewrite IHc, IHq; tauto.
  - rewrite in_app_iff in H. rewrite IHa, IHb; tauto.
  - now rewrite IH.
Qed.
Lemma parallelize_absent h red ru v u r s : ~ In v (loops s) -> parallelize h red ru v u r s = s.
Proof.
  induction s as [a|w x s IH|c IHc q IHq|a IHa b IHb|s IH q]; cbn; intros H; auto.
  - destruct (w =? v) eqn:E; [apply Nat.eqb_eq in E; tauto|]. rewrite IH; tauto.
  - rewrite in_app_iff in H. rewrite IHc, IHq; tauto.
  - rewrite in_app_iff in H. rewrite IHa, IHb; tauto.
  - now rewrite IH.
Qed.

(** ** The topological order *)
Lemma nest_loop_nest l inner : is_forall inner = false -> nest (loop_nest l inner) = (l, inner).
Proof.
  intros F. induction l as [|[v x] l IH]; cbn; [destruct inner; cbn in *; congruence|]. now rewrite IH.
Qed.
Lemma recorded_in l v x : NoDup (map fst l) -> In (v, x) l -> recorded l v = Some x.
Proof.
  induction l as [|[w y] l IH]; cbn; intros N I; [contradiction|].
  inversion N as [|? ? NI N']. subst. destruct I as [I|I].
  - injection I as -> ->. rewrite Nat.eqb_refl.
    assert (R : recorded l v = None).
    { clear -NI. induction l as [|[w y] l IH]; cbn in *; auto. rewrite IH by tauto.
      destruct (w =? v) eqn:E; [apply Nat.eqb_eq in E; tauto|reflexivity]. }
    now rewrite R.
  - now rewrite (IH N' I).
Qed.
Lemma topo_spec first l inner : NoDup (map fst l) -> forall order, (forall v, In v order -> In v (map fst l)) ->
  exists l', topo_loops first l inner order = Some (loop_nest l' inner) /\ map fst l' = order /\
    forall v y, In (v, y) l' -> exists x, In (v, x) l /\ y = Annot (merge first) (unit x) (race x) (factor first).
Proof.
  intros N. induction order as [|v order IH]; cbn; intros H.
  - exists []. repeat split. intros ? ? [].
  - destruct IH as [l' [E [M S]]]; [auto|]. rewrite E.
    assert (J := H v (or_introl eq_refl)). apply in_map_iff in J. destruct J as [[w x] [W I]]. cbn in W. subst w.
    rewrite (recorded_in l v x N I).
    exists ((v, Annot (merge first) (unit x) (race x) (factor first)) :: l'). cbn. repeat split; [congruence|].
    intros w y [K|K]; [|auto]. injection K as <- <-. eauto.
Qed.
