(** Loop transformations keep statements acceptable. *)
From Coq Require Import List Arith Bool ZArith Lia.
From Verif Require Schedule.
From Verif Require Import Accept AcceptSpec AcceptProofs.
Import ListNotations.
Local Open Scope nat_scope.

Lemma in_order_app : forall rels seen r, in_order seen rels ->
  (forall c, In c (children r) -> ~ In c seen /\ ~ In c (parents r) /\ ~ In c (flat_map (fun r => parents r ++ children r) rels)) ->
  parents r <> [] -> children r <> [] -> in_order seen (rels ++ [r]).
Proof.
  induction rels as [|r0 rest IH]; intros seen r O F P C; cbn [app in_order].
  - split; [|split; auto; split; auto; exact I]. intros c I. destruct (F c I) as (A & B & _). auto.
  - cbn in O. destruct O as (A & B & B' & O). split; auto. split; auto. split; auto. apply IH; auto.
    intros c I. destruct (F c I) as (X & Y & Z). cbn in Z. rewrite !in_app_iff in *. tauto.
Qed.
Lemma child_rel_last : forall rels r v, In v (parents r) -> child_rel (rels ++ [r]) v = Some r.
Proof.
  induction rels as [|r0 rest IH]; intros r v I; cbn.
  - apply mem_In in I. now rewrite I.
  - now rewrite IH.
Qed.
Lemma child_rel_app : forall rels r v, ~ In v (parents r) -> child_rel (rels ++ [r]) v = child_rel rels v.
Proof.
  induction rels as [|r0 rest IH]; intros r v I; cbn.
  - apply mem_false in I. now rewrite I.
  - now rewrite IH.
Qed.
Lemma parent_rel_app : forall rels r v, ~ In v (children r) -> parent_rel (rels ++ [r]) v = parent_rel rels v.
Proof.
  induction rels as [|r0 rest IH]; intros r v I; cbn.
  - apply mem_false in I. now rewrite I.
  - now rewrite IH.
Qed.

Section Replace.
Variables (rels : list rel) (r : rel).
Let rels' := rels ++ [r].
Hypothesis O : in_order [] rels'.
Hypothesis Kind : precompute r = false.
Hypothesis NoProducer : forall p, In p (parents r) -> is_precompute (parent_rel rels' p) = false.
Hypothesis Children : children r <> [].

(** The new traversal against the old one. *)
Definition covers (old new defd : list var) : Prop :=
  forall v, In v old -> In v new \/ (In v (parents r) /\ incl (children r) defd).

Lemma pattern_rank : forall v, In v (parents r) -> 1 <= rank rels' v.
Proof.
  intros v I. destruct (rank rels' v) eqn:E; [|lia]. apply rank_zero in E.
  unfold rels' in E. rewrite child_rel_last in E by auto. discriminate.
Qed.
Lemma pattern_recoverable : forall n d prods cons v, In v (parents r) -> incl (children r) d ->
  recoverable (S n) rels' d prods cons v = true.
Proof.
  intros n d prods cons v I L. cbn [recoverable]. destruct (mem v cons); auto.
  unfold getChildren, rels'. rewrite child_rel_last by auto. cbn [is_precompute]. rewrite Kind, andb_false_r.
  apply forallb_forall. intros c J. apply L in J. apply mem_In in J. now rewrite J.
Qed.
Lemma pattern_not_fully : forall v, In v (parents r) -> isFullyDerived rels' v = false.
Proof.
  intros v I. unfold isFullyDerived, getChildren, rels'. rewrite child_rel_last by auto. now apply is_nil_false.
Qed.
Lemma producers_mono : forall d d', covers d d' d' -> incl (producers_of rels' d) (producers_of rels' d').
Proof.
  intros d d' C v I. unfold producers_of in *. apply filter_In in I. destruct I as [I P]. apply filter_In. split; auto.
  destruct (C v I) as [J|[J _]]; auto. rewrite (NoProducer v J) in P. discriminate.
Qed.
Lemma consumers_mono : forall d d', covers d d' d' -> incl (consumers_of rels' d) (consumers_of rels' d').
Proof.
  intros d d' C v I. unfold consumers_of in *. apply filter_In in I. destruct I as [I P]. apply filter_In. split; auto.
  destruct (C v I) as [J|[J _]]; auto. unfold rels' in P. rewrite child_rel_last in P by auto. cbn in P. congruence.
Qed.
Lemma recoverable_mono : forall d d', covers d d' d' -> forall n v, rank rels' v < n ->
  recoverable n rels' d (producers_of rels' d) (consumers_of rels' d) v = true ->
  recoverable n rels' d' (producers_of rels' d') (consumers_of rels' d') v = true.
Proof.
  intros d d' C. pose proof (producers_mono d d' C) as P. pose proof (consumers_mono d d' C) as K.
  induction n as [|n IH]; intros v L R; [lia|]. cbn [recoverable] in *.
  destruct (mem v (consumers_of rels' d')) eqn:M'; auto.
  destruct (mem v (consumers_of rels' d)) eqn:M.
  { apply mem_In, K, mem_In in M. congruence. }
  assert (Rk : forall c, In c (getChildren rels' v) -> rank rels' c < n).
  { intros c I. pose proof (getChildren_rank _ _ _ _ O I). lia. }
  destruct (is_nil (producers_of rels' d)) eqn:N; cbn [negb andb] in R.
  - (* no producers before *)
    assert (R0 : forall c, In c (getChildren rels' v) ->
                 mem c d = true \/ (isFullyDerived rels' c = false /\ recoverable n rels' d' (producers_of rels' d') (consumers_of rels' d') c = true)).
    { intros c I. rewrite forallb_forall in R. specialize (R c I). apply orb_true_iff in R. destruct R as [R|R]; auto.
      apply andb_true_iff in R. destruct R as [R1 R2]. apply negb_true_iff in R1. right. split; auto. }
    destruct (negb (is_nil (producers_of rels' d')) && is_precompute (child_rel rels' v)) eqn:B.
    + apply andb_true_iff in B. destruct B as [_ B]. unfold getChildren in *.
      destruct (child_rel rels' v) as [q|] eqn:E; [|discriminate]. cbn in B.
      destruct (child_rel_In _ _ _ E) as [Iq Iv].
      destruct (children q) as [|c cs] eqn:Cq.
      { exfalso. exact (in_order_children _ _ _ O Iq Cq). }
      destruct (R0 c (or_introl eq_refl)) as [D|[D1 D2]].
      * exfalso. apply is_nil_true in N. assert (X : In c (producers_of rels' d)).
        { unfold producers_of. apply filter_In. split; [now apply mem_In|].
          rewrite (parent_rel_unique rels' [] q c O Iq); [exact B|]. rewrite Cq. left; auto. }
        rewrite N in X. destruct X.
      * destruct (mem c (producers_of rels' d')); auto.
    + apply forallb_forall. intros c I. destruct (R0 c I) as [D|[D1 D2]].
      * apply mem_In in D. destruct (C c D) as [J|[J J']].
        -- apply mem_In in J. now rewrite J.
        -- rewrite (pattern_not_fully c J). specialize (Rk c I). destruct n as [|n]; [lia|].
           rewrite (pattern_recoverable n d' _ _ c J J'). apply orb_true_r.
      * rewrite D1, D2. apply orb_true_r.
  - (* producers before, and after *)
    assert (N' : is_nil (producers_of rels' d') = false).
    { apply is_nil_false. intros X. apply is_nil_false in N. apply N. destruct (producers_of rels' d) as [|x l]; auto.
      exfalso. specialize (P x (or_introl eq_refl)). rewrite X in P. destruct P. }
    rewrite N'. cbn [negb andb]. destruct (is_precompute (child_rel rels' v)) eqn:B.
    + destruct (getChildren rels' v) as [|c cs] eqn:G; [discriminate|].
      destruct (mem c (producers_of rels' d')) eqn:X; auto.
      destruct (mem c (producers_of rels' d)) eqn:Y.
      * apply mem_In, P, mem_In in Y. congruence.
      * apply IH; auto. apply Rk. left; auto.
    + rewrite forallb_forall in *. intros c I. specialize (R c I). apply orb_true_iff in R. destruct R as [D|D].
      * apply mem_In in D. destruct (C c D) as [J|[J J']].
        -- apply mem_In in J. now rewrite J.
        -- rewrite (pattern_not_fully c J). specialize (Rk c I). destruct n as [|n]; [lia|].
           rewrite (pattern_recoverable n d' _ _ c J J'). apply orb_true_r.
      * apply andb_true_iff in D. destruct D as [D1 D2]. rewrite D1, (IH c); auto. apply orb_true_r.
Qed.
Lemma isRecoverable_mono : forall d d' v, covers d d' d' -> isRecoverable rels' d v = true -> isRecoverable rels' d' v = true.
Proof.
  intros d d' v C R. unfold isRecoverable in *. apply (recoverable_mono d d' C); auto. pose proof (rank_le rels' v). lia.
Qed.
Lemma variable_ok_mono : forall b d b' d' v, covers b b' d' -> covers d d' d' ->
  variable_ok rels' b d v = true -> variable_ok rels' b' d' v = true.
Proof.
  intros b d b' d' v B D V. unfold variable_ok in *. apply negb_true_iff in V. apply negb_true_iff.
  destruct (mem v b') eqn:M'; auto. cbn [negb andb]. destruct (isUnderived rels' v); cbn [andb]; auto.
  destruct (mem v b) eqn:M.
  - apply mem_In in M. destruct (B v M) as [J|[J J']].
    + apply mem_In in J. congruence.
    + rewrite (pattern_not_fully v J). unfold isRecoverable. rewrite pattern_recoverable; auto.
  - cbn [negb andb] in V. apply orb_false_iff in V. destruct V as [V1 V2]. rewrite V1. cbn [orb].
    apply negb_false_iff in V2. apply negb_false_iff. eapply isRecoverable_mono; eauto.
Qed.
Lemma covers_cons_both : forall v old new d, covers old new d -> covers (v :: old) (v :: new) d.
Proof. intros v old new d C w [<-|I]; [left; left; auto|]. destruct (C w I) as [J|J]; auto. left; right; auto. Qed.
Lemma covers_weaken : forall old new d d', covers old new d -> incl d d' -> covers old new d'.
Proof. intros old new d d' C L v I. destruct (C v I) as [J|[J J']]; auto. right. split; auto. eapply incl_tran; eauto. Qed.
Lemma covers_new : forall old new new' d, covers old new d -> incl new new' -> covers old new' d.
Proof. intros old new new' d C L v I. destruct (C v I) as [J|J]; auto. Qed.

Lemma accept_grows : forall valid rl s top p c b d, incl d (snd (accept valid rl top p c b d s)).
Proof.
  intros valid rl. induction s as [a|v s IH|s1 IH1 s2 IH2|h s1 IH1 s2 IH2|s IH x]; intros top p c b d; cbn [accept].
  - apply incl_refl.
  - intros x I. apply IH. right; auto.
  - destruct (accept valid rl false true c b d s2) as [ok2 d2] eqn:E2.
    destruct (accept valid rl false p true b d2 s1) as [ok1 d1] eqn:E1. cbn [snd].
    specialize (IH2 false true c b d). specialize (IH1 false p true b d2). rewrite E2 in IH2. rewrite E1 in IH1. eapply incl_tran; eauto.
  - destruct (accept valid rl false p c b d s1) as [ok1 d1] eqn:E1.
    destruct (accept valid rl false p c b d1 s2) as [ok2 d2] eqn:E2. cbn [snd].
    specialize (IH1 false p c b d). specialize (IH2 false p c b d1). rewrite E2 in IH2. rewrite E1 in IH1. eapply incl_tran; eauto.
  - specialize (IH false p c b d). destruct (accept valid rl false p c b d s). exact IH.
Qed.
Lemma accept_foralls : forall valid rl p c s vs top b d,
  accept valid rl top p c b d (fold_right SForall s vs) =
  match vs with [] => accept valid rl top p c b d s | _ => accept valid rl false p c (rev vs ++ b) (rev vs ++ d) s end.
Proof.
  intros valid rl p c s. induction vs as [|v vs IH]; intros top b d; auto.
  cbn [fold_right accept]. rewrite IH. destruct vs as [|w vs]; auto. cbn [rev]. rewrite <- !app_assoc. reflexivity.
Qed.
Lemma accept_replace : forall valid s top p c b d b' d' k s' f,
  replace (parents r) (children r) k s = Some (s', f) ->
  covers b b' d' -> covers d d' d' -> (0 < k -> incl (children r) d') ->
  fst (accept valid rels' top p c b d s) = true ->
  fst (accept valid rels' top p c b' d' s') = true /\
  covers (snd (accept valid rels' top p c b d s)) (snd (accept valid rels' top p c b' d' s')) (snd (accept valid rels' top p c b' d' s')).
Proof.
  intros valid. induction s as [a|v s IH|s1 IH1 s2 IH2|h s1 IH1 s2 IH2|s IH rl]; intros top p c b d b' d' k s' f R B D K A.
  - cbn [replace] in R. injection R as <- <-. split; [|exact D].
    apply (accept_assign valid rels' top) in A. apply (accept_assign valid rels' top).
    destruct A as (A1 & A2 & A3 & A4). split; auto. split; auto. split; auto.
    intros v I. apply (variable_ok_mono b d); auto.
  - cbn [replace] in R. cbn [accept] in A |- *.
    assert (Keep : forall s1 f1, replace (parents r) (children r) k s = Some (s1, f1) ->
      fst (accept valid rels' false p c (v :: b') (v :: d') s1) = true /\
      covers (snd (accept valid rels' false p c (v :: b) (v :: d) s)) (snd (accept valid rels' false p c (v :: b') (v :: d') s1))
             (snd (accept valid rels' false p c (v :: b') (v :: d') s1))).
    { intros s1 f1 X. eapply IH; eauto.
      - apply covers_cons_both. eapply covers_weaken; eauto. apply incl_tl, incl_refl.
      - apply covers_cons_both. eapply covers_weaken; eauto. apply incl_tl, incl_refl.
      - intros P. apply incl_tl. auto. }
    destruct (length (parents r) <=? k) eqn:E1.
    { destruct (replace (parents r) (children r) k s) as [[s1 f1]|]; [|discriminate]. injection R as <- <-. cbn [accept fst]. eapply Keep; eauto. }
    destruct (v =? nth k (parents r) 0) eqn:E2.
    + destruct ((S k <? length (parents r)) && negb (is_forall s)); [discriminate|].
      destruct (replace (parents r) (children r) (S k) s) as [[s1 f1]|] eqn:X; [|discriminate]. injection R as <- <-. cbn [fst].
      apply Nat.leb_gt in E1. apply Nat.eqb_eq in E2.
      assert (Iv : In v (parents r)) by (rewrite E2; apply nth_In; auto).
      destruct (Nat.eqb_spec k 0) as [->|Nk].
      * rewrite accept_foralls. destruct (children r) as [|c0 cs] eqn:Ec; [contradiction|]. rewrite <- Ec in *.
        assert (L : incl (children r) (rev (children r) ++ d')) by (intros x I; apply in_or_app; left; now apply -> in_rev).
        apply (IH false p c (v :: b) (v :: d) (rev (children r) ++ b') (rev (children r) ++ d') 1 s1 f1); auto.
        -- intros w [<-|I]; [right; auto|]. destruct (B w I) as [J|[J _]]; [left; apply in_or_app; auto|right; auto].
        -- intros w [<-|I]; [right; auto|]. destruct (D w I) as [J|[J _]]; [left; apply in_or_app; auto|right; auto].
      * assert (L : incl (children r) d') by (apply K; lia).
        destruct (IH false p c (v :: b) (v :: d) b' d' (S k) s1 f1) as [Y1 Y2]; auto.
        -- intros w [<-|I]; [right; auto|]. apply (B w I).
        -- intros w [<-|I]; [right; auto|]. apply (D w I).
        -- assert (T : forall s0 t1 t2, (forall s' rl, s0 <> SSuchThat s' rl) -> accept valid rels' t1 p c b' d' s0 = accept valid rels' t2 p c b' d' s0).
           { intros s0 t1 t2 N. destruct s0; auto. exfalso. eapply N; eauto. }
           destruct s1 as [a0|v0 s0|s01 s02|h0 s01 s02|s0 rl0]; try (rewrite <- (T _ false top) by (intros; discriminate); auto; fail).
           (* a SuchThat behind a loop was not accepted *)
           exfalso. cbn [accept] in Y1. destruct (accept valid rels' false p c b' d' s0). discriminate.
    + destruct (0 <? k); [discriminate|].
      destruct (replace (parents r) (children r) k s) as [[s1 f1]|]; [|discriminate]. injection R as <- <-. cbn [accept fst]. eapply Keep; eauto.
  - cbn [replace] in R. destruct (replace (parents r) (children r) k s2) as [[s2' f2]|] eqn:R2; [|discriminate].
    destruct (replace (parents r) (children r) k s1) as [[s1' f1]|] eqn:R1; [|discriminate]. injection R as <- <-.
    cbn [accept] in A |- *.
    pose proof (accept_grows valid rels' s2' false true c b' d') as G.
    specialize (IH2 false true c b d b' d' k s2' f2 R2 B D K).
    destruct (accept valid rels' false true c b d s2) as [o2 d2].
    destruct (accept valid rels' false true c b' d' s2') as [o2' d2']. cbn [fst snd] in *.
    specialize (IH1 false p true b d2 b' d2' k s1' f1 R1).
    destruct (accept valid rels' false p true b d2 s1) as [o1 d1].
    destruct (accept valid rels' false p true b' d2' s1') as [o1' d1']. cbn [fst snd] in *.
    apply andb_true_iff in A. destruct A as [-> ->]. destruct (IH2 eq_refl) as [-> C2].
    destruct IH1 as [-> C1]; auto.
    + eapply covers_weaken; eauto.
    + intros P. eapply incl_tran; eauto.
  - cbn [replace] in R. destruct (replace (parents r) (children r) k s1) as [[s1' f1]|] eqn:R1; [|discriminate].
    destruct (replace (parents r) (children r) k s2) as [[s2' f2]|] eqn:R2; [|discriminate]. injection R as <- <-.
    cbn [accept] in A |- *.
    pose proof (accept_grows valid rels' s1' false p c b' d') as G.
    specialize (IH1 false p c b d b' d' k s1' f1 R1 B D K).
    destruct (accept valid rels' false p c b d s1) as [o1 d1].
    destruct (accept valid rels' false p c b' d' s1') as [o1' d1']. cbn [fst snd] in *.
    specialize (IH2 false p c b d1 b' d1' k s2' f2 R2).
    destruct (accept valid rels' false p c b d1 s2) as [o2 d2].
    destruct (accept valid rels' false p c b' d1' s2') as [o2' d2']. cbn [fst snd] in *.
    apply andb_true_iff in A. destruct A as [-> ->]. destruct (IH1 eq_refl) as [-> C1].
    destruct IH2 as [-> C2]; auto.
    + eapply covers_weaken; eauto.
    + intros P. eapply incl_tran; eauto.
  - cbn [replace] in R. destruct (replace (parents r) (children r) k s) as [[s1 f1]|] eqn:R1; [|discriminate]. injection R as <- <-.
    cbn [accept fst] in A |- *. specialize (IH false p c b d b' d' k s1 f1 R1 B D K).
    destruct (accept valid rels' false p c b d s) as [o1 d1].
    destruct (accept valid rels' false p c b' d' s1) as [o2 d2]. cbn [fst snd] in *.
    apply andb_true_iff in A. destruct A as [-> ->]. destruct (IH eq_refl) as [-> C1]. auto.
Qed.
End Replace.

Lemma relations_add : forall r s, relations (add_predicate r s) = relations s ++ [r].
Proof. intros r s. destruct s; reflexivity. Qed.
Lemma occurring_relations : forall s v, In v (flat_map (fun r => parents r ++ children r) (relations s)) -> In v (occurring s).
Proof. intros s v I. destruct s; cbn in *; try tauto. apply in_or_app. auto. Qed.
Lemma new_in_order : forall r s, in_order [] (relations s) -> new_relation r s -> in_order [] (relations s ++ [r]).
Proof.
  intros r s O (P & C & F). apply in_order_app; auto. intros c I. destruct (F c I) as [A B]. split; [intros []|]. split; auto.
  intros X. apply B. now apply occurring_relations.
Qed.
Lemma transform_accepted : forall valid r s s', transform valid r s = Some s' ->
  in_order [] (relations s) -> new_relation r s -> precompute r = false ->
  (forall p q, In p (parents r) -> In q (relations s) -> In p (children q) -> precompute q = false) ->
  isConcreteNotation valid s' = true.
Proof.
  intros valid r s s' T O N Kd NP. unfold transform in T. destruct (isConcreteNotation valid s); [|discriminate].
  unfold forall_replace in T. destruct (isConcreteNotation valid (add_predicate r s)) eqn:A; [|discriminate].
  destruct (replace (parents r) (children r) 0 (add_predicate r s)) as [[s1 [|]]|] eqn:R; try discriminate. injection T as <-.
  assert (O' : in_order [] (relations s ++ [r])) by now apply new_in_order.
  assert (X : relations s1 = relations s ++ [r]).
  { rewrite <- relations_add.
    assert (Q : exists q rl, add_predicate r s = SSuchThat q rl) by (destruct s; cbn; eauto). destruct Q as (q & rl & Q). rewrite Q in *.
    cbn [replace] in R. destruct (replace (parents r) (children r) 0 q) as [[q' f]|]; [|discriminate]. injection R as <- _. reflexivity. }
  unfold isConcreteNotation in *. rewrite X. rewrite relations_add in A.
  eapply (accept_replace (relations s) r O' Kd); eauto.
  - intros p I. destruct (parent_rel (relations s ++ [r]) p) as [q|] eqn:E; auto. cbn.
    destruct (parent_rel_In _ _ _ E) as [Iq Jq]. apply in_app_or in Iq. destruct Iq as [Iq|[<-|[]]]; eauto.
  - apply N.
  - intros v [].
  - intros v [].
  - lia.
Qed.

(** ** Success *)
Lemma replace_single : forall i repl s k, exists s' f, replace [i] repl k s = Some (s', f) /\ (k = 0 -> In i (loop_variables s) -> f = true).
Proof.
  intros i repl. induction s as [a|v s IH|s1 IH1 s2 IH2|h s1 IH1 s2 IH2|s IH rl]; intros k; cbn [replace loop_variables].
  - eexists _, _. split; [reflexivity|]. intros _ [].
  - cbn [length]. destruct k as [|k].
    + cbn [Nat.leb nth]. destruct (Nat.eqb_spec v i) as [->|N].
      * cbn [Nat.ltb Nat.leb andb]. destruct (IH 1) as (s' & f & E & _). rewrite E. cbn. eexists _, _. split; [reflexivity|]. auto.
      * cbn [Nat.ltb Nat.leb]. destruct (IH 0) as (s' & f & E & F). rewrite E. cbn. eexists _, _. split; [reflexivity|].
        intros _ [X|X]; [congruence|auto].
    + cbn [Nat.leb]. destruct (IH (S k)) as (s' & f & E & _). rewrite E. cbn. eexists _, _. split; [reflexivity|]. discriminate.
  - destruct (IH1 k) as (s1' & f1 & E1 & F1). destruct (IH2 k) as (s2' & f2 & E2 & F2). rewrite E1, E2. eexists _, _. split; [reflexivity|].
    intros Z I. apply in_app_or in I. destruct I as [I|I]; [rewrite (F1 Z I); apply orb_true_r|now rewrite (F2 Z I)].
  - destruct (IH1 k) as (s1' & f1 & E1 & F1). destruct (IH2 k) as (s2' & f2 & E2 & F2). rewrite E1, E2. eexists _, _. split; [reflexivity|].
    intros Z I. apply in_app_or in I. destruct I as [I|I]; [now rewrite (F1 Z I)|rewrite (F2 Z I); apply orb_true_r].
  - destruct (IH k) as (s' & f & E & F). rewrite E. cbn. eexists _, _. split; [reflexivity|]. auto.
Qed.
Lemma access_vars_incl : forall e, incl (access_vars e) (used e).
Proof.
  induction e as [z|t vs|v|f e IH|f x IHx y IHy|v e IH]; cbn; auto using incl_refl.
  - intros ? [].
  - apply incl_app; [apply incl_appl|apply incl_appr]; auto.
Qed.
Lemma recoverable_fuel : forall rels d n v, recoverable n rels d [] [] v = true -> recoverable (S n) rels d [] [] v = true.
Proof.
  intros rels d. induction n as [|n IH]; intros v R; [discriminate|].
  change (recoverable (S (S n)) rels d [] [] v) with
    (forallb (fun c => mem c d || (negb (isFullyDerived rels c) && recoverable (S n) rels d [] [] c)) (getChildren rels v)).
  cbn [recoverable mem existsb is_nil negb andb] in R. rewrite forallb_forall in *.
  intros c I. specialize (R c I). apply orb_true_iff in R. destruct R as [R|R]; [now rewrite R|].
  apply andb_true_iff in R. destruct R as [R1 R2]. rewrite R1, (IH c R2). apply orb_true_r.
Qed.
Section Extend.
Variables (rels : list rel) (r : rel).
Let rels' := rels ++ [r].
Hypothesis O' : in_order [] rels'.
Hypothesis O : in_order [] rels.
Hypothesis NoPre : Forall (fun q => precompute q = false) rels'.
Hypothesis NotParent : forall p q, In p (parents r) -> In q rels -> ~ In p (parents q).
Hypothesis Fresh : forall c q, In c (children r) -> In q rels -> ~ In c (parents q ++ children q).

Lemma extend_child_rel : forall v q, child_rel rels v = Some q -> child_rel rels' v = Some q.
Proof.
  intros v q E. unfold rels'. rewrite child_rel_app; auto. intros I. destruct (child_rel_In _ _ _ E) as [Iq J].
  exact (NotParent v q I Iq J).
Qed.
Lemma extend_fully : forall v, isFullyDerived rels v = false -> isFullyDerived rels' v = false /\ getChildren rels' v = getChildren rels v.
Proof.
  intros v D. unfold isFullyDerived, getChildren in *. destruct (child_rel rels v) as [q|] eqn:E; [|discriminate].
  now rewrite (extend_child_rel v q E).
Qed.
Lemma extend_recoverable : forall d n v, isFullyDerived rels v = false ->
  recoverable n rels d [] [] v = true -> recoverable n rels' d [] [] v = true.
Proof.
  intros d. induction n as [|n IH]; intros v D R; [discriminate|].
  cbn [recoverable mem existsb is_nil negb andb] in *. destruct (extend_fully v D) as [_ G]. rewrite G.
  rewrite forallb_forall in *. intros c I. specialize (R c I). apply orb_true_iff in R. destruct R as [R|R]; [now rewrite R|].
  apply andb_true_iff in R. destruct R as [R1 R2]. apply negb_true_iff in R1. destruct (extend_fully c R1) as [D' _].
  rewrite D', (IH c R1 R2). apply orb_true_r.
Qed.
Lemma extend_variable : forall b d v, ~ In v (children r) -> variable_ok rels b d v = true -> variable_ok rels' b d v = true.
Proof.
  intros b d v F V. assert (NP : Forall (fun q => precompute q = false) rels).
  { unfold rels' in NoPre. apply Forall_app in NoPre. tauto. }
  unfold variable_ok in *. apply negb_true_iff in V. apply negb_true_iff.
  destruct (mem v b); auto. cbn [negb andb] in *.
  assert (U : isUnderived rels' v = isUnderived rels v).
  { unfold isUnderived, getParents, rels'. now rewrite parent_rel_app. }
  rewrite U. destruct (isUnderived rels v); auto. cbn [andb] in *. apply orb_false_iff in V. destruct V as [V1 V2].
  destruct (extend_fully v V1) as [V1' _]. rewrite V1'. cbn [orb]. apply negb_false_iff in V2. apply negb_false_iff.
  unfold isRecoverable in *. destruct (no_precompute rels d NP) as [P C]. destruct (no_precompute rels' d NoPre) as [P' C'].
  rewrite P, C in V2. rewrite P', C'. unfold rels' at 1. rewrite app_length. cbn [length]. rewrite Nat.add_1_r.
  apply recoverable_fuel. now apply extend_recoverable.
Qed.
Lemma extend_origin : forall v u, origin rels' v u -> ~ In v (children r) -> origin rels v u.
Proof.
  induction 1 as [v N|v q p u Iq Iv Ip _ IH]; intros F.
  - constructor. intros (q & I & J). apply N. exists q. split; auto. unfold rels'. apply in_or_app. auto.
  - unfold rels' in Iq. apply in_app_or in Iq. destruct Iq as [Iq|[<-|[]]]; [|contradiction].
    apply (Or_parent rels v q p u Iq Iv Ip). apply IH. intros X. apply (Fresh p q X Iq). apply in_or_app. auto.
Qed.
Lemma extend_reduces : forall a, (forall c, In c (children r) -> ~ In c (used (rhs a))) -> reduces rels a = false -> reduces rels' a = false.
Proof.
  intros a F R. destruct (reduces rels' a) eqn:E; auto. apply (reduces_iff rels' [] a O') in E. destruct E as (v & u & I & N & Or & M).
  rewrite (proj2 (reduces_iff rels [] a O)) in R; [discriminate|]. exists v, u. split; auto. split; auto. split; auto.
  apply extend_origin; auto. intros X. apply (F v X). now apply access_vars_incl.
Qed.
Lemma extend_accept : forall valid s top p c b d, (forall x, In x (children r) -> ~ In x (occurring s)) ->
  snd (accept valid rels' top p c b d s) = snd (accept valid rels top p c b d s) /\
  (fst (accept valid rels top p c b d s) = true -> fst (accept valid rels' top p c b d s) = true).
Proof.
  intros valid. induction s as [a|v s IH|s1 IH1 s2 IH2|h s1 IH1 s2 IH2|s IH rl]; intros top p c b d F.
  - split; auto. intros A. apply (accept_assign valid rels top) in A. apply (accept_assign valid rels' top).
    destruct A as (A1 & A2 & A3 & A4). cbn in F. split; auto. split.
    + intros X Y. apply extend_reduces; auto. intros x I J. apply (F x I), in_or_app. auto.
    + split; auto. intros v I. apply extend_variable; auto. intros J. exact (F v J I).
  - cbn [accept occurring] in *. apply IH. intros x I J. apply (F x I). right; auto.
  - cbn [accept occurring] in *.
    destruct (IH2 false true c b d) as [S2 A2]. { intros x I J. apply (F x I), in_or_app. auto. }
    destruct (accept valid rels' false true c b d s2) as [o2' d2']. destruct (accept valid rels false true c b d s2) as [o2 d2]. cbn [fst snd] in *. subst d2'.
    destruct (IH1 false p true b d2) as [S1 A1]. { intros x I J. apply (F x I), in_or_app. auto. }
    destruct (accept valid rels' false p true b d2 s1) as [o1' d1']. destruct (accept valid rels false p true b d2 s1) as [o1 d1]. cbn [fst snd] in *.
    split; auto. rewrite !andb_true_iff. tauto.
  - cbn [accept occurring] in *.
    destruct (IH1 false p c b d) as [S1 A1]. { intros x I J. apply (F x I), in_or_app. auto. }
    destruct (accept valid rels' false p c b d s1) as [o1' d1']. destruct (accept valid rels false p c b d s1) as [o1 d1]. cbn [fst snd] in *. subst d1'.
    destruct (IH2 false p c b d1) as [S2 A2]. { intros x I J. apply (F x I), in_or_app. auto. }
    destruct (accept valid rels' false p c b d1 s2) as [o2' d2']. destruct (accept valid rels false p c b d1 s2) as [o2 d2]. cbn [fst snd] in *.
    split; auto. rewrite !andb_true_iff. tauto.
  - cbn [accept occurring] in *.
    destruct (IH false p c b d) as [S1 A1]. { intros x I J. apply (F x I), in_or_app. auto. }
    destruct (accept valid rels' false p c b d s) as [o1' d1']. destruct (accept valid rels false p c b d s) as [o1 d1]. cbn [fst snd] in *.
    split; auto. rewrite !andb_true_iff. tauto.
Qed.
End Extend.
Lemma add_predicate_accepted : forall valid r s, isConcreteNotation valid s = true ->
  in_order [] (relations s) -> new_relation r s -> precompute r = false ->
  Forall (fun q => precompute q = false) (relations s) ->
  (forall p q, In p (parents r) -> In q (relations s) -> ~ In p (parents q)) ->
  isConcreteNotation valid (add_predicate r s) = true.
Proof.
  intros valid r s A O N Kd F NP. pose proof (new_in_order r s O N) as O'.
  assert (F' : Forall (fun q => precompute q = false) (relations s ++ [r])) by (apply Forall_app; split; auto).
  destruct N as (P & C & N).
  assert (Fr : forall c q, In c (children r) -> In q (relations s) -> ~ In c (parents q ++ children q)).
  { intros c q I J X. apply (N c I), occurring_relations. apply in_flat_map. exists q. auto. }
  unfold isConcreteNotation in *. rewrite relations_add.
  destruct (extend_accept (relations s) r O' O F' NP Fr valid s true false false [] []) as [_ X].
  { intros x I. apply (N x I). }
  specialize (X A). destruct s as [a|v s|s1 s2|h s1 s2|s rl]; cbn [add_predicate]; auto;
    match goal with |- context [accept ?va ?rs true false false [] [] (SSuchThat ?s _)] =>
      change (fst (let (ok, defined) := accept va rs true false false [] [] s in (ok, defined)) = true);
      destruct (accept va rs true false false [] [] s); exact X end.
Qed.
Lemma transform_succeeds : forall valid r s i, isConcreteNotation valid s = true ->
  in_order [] (relations s) -> new_relation r s -> precompute r = false -> parents r = [i] ->
  Forall (fun q => precompute q = false) (relations s) ->
  (forall q, In q (relations s) -> ~ In i (parents q)) -> In i (loop_variables s) ->
  exists s', transform valid r s = Some s' /\ isConcreteNotation valid s' = true.
Proof.
  intros valid r s i A O N Kd P F NP I.
  assert (X : exists s', transform valid r s = Some s').
  { unfold transform. rewrite A. unfold forall_replace.
    rewrite add_predicate_accepted; auto.
    - rewrite P. destruct (replace_single i (children r) (add_predicate r s) 0) as (s' & f & E & T). rewrite E, T; eauto.
      destruct s; cbn in *; auto.
    - intros p q Ip Iq. rewrite P in Ip. destruct Ip as [<-|[]]. auto. }
  destruct X as [s' T]. exists s'. split; auto. eapply transform_accepted; eauto.
  intros p q _ Iq _. rewrite Forall_forall in F. auto.
Qed.

(** ** Values of determined variables *)
Lemma recover_other : forall B s q v, ~ In v (Schedule.parents q) -> Schedule.recover B s q v = s v.
Proof.
  intros B s q v N. unfold Schedule.recover, Schedule.upd. destruct q; cbn in N;
    repeat match goal with |- context [?x =? ?y] => destruct (Nat.eqb_spec x y); [subst; tauto|] end; auto.
Qed.
Lemma recover_children : forall B s s' q v, In v (Schedule.parents q) -> (forall c, In c (Schedule.children q) -> s c = s' c) ->
  Schedule.recover B s q v = Schedule.recover B s' q v.
Proof.
  intros B s s' q v I E. unfold Schedule.recover, Schedule.upd. destruct q; cbn in *;
    repeat match goal with |- context [?x =? ?y] => destruct (Nat.eqb_spec x y); subst end;
    repeat rewrite E by tauto; auto; exfalso; intuition congruence.
Qed.
(** Values of a variable behind all relations do not depend on the values of others than
    those of the known variables. *)
Lemma determined_values : forall B qs known s s',
  (forall v, In v known -> s v = s' v) ->
  (forall q v, In q qs -> In v known -> ~ In v (Schedule.parents q)) ->
  NoDup (flat_map Schedule.parents qs) -> in_order [] (map of_rel qs) ->
  forall v, determined (map of_rel qs) known v -> Schedule.recover_all B qs s v = Schedule.recover_all B qs s' v.
Proof.
  intros B qs known s s' E NK. 
  assert (G : forall rest pre, qs = pre ++ rest -> NoDup (flat_map Schedule.parents qs) -> in_order [] (map of_rel qs) ->
    forall v, determined (map of_rel qs) known v -> (forall q, In q pre -> ~ In v (Schedule.parents q)) ->
    Schedule.recover_all B rest s v = Schedule.recover_all B rest s' v).
  { induction rest as [|q rest IH]; intros pre Q ND OO v D NV.
    - cbn. destruct D as [v I|v r Ir Iv NE F]; auto. exfalso.
      apply in_map_iff in Ir. destruct Ir as (q & <- & Iq). rewrite Q, app_nil_r in Iq. exact (NV q Iq Iv).
    - cbn [Schedule.recover_all]. destruct (in_dec Nat.eq_dec v (Schedule.parents q)) as [I|N].
      + apply recover_children; auto. intros c Ic.
        destruct D as [v J|v r Ir Iv NE F].
        { exfalso. apply (NK q v); auto. rewrite Q. apply in_or_app. right. left. auto. }
        assert (X : r = of_rel q).
        { assert (C1 : child_rel (map of_rel qs) v = Some r).
          { apply child_rel_unique; auto. rewrite flat_map_concat_map, map_map, <- flat_map_concat_map. exact ND. }
          assert (C2 : child_rel (map of_rel qs) v = Some (of_rel q)).
          { apply child_rel_unique; auto. rewrite flat_map_concat_map, map_map, <- flat_map_concat_map. exact ND.
            apply in_map. rewrite Q. apply in_or_app. right. left. auto. }
          congruence. }
        subst r. rewrite Forall_forall in F. specialize (F c Ic).
        apply (IH (pre ++ [q])); auto. { rewrite <- app_assoc. exact Q. }
        intros q' Iq' Ip. assert (Z : in_order [] (map of_rel qs)) by exact OO.
        (* c would be a parent of a relation before its own *)
        rewrite Q, map_app in Z. cbn [map] in Z. apply in_app_or in Iq'.
        assert (W : forall l seen, in_order seen (map of_rel l ++ of_rel q :: map of_rel rest) ->
                    ~ In c (flat_map Schedule.parents l) /\ ~ In c (Schedule.parents q)).
        { clear - Ic. induction l as [|x l IHl]; intros seen Z; cbn [map app in_order flat_map] in *.
          - destruct Z as (A & _). destruct (A c Ic) as [_ B']. split; auto.
          - destruct Z as (A & _ & _ & Z). destruct (IHl _ Z) as [B1 B2]. split; auto. intros X. apply in_app_or in X. destruct X as [X|X]; auto.
            assert (H : In (of_rel q) (map of_rel l ++ of_rel q :: map of_rel rest)) by (apply in_or_app; right; left; auto).
            destruct (in_order_fresh _ _ _ c Z H Ic) as [N _]. apply N. rewrite !in_app_iff. auto. }
        destruct (W pre [] Z) as [W1 W2]. destruct Iq' as [Iq'|[<-|[]]]; [|contradiction].
        apply W1. apply in_flat_map. eauto.
      + rewrite !recover_other by auto. apply (IH (pre ++ [q])); auto. { rewrite <- app_assoc. exact Q. }
        intros q' Iq'. apply in_app_or in Iq'. destruct Iq' as [Iq'|[<-|[]]]; auto. }
  intros ND OO v D. apply (G qs []); auto.
Qed.

(** ** The shape of transformed loop nests *)
Lemma replace_done : forall pat repl a post k, length pat <= k -> exists f, replace pat repl k (nest post a) = Some (nest post a, f).
Proof.
  intros pat repl a. induction post as [|v post IH]; intros k L.
  - eexists. reflexivity.
  - cbn [nest fold_right replace]. apply Nat.leb_le in L as L'. rewrite L'. destruct (IH k L) as [f E].
    change (fold_right SForall (SAssign a) post) with (nest post a). rewrite E. eexists. reflexivity.
Qed.
Lemma replace_inside : forall repl a post rest pre, pre <> [] ->
  exists f, replace (pre ++ rest) repl (length pre) (nest (rest ++ post) a) = Some (nest post a, f).
Proof.
  intros repl a post. induction rest as [|v rest IH]; intros pre N.
  - rewrite app_nil_r. apply replace_done. auto.
  - cbn [app nest fold_right replace]. rewrite app_length. cbn [length].
    destruct (Nat.leb_spec (length pre + S (length rest)) (length pre)); [lia|].
    rewrite app_nth2 by auto. rewrite Nat.sub_diag. cbn [nth]. rewrite Nat.eqb_refl.
    assert (X : (S (length pre) <? length pre + S (length rest)) && negb (is_forall (fold_right SForall (SAssign a) (rest ++ post))) = false).
    { destruct rest as [|w rest]; [|cbn; now rewrite andb_false_r].
      cbn [length]. replace (S (length pre) <? length pre + 1) with false; [reflexivity|]. symmetry. apply Nat.ltb_ge. lia. }
    rewrite X. specialize (IH (pre ++ [v])). rewrite <- app_assoc in IH. cbn [app] in IH.
    rewrite app_length in IH. cbn [length] in IH. rewrite Nat.add_1_r in IH.
    change (fold_right SForall (SAssign a) (rest ++ post)) with (nest (rest ++ post) a).
    destruct IH as [f E]. { destruct pre; discriminate. }
    rewrite E. cbn [option_map fst]. destruct (Nat.eqb_spec (length pre) 0) as [Z|_]; [destruct pre; [contradiction|discriminate]|].
    eexists. reflexivity.
Qed.
Lemma replace_nest : forall repl a post i rest pre, ~ In i pre ->
  replace (i :: rest) repl 0 (nest (pre ++ (i :: rest) ++ post) a) = Some (nest (pre ++ repl ++ post) a, true).
Proof.
  intros repl a post i rest. induction pre as [|v pre IH]; intros N.
  - cbn [app nest fold_right replace length Nat.leb nth]. rewrite Nat.eqb_refl.
    assert (X : (1 <? S (length rest)) && negb (is_forall (fold_right SForall (SAssign a) (rest ++ post))) = false).
    { destruct rest as [|w rest]; [reflexivity|]. cbn. auto. }
    rewrite X. destruct (replace_inside repl a post rest [i]) as [f E]; [discriminate|]. cbn [app length] in E.
    unfold nest in E at 1. rewrite E. cbn [option_map fst Nat.eqb]. unfold nest. now rewrite fold_right_app.
  - cbn [app nest fold_right replace length Nat.leb nth]. destruct (Nat.eqb_spec v i) as [->|M]; [exfalso; apply N; left; auto|].
    cbn [Nat.ltb Nat.leb]. assert (N' : ~ In i pre) by (intros I; apply N; right; auto). specialize (IH N').
    cbn [app] in IH. unfold nest in IH at 1. rewrite IH. reflexivity.
Qed.
Lemma transform_shape : forall valid r rels pre post a,
  isConcreteNotation valid (SSuchThat (nest (pre ++ parents r ++ post) a) rels) = true ->
  in_order [] rels -> new_relation r (SSuchThat (nest (pre ++ parents r ++ post) a) rels) -> precompute r = false ->
  Forall (fun q => precompute q = false) rels ->
  (forall p q, In p (parents r) -> In q rels -> ~ In p (parents q)) ->
  (forall p, hd_error (parents r) = Some p -> ~ In p pre) ->
  transform valid r (SSuchThat (nest (pre ++ parents r ++ post) a) rels) =
    Some (SSuchThat (nest (pre ++ children r ++ post) a) (rels ++ [r])).
Proof.
  intros valid r rels pre post a A O N Kd F NP H. unfold transform. rewrite A. unfold forall_replace.
  rewrite add_predicate_accepted; auto. cbn [add_predicate replace].
  destruct N as (P & _ & _). destruct (parents r) as [|i rest] eqn:E; [contradiction|].
  rewrite replace_nest by (apply H; reflexivity). reflexivity.
Qed.
