(** Proofs about acceptance: graph queries, exactness. *)
From Coq Require Import List Arith Bool ZArith Lia.
From Verif Require Import Accept AcceptSpec.
Import ListNotations.
Local Open Scope nat_scope.

Lemma mem_In : forall v l, mem v l = true <-> In v l.
Proof.
  intros v l. unfold mem. rewrite existsb_exists. split.
  - intros (x & I & E). apply Nat.eqb_eq in E. now subst.
  - intros I. exists v. split; auto. apply Nat.eqb_refl.
Qed.
Lemma mem_false : forall v l, mem v l = false <-> ~ In v l.
Proof.
  intros v l. rewrite <- mem_In. destruct (mem v l); split; intros; try discriminate; auto; try congruence.
Qed.
Lemma is_nil_true : forall A (l : list A), is_nil l = true <-> l = [].
Proof. intros A [|x l]; cbn; split; intros; auto; discriminate. Qed.
Lemma is_nil_false : forall A (l : list A), is_nil l = false <-> l <> [].
Proof. intros A [|x l]; cbn; split; intros; auto; try discriminate; congruence. Qed.

(** ** The graph *)
Lemma child_rel_In : forall rels v r, child_rel rels v = Some r -> In r rels /\ In v (parents r).
Proof.
  induction rels as [|r0 rest IH]; intros v r E; cbn in E; [discriminate|].
  destruct (child_rel rest v) as [x|] eqn:C.
  - injection E as <-. destruct (IH v x C). split; [right|]; auto.
  - destruct (mem v (parents r0)) eqn:M; [|discriminate]. injection E as <-. split; [left|apply mem_In]; auto.
Qed.
Lemma child_rel_None : forall rels v, child_rel rels v = None -> forall r, In r rels -> ~ In v (parents r).
Proof.
  induction rels as [|r0 rest IH]; intros v E r I; [destruct I|].
  cbn in E. destruct (child_rel rest v) as [x|] eqn:C; [discriminate|].
  destruct (mem v (parents r0)) eqn:M; [discriminate|].
  destruct I as [<-|I]; [now apply mem_false|now apply IH].
Qed.
Lemma parent_rel_In : forall rels v r, parent_rel rels v = Some r -> In r rels /\ In v (children r).
Proof.
  induction rels as [|r0 rest IH]; intros v r E; cbn in E; [discriminate|].
  destruct (parent_rel rest v) as [x|] eqn:C.
  - injection E as <-. destruct (IH v x C). split; [right|]; auto.
  - destruct (mem v (children r0)) eqn:M; [|discriminate]. injection E as <-. split; [left|apply mem_In]; auto.
Qed.
Lemma parent_rel_None : forall rels v, parent_rel rels v = None -> forall r, In r rels -> ~ In v (children r).
Proof.
  induction rels as [|r0 rest IH]; intros v E r I; [destruct I|].
  cbn in E. destruct (parent_rel rest v) as [x|] eqn:C; [discriminate|].
  destruct (mem v (children r0)) eqn:M; [discriminate|].
  destruct I as [<-|I]; [now apply mem_false|now apply IH].
Qed.
Lemma in_order_fresh : forall rels seen r c, in_order seen rels -> In r rels -> In c (children r) -> ~ In c seen /\ ~ In c (parents r).
Proof.
  induction rels as [|r0 rest IH]; intros seen r c O I J; [destruct I|].
  cbn in O. destruct O as (F & _ & _ & O). destruct I as [<-|I]; auto.
  destruct (IH _ r c O I J) as [N P]. split; auto. intros X. apply N. apply in_or_app. auto.
Qed.
Lemma in_order_parents : forall rels seen r, in_order seen rels -> In r rels -> parents r <> [].
Proof.
  induction rels as [|r0 rest IH]; intros seen r O I; [destruct I|].
  cbn in O. destruct O as (_ & P & _ & O). destruct I as [<-|I]; auto. eapply IH; eauto.
Qed.
Lemma in_order_children : forall rels seen r, in_order seen rels -> In r rels -> children r <> [].
Proof.
  induction rels as [|r0 rest IH]; intros seen r O I; [destruct I|].
  cbn in O. destruct O as (_ & _ & P & O). destruct I as [<-|I]; auto. eapply IH; eauto.
Qed.
Lemma parent_rel_unique : forall rels seen r c, in_order seen rels -> In r rels -> In c (children r) -> parent_rel rels c = Some r.
Proof.
  induction rels as [|r0 rest IH]; intros seen r c O I J; [destruct I|].
  cbn in O. destruct O as (F & _ & _ & O). cbn. destruct I as [<-|I].
  - destruct (parent_rel rest c) as [x|] eqn:C.
    + destruct (parent_rel_In _ _ _ C) as [Ix Jx]. destruct (in_order_fresh _ _ _ _ O Ix Jx) as [N _].
      exfalso. apply N. rewrite !in_app_iff. auto.
    + assert (M : mem c (children r0) = true) by now apply mem_In. now rewrite M.
  - now rewrite (IH _ r c O I J).
Qed.
Lemma underived_iff : forall rels seen v, in_order seen rels -> (isUnderived rels v = true <-> ~ derived rels v).
Proof.
  intros rels seen v O. unfold isUnderived, getParents. split.
  - intros U (r & I & J). rewrite (parent_rel_unique _ _ _ _ O I J) in U. apply is_nil_true in U.
    exact (in_order_parents _ _ _ O I U).
  - intros N. destruct (parent_rel rels v) as [r|] eqn:E; auto.
    destruct (parent_rel_In _ _ _ E). exfalso. apply N. exists r. auto.
Qed.

(** Ranks: towards the children and towards the parents. *)
Fixpoint rank (rels : list rel) (v : var) : nat :=
  match rels with
  | [] => 0
  | r :: rest => if rank rest v =? 0 then (if mem v (parents r) then length (r :: rest) else 0) else rank rest v
  end.
Lemma rank_le : forall rels v, rank rels v <= length rels.
Proof.
  induction rels as [|r rest IH]; intros v; cbn [rank length]; auto.
  specialize (IH v). destruct (rank rest v =? 0); [|lia]. destruct (mem v (parents r)); lia.
Qed.
Lemma rank_zero : forall rels v, rank rels v = 0 <-> child_rel rels v = None.
Proof.
  induction rels as [|r rest IH]; intros v; cbn [rank child_rel length]; [tauto|].
  destruct (child_rel rest v) as [x|] eqn:C.
  - assert (rank rest v <> 0) by (rewrite IH, C; discriminate).
    destruct (Nat.eqb_spec (rank rest v) 0); [lia|]. split; intros; [lia|discriminate].
  - assert (Z : rank rest v = 0) by now apply IH. rewrite Z. cbn [Nat.eqb].
    destruct (mem v (parents r)); split; intros; auto; discriminate.
Qed.
Lemma rank_child : forall rels seen v r c, in_order seen rels -> child_rel rels v = Some r -> In c (children r) ->
  rank rels c < rank rels v.
Proof.
  induction rels as [|r0 rest IH]; intros seen v r c O E J; [discriminate|].
  cbn in O. destruct O as (F & _ & _ & O). cbn [child_rel] in E. cbn [rank].
  destruct (child_rel rest v) as [x|] eqn:C.
  - injection E as ->. pose proof (IH _ v r c O C J) as L.
    destruct (child_rel_In _ _ _ C) as [I _]. destruct (in_order_fresh _ _ _ _ O I J) as [N _].
    assert (M : mem c (parents r0) = false). { apply mem_false. intros X. apply N. rewrite !in_app_iff. auto. }
    rewrite M. destruct (Nat.eqb_spec (rank rest v) 0); [lia|].
    destruct (rank rest c =? 0); lia.
  - destruct (mem v (parents r0)) eqn:M; [|discriminate]. injection E as <-.
    assert (Z : rank rest v = 0) by now apply rank_zero. rewrite Z. cbn [Nat.eqb].
    destruct (F c J) as [_ N]. apply mem_false in N. rewrite N.
    pose proof (rank_le rest c). cbn [length]. destruct (rank rest c =? 0); lia.
Qed.
Fixpoint uprank (rels : list rel) (v : var) : nat :=
  match rels with
  | [] => 0
  | r :: rest => match uprank rest v with O => if mem v (children r) then 1 else 0 | S n => S (S n) end
  end.
Lemma uprank_le : forall rels v, uprank rels v <= length rels.
Proof.
  induction rels as [|r rest IH]; intros v; cbn [uprank length]; auto.
  specialize (IH v). destruct (uprank rest v); [|lia]. destruct (mem v (children r)); lia.
Qed.
Lemma uprank_zero : forall rels v, uprank rels v = 0 <-> parent_rel rels v = None.
Proof.
  induction rels as [|r rest IH]; intros v; cbn [uprank parent_rel]; [tauto|].
  destruct (parent_rel rest v) as [x|] eqn:C.
  - assert (uprank rest v <> 0) by (rewrite IH, C; discriminate).
    destruct (uprank rest v); [lia|]. split; intros; discriminate.
  - assert (Z : uprank rest v = 0) by now apply IH. rewrite Z.
    destruct (mem v (children r)); split; intros; auto; discriminate.
Qed.
Lemma uprank_parent : forall rels seen v r p, in_order seen rels -> parent_rel rels v = Some r -> In p (parents r) ->
  uprank rels p < uprank rels v.
Proof.
  induction rels as [|r0 rest IH]; intros seen v r p O E J; [discriminate|].
  cbn in O. destruct O as (F & _ & _ & O). cbn [parent_rel] in E. cbn [uprank].
  destruct (parent_rel rest v) as [x|] eqn:C.
  - injection E as ->. pose proof (IH _ v r p O C J) as L.
    destruct (uprank rest v) as [|n]; [lia|].
    destruct (uprank rest p); [|lia]. destruct (mem p (children r0)); lia.
  - destruct (mem v (children r0)) eqn:M; [|discriminate]. injection E as <-.
    assert (Z : uprank rest v = 0) by now apply uprank_zero. rewrite Z.
    assert (Zp : uprank rest p = 0).
    { apply uprank_zero. destruct (parent_rel rest p) as [x|] eqn:P; auto.
      destruct (parent_rel_In _ _ _ P) as [Ix Jx]. destruct (in_order_fresh _ _ _ _ O Ix Jx) as [N _].
      exfalso. apply N. rewrite !in_app_iff. auto. }
    rewrite Zp. destruct (mem p (children r0)) eqn:Mp; [|lia].
    apply mem_In in Mp. destruct (F p Mp) as [_ N]. contradiction.
Qed.

(** *** The recursions end *)
Lemma ancestors_stable : forall rels seen, in_order seen rels ->
  forall n m v, uprank rels v < n -> uprank rels v < m -> ancestors n rels v = ancestors m rels v.
Proof.
  intros rels seen O. induction n as [|n IH]; intros [|m] v A B; try lia.
  cbn [ancestors]. unfold getParents. destruct (parent_rel rels v) as [r|] eqn:E; auto.
  assert (X : forall ps, incl ps (parents r) -> flat_map (ancestors n rels) ps = flat_map (ancestors m rels) ps).
  { induction ps as [|p ps IHp]; intros L; cbn; auto.
    pose proof (uprank_parent _ _ _ _ p O E (L p (or_introl eq_refl))).
    rewrite IHp by (intros x I; apply L; right; auto). f_equal. apply IH; lia. }
  destruct (parents r) as [|p ps] eqn:P; auto. apply X. apply incl_refl.
Qed.
Lemma getUnderivedAncestors_eq : forall rels seen v, in_order seen rels ->
  getUnderivedAncestors rels v =
  match getParents rels v with [] => [v] | ps => flat_map (getUnderivedAncestors rels) ps end.
Proof.
  intros rels seen v O. unfold getUnderivedAncestors at 1. cbn [ancestors].
  destruct (getParents rels v) as [|p ps] eqn:P; auto.
  unfold getParents in P. destruct (parent_rel rels v) as [r|] eqn:E; [|discriminate].
  assert (X : forall qs, incl qs (parents r) -> flat_map (ancestors (length rels) rels) qs = flat_map (getUnderivedAncestors rels) qs).
  { induction qs as [|q qs IHq]; intros L; cbn [flat_map]; auto.
    pose proof (uprank_parent _ _ _ _ q O E (L q (or_introl eq_refl))). pose proof (uprank_le rels v).
    rewrite IHq by (intros x I; apply L; right; auto). f_equal. unfold getUnderivedAncestors.
    apply (ancestors_stable rels seen); auto; lia. }
  apply X. rewrite P. apply incl_refl.
Qed.
Lemma forallb_ext_in : forall A (f g : A -> bool) l, (forall x, In x l -> f x = g x) -> forallb f l = forallb g l.
Proof.
  induction l as [|x l IH]; intros H; cbn; auto. rewrite (H x) by (left; auto). rewrite IH; auto. intros y I. apply H. right; auto.
Qed.
Lemma getChildren_rank : forall rels seen v c, in_order seen rels -> In c (getChildren rels v) -> rank rels c < rank rels v.
Proof.
  intros rels seen v c O I. unfold getChildren in I. destruct (child_rel rels v) as [r|] eqn:E; [|destruct I].
  eapply rank_child; eauto.
Qed.
Lemma recoverable_stable : forall rels seen defd prods cons, in_order seen rels ->
  forall n m v, rank rels v < n -> rank rels v < m -> recoverable n rels defd prods cons v = recoverable m rels defd prods cons v.
Proof.
  intros rels seen defd prods cons O. induction n as [|n IH]; intros [|m] v A B; try lia.
  cbn [recoverable]. destruct (mem v cons); auto.
  assert (R : forall c, In c (getChildren rels v) -> rank rels c < rank rels v) by (intros; eapply getChildren_rank; eauto).
  destruct (negb (is_nil prods) && is_precompute (child_rel rels v)).
  - destruct (getChildren rels v) as [|c cs]; auto. destruct (mem c prods); auto.
    specialize (R c (or_introl eq_refl)). apply IH; lia.
  - apply forallb_ext_in. intros c I. specialize (R c I). rewrite (IH m c) by lia. reflexivity.
Qed.
Definition rec_all (rels : list rel) (defd prods cons : list var) (v : var) : bool :=
  recoverable (S (length rels)) rels defd prods cons v.
Lemma rec_all_eq : forall rels seen defd prods cons v, in_order seen rels ->
  rec_all rels defd prods cons v =
  if mem v cons then true
  else if negb (is_nil prods) && is_precompute (child_rel rels v) then
    match getChildren rels v with
    | [] => false
    | c :: _ => if mem c prods then true else rec_all rels defd prods cons c
    end
  else forallb (fun c => mem c defd || (negb (isFullyDerived rels c) && rec_all rels defd prods cons c)) (getChildren rels v).
Proof.
  intros rels seen defd prods cons v O. unfold rec_all at 1. cbn [recoverable]. destruct (mem v cons); auto.
  assert (R : forall c, In c (getChildren rels v) -> rank rels c < length rels).
  { intros c I. pose proof (getChildren_rank _ _ _ _ O I). pose proof (rank_le rels v). lia. }
  destruct (negb (is_nil prods) && is_precompute (child_rel rels v)).
  - destruct (getChildren rels v) as [|c cs]; auto. destruct (mem c prods); auto.
    specialize (R c (or_introl eq_refl)). apply (recoverable_stable rels seen); auto; lia.
  - apply forallb_ext_in. intros c I. specialize (R c I).
    rewrite (recoverable_stable rels seen defd prods cons O (length rels) (S (length rels)) c) by lia. reflexivity.
Qed.

(** *** Origins *)
Lemma origin_iff : forall rels seen, in_order seen rels ->
  forall v u, In u (getUnderivedAncestors rels v) <-> origin rels v u.
Proof.
  intros rels seen O v u. split.
  - remember (uprank rels v) as n eqn:N. revert v N. induction n as [n IH] using (well_founded_induction lt_wf).
    intros v -> I. rewrite (getUnderivedAncestors_eq _ _ _ O) in I.
    destruct (getParents rels v) as [|p ps] eqn:P.
    + destruct I as [<-|[]]. constructor. apply (underived_iff rels seen v O). unfold isUnderived. now rewrite P.
    + unfold getParents in P. destruct (parent_rel rels v) as [r|] eqn:E; [|discriminate].
      destruct (parent_rel_In _ _ _ E) as [Ir Iv]. rewrite <- P in I. apply in_flat_map in I. destruct I as (q & Iq & I).
      apply (Or_parent rels v r q u Ir Iv Iq). apply (IH (uprank rels q)); auto.
      eapply uprank_parent; eauto.
  - induction 1 as [v N|v r p u Ir Iv Ip _ IH].
    + rewrite (getUnderivedAncestors_eq _ _ _ O). apply (underived_iff rels seen v O) in N.
      apply is_nil_true in N. rewrite N. left; auto.
    + rewrite (getUnderivedAncestors_eq _ _ _ O). unfold getParents. rewrite (parent_rel_unique _ _ _ _ O Ir Iv).
      destruct (parents r) as [|q ps] eqn:P; [destruct Ip|]. rewrite <- P in *. apply in_flat_map. exists p. auto.
Qed.
Lemma reduces_iff : forall rels seen a, in_order seen rels ->
  (reduces rels a = true <-> exists v u, In v (access_vars (rhs a)) /\ ~ In v (lhs_vars a) /\ origin rels v u /\ ~ In u (lhs_vars a)).
Proof.
  intros rels seen a O. unfold reduces, getReductionVars. rewrite existsb_exists. split.
  - intros (v & I & E). apply filter_In in I. destruct I as [I N]. apply existsb_exists in E. destruct E as (u & J & M).
    apply negb_true_iff, mem_false in N. apply negb_true_iff, mem_false in M.
    exists v, u. split; auto. split; auto. split; auto. now apply (origin_iff rels seen O).
  - intros (v & u & I & N & J & M). exists v. split.
    + apply filter_In. split; auto. apply negb_true_iff, mem_false; auto.
    + apply existsb_exists. exists u. split; [now apply (origin_iff rels seen O)|]. apply negb_true_iff, mem_false; auto.
Qed.

(** ** Acceptance *)
Lemma expr_ok_iff : forall rels b d e,
  expr_ok rels b d e = true <-> reduction_free e /\ (forall v, In v (used e) -> variable_ok rels b d v = true).
Proof.
  intros rels b d. induction e as [z|t vs|v|f e IH|f x IHx y IHy|v e IH]; cbn.
  - tauto.
  - rewrite forallb_forall. tauto.
  - split; [intros H; split; auto; intros w [<-|[]]; auto|intros [_ H]; apply H; auto].
  - exact IH.
  - rewrite andb_true_iff, IHx, IHy. split.
    + intros [[A B] [C D]]. split; [auto|]. intros v I. apply in_app_or in I. destruct I; auto.
    + intros [[A C] B]. split; split; auto; intros v I; apply B; apply in_or_app; auto.
  - split; [discriminate|tauto].
Qed.
(** What is asked of an assignment. *)
Definition asked (valid : assignment -> bool) (rels : list rel) (b d : list var) (producer consumer : bool) (a : assignment) : Prop :=
  (producer = false -> consumer = false -> valid a = true) /\
  (producer = false -> compound a = false -> reduces rels a = false) /\
  reduction_free (rhs a) /\ (forall v, In v (lhs_vars a ++ used (rhs a)) -> variable_ok rels b d v = true).
Lemma accept_assign : forall valid rels top p c b d a,
  fst (accept valid rels top p c b d (SAssign a)) = true <-> asked valid rels b d p c a.
Proof.
  intros valid rels top p c b d a. cbn [accept fst]. unfold asked.
  assert (L : forallb (variable_ok rels b d) (lhs_vars a) && expr_ok rels b d (rhs a) = true <->
              reduction_free (rhs a) /\ (forall v, In v (lhs_vars a ++ used (rhs a)) -> variable_ok rels b d v = true)).
  { rewrite andb_true_iff, forallb_forall, expr_ok_iff. split.
    - intros (A & B & C). split; auto. intros v I. apply in_app_or in I. destruct I; auto.
    - intros (A & B). split; [|split; auto]; intros v I; apply B, in_or_app; auto. }
  destruct c, p, (valid a), (reduces rels a), (compound a); cbn; rewrite ?L; split; intros; try discriminate;
    repeat match goal with H : _ /\ _ |- _ => destruct H end; repeat split; intros; auto; try discriminate;
    repeat match goal with H : false = false -> _ |- _ => specialize (H eq_refl) end; try discriminate;
    match goal with H : forall v, In v _ -> _ = true |- _ => apply H; auto end.
Qed.

(** Without relations. *)
Lemma variable_ok_plain : forall b d v, variable_ok [] b d v = mem v b.
Proof. intros. unfold variable_ok. cbn. now destruct (mem v b). Qed.
Lemma accept_plain : forall valid s top p c b d, (top = false \/ forall s' rels, s <> SSuchThat s' rels) ->
  (fst (accept valid [] top p c b d s) = true <->
   suchthat_free s /\ forall k a, In (k, a) (assignments (Place b p c) s) ->
     asked valid [] (loops k) [] (in_producer k) (in_consumer k) a).
Proof.
  intros valid. induction s as [a|v s IH|s1 IH1 s2 IH2|h s1 IH1 s2 IH2|s IH rels]; intros top p c b d T.
  - rewrite accept_assign. cbn. unfold asked.
    assert (X : forall v, variable_ok [] b d v = variable_ok [] b [] v) by (intros; now rewrite !variable_ok_plain).
    split.
    + intros (A & B & C & D). split; auto. intros k a' [E|[]]. injection E as <- <-. cbn.
      split; [auto|]. split; [auto|]. split; [auto|]. intros v I. rewrite <- X. auto.
    + intros (_ & H). destruct (H _ _ (or_introl eq_refl)) as (A & B & C & D). cbn in *.
      split; [auto|]. split; [auto|]. split; [auto|]. intros v I. rewrite X. auto.
  - cbn [accept suchthat_free assignments loops in_producer in_consumer]. apply IH. auto.
  - cbn [accept suchthat_free assignments loops in_producer in_consumer].
    destruct (accept valid [] false true c b d s2) as [ok2 d2] eqn:E2.
    destruct (accept valid [] false p true b d2 s1) as [ok1 d1] eqn:E1. cbn [fst].
    specialize (IH2 false true c b d (or_introl eq_refl)). specialize (IH1 false p true b d2 (or_introl eq_refl)).
    rewrite E2 in IH2. rewrite E1 in IH1. cbn [fst] in *. rewrite andb_true_iff, IH1, IH2. split.
    + intros [[A B] [C D]]. split; auto. intros k a I. apply in_app_or in I. destruct I; auto.
    + intros [[C A] B]. split; split; auto; intros k a I; apply B, in_or_app; auto.
  - cbn [accept suchthat_free assignments loops in_producer in_consumer].
    destruct (accept valid [] false p c b d s1) as [ok1 d1] eqn:E1.
    destruct (accept valid [] false p c b d1 s2) as [ok2 d2] eqn:E2. cbn [fst].
    specialize (IH1 false p c b d (or_introl eq_refl)). specialize (IH2 false p c b d1 (or_introl eq_refl)).
    rewrite E2 in IH2. rewrite E1 in IH1. cbn [fst] in *. rewrite andb_true_iff, IH1, IH2. split.
    + intros [[A B] [C D]]. split; auto. intros k a I. apply in_app_or in I. destruct I; auto.
    + intros [[A C] B]. split; split; auto; intros k a I; apply B, in_or_app; auto.
  - cbn [accept suchthat_free]. destruct (accept valid [] false p c b d s) as [ok dd]. cbn [fst].
    destruct T as [->|T]; [|exfalso; eapply T; eauto]. cbn. split; [discriminate|tauto].
Qed.
Lemma plain_reduces : forall a, reduces [] a = false <-> incl (access_vars (rhs a)) (lhs_vars a).
Proof.
  intros a. assert (O : in_order [] []) by exact I. pose proof (reduces_iff [] [] a O) as R.
  destruct (reduces [] a); split; intros H; auto; try discriminate.
  - exfalso. destruct (proj1 R eq_refl) as (v & u & I & N & _). auto.
  - intros v I. destruct (in_dec Nat.eq_dec v (lhs_vars a)); auto. exfalso.
    assert (D : false = true); [|discriminate]. apply R. exists v, v. split; auto. split; auto. split; auto.
    constructor. intros (r & [] & _).
Qed.
Lemma exact_plain : forall valid s, (forall s' rels, s <> SSuchThat s' rels) ->
  (isConcreteNotation valid s = true <->
   suchthat_free s /\
   forall k a, In (k, a) (all_assignments s) ->
     reduction_free (rhs a) /\
     (forall v, In v (lhs_vars a ++ used (rhs a)) -> In v (loops k)) /\
     (in_producer k = false -> in_consumer k = false -> valid a = true) /\
     (in_producer k = false -> compound a = false -> incl (access_vars (rhs a)) (lhs_vars a))).
Proof.
  intros valid s N. unfold isConcreteNotation, all_assignments.
  assert (R : relations s = []). { destruct s; auto. exfalso. eapply N; eauto. }
  rewrite R, accept_plain by auto. split; intros [A B]; split; auto; intros k a I.
  - destruct (B k a I) as (C & D & E & F). split; auto. split.
    { intros v J. specialize (F v J). rewrite variable_ok_plain in F. now apply mem_In. }
    split; auto. intros P Q. apply plain_reduces; auto.
  - destruct (B k a I) as (E & F & C & D). split; [auto|]. split.
    { intros P Q. apply plain_reduces; auto. }
    split; auto. intros v J. rewrite variable_ok_plain. apply mem_In; auto.
Qed.

(** With relations: loop nests. *)
Lemma accept_nest : forall valid rels p c a vs top b d,
  fst (accept valid rels top p c b d (nest vs a)) = true <-> asked valid rels (rev vs ++ b) (rev vs ++ d) p c a.
Proof.
  intros valid rels p c a. induction vs as [|v vs IH]; intros top b d.
  - exact (accept_assign valid rels top p c b d a).
  - cbn [nest fold_right accept rev]. rewrite IH. rewrite <- !app_assoc. reflexivity.
Qed.
Lemma no_precompute : forall rels (defd : list var), Forall (fun r => precompute r = false) rels ->
  producers_of rels defd = [] /\ consumers_of rels defd = [].
Proof.
  intros rels defd F. rewrite Forall_forall in F. unfold producers_of, consumers_of. split.
  - induction defd as [|v l IH]; cbn; auto. unfold is_precompute at 1. destruct (parent_rel rels v) as [r|] eqn:E; auto.
    destruct (parent_rel_In _ _ _ E) as [I _]. now rewrite (F r I).
  - induction defd as [|v l IH]; cbn; auto. unfold is_precompute at 1. destruct (child_rel rels v) as [r|] eqn:E; auto.
    destruct (child_rel_In _ _ _ E) as [I _]. now rewrite (F r I).
Qed.
Lemma recoverable_determined : forall rels seen defd, in_order seen rels -> Forall (fun r => precompute r = false) rels ->
  forall v, isFullyDerived rels v = false -> isRecoverable rels defd v = true -> determined rels defd v.
Proof.
  intros rels seen defd O F v. destruct (no_precompute rels defd F) as [P C].
  unfold isRecoverable. rewrite P, C. fold (rec_all rels defd [] [] v).
  remember (rank rels v) as n eqn:N. revert v N. induction n as [n IH] using (well_founded_induction lt_wf).
  intros v -> D R. rewrite (rec_all_eq rels seen) in R by auto. cbn [mem existsb is_nil negb andb] in R.
  unfold isFullyDerived, getChildren in D. destruct (child_rel rels v) as [r|] eqn:E; [|discriminate].
  destruct (child_rel_In _ _ _ E) as [Ir Iv]. apply is_nil_false in D.
  apply (Det_recovered rels defd v r Ir Iv D). apply Forall_forall. intros c Ic.
  unfold getChildren in R. rewrite E in R. rewrite forallb_forall in R. specialize (R c Ic).
  apply orb_true_iff in R. destruct R as [R|R]; [constructor; now apply mem_In|].
  apply andb_true_iff in R. destruct R as [R1 R2]. apply negb_true_iff in R1.
  apply (IH (rank rels c)); auto. eapply rank_child; eauto.
Qed.
Lemma child_rel_unique : forall rels r v, NoDup (flat_map parents rels) -> In r rels -> In v (parents r) -> child_rel rels v = Some r.
Proof.
  induction rels as [|r0 rest IH]; intros r v N I J; [destruct I|].
  cbn [flat_map] in N. cbn [child_rel]. destruct I as [<-|I].
  - destruct (child_rel rest v) as [x|] eqn:C.
    + destruct (child_rel_In _ _ _ C) as [Ix Jx]. exfalso.
      revert N J. generalize (parents r0). induction l as [|y l IHl]; intros N J; [destruct J|].
      cbn in N. inversion N; subst. destruct J as [<-|J]; auto. apply H1. apply in_or_app. right.
      apply in_flat_map. exists x. auto.
    + assert (M : mem v (parents r0) = true) by now apply mem_In. now rewrite M.
  - assert (N' : NoDup (flat_map parents rest)).
    { revert N. generalize (parents r0). induction l; cbn; auto. intros X. inversion X; auto. }
    now rewrite (IH r v N' I J).
Qed.
Lemma determined_recoverable : forall rels seen defd, in_order seen rels -> Forall (fun r => precompute r = false) rels ->
  NoDup (flat_map parents rels) ->
  forall v, determined rels defd v -> In v defd \/ (isFullyDerived rels v = false /\ isRecoverable rels defd v = true).
Proof.
  intros rels seen defd O F ND v. destruct (no_precompute rels defd F) as [P C].
  unfold isRecoverable. rewrite P, C. fold (rec_all rels defd [] [] v).
  remember (rank rels v) as n eqn:N. revert v N. induction n as [n IH] using (well_founded_induction lt_wf).
  intros v -> D. destruct D as [v I|v r Ir Iv NE Fc]; [left; auto|right].
  pose proof (child_rel_unique rels r v ND Ir Iv) as E. split.
  - unfold isFullyDerived, getChildren. rewrite E. now apply is_nil_false.
  - rewrite (rec_all_eq rels seen) by auto. cbn [mem existsb is_nil negb andb].
    unfold getChildren. rewrite E. apply forallb_forall. intros c Ic. rewrite Forall_forall in Fc.
    assert (L : rank rels c < rank rels v) by (eapply rank_child; eauto).
    destruct (IH (rank rels c) L c eq_refl (Fc c Ic)) as [J|[A B]].
    + apply mem_In in J. now rewrite J.
    + unfold rec_all in B at 1. unfold rec_all. rewrite A, B. apply orb_true_r.
Qed.
Lemma determined_incl : forall rels k k' v, incl k k' -> determined rels k v -> determined rels k' v.
Proof.
  intros rels k k' v L. revert v. fix IH 2. intros v D. destruct D as [v I|v r Ir Iv NE F].
  - constructor. auto.
  - apply (Det_recovered rels k' v r Ir Iv NE). revert F. generalize (children r). fix IHl 2. intros l F.
    destruct F as [|x l X F]; constructor; [apply IH; exact X|apply IHl; exact F].
Qed.
Lemma variable_ok_sound : forall rels b d v, in_order [] rels -> Forall (fun r => precompute r = false) rels ->
  variable_ok rels b d v = true -> In v b \/ derived rels v \/ determined rels d v.
Proof.
  intros rels b d v O F V. unfold variable_ok in V. apply negb_true_iff in V.
  destruct (mem v b) eqn:M; [left; now apply mem_In|]. right. cbn [negb andb] in V.
  destruct (isUnderived rels v) eqn:U; cbn [andb] in V.
  - right. apply orb_false_iff in V. destruct V as [V1 V2]. apply negb_false_iff in V2.
    now apply (recoverable_determined rels []).
  - left. destruct (parent_rel rels v) as [r|] eqn:E.
    + destruct (parent_rel_In _ _ _ E). exists r. auto.
    + unfold isUnderived, getParents in U. rewrite E in U. discriminate.
Qed.
Lemma variable_ok_iff : forall rels b v, in_order [] rels -> Forall (fun r => precompute r = false) rels ->
  NoDup (flat_map parents rels) ->
  (variable_ok rels b b v = true <-> derived rels v \/ determined rels b v).
Proof.
  intros rels b v O F ND. split.
  - intros V. destruct (variable_ok_sound _ _ _ _ O F V) as [I|[I|I]]; auto. right. constructor. auto.
  - intros H. unfold variable_ok. apply negb_true_iff.
    destruct (mem v b) eqn:M; auto. cbn [negb andb]. destruct (isUnderived rels v) eqn:U; auto. cbn [andb].
    apply (underived_iff rels [] v O) in U. destruct H as [H|H]; [contradiction|].
    destruct (determined_recoverable rels [] b O F ND v H) as [I|[A B]].
    + apply mem_In in I. congruence.
    + now rewrite A, B.
Qed.
Lemma exact_nest : forall valid rels vs a, in_order [] rels -> Forall (fun r => precompute r = false) rels ->
  NoDup (flat_map parents rels) ->
  (isConcreteNotation valid (SSuchThat (nest vs a) rels) = true <->
   valid a = true /\ reduction_free (rhs a) /\
   (forall v, In v (lhs_vars a ++ used (rhs a)) -> derived rels v \/ determined rels vs v) /\
   (compound a = false -> forall v u, In v (access_vars (rhs a)) -> origin rels v u -> In v (lhs_vars a) \/ In u (lhs_vars a))).
Proof.
  intros valid rels vs a O F ND. unfold isConcreteNotation. cbn [relations accept].
  pose proof (accept_nest valid rels false false a vs false [] []) as A.
  destruct (accept valid rels false false false [] [] (nest vs a)) as [ok dd]. cbn [fst andb] in *.
  rewrite A. unfold asked. rewrite app_nil_r. pose proof (reduces_iff rels [] a O) as R. split.
  - intros (V & X & RF & U). split; auto. split; auto. split.
    + intros v I. specialize (U v I). apply (variable_ok_iff rels (rev vs) v O F ND) in U. destruct U as [U|U]; auto. right.
      apply (determined_incl rels (rev vs)); auto. intros x J. now apply in_rev.
    + intros Cp v u I Or. destruct (in_dec Nat.eq_dec v (lhs_vars a)) as [|N]; auto.
      destruct (in_dec Nat.eq_dec u (lhs_vars a)) as [|M]; auto. exfalso.
      specialize (X eq_refl Cp). rewrite (proj2 R) in X; [discriminate|]. exists v, u. auto.
  - intros (V & RF & U & X). split; auto. split; [|split; auto].
    + intros _ Cp. destruct (reduces rels a); auto. destruct (proj1 R eq_refl) as (v & u & I & N & Or & M).
      destruct (X Cp v u I Or); contradiction.
    + intros v I. apply (variable_ok_iff rels (rev vs) v O F ND). destruct (U v I) as [D|D]; auto. right.
      apply (determined_incl rels vs); auto. intros x J. now apply -> in_rev.
Qed.

(** Anywhere: the variables are determined by loops somewhere in the statement. *)
Lemma accept_defined : forall valid rels s top p c b d, incl (snd (accept valid rels top p c b d s)) (loop_variables s ++ d).
Proof.
  intros valid rels. induction s as [a|v s IH|s1 IH1 s2 IH2|h s1 IH1 s2 IH2|s IH rl]; intros top p c b d; cbn [accept loop_variables].
  - intros x I. exact I.
  - intros x I. specialize (IH false p c (v :: b) (v :: d) x I). rewrite in_app_iff in IH. cbn in *. rewrite in_app_iff. tauto.
  - destruct (accept valid rels false true c b d s2) as [ok2 d2] eqn:E2.
    destruct (accept valid rels false p true b d2 s1) as [ok1 d1] eqn:E1. cbn [snd].
    specialize (IH2 false true c b d). specialize (IH1 false p true b d2). rewrite E2 in IH2. rewrite E1 in IH1. cbn [snd] in *.
    intros x I. specialize (IH1 x I). rewrite !in_app_iff in *. destruct IH1 as [J|J]; auto. specialize (IH2 x J). rewrite in_app_iff in IH2. tauto.
  - destruct (accept valid rels false p c b d s1) as [ok1 d1] eqn:E1.
    destruct (accept valid rels false p c b d1 s2) as [ok2 d2] eqn:E2. cbn [snd].
    specialize (IH1 false p c b d). specialize (IH2 false p c b d1). rewrite E2 in IH2. rewrite E1 in IH1. cbn [snd] in *.
    intros x I. specialize (IH2 x I). rewrite !in_app_iff in *. destruct IH2 as [J|J]; auto. specialize (IH1 x J). rewrite in_app_iff in IH1. tauto.
  - specialize (IH false p c b d). destruct (accept valid rels false p c b d s). exact IH.
Qed.
Lemma accept_anywhere : forall valid rels s top p c b d, fst (accept valid rels top p c b d s) = true ->
  forall k a, In (k, a) (assignments (Place b p c) s) ->
  exists d', asked valid rels (loops k) d' (in_producer k) (in_consumer k) a /\ incl d' (loop_variables s ++ d).
Proof.
  intros valid rels. induction s as [a|v s IH|s1 IH1 s2 IH2|h s1 IH1 s2 IH2|s IH rl]; intros top p c b d E k a' I.
  - cbn in I. destruct I as [X|[]]. injection X as <- <-. exists d. split; [now apply (accept_assign valid rels top)|].
    cbn. apply incl_refl.
  - cbn [accept assignments loops in_producer in_consumer] in *. destruct (IH _ _ _ _ _ E k a' I) as (d' & A & L).
    exists d'. split; auto. intros x J. specialize (L x J). rewrite in_app_iff in L. cbn in *. rewrite in_app_iff. tauto.
  - cbn [accept assignments loops in_producer in_consumer loop_variables] in *.
    destruct (accept valid rels false true c b d s2) as [ok2 d2] eqn:E2.
    destruct (accept valid rels false p true b d2 s1) as [ok1 d1] eqn:E1. cbn [fst] in E. apply andb_true_iff in E. destruct E as [-> ->].
    apply in_app_or in I. destruct I as [I|I].
    + destruct (IH2 false true c b d (f_equal fst E2) k a' I) as (d' & A & L). exists d'. split; auto.
      intros x J. specialize (L x J). rewrite !in_app_iff in *. tauto.
    + destruct (IH1 false p true b d2 (f_equal fst E1) k a' I) as (d' & A & L). exists d'. split; auto.
      intros x J. specialize (L x J). rewrite !in_app_iff in *. destruct L as [L|L]; auto.
      pose proof (accept_defined valid rels s2 false true c b d x) as X. rewrite E2 in X. cbn [snd] in X.
      specialize (X L). rewrite in_app_iff in X. tauto.
  - cbn [accept assignments loops in_producer in_consumer loop_variables] in *.
    destruct (accept valid rels false p c b d s1) as [ok1 d1] eqn:E1.
    destruct (accept valid rels false p c b d1 s2) as [ok2 d2] eqn:E2. cbn [fst] in E. apply andb_true_iff in E. destruct E as [-> ->].
    apply in_app_or in I. destruct I as [I|I].
    + destruct (IH1 false p c b d (f_equal fst E1) k a' I) as (d' & A & L). exists d'. split; auto.
      intros x J. specialize (L x J). rewrite !in_app_iff in *. tauto.
    + destruct (IH2 false p c b d1 (f_equal fst E2) k a' I) as (d' & A & L). exists d'. split; auto.
      intros x J. specialize (L x J). rewrite !in_app_iff in *. destruct L as [L|L]; auto.
      pose proof (accept_defined valid rels s1 false p c b d x) as X. rewrite E1 in X. cbn [snd] in X.
      specialize (X L). rewrite in_app_iff in X. tauto.
  - cbn [accept assignments loop_variables] in *. specialize (IH false p c b d). destruct (accept valid rels false p c b d s) as [ok dd] eqn:X.
    cbn [fst] in E. apply andb_true_iff in E. destruct E as [_ ->]. exact (IH eq_refl k a' I).
Qed.
Lemma anywhere : forall valid s, isConcreteNotation valid s = true ->
  in_order [] (relations s) -> Forall (fun r => precompute r = false) (relations s) ->
  forall k a, In (k, a) (all_assignments s) ->
  (in_producer k = false -> in_consumer k = false -> valid a = true) /\ reduction_free (rhs a) /\
  forall v, In v (lhs_vars a ++ used (rhs a)) ->
    In v (loops k) \/ derived (relations s) v \/ determined (relations s) (loop_variables s) v.
Proof.
  intros valid s E O F k a I. destruct (accept_anywhere valid (relations s) s true false false [] [] E k a I) as (d' & (A & B & C & D) & L).
  split; auto. split; auto. intros v J. destruct (variable_ok_sound _ _ _ _ O F (D v J)) as [X|[X|X]]; auto.
  right. right. apply (determined_incl _ d'); auto. intros x Y. specialize (L x Y). now rewrite app_nil_r in L.
Qed.

(** ** Reduction notation *)
Lemma vars_bound_iff : forall e b, vars_bound b e = true <-> incl (free e) b.
Proof.
  induction e as [z|t vs|v|f e IH|f x IHx y IHy|v e IH]; intros b; cbn [vars_bound free].
  - split; auto. intros _ x [].
  - rewrite forallb_forall. split; intros H x I; specialize (H x I); apply mem_In; auto.
  - split; auto. intros _ x [].
  - apply IH.
  - rewrite andb_true_iff, IHx, IHy. split.
    + intros [A B] v I. apply in_app_or in I. destruct I; auto.
    + intros A. split; intros v I; apply A, in_or_app; auto.
  - rewrite IH. split.
    + intros A x I. apply in_remove in I. destruct I as [I N]. destruct (A x I); [congruence|auto].
    + intros A x I. destruct (Nat.eq_dec x v) as [->|N]; [left; auto|right]. apply A. now apply in_in_remove.
Qed.
Lemma eval_free : forall M m e, accesses_only e -> forall r r', (forall v, In v (free e) -> r v = r' v) -> eval M r m e = eval M r' m e.
Proof.
  intros M m. induction e as [z|t vs|v|f e IH|f x IHx y IHy|v e IH]; intros A r r' E; cbn [eval accesses_only free] in *; auto; try tauto.
  - f_equal. apply map_ext_in. exact E.
  - f_equal. auto.
  - destruct A. rewrite (IHx H r r'), (IHy H0 r r'); auto; intros w I; apply E, in_or_app; auto.
  - generalize 0%Z. generalize (seq 0 (dim M v)). induction l as [|k l IHl]; intros z; cbn [fold_left]; auto.
    rewrite (IH A (set r v k) (set r' v k)).
    + apply IHl.
    + intros w I. unfold set. destruct (Nat.eqb_spec w v); auto. apply E. now apply in_in_remove.
Qed.

(** ** Accepted statements compute something *)
Definition same (m m' : store) : Prop := forall t k, m t k = m' t k.
Lemma eval_same : forall M e r m m', same m m' -> eval M r m e = eval M r m' e.
Proof.
  intros M. induction e as [z|t vs|v|f e IH|f x IHx y IHy|v e IH]; intros r m m' E; cbn [eval]; auto.
  - f_equal. auto.
  - now rewrite (IHx r m m' E), (IHy r m m' E).
  - generalize 0%Z. generalize (seq 0 (dim M v)). induction l as [|k l IHl]; intros z; cbn [fold_left]; auto.
    rewrite (IH (set r v k) m m' E). apply IHl.
Qed.
Lemma eval_used : forall M m e, reduction_free e -> forall r r', (forall v, In v (used e) -> r v = r' v) -> eval M r m e = eval M r' m e.
Proof.
  intros M m. induction e as [z|t vs|v|f e IH|f x IHx y IHy|v e IH]; intros A r r' E; cbn [eval reduction_free used] in *; auto; try tauto.
  - f_equal. apply map_ext_in. exact E.
  - f_equal. apply E. left; auto.
  - f_equal. auto.
  - destruct A. rewrite (IHx H r r'), (IHy H0 r r'); auto; intros w I; apply E, in_or_app; auto.
Qed.
Lemma write_same : forall m m' t k z, same m m' -> same (write m t k z) (write m' t k z).
Proof. intros m m' t k z E u l. unfold write. destruct (_ && _); auto. Qed.
Lemma run_closed : forall M s b p c,
  suchthat_free s ->
  (forall k a, In (k, a) (assignments (Place b p c) s) -> reduction_free (rhs a) /\ forall v, In v (lhs_vars a ++ used (rhs a)) -> In v (loops k)) ->
  forall r r' m m', (forall v, In v b -> r v = r' v) -> same m m' -> same (run M r s m) (run M r' s m').
Proof.
  intros M. induction s as [a|v s IH|s1 IH1 s2 IH2|h s1 IH1 s2 IH2|s IH rl]; intros b p c SF H r r' m m' E S; cbn [run suchthat_free] in *.
  - destruct (H _ _ (or_introl eq_refl)) as [RF U]. cbn in U.
    assert (K : map r (lhs_vars a) = map r' (lhs_vars a)).
    { apply map_ext_in. intros v I. apply E, U, in_or_app. auto. }
    assert (V : eval M r m (rhs a) = eval M r' m' (rhs a)).
    { rewrite (eval_same M (rhs a) r m m' S). apply eval_used; auto. intros v I. apply E, U, in_or_app. auto. }
    rewrite K, V, (S (lhs a) (map r' (lhs_vars a))). now apply write_same.
  - cbn [assignments loops in_producer in_consumer] in H. revert m m' S. generalize (seq 0 (dim M v)).
    induction l as [|x l IHl]; intros m m' S; cbn [fold_left]; auto. apply IHl. apply (IH (v :: b) p c); auto.
    intros w [<-|I]; unfold set; [now rewrite Nat.eqb_refl|]. destruct (w =? v); auto.
  - cbn [assignments loops in_producer in_consumer] in H. destruct SF as [SF1 SF2].
    apply (IH1 b p true); auto. { intros k a I. apply H, in_or_app. auto. }
    apply (IH2 b true c); auto. { intros k a I. apply H, in_or_app. auto. }
    intros t k. destruct (existsb _ _); auto.
  - cbn [assignments loops in_producer in_consumer] in H. destruct SF as [SF1 SF2].
    apply (IH2 b p c); auto. { intros k a I. apply H, in_or_app. auto. }
    apply (IH1 b p c); auto. intros k a I. apply H, in_or_app. auto.
  - destruct SF.
Qed.
Lemma closed : forall valid s, (forall s' rels, s <> SSuchThat s' rels) -> isConcreteNotation valid s = true ->
  forall M r r' m t k, run M r s m t k = run M r' s m t k.
Proof.
  intros valid s N E M r r' m t k. apply (exact_plain valid s N) in E. destruct E as [SF H].
  apply (run_closed M s [] false false); auto.
  - intros kk a I. destruct (H kk a I) as (A & B & _). auto.
  - intros v [].
  - intros u l. reflexivity.
Qed.

(** *** Plain assignments *)
Lemma access_vars_used : forall e, accesses_only e -> reduction_free e -> incl (used e) (access_vars e).
Proof.
  induction e as [z|t vs|v|f e IH|f x IHx y IHy|v e IH]; cbn; intros A R; try tauto.
  - intros ? [].
  - apply incl_refl.
  - destruct A, R. apply incl_app; [apply incl_appl|apply incl_appr]; auto.
Qed.
(** The stores a loop nest around a plain assignment passes through: components are old or
    have the value of the right-hand side, and what was given that value keeps it. *)
Definition progress (M : meaning) (a : assignment) (m0 m : store) : Prop :=
  (forall t k, t <> lhs a -> m t k = m0 t k) /\
  (forall k, m (lhs a) k = m0 (lhs a) k \/ exists r, k = map r (lhs_vars a) /\ m (lhs a) k = eval M r m0 (rhs a)).
Lemma eval_other : forall M e t r m m', ~ reads t e -> (forall u k, u <> t -> m u k = m' u k) -> eval M r m e = eval M r m' e.
Proof.
  intros M. induction e as [z|u vs|v|f e IH|f x IHx y IHy|v e IH]; intros t r m m' N E; cbn [eval reads] in *; auto.
  - f_equal. eapply IH; eauto.
  - rewrite (IHx t r m m'), (IHy t r m m'); auto.
  - generalize 0%Z. generalize (seq 0 (dim M v)). induction l as [|k l IHl]; intros z; cbn [fold_left]; auto.
    rewrite (IH t (set r v k) m m'); auto.
Qed.
Section Plain.
Variables (M : meaning) (a : assignment) (m0 : store).
Hypothesis Plain : compound a = false.
Hypothesis RF : reduction_free (rhs a).
Hypothesis Used : incl (used (rhs a)) (lhs_vars a).
Hypothesis NoRead : ~ reads (lhs a) (rhs a).
Definition has (m : store) (r : env) : Prop := m (lhs a) (map r (lhs_vars a)) = eval M r m0 (rhs a).
Lemma coords_value : forall r r', map r (lhs_vars a) = map r' (lhs_vars a) -> eval M r m0 (rhs a) = eval M r' m0 (rhs a).
Proof.
  intros r r' E. apply eval_used; auto. intros v I. apply Used in I. revert E I. generalize (lhs_vars a).
  induction l as [|w l IH]; intros E I; [destruct I|]. cbn in E. injection E as E1 E2. destruct I as [<-|I]; auto.
Qed.
Lemma step : forall r m, progress M a m0 m -> progress M a m0 (run M r (SAssign a) m) /\ has (run M r (SAssign a) m) r /\
  forall r', has m r' -> has (run M r (SAssign a) m) r'.
Proof.
  intros r m [P Q]. cbn [run]. rewrite Plain.
  assert (V : eval M r m (rhs a) = eval M r m0 (rhs a)) by (apply (eval_other M _ (lhs a)); auto).
  rewrite V. unfold progress, has, write. split; [split|split].
  - intros t k N. destruct (Nat.eqb_spec t (lhs a)); [contradiction|]. cbn. auto.
  - intros k. rewrite Nat.eqb_refl. destruct (list_eq_dec Nat.eq_dec k (map r (lhs_vars a))) as [->|N]; cbn; auto.
    right. exists r. auto.
  - rewrite Nat.eqb_refl. destruct (list_eq_dec Nat.eq_dec _ _); cbn; congruence.
  - intros r' H. rewrite Nat.eqb_refl. destruct (list_eq_dec Nat.eq_dec (map r' (lhs_vars a)) (map r (lhs_vars a))) as [E|N]; cbn; auto.
    symmetry. now apply coords_value.
Qed.
Lemma nest_value : forall vs r m, progress M a m0 m ->
  progress M a m0 (run M r (nest vs a) m) /\ (forall r', has m r' -> has (run M r (nest vs a) m) r') /\
  forall r', (forall v, In v vs -> r' v < dim M v) -> (forall v, ~ In v vs -> r' v = r v) -> has (run M r (nest vs a) m) r'.
Proof.
  induction vs as [|v vs IH]; intros r m P.
  - destruct (step r m P) as (A & B & C). split; [auto|]. split; [auto|]. intros r' _ E. cbn [nest fold_right].
    unfold has in *. assert (K : map r' (lhs_vars a) = map r (lhs_vars a)) by (apply map_ext; auto).
    rewrite K, B. apply coords_value. auto.
  - cbn [nest fold_right run].
    assert (X : forall l m, progress M a m0 m ->
      let m' := fold_left (fun m x => run M (set r v x) (nest vs a) m) l m in
      progress M a m0 m' /\ (forall r', has m r' -> has m' r') /\
      forall r', In (r' v) l -> (forall w, In w vs -> r' w < dim M w) -> (forall w, w <> v -> ~ In w vs -> r' w = r w) -> has m' r').
    { clear m P. induction l as [|x l IHl]; intros m P; cbn [fold_left].
      - split; auto. split; auto. intros r' [].
      - destruct (IH (set r v x) m P) as (A & B & C). destruct (IHl _ A) as (A' & B' & C'). cbn zeta in *.
        split; [auto|]. split; [auto|]. intros r' [E|I] D O; [|auto].
        apply B'. apply C; auto. intros w N. unfold set. destruct (Nat.eqb_spec w v) as [->|]; auto. }
    destruct (X (seq 0 (dim M v)) m P) as (A & B & C). cbn zeta in *. split; [auto|]. split; [auto|].
    intros r' D O. apply C.
    + apply in_seq. pose proof (D v (or_introl eq_refl)). lia.
    + intros w I. apply D. right; auto.
    + intros w N1 N2. apply O. intros [E|I]; auto.
Qed.
End Plain.
Lemma plain_value : forall valid vs a, isConcreteNotation valid (nest vs a) = true ->
  compound a = false -> accesses_only (rhs a) -> ~ reads (lhs a) (rhs a) ->
  forall M r r0 m, (forall v, In v vs -> r v < dim M v) ->
  run M r0 (nest vs a) m (lhs a) (map r (lhs_vars a)) = eval M r m (rhs a).
Proof.
  intros valid vs a E P A N M r r0 m D.
  assert (NS : forall s' rels, nest vs a <> SSuchThat s' rels) by (intros; destruct vs; discriminate).
  rewrite (closed valid _ NS E M r0 r).
  apply (exact_plain valid _ NS) in E. destruct E as [_ H].
  assert (I : In (Place (rev vs) false false, a) (all_assignments (nest vs a))).
  { unfold all_assignments. rewrite <- (app_nil_r (rev vs)). generalize (@nil var). clear. induction vs as [|v vs IH]; intros b.
    - left. reflexivity.
    - cbn [nest fold_right assignments loops in_producer in_consumer rev]. rewrite <- app_assoc. apply IH. }
  destruct (H _ _ I) as (RF & _ & _ & X). specialize (X eq_refl P).
  assert (U : incl (used (rhs a)) (lhs_vars a)) by (intros v J; apply X, access_vars_used; auto).
  destruct (nest_value M a m P RF U N vs r m) as (_ & _ & Z).
  { split; auto. }
  apply Z; auto.
Qed.
