From Coq Require Import ZArith List Lia Bool Sorting.Sorted Ring.
From Verif Require Import Outcome CSearch CSearchProofs Eval MergeLoop MergeSpec MergeProofs GallopProofs.
Import ListNotations.
Local Open Scope Z_scope.

Lemma sorted_app l1 l2 : StronglySorted Z.lt l1 -> StronglySorted Z.lt l2 ->
  (forall x y, In x l1 -> In y l2 -> x < y) -> StronglySorted Z.lt (l1 ++ l2).
Proof.
  induction l1 as [|a l1 IH]; cbn; intros S1 S2 H; auto. inversion S1 as [|? ? S F]; subst.
  constructor; [apply IH; auto|]. rewrite Forall_forall in *. intros x I. apply in_app_iff in I.
  destruct I; auto.
Qed.

Section U.
Context {V : Type}.
Variable R : ring_ops V.
Hypothesis RT : is_ring R.
Notation iter := (@iter V). Notation cursor := (@cursor V). Notation seen := (@seen V).
Notation cc k := (at_ (it_crd (fst k)) (snd k)).
Notation nw := (@nowhere V).

Lemma find_combine (pt : list nat) (ks' : list cursor) P cur : NoDup pt -> Forall2 P (pick cur pt) ks' ->
  forall k, (In k pt -> exists x, find (fun x : nat * cursor => Nat.eqb (fst x) k) (combine pt ks') = Some (k, x) /\ P (nth k cur nw) x /\ In x ks') /\
            (~ In k pt -> find (fun x : nat * cursor => Nat.eqb (fst x) k) (combine pt ks') = None).
Proof.
  revert ks'. induction pt as [|j pt IH]; intros ks' ND F k.
  - split; [intros []|reflexivity].
  - inversion ND as [|? ? NI ND']; subst. cbn [pick map] in F. inversion F as [|? x ? ks'' PX F']; subst.
    destruct (IH ks'' ND' F' k) as (A & B). cbn [combine find fst].
    destruct (Nat.eqb_spec j k) as [->|NE].
    + split; [|intros N; exfalso; apply N; left; auto]. intros _. exists x. split; [auto|]. split; [exact PX|left; auto].
    + split.
      * intros [E|I]; [congruence|]. destruct (A I) as (y & E & Q & IY). exists y. split; [auto|]. split; [auto|right; auto].
      * intros N. apply B. intros I. apply N. right; auto.
Qed.

Lemma put_nth (cur : list cursor) pt ks' k : (k < length cur)%nat ->
  nth k (put cur pt ks') nw = match find (fun x : nat * cursor => Nat.eqb (fst x) k) (combine pt ks') with
                              | Some x => snd x | None => nth k cur nw end.
Proof.
  intros L. unfold put.
  set (f := fun k0 : nat => match find (fun x : nat * cursor => (fst x =? k0)%nat) (combine pt ks') with
      | Some x => snd x | None => nth k0 cur (It true true [] [] 0 0, 0) end).
  rewrite (nth_indep _ nw (f O)) by (rewrite map_length, seq_length; auto).
  rewrite map_nth. rewrite seq_nth by auto. reflexivity.
Qed.

Lemma passed_refl C (k : cursor) : stored_segment k -> (forall i c, snd k <= i < it_end (fst k) -> In c C -> c < at_ (it_crd (fst k)) i) ->
  passed C k k.
Proof.
  intros S H. destruct k as (it, p). pose proof S as (P & _). split; [auto|]. cbn [fst snd] in *.
  split; [lia|]. split; [intros; lia|auto].
Qed.

(** Invariant of the sequence of loops. *)
Lemma lattice_ok (ks : list cursor) : (forall k, In k ks -> stored_segment k) ->
  forall rest before cur C, disjunction (length ks) (before ++ rest) ->
  length cur = length ks -> StronglySorted Z.lt C ->
  (forall k, (k < length ks)%nat -> passed C (nth k ks nw) (nth k cur nw)) ->
  (forall q, In q before -> exists k, In k q /\ it_end (fst (nth k cur nw)) <= snd (nth k cur nw)) ->
  exists n vs, (forall fuel, (n < fuel)%nat -> merge_lattice R fuel rest cur = Val vs) /\
    StronglySorted Z.lt (C ++ map (fun v => fst (snd v)) vs) /\
    (forall c k, (k < length ks)%nat -> has c (nth k ks nw) -> In c (C ++ map (fun v => fst (snd v)) vs)) /\
    (forall pt c l, In (pt, (c, l)) vs ->
       (exists k, In k pt /\ has c (nth k ks nw)) /\
       l = map (at_coord R c) (pick ks pt) /\ In pt rest /\
       forall k, (k < length ks)%nat -> ~ In k pt -> ~ has c (nth k ks nw)).
Proof.
  intros SG rest. induction rest as [|pt rest IH]; intros before cur C DJ LC SC PS EX.
  - exists O, []. cbn [map]. rewrite app_nil_r. split; [|split; [auto|split]].
    + intros fuel F. reflexivity.
    + intros c k K H. rewrite app_nil_r in DJ. destruct DJ as (_ & D2 & _).
      destruct (EX [k] (D2 k K)) as (j & [<-|[]] & X).
      destruct (PS k K) as (P1 & P2 & P3 & P4). apply stored_at_in in H. destruct H as (i & Ri & <-).
      apply P3. rewrite P1 in X. lia.
    + intros ? ? ? [].
  - assert (DJ' := DJ). destruct DJ' as (D1 & D2 & D3).
    destruct (D1 pt) as (NE & ND & LT). { apply in_app_iff. right. left. auto. }
    assert (SGk : forall k, (k < length ks)%nat -> stored_segment (nth k ks nw)) by (intros; apply SG; apply nth_In; auto).
    assert (SGc : forall k, (k < length ks)%nat -> stored_segment (nth k cur nw)).
    { intros k K. destruct (PS k K) as (P1 & P2 & _). rewrite (surjective_pairing (nth k cur nw)), P1. apply seg_from; auto. }
    destruct (merge_ok R RT (dist (pick cur pt)) (fun _ => true) (pick cur pt) (le_n _)) as (cs & ks' & E & SO & CH & PA & XH).
    { destruct pt; [congruence|discriminate]. }
    { intros k I. apply in_map_iff in I. destruct I as (j & <- & I). apply SGc; auto. }
    set (cur' := put cur pt ks').
    assert (FC := find_combine pt ks' _ cur ND PA).
    (* coordinates still stored are beyond C *)
    assert (BEY : forall k c, (k < length ks)%nat -> has c (nth k cur nw) -> (forall x, In x C -> x < c) /\ has c (nth k ks nw)).
    { intros k c K H. apply stored_at_in in H. destruct H as (i & Ri & Q). destruct (PS k K) as (P1 & P2 & P3 & P4).
      rewrite P1 in *. split.
      - intros x I. rewrite <- Q. apply P4; auto.
      - apply stored_at_in. exists i. split; [lia|auto]. }
    assert (SAME : forall k c, (k < length ks)%nat -> (forall x, In x C -> x < c) -> stored_at c (nth k cur nw) = stored_at c (nth k ks nw)).
    { intros k c K H. destruct (PS k K) as (P1 & P2 & P3 & P4). rewrite (surjective_pairing (nth k cur nw)), P1.
      apply dropped; auto. }
    assert (CSC : forall c, In c cs -> (forall x, In x C -> x < c)).
    { intros c I. apply CH in I. destruct I as ((k & I & H) & _). apply in_map_iff in I. destruct I as (j & <- & I). apply (BEY j); auto. }
    (* the others are exhausted if the loop runs *)
    assert (OTH : forall c, In c cs -> forall k, (k < length ks)%nat -> ~ In k pt -> it_end (fst (nth k cur nw)) <= snd (nth k cur nw)).
    { intros c I k K NI. destruct (D3 before pt rest k eq_refl K NI) as (q & Iq & Ik & Sub).
      destruct (EX q Iq) as (j & Ij & X). destruct (Sub j Ij) as [->|Ip]; auto.
      exfalso. apply CH in I. destruct I as (_ & AL). destruct (AL (nth j cur nw)) as (c' & _ & H). { apply in_map_iff. exists j. auto. }
      apply stored_at_in in H. destruct H as (i & Ri & _). lia. }
    assert (PS' : forall k, (k < length ks)%nat -> passed (C ++ cs) (nth k ks nw) (nth k cur' nw)).
    { intros k K. unfold cur'. rewrite (put_nth cur pt ks' k) by (exact (eq_ind_r (fun n => (k < n)%nat) K LC)). destruct (FC k) as (FA & FB). destruct (PS k K) as (P1 & P2 & P3 & P4).
      destruct (in_dec Nat.eq_dec k pt) as [I|NI].
      - destruct (FA I) as (x & -> & (Q1 & Q2 & Q3 & Q4) & _). cbn [snd].
        rewrite P1 in *. split; [congruence|]. split; [lia|]. split.
        + intros i Ii. apply in_app_iff. destruct (Z_lt_le_dec i (snd (nth k cur nw))); [left; apply P3; lia|right; apply Q3; lia].
        + intros i c Ii Ic. apply in_app_iff in Ic. destruct Ic; [apply P4; auto; lia|apply Q4; auto].
      - rewrite (FB NI). split; [auto|]. split; [lia|]. split.
        + intros i Ii. apply in_app_iff. left. auto.
        + intros i c Ii Ic. apply in_app_iff in Ic. destruct Ic as [Ic|Ic]; [apply P4; auto|].
          specialize (OTH c Ic k K NI). rewrite P1 in OTH. lia. }
    assert (EX' : forall q, In q (before ++ [pt]) -> exists k, In k q /\ it_end (fst (nth k cur' nw)) <= snd (nth k cur' nw)).
    { intros q Iq. apply in_app_iff in Iq. destruct Iq as [Iq|[<-|[]]].
      - destruct (EX q Iq) as (k & Ik & X). exists k. split; auto.
        assert (K : (k < length ks)%nat). { destruct (D1 q) as (_ & _ & L); auto. apply in_app_iff. auto. }
        unfold cur'. rewrite (put_nth cur pt ks' k) by (exact (eq_ind_r (fun n => (k < n)%nat) K LC)). destruct (FC k) as (FA & FB). destruct (in_dec Nat.eq_dec k pt) as [I|NI].
        + destruct (FA I) as (x & -> & (Q1 & Q2 & _) & _). cbn [snd]. rewrite Q1. lia.
        + rewrite (FB NI). auto.
      - assert (H : exists x, In x ks' /\ it_end (fst x) <= snd x).
        { clear - XH. unfold none_exhausted in XH. induction ks' as [|x l IHl]; [discriminate|]. cbn [forallb] in XH.
          apply andb_false_iff in XH. destruct XH as [XH|XH].
          - exists x. split; [left; auto|]. apply Z.ltb_ge in XH. auto.
          - destruct (IHl XH) as (y & I & Q). exists y. split; [right; auto|auto]. }
        destruct H as (x & Ix & X).
        (* x is the new cursor of some k in pt *)
        assert (Q : exists k, In k pt /\ find (fun y : nat * cursor => Nat.eqb (fst y) k) (combine pt ks') = Some (k, x)).
        { clear - PA Ix ND. unfold pick in PA. revert ks' PA Ix. induction pt as [|j pt IHp]; intros ks' PA Ix.
          - inversion PA; subst. destruct Ix.
          - cbn [map] in PA. inversion PA as [|? y ? l P1 PA']; subst. inversion ND as [|? ? NI ND']; subst. destruct Ix as [->|Ix].
            + exists j. split; [left; auto|]. cbn. rewrite Nat.eqb_refl. reflexivity.
            + destruct (IHp ND' l PA' Ix) as (k & Ik & F). exists k. split; [right; auto|]. cbn.
              destruct (Nat.eqb_spec j k); [subst; contradiction|auto]. }
        destruct Q as (k & Ik & F). exists k. split; auto. unfold cur'. rewrite (put_nth cur pt ks' k) by (exact (eq_ind_r (fun n => (k < n)%nat) (LT k Ik) LC)). rewrite F. exact X. }
    destruct (IH (before ++ [pt]) cur' (C ++ cs)) as (n & vs & E2 & S2 & A2 & V2); try assumption.
    { rewrite <- app_assoc. exact DJ. }
    { unfold cur', put. rewrite map_length, seq_length. exact LC. }
    { apply sorted_app; [exact SC|exact SO|]. intros x y Ix Iy. apply (CSC y Iy x Ix). }
    exists (Nat.max n (dist (pick cur pt))), (map (fun x => (pt, x)) (visits_of R (fun _ => true) (pick cur pt) cs) ++ vs).
    assert (MV : map (fun v : list nat * (Z * list (option seen)) => fst (snd v)) (map (fun x => (pt, x)) (visits_of R (fun _ => true) (pick cur pt) cs)) = cs).
    { rewrite map_map. cbn. clear. unfold visits_of. induction cs; cbn; congruence. }
    assert (MV' : C ++ map (fun v : list nat * (Z * list (option seen)) => fst (snd v)) (map (fun x => (pt, x)) (visits_of R (fun _ => true) (pick cur pt) cs) ++ vs)
                  = (C ++ cs) ++ map (fun v => fst (snd v)) vs).
    { rewrite map_app, MV, app_assoc. reflexivity. }
    split; [|split; [|split]].
    + intros fuel F. cbn [merge_lattice]. rewrite E by lia. cbn [obind]. fold cur'. rewrite E2 by lia. reflexivity.
    + rewrite MV'. exact S2.
    + intros c k K H. rewrite MV'. apply (A2 c k); auto.
    + intros q c l I. apply in_app_iff in I. destruct I as [I|I].
      * apply in_map_iff in I. destruct I as (x & Ex & I). injection Ex as <- ->.
        unfold visits_of in I. apply in_flat_map in I. destruct I as (c0 & Ic & [Eq|[]]). injection Eq as -> <-.
        split; [|split; [|split]].
        -- assert (Ic' := Ic). apply CH in Ic'. destruct Ic' as ((k & Ik & H) & _). apply in_map_iff in Ik. destruct Ik as (j & <- & Ij).
           exists j. split; auto. apply (BEY j); auto.
        -- unfold pick. rewrite !map_map. apply map_ext_in. intros j Ij. unfold at_coord.
           change (It true true [] [] 0 0, 0) with nw.
           rewrite (SAME j c (LT j Ij) (CSC c Ic)). destruct (PS j (LT j Ij)) as (-> & _). reflexivity.
        -- left; auto.
        -- intros k K NI H. specialize (OTH c Ic k K NI). destruct (PS k K) as (P1 & P2 & P3 & P4).
           apply stored_at_in in H. destruct H as (i & Ri & Q). rewrite P1 in OTH.
           specialize (P3 i ltac:(lia)). rewrite Q in P3. specialize (CSC c Ic c P3). lia.
      * destruct (V2 q c l I) as (V1' & V2' & V3' & V4'). split; [auto|split; [auto|split; [right; auto|auto]]].
Qed.
End U.
