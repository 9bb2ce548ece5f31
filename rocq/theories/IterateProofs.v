(** Proofs about the iteration kernel and the iterator. *)
From Coq Require Import List Arith ZArith Lia Bool Permutation.
Import ListNotations.
From Verif Require Import Outcome Storage StorageProofs Eval PackKernel Tensor TensorSpec TensorProofs Iterate.
Local Open Scope nat_scope.

Lemma get_ok : forall A (a : list A) i d, i < length a -> get a i = Val (nth i a d).
Proof.
  intros. unfold get, rd. destruct (Z.ltb_spec (Z.of_nat i) 0); [lia|].
  rewrite Nat2Z.id. rewrite nth_error_nth' with (d := d) by lia. auto.
Qed.
Lemma upd_nth_app : forall A (a b : list A) x y, upd_nth (a ++ y :: b) (length a) x = a ++ x :: b.
Proof. induction a; cbn; intros; auto. rewrite IHa. auto. Qed.
Lemma put_app : forall A (a b : list A) x y, put (a ++ y :: b) (length a) x = Val (a ++ x :: b).
Proof.
  intros. unfold put, wr. rewrite app_length. cbn [length].
  destruct (Z.ltb_spec (Z.of_nat (length a)) 0); [lia|].
  destruct (Z.leb_spec (Z.of_nat (length a + S (length b))) (Z.of_nat (length a))); [lia|]. cbn [orb].
  rewrite Nat2Z.id, upd_nth_app. auto.
Qed.
Lemma write_all_app : forall xs (a b c : list nat), length b = length xs ->
  write_all (length a) xs (a ++ b ++ c) = Val (a ++ xs ++ c).
Proof.
  induction xs as [|x xs IH]; intros a b c H; destruct b as [|y b]; try discriminate H; cbn [write_all app]; auto.
  rewrite put_app. cbn [obind].
  replace (S (length a)) with (length (a ++ [x])) by (rewrite app_length; cbn; lia).
  replace (a ++ x :: b ++ c) with ((a ++ [x]) ++ b ++ c) by (rewrite <- app_assoc; auto).
  rewrite IH by (cbn in H; lia). rewrite <- app_assoc. auto.
Qed.

Section Iter.
Context {V : Type}.
Variable d0 : V.
Variable A : list V.
Variable ord : list nat.
Variable cap : nat.
Variable fuel : nat.
Notation loops := (loops A ord cap fuel).
Notation item := (list nat * nat)%type.

(** The two kinds of levels alike: the loop over [lo, hi), the position and the
    coordinate for a value of the loop variable. *)
Definition lo (lv : level) (p : nat) : nat := match lv with LDense _ => 0 | LComp pos _ => nth p pos 0 end.
Definition hi (lv : level) (p : nat) : nat := match lv with LDense d => d | LComp pos _ => nth (S p) pos 0 end.
Definition posn (lv : level) (p x : nat) : nat := match lv with LDense d => p * d + x | LComp _ _ => x end.
Definition crdn (lv : level) (x : nat) : nat := match lv with LDense _ => x | LComp _ crd => nth x crd 0 end.
Definition push (c : nat) (e : item) : item := (c :: fst e, snd e).
Definition block (lv : level) (ls : list level) (p x k : nat) : list item :=
  flat_map (fun x => map (push (crdn lv x)) (enum ls (posn lv p x))) (seq x k).
Lemma enum_block : forall lv ls p, enum (lv :: ls) p = block lv ls p (lo lv p) (hi lv p - lo lv p).
Proof. destruct lv; intros; unfold block; cbn; auto. rewrite Nat.sub_0_r. auto. Qed.
Lemma block_cons : forall lv ls p x k,
  block lv ls p x (S k) = map (push (crdn lv x)) (enum ls (posn lv p x)) ++ block lv ls p (S x) k.
Proof. auto. Qed.

(** What remains after the label. *)
Fixpoint rest (ls : list level) (l : nat) (e : locals) : list item :=
  match ls with
  | [] => []
  | lv :: ls => let x := e (loop_var lv l) in
      map (push (crdn lv x)) (rest ls (S l) e)
        ++ block lv ls (parent e l) (S x) (hi lv (parent e l) - S x)
  end.
Fixpoint inside (ls : list level) (l : nat) (e : locals) : Prop :=
  match ls with
  | [] => True
  | lv :: ls => let x := e (loop_var lv l) in
      lo lv (parent e l) <= x < hi lv (parent e l) /\ e (Pos l) = posn lv (parent e l) x /\
      e (Crd l) = crdn lv x /\ inside ls (S l) e
  end.
Definition agree (l : nat) (e e' : locals) : Prop :=
  forall k, k < l -> e' (Crd k) = e (Crd k) /\ e' (Pos k) = e (Pos k).
Definition prefix (e : locals) (l : nat) : list nat := map (fun k => e (Crd k)) (seq 0 l).
Definition full (e : locals) (l : nat) (i : item) : item := (prefix e l ++ fst i, snd i).

Definition holds (s : @st V) (items : list item) : Prop :=
  s_size s = length items /\ length items <= cap /\
  (exists rc, s_crds s = concat (map (fun i => unpermute ord (fst i)) items) ++ rc /\
     length rc = length ord * (cap - length items)) /\
  (exists rv, s_vals s = map (fun i => nth (snd i) A d0) items ++ rv /\ length rv = cap - length items).

Lemma agree_refl : forall l e, agree l e e. Proof. red; auto. Qed.
Lemma agree_trans : forall l a b c, agree l a b -> agree l b c -> agree l a c.
Proof. intros l a b c H1 H2 k Hk. destruct (H1 k Hk), (H2 k Hk). split; congruence. Qed.
Lemma agree_le : forall l l' a b, l' <= l -> agree l a b -> agree l' a b.
Proof. intros l l' a b Hl H k Hk. apply H. lia. Qed.
Lemma agree_prefix : forall l e e', agree l e e' -> prefix e' l = prefix e l.
Proof. intros l e e' H. apply map_ext_in. intros k Hk. apply in_seq in Hk. apply H. lia. Qed.
Lemma agree_parent : forall l e e', agree l e e' -> parent e' l = parent e l.
Proof. intros l e e' H. destruct l; cbn; auto. apply H. lia. Qed.
Lemma agree_upd_crd : forall l e n, agree l e (upd e (Crd l) n).
Proof. intros l e n k Hk. unfold upd. cbn. destruct (Nat.eqb_spec k l); [lia|auto]. Qed.
Lemma agree_upd_pos : forall l e n, agree l e (upd e (Pos l) n).
Proof. intros l e n k Hk. unfold upd. cbn. destruct (Nat.eqb_spec k l); [lia|auto]. Qed.
Lemma prefix_S : forall e l, prefix e (S l) = prefix e l ++ [e (Crd l)].
Proof. intros. unfold prefix. rewrite seq_S, map_app. auto. Qed.
Lemma full_push : forall e l i, full e l (push (e (Crd l)) i) = full e (S l) i.
Proof. intros. unfold full, push. cbn [fst snd]. rewrite prefix_S, <- app_assoc. auto. Qed.
Lemma full_agree : forall l e e' i, agree l e e' -> full e' l i = full e l i.
Proof. intros. unfold full. rewrite (agree_prefix l e e') by auto. auto. Qed.
Lemma holds_env : forall s e items, holds s items -> holds (with_env s e) items.
Proof. intros s e items H. exact H. Qed.

Hypothesis Hord : mode_order ord (length ord).
Hypothesis Hcap : 0 < cap.

Lemma yield_ok : forall l s items, holds s items -> s_size s < cap -> length ord = l ->
  parent (s_env s) l < length A ->
  exists s', yield A ord cap l s = Val (if s_size s + 1 =? cap then Ret else Fall, s') /\
    s_env s' = s_env s /\ holds s' (items ++ [(prefix (s_env s) l, parent (s_env s) l)]).
Proof.
  intros l s items (Hs & Hc & (rc & Hrc & Lrc) & (rv & Hrv & Lrv)) Hlt Hl Hp. unfold yield.
  set (xs := map _ _).
  assert (Lxs : length xs = length ord) by (unfold xs; rewrite map_length, seq_length; auto).
  rewrite Hs in *.
  assert (Hcc : length (concat (map (fun i : item => unpermute ord (fst i)) items)) = length ord * length items).
  { clear. induction items; cbn [map concat length]; [lia|]. rewrite app_length, IHitems.
    unfold unpermute at 1. rewrite map_length, seq_length. lia. }
  assert (Hsp : s_crds s = concat (map (fun i : item => unpermute ord (fst i)) items)
                             ++ firstn (length ord) rc ++ skipn (length ord) rc) by (rewrite firstn_skipn; auto).
  cbv zeta. rewrite Hsp, <- Hcc.
  rewrite write_all_app by (rewrite firstn_length; nia). cbn [obind].
  rewrite (get_ok _ _ _ d0) by auto. cbn [obind].
  rewrite Hrv. destruct rv as [|y rv]; [cbn in Lrv; lia|].
  pose proof (put_app _ (map (fun i : item => nth (snd i) A d0) items) rv (nth (parent (s_env s) l) A d0) y) as Hput.
  rewrite map_length in Hput. rewrite Hput. cbn [obind]. eexists. split; [reflexivity|]. cbn [s_env]. split; auto.
  split; [|split; [|split]]; cbn [s_size s_crds s_vals].
  - rewrite app_length. cbn. auto.
  - rewrite app_length. cbn. lia.
  - exists (skipn (length ord) rc). split.
    + rewrite map_app, concat_app, <- app_assoc. f_equal. cbn [map concat fst]. rewrite app_nil_r. f_equal.
      unfold xs, unpermute. apply map_ext_in. intros m Hm. unfold prefix.
      apply in_seq in Hm.
      assert (Hlm : level_of ord m < l).
      { rewrite <- Hl. assert (In m ord).
        { eapply Permutation_in; [apply Permutation_sym, Hord|]. apply in_seq. lia. }
        clear -H. induction ord as [|a o IH]; [destruct H|]. cbn. destruct (Nat.eqb_spec a m); [lia|].
        destruct H; [congruence|]. specialize (IH H). lia. }
      erewrite nth_indep by (rewrite map_length, seq_length; auto).
      rewrite (map_nth (fun k => s_env s (Crd k)) (seq 0 l) 0). rewrite seq_nth by auto. auto.
    + rewrite app_length, skipn_length, Lrc. cbn [length]. nia.
  - exists rv. split.
    + rewrite map_app, <- app_assoc. auto.
    + rewrite app_length. cbn in *. lia.
Qed.

(** What a run of the loops over [ls] must do when [E] are the components it goes
    through. *)
Definition does (ls : list level) (l : nat) (s : @st V) (items E : list item) (r : outcome (flow * @st V)) : Prop :=
  let room := cap - s_size s in
  let E' := map (full (s_env s) l) E in
  exists fl s', r = Val (fl, s') /\ agree l (s_env s) (s_env s') /\
    (length E < room /\ fl = Fall /\ holds s' (items ++ E') \/
     room <= length E /\ fl = Ret /\ holds s' (items ++ firstn room E') /\
       inside ls l (s_env s') /\ rest ls l (s_env s') = skipn room E).

Fixpoint short (ls : list level) : Prop :=
  match ls with
  | [] => True
  | LDense d :: ls => d < fuel /\ short ls
  | LComp _ crd :: ls => length crd < fuel /\ short ls
  end.

(** One level: well-formedness for the uniform view. *)
Lemma wf_posn : forall lv ls n dims nv p x, wf_levels n (lv :: ls) dims nv -> p < n ->
  lo lv p <= x < hi lv p -> exists n' dims', wf_levels n' ls dims' nv /\ posn lv p x < n'.
Proof.
  intros lv ls n dims nv p x Hw Hp Hx. destruct lv as [d|pos crd], dims as [|dim dims]; cbn in Hw; try tauto.
  - exists (n * d), dims. split; [tauto|]. cbn in *. nia.
  - destruct Hw as (H1 & H2 & H3 & H4 & H5 & H6 & H7). exists (length crd), dims. split; auto. cbn in *.
    assert (Hmono : forall k, S p + k <= n -> nth (S p) pos 0 <= nth (S p + k) pos 0).
    { induction k; intros; [rewrite Nat.add_0_r; lia|]. etransitivity; [apply IHk; lia|].
      replace (S p + S k) with (S (S p + k)) by lia. apply H4. lia. }
    specialize (Hmono (n - S p)). replace (S p + (n - S p)) with n in Hmono by lia. lia.
Qed.
Lemma wf_range : forall lv ls n dims nv p, wf_levels n (lv :: ls) dims nv -> p < n -> short (lv :: ls) ->
  lo lv p <= hi lv p /\ hi lv p < fuel /\ short ls.
Proof.
  intros lv ls n dims nv p Hw Hp Hs. destruct lv as [d|pos crd], dims as [|dim dims]; cbn in Hw, Hs; try tauto; cbn.
  - split; [lia|tauto].
  - destruct Hw as (H1 & H2 & H3 & H4 & H5 & H6 & H7). split; [auto|]. split; [|tauto].
    assert (Hmono : forall k, S p + k <= n -> nth (S p) pos 0 <= nth (S p + k) pos 0).
    { induction k; intros; [rewrite Nat.add_0_r; lia|]. etransitivity; [apply IHk; lia|].
      replace (S p + S k) with (S (S p + k)) by lia. apply H4. lia. }
    specialize (Hmono (n - S p)). replace (S p + (n - S p)) with n in Hmono by lia. lia.
Qed.

Lemma init_ok : forall lv ls l (s : @st V) n dims nv, wf_levels n (lv :: ls) dims nv -> parent (s_env s) l < n ->
  exists e', init lv l s = Val (with_env s e') /\ agree l (s_env s) e' /\
    e' (loop_var lv l) = lo lv (parent (s_env s) l).
Proof.
  intros lv ls l s n dims nv Hw Hp. destruct lv as [d|pos crd]; cbn [init loop_var lo].
  - eexists. split; [reflexivity|]. split; [apply agree_upd_crd|]. unfold upd. cbn. rewrite Nat.eqb_refl. auto.
  - destruct dims; cbn in Hw; try tauto. destruct Hw as (H1 & _).
    rewrite (get_ok _ _ _ 0) by lia. cbn [obind].
    eexists. split; [reflexivity|]. split; [apply agree_upd_pos|]. unfold upd. cbn. rewrite Nat.eqb_refl. auto.
Qed.
Lemma test_ok : forall lv ls l (s : @st V) n dims nv, wf_levels n (lv :: ls) dims nv -> parent (s_env s) l < n ->
  test lv l s = Val (s_env s (loop_var lv l) <? hi lv (parent (s_env s) l)).
Proof.
  intros lv ls l s n dims nv Hw Hp. destruct lv as [d|pos crd]; cbn [test loop_var hi]; auto.
  destruct dims; cbn in Hw; try tauto. destruct Hw as (H1 & _).
  rewrite (get_ok _ _ _ 0) by lia. rewrite Nat.add_1_r. auto.
Qed.
Lemma enter_ok : forall lv ls l (s : @st V) n dims nv, wf_levels n (lv :: ls) dims nv -> parent (s_env s) l < n ->
  lo lv (parent (s_env s) l) <= s_env s (loop_var lv l) < hi lv (parent (s_env s) l) ->
  exists e', enter lv l s = Val (with_env s e') /\ agree l (s_env s) e' /\
    e' (loop_var lv l) = s_env s (loop_var lv l) /\
    e' (Pos l) = posn lv (parent (s_env s) l) (s_env s (loop_var lv l)) /\
    e' (Crd l) = crdn lv (s_env s (loop_var lv l)).
Proof.
  intros lv ls l s n dims nv Hw Hp Hx.
  destruct (wf_posn _ _ _ _ _ _ _ Hw Hp Hx) as (n' & dims' & _ & _).
  destruct lv as [d|pos crd]; cbn [enter loop_var].
  - eexists. split; [reflexivity|]. split; [apply agree_upd_pos|]. unfold upd. cbn. rewrite Nat.eqb_refl. auto.
  - assert (Hl : s_env s (Pos l) < length crd).
    { destruct dims as [|dim dims]; cbn in Hw; try tauto. destruct Hw as (H1 & H2 & H3 & H4 & H5 & H6 & H7).
      cbn in Hx. remember (parent (s_env s) l) as p.
      assert (Hmono : forall k, S p + k <= n -> nth (S p) pos 0 <= nth (S p + k) pos 0).
      { induction k; intros; [rewrite Nat.add_0_r; lia|]. etransitivity; [apply IHk; lia|].
        replace (S p + S k) with (S (S p + k)) by lia. apply H4. lia. }
      specialize (Hmono (n - S p)). replace (S p + (n - S p)) with n in Hmono by lia. lia. }
    rewrite (get_ok _ _ _ 0) by auto. cbn [obind].
    eexists. split; [reflexivity|]. split; [apply agree_upd_crd|]. unfold upd. cbn. rewrite Nat.eqb_refl. auto.
Qed.

(** The loop after its initialisation, as a definition of its own. *)
Definition go (lv : level) (ls : list level) (l : nat) : nat -> @st V -> outcome (flow * @st V) :=
  fix go (n : nat) (s : @st V) :=
    match n with
    | O => NoFuel
    | S n =>
        do c <- test lv l s;
        if c
        then do s <- enter lv l s;
             do r <- loops ls (S l) false s;
             match fst r with Ret => Val r | Fall => go n (step lv l (snd r)) end
        else Val (Fall, s)
    end.
Lemma loops_cons : forall lv ls l b s, loops (lv :: ls) l b s =
  if b then do r <- loops ls (S l) true s;
            match fst r with Ret => Val r | Fall => go lv ls l fuel (step lv l (snd r)) end
  else do s <- init lv l s; go lv ls l fuel s.
Proof. auto. Qed.

Lemma full_map : forall e l c E, e (Crd l) = c ->
  map (full e l) (map (push c) E) = map (full e (S l)) E.
Proof. intros e l c E <-. rewrite map_map. apply map_ext. apply full_push. Qed.
Lemma full_map_agree : forall l e e' E, agree l e e' -> map (full e' l) E = map (full e l) E.
Proof. intros. apply map_ext. intro. apply full_agree. auto. Qed.

Definition both (ls : list level) : Prop := forall l n dims s items,
  wf_levels n ls dims (length A) -> parent (s_env s) l < n -> short ls -> length ord = l + length ls ->
  holds s items -> s_size s < cap ->
  does ls l s items (enum ls (parent (s_env s) l)) (loops ls l false s) /\
  (inside ls l (s_env s) -> does ls l s items (rest ls l (s_env s)) (loops ls l true s)).

Lemma step_env : forall lv l (s : @st V), exists e', step lv l s = with_env s e' /\ agree l (s_env s) e' /\
  e' (loop_var lv l) = S (s_env s (loop_var lv l)).
Proof.
  intros lv l s. unfold step. eexists. split; [reflexivity|]. destruct lv; cbn [loop_var]; split;
    try apply agree_upd_crd; try apply agree_upd_pos; unfold upd; cbn; rewrite Nat.eqb_refl; lia.
Qed.
Lemma agree_loop_var : forall lv l e e', agree (S l) e e' -> e' (loop_var lv l) = e (loop_var lv l).
Proof. intros lv l e e' H. destruct (H l ltac:(lia)). destruct lv; auto. Qed.

Lemma holds_len : forall s items, holds s items -> s_size s = length items.
Proof. intros s items H. apply H. Qed.

(** The run of the body is followed by the rest of the loop. *)
Lemma after_body : forall lv ls l s e1 items E1 k n r,
  agree l (s_env s) e1 ->
  e1 (loop_var lv l) = s_env s (loop_var lv l) ->
  e1 (Crd l) = crdn lv (s_env s (loop_var lv l)) ->
  e1 (Pos l) = posn lv (parent (s_env s) l) (s_env s (loop_var lv l)) ->
  lo lv (parent (s_env s) l) <= s_env s (loop_var lv l) < hi lv (parent (s_env s) l) ->
  hi lv (parent (s_env s) l) - S (s_env s (loop_var lv l)) = k ->
  holds s items -> s_size s < cap ->
  does ls (S l) (with_env s e1) items E1 r ->
  (forall s2 items2, agree l (s_env s) (s_env s2) -> s_env s2 (loop_var lv l) = S (s_env s (loop_var lv l)) ->
     holds s2 items2 -> s_size s2 < cap ->
     does (lv :: ls) l s2 items2 (block lv ls (parent (s_env s) l) (S (s_env s (loop_var lv l))) k)
       (go lv ls l n s2)) ->
  does (lv :: ls) l s items
    (map (push (crdn lv (s_env s (loop_var lv l)))) E1 ++ block lv ls (parent (s_env s) l) (S (s_env s (loop_var lv l))) k)
    (do r <- r; match fst r with Ret => Val r | Fall => go lv ls l n (step lv l (snd r)) end).
Proof.
  intros lv ls l s e1 items E1 k n r Hag Hx Hc Hp Hr Hk Hh Hlt (fl & s' & -> & Ha & Hd) Hgo.
  cbn [with_env s_env s_size] in Ha, Hd. cbn [obind].
  set (x := s_env s (loop_var lv l)) in *. set (p := parent (s_env s) l) in *.
  set (E2 := block lv ls p (S x) k) in *.
  assert (Hag' : agree l (s_env s) (s_env s')).
  { eapply agree_trans; [apply Hag|]. eapply agree_le; [|apply Ha]. lia. }
  assert (Hfull : map (full (s_env s) l) (map (push (crdn lv x)) E1) = map (full e1 (S l)) E1).
  { rewrite <- (full_map_agree l (s_env s) e1) by auto. apply full_map. auto. }
  destruct Hd as [(Hlen & -> & Hh')|(Hlen & -> & Hh' & Hin & Hrest)]; cbn [fst snd].
  - (* the body fell through *)
    destruct (step_env lv l s') as (e2 & -> & Hag2 & Hx2).
    pose proof (holds_len _ _ Hh') as Hsz. rewrite app_length, map_length in Hsz.
    pose proof (holds_len _ _ Hh) as Hsz0.
    specialize (Hgo (with_env s' e2) (items ++ map (full e1 (S l)) E1)).
    cbn [with_env s_env s_size] in Hgo.
    destruct Hgo as (fl2 & s2 & Hrun & Ha2 & Hd2).
    + eapply agree_trans; eauto.
    + rewrite Hx2. f_equal. rewrite (agree_loop_var _ _ _ _ Ha). auto.
    + apply holds_env. auto.
    + cbn. rewrite Hsz. lia.
    + cbn [with_env s_env s_size] in Ha2, Hd2.
      assert (Hf2 : forall E, map (full e2 l) E = map (full (s_env s) l) E)
        by (intro; apply full_map_agree; eapply agree_trans; eauto).
      rewrite Hf2 in Hd2.
      exists fl2, s2. split; [exact Hrun|]. split.
      { eapply agree_trans; [apply Hag'|]. eapply agree_trans; [apply Hag2|]. auto. }
      rewrite app_length, map_length, map_app, Hfull.
      replace (cap - s_size s') with (cap - s_size s - length E1) in Hd2 by lia.
      destruct Hd2 as [(H1 & H2 & H3)|(H1 & H2 & H3 & H4 & H5)].
      * left. split; [lia|]. split; auto. rewrite app_assoc. auto.
      * right. split; [lia|]. split; auto. split; [|split; auto].
        -- rewrite firstn_app, map_length.
           rewrite firstn_all2 by (rewrite map_length; lia). rewrite app_assoc. auto.
        -- rewrite H5. rewrite skipn_app, map_length.
           rewrite (skipn_all2 (n := cap - s_size s)) by (rewrite map_length; lia). auto.
  - (* the body returned *)
    exists Ret, s'. split; auto. split; auto. right.
    rewrite app_length, map_length, map_app, Hfull.
    split; [lia|]. split; auto. split; [|split].
    + rewrite firstn_app, map_length. replace (cap - s_size s - length E1) with 0 by lia.
      cbn [firstn]. rewrite app_nil_r. auto.
    + cbn [inside]. rewrite (agree_parent l (s_env s)) by auto.
      rewrite (agree_loop_var _ _ _ _ Ha), Hx. fold x p. destruct (Ha l ltac:(lia)) as (-> & ->).
      split; auto.
    + cbn [rest]. rewrite (agree_parent l (s_env s)) by auto.
      rewrite (agree_loop_var _ _ _ _ Ha), Hx. fold x p. rewrite Hrest, Hk. fold E2.
      rewrite skipn_app, map_length. replace (cap - s_size s - length E1) with 0 by lia.
      cbn [skipn]. f_equal. symmetry. apply skipn_map.
Qed.

Lemma go_ok : forall lv ls, both ls -> forall k l n dims m s items,
  wf_levels n (lv :: ls) dims (length A) -> parent (s_env s) l < n -> short (lv :: ls) ->
  length ord = l + length (lv :: ls) -> holds s items -> s_size s < cap ->
  lo lv (parent (s_env s) l) <= s_env s (loop_var lv l) ->
  hi lv (parent (s_env s) l) - s_env s (loop_var lv l) = k -> k < m ->
  does (lv :: ls) l s items (block lv ls (parent (s_env s) l) (s_env s (loop_var lv l)) k) (go lv ls l m s).
Proof.
  intros lv ls Hb. induction k as [|k IH]; intros l n dims m s items Hw Hp Hs Hl Hh Hlt Hlo Hk Hm;
    (destruct m as [|m]; [lia|]); cbn [go].
  - rewrite (test_ok _ _ _ _ _ _ _ Hw Hp). cbn [obind].
    destruct (Nat.ltb_spec (s_env s (loop_var lv l)) (hi lv (parent (s_env s) l))); [lia|].
    exists Fall, s. split; auto. split; [apply agree_refl|]. left. cbn. split; [lia|]. split; auto.
    rewrite app_nil_r. auto.
  - rewrite (test_ok _ _ _ _ _ _ _ Hw Hp). cbn [obind].
    destruct (Nat.ltb_spec (s_env s (loop_var lv l)) (hi lv (parent (s_env s) l))) as [Hx|]; [|lia].
    destruct (enter_ok _ _ _ _ _ _ _ Hw Hp (conj Hlo Hx)) as (e1 & -> & Ha1 & Hx1 & Hp1 & Hc1). cbn [obind].
    rewrite block_cons.
    destruct (wf_range _ _ _ _ _ _ Hw Hp Hs) as (_ & _ & Hs').
    destruct (wf_posn _ _ _ _ _ _ _ Hw Hp (conj Hlo Hx)) as (n' & dims' & Hw' & Hp').
    apply after_body with (e1 := e1); auto; [lia| |].
    + rewrite <- Hp1. change (e1 (Pos l)) with (parent (s_env (with_env s e1)) (S l)).
      apply (Hb (S l) n' dims' (with_env s e1) items); auto.
      * cbn. rewrite Hp1. auto.
      * cbn in *. lia.
    + intros s2 items2 Ha2 Hx2 Hh2 Hlt2.
      rewrite <- (agree_parent l (s_env s) (s_env s2)) by auto. rewrite <- Hx2.
      eapply IH; eauto.
      * rewrite (agree_parent l (s_env s)) by auto. auto.
      * rewrite (agree_parent l (s_env s)) by auto. lia.
      * rewrite (agree_parent l (s_env s)) by auto. lia.
      * lia.
Qed.

Lemma both_all : forall ls, both ls.
Proof.
  induction ls as [|lv ls IH]; intros l n dims s items Hw Hp Hs Hl Hh Hlt.
  - cbn [enum rest loops length inside] in *. destruct dims; [|destruct Hw]. cbn in Hw. split.
    + destruct (yield_ok l s items) as (s' & Hy & He & Hh'); auto; try lia.
      eexists _, s'. split; [exact Hy|]. rewrite He. split; [apply agree_refl|].
      cbn [length map]. unfold full. cbn [fst snd]. rewrite app_nil_r.
      destruct (Nat.eqb_spec (s_size s + 1) cap).
      * right. split; [lia|]. split; auto. replace (cap - s_size s) with 1 by lia. cbn. auto.
      * left. split; [lia|]. auto.
    + intros _. exists Fall, s. split; auto. split; [apply agree_refl|]. left. cbn. split; [lia|]. split; auto.
      rewrite app_nil_r. auto.
  - destruct (wf_range _ _ _ _ _ _ Hw Hp Hs) as (Hlh & Hf & Hs'). split.
    + rewrite loops_cons. destruct (init_ok lv ls l s n dims (length A) Hw Hp) as (e' & -> & Ha & Hx).
      cbn [obind]. rewrite enum_block.
      assert (Hpe : parent e' l = parent (s_env s) l) by (apply agree_parent; auto).
      destruct (go_ok lv ls IH (hi lv (parent e' l) - e' (loop_var lv l)) l n dims fuel (with_env s e') items)
        as (fl & s' & Hrun & Ha' & Hd); auto; cbn [with_env s_env s_size] in *; rewrite ?Hpe, ?Hx; auto; try lia.
      rewrite Hpe, Hx in *. rewrite (full_map_agree l (s_env s) e') in Hd by auto.
      exists fl, s'. split; [exact Hrun|]. split; [eapply agree_trans; eauto|]. exact Hd.
    + intros (Hr & Hpo & Hcr & Hin). rewrite loops_cons. cbn [rest].
      destruct (wf_posn _ _ _ _ _ _ _ Hw Hp Hr) as (n' & dims' & Hw' & Hp').
      apply after_body with (e1 := s_env s); auto; [apply agree_refl| |].
      * replace (with_env s (s_env s)) with s by (destruct s; auto).
        apply (IH (S l) n' dims' s items); auto.
        -- cbn. rewrite Hpo. auto.
        -- cbn in *. lia.
      * intros s2 items2 Ha2 Hx2 Hh2 Hlt2.
        rewrite <- (agree_parent l (s_env s) (s_env s2)) by auto. rewrite <- Hx2.
        apply go_ok with (n := n) (dims := dims); auto; rewrite ?(agree_parent l (s_env s)) by auto; auto; try lia.
Qed.

(** The kernel. *)
Variable ls0 : list level.
Variable dims : list nat.
Hypothesis Hwf : wf_levels 1 ls0 dims (length A).
Hypothesis Hlen : length ord = length ls0.
Hypothesis Hshort : short ls0.
Notation all := (enum ls0 0).
Notation mode := (fun i : item => unpermute ord (fst i)).
Notation value := (fun i : item => nth (snd i) A d0).

Definition ctx_ok (c : context) (E : list item) : Prop :=
  match c with
  | None => E = all
  | Some (e, O) => inside ls0 0 e /\ rest ls0 0 e = E
  | Some (e, S _) => E = []
  end.
Definition filled (crds : list nat) (vals : list V) (E : list item) : Prop :=
  (exists rc, crds = concat (map mode E) ++ rc /\ length rc = length ord * (cap - length E)) /\
  (exists rv, vals = map value E ++ rv /\ length rv = cap - length E) /\ length E <= cap.

Lemma full_0 : forall e E, map (full e 0) E = E.
Proof. intros e E. induction E as [|[c q] E IH]; cbn; auto. rewrite IH. auto. Qed.
Lemma length_concat_mode : forall E, length (concat (map mode E)) = length ord * length E.
Proof.
  induction E as [|i E IH]; cbn [map concat length]; [lia|]. rewrite app_length, IH.
  unfold unpermute at 1. rewrite map_length, seq_length. lia.
Qed.

Lemma holds_start : forall e crds vals, length crds = length ord * cap -> length vals = cap ->
  holds (St e 0 crds vals) [].
Proof.
  intros. repeat split; cbn; try lia; eexists; (split; [reflexivity|]); rewrite ?Nat.sub_0_r; auto.
Qed.

Lemma kernel_ok : forall g c E crds vals, ctx_ok c E -> (forall e k, c <> Some (e, S k)) ->
  length crds = length ord * cap -> length vals = cap ->
  exists c' crds' vals', kernel ls0 A ord cap fuel g c crds vals = Val (c', length (firstn cap E), crds', vals') /\
    ctx_ok c' (skipn cap E) /\ (c' <> None) /\ filled crds' vals' (firstn cap E).
Proof.
  intros g c E crds vals Hc Hn Lc Lv. unfold kernel.
  assert (Hgo : forall e b (Hb : if b : bool then inside ls0 0 e /\ rest ls0 0 e = E else E = all),
     exists fl s', loops ls0 0 b (St e 0 crds vals) = Val (fl, s') /\
       (length E < cap /\ fl = Fall /\ holds s' E \/
        cap <= length E /\ fl = Ret /\ holds s' (firstn cap E) /\ inside ls0 0 (s_env s') /\
          rest ls0 0 (s_env s') = skipn cap E)).
  { intros e b Hb. destruct (both_all ls0 0 1 dims (St e 0 crds vals) []) as (H1 & H2); cbn; auto.
    { apply holds_start; auto. }
    destruct b.
    - destruct Hb as (Hb & <-). destruct (H2 Hb) as (fl & s' & -> & _ & Hd).
      cbn [s_env s_size] in Hd. rewrite full_0, Nat.sub_0_r in Hd. exists fl, s'. auto.
    - destruct H1 as (fl & s' & -> & _ & Hd). cbn [s_env s_size parent] in Hd.
      rewrite full_0, Nat.sub_0_r, <- Hb in Hd. exists fl, s'. auto. }
  assert (Hf : forall s' X, holds s' X -> filled (s_crds s') (s_vals s') X /\ s_size s' = length X).
  { intros s' X (H1 & H2 & H3 & H4). repeat split; auto. }
  destruct c as [[e [|k]]|]; [| exfalso; eapply Hn; eauto |].
  - destruct (Hgo e true Hc) as (fl & s' & -> & [(H1 & -> & H3)|(H1 & -> & H3 & H4 & H5)]);
      cbn [obind fst snd]; destruct (Hf _ _ H3) as (H6 & H7); do 3 eexists.
    + rewrite firstn_all2 by lia. rewrite <- H7. split; [reflexivity|].
      rewrite skipn_all2 by lia. cbn. (split; [|split]); auto; discriminate.
    + rewrite <- H7. split; [reflexivity|]. cbn. (split; [|split]); auto; discriminate.
  - destruct (Hgo g false Hc) as (fl & s' & -> & [(H1 & -> & H3)|(H1 & -> & H3 & H4 & H5)]);
      cbn [obind fst snd]; destruct (Hf _ _ H3) as (H6 & H7); do 3 eexists.
    + rewrite firstn_all2 by lia. rewrite <- H7. split; [reflexivity|].
      rewrite skipn_all2 by lia. cbn. (split; [|split]); auto; discriminate.
    + rewrite <- H7. split; [reflexivity|]. cbn. (split; [|split]); auto; discriminate.
Qed.

(** The iterator after [k] increments. *)
Definition ctx_after (c : context) (E : list item) : Prop := ctx_ok c E /\ c <> None.
Definition at_item (k : nat) (h : @shared V) (i : @iter V) : Prop :=
  if k <? length all
  then exists before cur after, all = before ++ cur ++ after /\
    length before = Z.to_nat (i_chunks i) * cap /\ (0 <= i_chunks i)%Z /\
    (length cur = cap \/ after = []) /\ i_size i = length cur /\ i_pos i < length cur /\
    k = length before + i_pos i /\ i_ptr i = length ord * i_pos i /\
    filled (h_crds h) (h_vals h) cur /\ ctx_after (h_ctx h) after /\
    i_cur i = Some (nth (i_pos i) (map value cur) d0)
  else i_size i = 0.

Lemma filled_len : forall crds vals E, filled crds vals E ->
  length crds = length ord * cap /\ length vals = cap.
Proof.
  intros crds vals E ((rc & -> & H1) & (rv & -> & H2) & H3). rewrite !app_length, map_length, length_concat_mode. nia.
Qed.

(** Filling the buffer. *)
Lemma fill_ok : forall g c E crds vals before ch,
  all = before ++ E -> length before = Z.to_nat ch * cap -> (0 <= ch)%Z ->
  ctx_ok c E -> length crds = length ord * cap -> length vals = cap ->
  exists h' i', (do r <- kernel ls0 A ord cap fuel g c crds vals;
     let '(ctx, size, crds, vals) := r in
     do v <- get vals 0;
     Val (Shared ctx crds vals, Iter size 0 ch 0 (Some v))) = Val (h', i') /\
   at_item (length before) h' i'.
Proof.
  intros g c E crds vals before ch Hall Hb Hch Hc Lc Lv.
  assert (Hcase : (exists e k, c = Some (e, S k)) \/ (forall e k, c <> Some (e, S k))).
  { destruct c as [[e [|k]]|]; [right; congruence|left; eauto|right; congruence]. }
  destruct Hcase as [(e & k & ->)|Hn].
  - cbn in Hc. subst E. rewrite app_nil_r in Hall. cbn [kernel obind].
    rewrite (get_ok _ _ _ d0) by lia. cbn [obind]. do 2 eexists. split; [reflexivity|].
    unfold at_item. rewrite Hall, Nat.ltb_irrefl. auto.
  - destruct (kernel_ok g c E crds vals Hc Hn Lc Lv) as (c' & crds' & vals' & -> & Hc' & Hne & Hf).
    cbn [obind]. destruct (filled_len _ _ _ Hf) as (_ & Hlv).
    rewrite (get_ok _ _ _ d0) by lia. cbn [obind]. do 2 eexists. split; [reflexivity|].
    unfold at_item. destruct (Nat.ltb_spec (length before) (length all)) as [Hlt|Hge];
      rewrite Hall, app_length in *; cbn [i_size i_pos i_chunks i_ptr i_cur h_crds h_vals h_ctx].
    + exists before, (firstn cap E), (skipn cap E). rewrite firstn_skipn. rewrite firstn_length.
      split; auto. split; auto. split; auto. split.
      { destruct (le_lt_dec cap (length E)); [left; lia|right; apply skipn_all2; lia]. }
      split; auto. split; [lia|]. split; [lia|]. split; [lia|]. split; auto. split; [split; auto|].
      f_equal. destruct Hf as (_ & (rv & -> & _) & _). rewrite app_nth1; auto.
      rewrite map_length, firstn_length. lia.
    + destruct E; [|cbn in Hge; lia]. rewrite firstn_nil. auto.
Qed.

Lemma increment_ok : forall g k h i, k < length all -> at_item k h i ->
  exists h' i', increment ls0 A ord cap fuel g h i = Val (h', i') /\ at_item (S k) h' i' /\
    deref ord h i = (mode (nth k all ([], 0)), Some (value (nth k all ([], 0)))).
Proof.
  intros g k h i Hk Hat. unfold at_item in Hat. destruct (Nat.ltb_spec k (length all)) as [_|]; [|lia].
  destruct Hat as (before & cur & after & Hall & Hb & Hch & Hfull & Hsz & Hpos & Hki & Hptr & Hf & Hctx & Hcur).
  assert (Hnth : nth k all ([], 0) = nth (i_pos i) cur ([], 0)).
  { rewrite Hall, app_nth2 by lia. rewrite app_nth1 by lia. f_equal. lia. }
  assert (Hd : deref ord h i = (mode (nth k all ([], 0)), Some (value (nth k all ([], 0))))).
  { unfold deref. rewrite Hcur, Hptr, Hnth. f_equal.
    - destruct Hf as ((rc & -> & _) & _).
      revert Hpos. generalize (i_pos i). clear. induction cur as [|x cur IH]; cbn [length]; [lia|]. intros n Hn.
      cbn [map concat]. assert (Hx : length (unpermute ord (fst x)) = length ord) by
        (unfold unpermute; rewrite map_length, seq_length; auto).
      destruct n as [|n].
      + rewrite Nat.mul_0_r. cbn [skipn nth]. rewrite <- app_assoc, firstn_app, Hx, Nat.sub_diag.
        cbn [firstn]. rewrite app_nil_r. rewrite firstn_all2 by lia. auto.
      + replace (length ord * S n) with (length ord + length ord * n) by lia.
        rewrite <- app_assoc. rewrite skipn_app. rewrite skipn_all2 by lia.
        rewrite Hx. replace (length ord + length ord * n - length ord) with (length ord * n) by lia.
        cbn [app nth]. apply IH. lia.
    - f_equal. rewrite nth_indep with (d' := value ([], 0)) by (rewrite map_length; lia).
      rewrite (map_nth value). auto. }
  unfold increment. destruct (Nat.leb_spec (i_size i) (i_pos i + 1)) as [Hle|Hgt].
  - assert (Hdone : length before + length cur = S k) by lia.
    destruct (filled_len _ _ _ Hf) as (Lc & Lv). destruct Hctx as (Hctx & Hne).
    destruct Hfull as [Hfull|Hafter].
    + destruct (fill_ok g (h_ctx h) after (h_crds h) (h_vals h) (before ++ cur) (i_chunks i + 1))
        as (h' & i' & Hrun & Hat'); auto.
      * rewrite <- app_assoc. auto.
      * rewrite app_length, Hb, Hfull. rewrite Z2Nat.inj_add by lia. cbn. nia.
      * lia.
      * exists h', i'. split; [exact Hrun|]. split; auto. rewrite app_length, Hdone in Hat'. auto.
    + (* the last chunk was not full *)
      subst after. rewrite app_nil_r in Hall.
      assert (Hend : length all = S k) by (rewrite Hall, app_length; lia).
      destruct (Nat.eq_dec (length cur) cap) as [Hfull|Hpart].
      * destruct (fill_ok g (h_ctx h) [] (h_crds h) (h_vals h) (before ++ cur) (i_chunks i + 1))
          as (h' & i' & Hrun & Hat'); auto.
        -- rewrite app_nil_r. auto.
        -- rewrite app_length, Hb, Hfull. rewrite Z2Nat.inj_add by lia. cbn. nia.
        -- lia.
        -- exists h', i'. split; [exact Hrun|]. split; auto. rewrite app_length, Hdone in Hat'. auto.
      * (* nothing remains *)
        assert (Hrem : exists e n, h_ctx h = Some (e, n) /\ ctx_ok (Some (e, n)) []).
        { destruct (h_ctx h) as [[e n]|]; [eauto|congruence]. }
        destruct Hrem as (e & n & Hcx & Hok). rewrite Hcx in *.
        destruct n as [|n].
        -- destruct (kernel_ok g (Some (e, 0)) [] (h_crds h) (h_vals h)) as (c' & crds' & vals' & Hr & _ & _ & Hf'); auto.
           { congruence. }
           rewrite Hr, firstn_nil. cbn [obind length]. destruct (filled_len _ _ _ Hf') as (_ & Lv').
           rewrite (get_ok _ _ _ d0) by lia. cbn [obind]. do 2 eexists. split; [reflexivity|]. split; auto.
           unfold at_item. rewrite Hend, Nat.ltb_irrefl. auto.
        -- cbn [kernel obind]. rewrite (get_ok _ _ _ d0) by lia. cbn [obind]. do 2 eexists. split; [reflexivity|].
           split; auto. unfold at_item. rewrite Hend, Nat.ltb_irrefl. auto.
  - destruct Hf as (Hf1 & (rv & Hrv & Lrv) & Hle).
    assert (Lv : length (h_vals h) = cap) by (rewrite Hrv, app_length, map_length; lia).
    rewrite (get_ok _ _ _ d0) by lia. cbn [obind]. do 2 eexists. split; [reflexivity|]. split; auto.
    unfold at_item. destruct (Nat.ltb_spec (S k) (length all)) as [_|Hge].
    2:{ rewrite Hall, !app_length in Hge. lia. }
    exists before, cur, after. cbn [i_size i_pos i_chunks i_ptr i_cur h_crds h_vals h_ctx].
    split; auto. split; auto. split; auto. split; auto. split; auto. split; [lia|]. split; [lia|].
    split; [lia|]. split; [split; [auto|]; split; [|auto]; exists rv; auto|]. split; auto.
    f_equal. rewrite Hrv. rewrite app_nth1; auto. rewrite map_length. lia.
Qed.

Lemma start_ok : forall g crds vals, length crds = length ord * cap -> length vals = cap ->
  exists h i, start ls0 A ord cap fuel g crds vals = Val (h, i) /\ at_item 0 h i.
Proof.
  intros g crds vals Lc Lv. unfold start, increment. cbn [i_size i_pos i_ptr i_chunks h_ctx h_crds h_vals].
  cbn [Nat.leb Nat.add]. change (-1 + 1)%Z with 0%Z.
  apply (fill_ok g None all crds vals [] 0); cbn; auto. lia.
Qed.

Lemma at_end : forall k h i, k <= length all -> at_item k h i -> iter_eqb cap i end_iter = (k =? length all).
Proof.
  intros k h i Hk Hat. unfold at_item in Hat. unfold iter_eqb. cbn [end_iter i_size].
  destruct (Nat.ltb_spec k (length all)) as [Hlt|Hge].
  - destruct Hat as (before & cur & after & _ & _ & _ & _ & Hsz & Hpos & _).
    destruct (Nat.eqb_spec (i_size i) 0); [lia|]. cbn. destruct (Nat.eqb_spec k (length all)); [lia|auto].
  - rewrite Hat. cbn. symmetry. apply Nat.eqb_eq. lia.
Qed.

Lemma collect_ok : forall n garb k h i, at_item k h i -> k <= length all -> length all - k <= n ->
  collect ls0 A ord cap fuel n garb h i =
    Val (map (fun e => (mode e, Some (value e))) (skipn k all)).
Proof.
  induction n as [|n IH]; intros garb k h i Hat Hk Hn; cbn [collect]; rewrite (at_end _ _ _ Hk Hat).
  - replace k with (length all) by lia. rewrite Nat.eqb_refl, skipn_all. auto.
  - destruct (Nat.eqb_spec k (length all)) as [->|]; [rewrite skipn_all; auto|].
    destruct (increment_ok (garb n) k h i) as (h' & i' & -> & Hat' & ->); [lia|auto|].
    cbn [obind fst snd]. rewrite (IH garb (S k)) by (auto; lia). cbn [obind].
    assert (Hs : skipn k all = nth k all ([], 0) :: skipn (S k) all).
    { assert (k < length all) by lia. revert H. generalize all. clear. intro a. revert k.
      induction a as [|x a IH]; intros k H; cbn in H; [lia|]. destruct k; auto.
      cbn [skipn nth]. rewrite IH by lia. auto. }
    rewrite Hs. auto.
Qed.

Lemma foreach_ok : forall n garb crds vals, length crds = length ord * cap -> length vals = cap ->
  length all <= n ->
  foreach ls0 A ord cap fuel n garb crds vals = Val (map (fun e => (mode e, Some (value e))) all).
Proof.
  intros n garb crds vals Lc Lv Hn. unfold foreach.
  destruct (start_ok (garb n) crds vals Lc Lv) as (h & i & -> & Hat). cbn [obind fst snd].
  rewrite (collect_ok n garb 0) by (auto; lia). auto.
Qed.

(** Comparing two iterators. *)
Lemma equal_ok : forall j k h h' i i', j <= length all -> k <= length all ->
  at_item j h i -> at_item k h' i' -> iter_eqb cap i i' = (j =? k).
Proof.
  intros j k h h' i i' Hj Hk Ha Hb. unfold at_item in *. unfold iter_eqb.
  destruct (Nat.ltb_spec j (length all)) as [Hlt|Hge], (Nat.ltb_spec k (length all)) as [Hlt'|Hge'].
  - destruct Ha as (b1 & c1 & a1 & _ & B1 & C1 & _ & S1 & P1 & K1 & _).
    destruct Hb as (b2 & c2 & a2 & _ & B2 & C2 & _ & S2 & P2 & K2 & _).
    destruct (Nat.eqb_spec (i_size i) 0); [lia|]. destruct (Nat.eqb_spec (i_size i') 0); [lia|]. cbn.
    unfold vals_iterated.
    assert (E1 : (i_chunks i * Z.of_nat cap + Z.of_nat (i_pos i) = Z.of_nat j)%Z) by nia.
    assert (E2 : (i_chunks i' * Z.of_nat cap + Z.of_nat (i_pos i') = Z.of_nat k)%Z) by nia.
    rewrite E1, E2. destruct (Z.eqb_spec (Z.of_nat j) (Z.of_nat k)), (Nat.eqb_spec j k); auto; lia.
  - destruct Ha as (b1 & c1 & a1 & _ & B1 & C1 & _ & S1 & P1 & K1 & _).
    destruct (Nat.eqb_spec (i_size i) 0); [lia|]. rewrite Hb. cbn.
    destruct (Nat.eqb_spec j k); auto; lia.
  - destruct Hb as (b2 & c2 & a2 & _ & B2 & C2 & _ & S2 & P2 & K2 & _).
    destruct (Nat.eqb_spec (i_size i') 0); [lia|]. rewrite Ha. cbn.
    destruct (Nat.eqb_spec j k); auto; lia.
  - rewrite Ha, Hb. cbn. symmetry. apply Nat.eqb_eq. lia.
Qed.

Lemma advance_ok : forall garb crds vals k, length crds = length ord * cap -> length vals = cap ->
  k <= length all ->
  exists h i, advance ls0 A ord cap fuel garb crds vals k = Val (h, i) /\ at_item k h i.
Proof.
  intros garb crds vals k Lc Lv. induction k as [|k IH]; intros Hk; cbn [advance].
  - apply start_ok; auto.
  - destruct IH as (h & i & -> & Hat); [lia|]. cbn [obind fst snd].
    destruct (increment_ok (garb (S k)) k h i) as (h' & i' & -> & Hat' & _); [lia|auto|]. eauto.
Qed.
End Iter.
