(** Workspaces with an index list (C11). *)
From Coq Require Import List Arith Lia Bool Permutation Sorted Ring_theory Ring.
Import ListNotations.
From Verif Require Import Outcome IndexExpr Eval Notation NotationSpec NotationProofs WhereLower WhereProofs Workspace WorkspaceSpec.
Local Open Scope nat_scope.

Lemma nth_error_ext_eq : forall A (l l' : list A), length l = length l' -> (forall i, i < length l -> nth_error l i = nth_error l' i) -> l = l'.
Proof.
  induction l as [|a l IH]; intros [|b l'] L E; cbn in *; try lia; auto. f_equal.
  - specialize (E 0 ltac:(lia)). cbn in E. congruence.
  - apply IH; [lia|]. intros i I. apply (E (S i)). lia.
Qed.

Section P.
Context {V : Type}.
Variable R : ring_ops V.
Hypothesis RT : ring_theory (r0 R) (r1 R) (radd R) (rmul R) (rsub R) (ropp R) eq.
Add Ring Rr11 : RT.
Variable n : nat.
Variable comp : bool.
Variable op : option redop.

Definition touched (w : wsp V) : list nat := firstn (w_size w) (w_list w).
Definition sized (w : wsp V) : Prop := (comp = true -> length (w_vals w) = n) /\ length (w_set w) = n /\ length (w_list w) = n.

Record inv (us : list (nat * V)) (w : wsp V) : Prop := {
  i_sized : sized w;
  i_size : w_size w <= n;
  i_nodup : NoDup (touched w);
  i_in : forall i, In i (touched w) <-> In i (map fst us);
  i_lt : forall i, In i (touched w) -> i < n;
  i_set : forall i, i < n -> nth_error (w_set w) i = Some (mem i (touched w));
  i_val : comp = true -> forall i, In i (touched w) -> nth_error (w_vals w) i = Some (total R op (values_at us i)) }.

Lemma put_ok : forall A (a : list A) p v, p < length a -> put a p v = Some (upd_nth a p v).
Proof. intros. unfold put. destruct (Nat.ltb_spec p (length a)); [auto|lia]. Qed.
Lemma upd_other : forall A (a : list A) p v q, p < length a -> q <> p -> nth_error (upd_nth a p v) q = nth_error a q.
Proof. intros. rewrite nth_error_upd by auto. destruct (Nat.eqb_spec q p); congruence. Qed.
Lemma upd_same : forall A (a : list A) p v, p < length a -> nth_error (upd_nth a p v) p = Some v.
Proof. intros. rewrite nth_error_upd by auto. rewrite Nat.eqb_refl. auto. Qed.
Lemma firstn_upd : forall A (a : list A) p v, p < length a -> firstn (p + 1) (upd_nth a p v) = firstn p a ++ [v].
Proof. induction a as [|x a IH]; intros [|p] v L; cbn in *; try lia; auto. rewrite IH by lia. auto. Qed.
Lemma nodup_bound : forall l, NoDup l -> (forall i, In i l -> i < n) -> length l <= n.
Proof.
  intros l ND B. rewrite <- (seq_length n 0). apply NoDup_incl_length; auto. intros i I. apply in_seq. specialize (B i I). lia.
Qed.
Lemma values_app : forall us (u : nat * V) i, values_at (us ++ [u]) i = values_at us i ++ (if fst u =? i then [snd u] else []).
Proof. intros. unfold values_at. rewrite filter_app, map_app. f_equal. cbn. destruct (fst u =? i); auto. Qed.
Lemma values_nil : forall us i, ~ In i (map fst us) -> @values_at V us i = [].
Proof.
  intros us i N. unfold values_at. replace (filter (fun u => fst u =? i) us) with (@nil (nat * V)); auto.
  symmetry. induction us as [|u us IH]; cbn in *; auto. destruct (Nat.eqb_spec (fst u) i); [exfalso; auto|auto].
Qed.
Lemma total_one : forall v, total R op [v] = v.
Proof. intros v. unfold total. destruct op as [[|]|]; cbn; auto; ring. Qed.
Lemma total_app : forall vs v, total R op (vs ++ [v]) = match op with None => v | Some o => opf R o (total R op vs) v end.
Proof.
  intros vs v. unfold total. destruct op as [[|]|].
  - cbn. induction vs; cbn; [ring|]. rewrite IHvs. ring.
  - cbn. induction vs; cbn; [ring|]. rewrite IHvs. ring.
  - apply last_last.
Qed.

Lemma update_ok : forall us w u, inv us w -> fst u < n -> exists w', update R comp op w u = Some w' /\ inv (us ++ [u]) w'.
Proof.
  intros us w [loc rhs] I L. cbn in L. destruct I as [(Z1 & Z2 & Z3) SZ ND IN LT SET VAL]. cbn [update].
  rewrite SET by auto. cbn [obnd]. destruct (mem_spec loc (touched w)) as [T|T]; cbn [negb].
  - assert (INC : forall i, In i (touched w) <-> In i (map fst (us ++ [(loc, rhs)]))).
    { intros i. rewrite map_app, in_app_iff, IN. cbn. split; auto. intros [|[<-|[]]]; auto. apply IN. auto. }
    destruct comp eqn:C.
    + assert (LV : loc < length (w_vals w)) by (rewrite Z1; auto).
      assert (E : compute R op (w_vals w) loc rhs = Some (upd_nth (w_vals w) loc (match op with None => rhs | Some o => opf R o (total R op (values_at us loc)) rhs end))).
      { unfold compute. destruct op as [o|] eqn:EO; [rewrite VAL by auto; cbn [obnd]|]; apply put_ok; auto. }
      rewrite E. cbn [obnd]. eexists. split; [reflexivity|]. constructor; cbn [touched w_vals w_set w_list w_size]; auto.
      * split; [|auto]. intros _. cbn. rewrite upd_nth_length. auto.
      * intros _ i J. cbn [touched w_size w_list] in J. rewrite nth_error_upd by auto. rewrite values_app. cbn [fst snd].
        destruct (Nat.eqb_spec i loc) as [->|N].
        -- rewrite Nat.eqb_refl, total_app. auto.
        -- destruct (Nat.eqb_spec loc i); [congruence|]. rewrite app_nil_r. auto.
    + eexists. split; [reflexivity|]. constructor; auto. { split; [intros; congruence|auto]. } intros; congruence.
  - assert (SL : w_size w < n).
    { assert (TL : length (touched w) = w_size w) by (unfold touched; rewrite firstn_length; lia).
      rewrite <- TL. apply (nodup_bound (loc :: touched w)). { constructor; auto. } intros i [<-|J]; auto. }
    assert (V1 : exists vals, (if comp then put (w_vals w) loc rhs else Some (w_vals w)) = Some vals /\ (comp = true -> vals = upd_nth (w_vals w) loc rhs /\ loc < length (w_vals w))).
    { destruct comp; [|eexists; split; [reflexivity|discriminate]]. rewrite put_ok by (rewrite Z1; auto). eexists. split; [reflexivity|]. rewrite Z1; auto. }
    destruct V1 as (vals & E & VV). rewrite E. cbn [obnd]. rewrite put_ok by lia. cbn [obnd]. rewrite put_ok by lia. cbn [obnd].
    eexists. split; [reflexivity|].
    assert (TT : touched (Wsp vals (upd_nth (w_set w) loc true) (upd_nth (w_list w) (w_size w) loc) (w_size w + 1)) = touched w ++ [loc]).
    { unfold touched. cbn. apply firstn_upd. lia. }
    constructor.
    + split; [|split]; cbn. { intros C. destruct (VV C) as [-> _]. rewrite upd_nth_length. auto. } { rewrite upd_nth_length. auto. } { rewrite upd_nth_length. auto. }
    + cbn. lia.
    + rewrite TT. apply (Permutation_NoDup (l := loc :: touched w)); [apply Permutation_cons_append|]. constructor; auto.
    + intros i. rewrite TT, map_app, !in_app_iff, IN. cbn. tauto.
    + intros i. rewrite TT, in_app_iff. intros [J|[<-|[]]]; auto.
    + intros i J. rewrite TT. cbn [w_set]. rewrite nth_error_upd by lia. destruct (Nat.eqb_spec i loc) as [->|N].
      * f_equal. symmetry. apply mem_In. apply in_app_iff. right. left. auto.
      * rewrite SET by auto. f_equal. destruct (mem_spec i (touched w)) as [K|K], (mem_spec i (touched w ++ [loc])) as [K'|K']; auto; exfalso.
        -- apply K'. apply in_app_iff. auto.
        -- apply in_app_iff in K' as [|[|[]]]; congruence.
    + intros C i. destruct (VV C) as [-> LV]. rewrite TT, in_app_iff, values_app. cbn [fst snd w_vals]. intros J.
      rewrite nth_error_upd by auto. destruct (Nat.eqb_spec i loc) as [->|N].
      * rewrite Nat.eqb_refl. rewrite values_nil by (rewrite <- IN; auto). cbn. rewrite total_one. auto.
      * destruct (Nat.eqb_spec loc i); [congruence|]. rewrite app_nil_r. destruct J as [J|[J|[]]]; [auto|congruence].
Qed.

Lemma updates_ok : forall us' us w, inv us w -> (forall u, In u us' -> fst u < n) -> exists w', all_updates R comp op us' w = Some w' /\ inv (us ++ us') w'.
Proof.
  unfold all_updates. induction us' as [|u us' IH]; intros us w I L; cbn [fold_left].
  - exists w. rewrite app_nil_r. auto.
  - destruct (update_ok us w u I) as (w1 & E & I1); [apply L; left; auto|]. cbn [obnd]. rewrite E.
    destruct (IH (us ++ [u]) w1 I1) as (w2 & E2 & I2). { intros; apply L; right; auto. }
    exists w2. rewrite <- app_assoc in I2. auto.
Qed.

(** The workspace between uses. *)
Definition clean (w : wsp V) : Prop := sized w /\ forall i, i < n -> nth_error (w_set w) i = Some false.
Lemma clean_inv : forall w, clean w -> inv [] (Wsp (w_vals w) (w_set w) (w_list w) 0).
Proof.
  intros w [S C]. constructor; cbn; auto.
  - lia.
  - constructor.
  - intros i; cbn; tauto.
  - intros i []. 
  - intros _ i [].
Qed.

Lemma consume_ok : forall us w, inv us w -> exists out w', consume comp w = Some (out, w') /\
  map fst out = touched w /\ (forall i v, In (i, v) out -> v = if comp then Some (total R op (values_at us i)) else None) /\ clean w'.
Proof.
  intros us w I. destruct I as [(Z1 & Z2 & Z3) SZ ND IN LT SET VAL]. unfold consume.
  assert (TL : length (touched w) = w_size w). { unfold touched. rewrite firstn_length. lia. }
  assert (NT : forall p, p < w_size w -> nth_error (touched w) p = nth_error (w_list w) p).
  { intros p P. unfold touched. rewrite <- (skipn_O (w_list w)) at 1. apply (nth_error_slice _ (w_list w) 0). auto. }
  assert (G : forall k, k <= w_size w -> exists out set, fold_left (fun o p => obnd o (visit comp p)) (seq 0 k) (Some ([], w)) = Some (out, Wsp (w_vals w) set (w_list w) (w_size w)) /\
    map fst out = firstn k (touched w) /\ (forall i v, In (i, v) out -> v = if comp then Some (total R op (values_at us i)) else None) /\
    length set = n /\ (forall i, i < n -> nth_error set i = Some (mem i (skipn k (touched w))))).
  { induction k as [|k IH]; intros K.
    - exists [], (w_set w). cbn. split; [destruct w; auto|]. repeat split; auto. intros i v [].
    - destruct IH as (out & set & E & M & O & LS & SS); [lia|]. rewrite seq_S, fold_left_app. cbn [fold_left plus]. rewrite E. cbn [obnd visit w_list w_vals w_set w_size].
      destruct (nth_error (w_list w) k) as [i|] eqn:EK; [|apply nth_error_None in EK; lia]. cbn [obnd].
      assert (TK : nth_error (touched w) k = Some i) by (rewrite NT; auto).
      assert (II : In i (touched w)) by (eapply nth_error_In; eauto).
      assert (EV : (if comp then option_map Some (nth_error (w_vals w) i) else Some None) = Some (if comp then Some (total R op (values_at us i)) else None)).
      { destruct comp; auto. rewrite VAL by auto. auto. }
      rewrite EV. cbn [obnd]. rewrite put_ok by (rewrite LS; auto). cbn [obnd]. do 2 eexists. split; [reflexivity|]. split; [|split; [|split]].
      + rewrite map_app, M. cbn. clear - TK. revert k TK. induction (touched w) as [|a l IH]; intros [|k] TK; cbn in *; try discriminate; [congruence|]. f_equal. auto.
      + intros j v J. apply in_app_iff in J as [J|[J|[]]]; auto. injection J as <- <-. auto.
      + rewrite upd_nth_length. auto.
      + assert (SK : skipn k (touched w) = i :: skipn (S k) (touched w)).
        { clear - TK. revert k TK. induction (touched w) as [|a l IH]; intros [|k] TK; cbn in *; try discriminate; [congruence|]. auto. }
        intros j J. rewrite nth_error_upd by (rewrite LS; auto). destruct (Nat.eqb_spec j i) as [->|N].
        * f_equal. destruct (mem_spec i (skipn (S k) (touched w))) as [Q|Q]; auto. exfalso.
          rewrite <- (firstn_skipn k (touched w)) in ND. rewrite SK in ND. apply NoDup_remove_2 in ND. apply ND. apply in_app_iff. auto.
        * rewrite SS by auto. f_equal. rewrite SK. destruct (mem_spec j (skipn (S k) (touched w))) as [Q|Q], (mem_spec j (i :: skipn (S k) (touched w))) as [Q'|Q']; auto; exfalso.
          -- apply Q'. right. auto.
          -- destruct Q'; congruence. }
  destruct (G (w_size w)) as (out & set & E & M & O & LS & SS); auto. rewrite E. do 2 eexists. split; [reflexivity|]. split; [|split; [auto|]].
  - rewrite M. rewrite <- TL. apply firstn_all.
  - split; [repeat split; auto|]. intros i J. cbn. rewrite SS by auto. rewrite <- TL, skipn_all. auto.
Qed.

Variable srt : option (list nat -> list nat).
Hypothesis SRT : forall f, srt = Some f -> sorts f.

Lemma sort_inv : forall us w, inv us w -> inv us (sort_list srt w) /\ (srt <> None -> StronglySorted le (touched (sort_list srt w))).
Proof.
  intros us w I. unfold sort_list. destruct srt as [f|] eqn:E; [|split; [auto|congruence]].
  destruct (SRT f eq_refl (firstn (w_size w) (w_list w))) as [P S]. fold (touched w) in *.
  destruct I as [(Z1 & Z2 & Z3) SZ ND IN LT SET VAL].
  assert (TL : length (touched w) = w_size w). { unfold touched. rewrite firstn_length. lia. }
  assert (FL : length (f (touched w)) = w_size w) by (rewrite <- TL; apply Permutation_length; auto).
  assert (T : touched (Wsp (w_vals w) (w_set w) (f (touched w) ++ skipn (w_size w) (w_list w)) (w_size w)) = f (touched w)).
  { unfold touched at 1. cbn. rewrite <- FL at 1. rewrite firstn_app, Nat.sub_diag, firstn_O, app_nil_r. apply firstn_all. }
  assert (MM : forall i, In i (f (touched w)) <-> In i (touched w)).
  { intros i. split; apply Permutation_in; auto. symmetry. auto. }
  split; [|intros _; rewrite T; auto]. constructor; rewrite ?T; cbn [w_vals w_set w_size]; auto.
  - split; [|split]; cbn; auto. rewrite app_length, FL, skipn_length. lia.
  - eapply Permutation_NoDup; [symmetry; exact P|]. auto.
  - intros i. rewrite MM. auto.
  - intros i. rewrite MM. auto.
  - intros i J. rewrite SET by auto. f_equal. destruct (mem_spec i (touched w)) as [Q|Q], (mem_spec i (f (touched w))) as [Q'|Q']; auto; exfalso; rewrite MM in *; auto.
  - intros C i. rewrite MM. auto.
Qed.

Lemma strong_lt : forall l, StronglySorted le l -> NoDup l -> StronglySorted lt l.
Proof.
  induction 1 as [|a l S IH F]; intros N; constructor; inversion N; subst; auto.
  rewrite Forall_forall in *. intros x X. specialize (F x X). assert (a <> x) by (intro; subst; auto). lia.
Qed.

Theorem use_ok : forall us w, clean w -> (forall u, In u us -> fst u < n) ->
  exists out w', use R comp op srt us w = Some (out, w') /\ correct R comp (match srt with None => false | _ => true end) op us out /\ clean w'.
Proof.
  intros us w C L. unfold use. destruct (updates_ok us [] _ (clean_inv w C) L) as (w1 & E & I). cbn [app] in I. rewrite E. cbn [obnd].
  destruct (sort_inv us w1 I) as [I2 S]. destruct (consume_ok us _ I2) as (out & w' & E2 & M & O & C'). exists out, w'. split; auto. split; auto.
  unfold correct. rewrite M. destruct I2 as [_ _ ND IN _ _ _]. repeat split; auto.
  - apply IN.
  - apply IN.
  - intros Q. apply strong_lt; auto. apply S. destruct srt; congruence.
Qed.
Theorem uses_ok : forall uss w, clean w -> (forall us u, In us uss -> In u us -> fst u < n) ->
  exists outs w', uses R comp op srt uss w = Some (outs, w') /\
    Forall2 (correct R comp (match srt with None => false | _ => true end) op) uss outs /\ clean w'.
Proof.
  induction uss as [|us uss IH]; intros w C L; cbn [uses].
  - exists [], w. auto.
  - destruct (use_ok us w C) as (out & w1 & E & G & C1). { intros; eapply L; eauto. left; auto. }
    rewrite E. cbn [obnd snd fst]. destruct (IH w1 C1) as (outs & w2 & E2 & F2 & C2). { intros us' u U; apply L; right; auto. }
    rewrite E2. cbn [obnd fst snd]. do 2 eexists. split; [reflexivity|]. split; auto.
Qed.
End P.
