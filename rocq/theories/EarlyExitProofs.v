(** Proofs about leaving loops early. *)
From Coq Require Import List Arith ZArith Bool Lia.
Import ListNotations.
From Verif Require Import EarlyExit EarlyExitSpec.
Local Open Scope Z_scope.

Lemma same_refl : forall a, same a a.
Proof. intros a t c. reflexivity. Qed.
Lemma same_sym : forall a b, same a b -> same b a.
Proof. intros a b H t c. symmetry. apply H. Qed.
Lemma same_trans : forall a b d, same a b -> same b d -> same a d.
Proof. intros a b d H K t c. rewrite (H t c). apply K. Qed.
Lemma write_same : forall a b t c x, same a b -> same (write a t c x) (write b t c x).
Proof. intros a b t c x H t' c'. unfold write. destruct (_ && _); [reflexivity|apply H]. Qed.
Lemma fill_same : forall a b t f g, same a b -> (forall c, f c = g c) -> same (fill a t f) (fill b t g).
Proof. intros a b t f g H K t' c'. unfold fill. destruct (Nat.eqb t' t); [apply K|apply H]. Qed.
Lemma coords_eq_refl : forall c, coords_eq c c = true.
Proof. intros c. unfold coords_eq. destruct (list_eq_dec Z.eq_dec c c); [reflexivity|congruence]. Qed.
Lemma write_hit : forall st t c x, write st t c x t c = x.
Proof. intros st t c x. unfold write. now rewrite Nat.eqb_refl, coords_eq_refl. Qed.
Lemma write_id : forall st t c x, st t c = x -> same (write st t c x) st.
Proof.
  intros st t c x H t' c'. unfold write. destruct (Nat.eqb_spec t' t) as [->|]; [|reflexivity].
  unfold coords_eq. destruct (list_eq_dec Z.eq_dec c' c) as [->|]; cbn; congruence.
Qed.
Lemma write_other : forall st t c x t' c', t' <> t -> write st t c x t' c' = st t' c'.
Proof. intros st t c x t' c' H. unfold write. destruct (Nat.eqb_spec t' t); [congruence|reflexivity]. Qed.
Lemma fill_hit : forall st t f c, fill st t f t c = f c.
Proof. intros. unfold fill. now rewrite Nat.eqb_refl. Qed.
Lemma fill_other : forall st t f t' c, t' <> t -> fill st t f t' c = st t' c.
Proof. intros. unfold fill. destruct (Nat.eqb_spec t' t); [congruence|reflexivity]. Qed.

Section Proofs.
  Variable splits : var -> option (var * var * Z).
  Variable loops : var -> env -> list (list Z).
  Variable later : var -> env -> Z -> list Z -> list Z.
  Notation exec := (exec splits loops later).
  Notation meaning := (meaning splits loops).
  Notation eval := (eval splits).
  Notation coords := (coords splits).
  Notation reduces := (reduces splits).
  Notation safe := (safe splits).

  Lemma eval_same : forall x e a b, same a b -> eval x e a = eval x e b.
  Proof.
    induction x as [z|t vars|f x1 IH1 x2 IH2]; intros e a b H; cbn.
    - reflexivity.
    - apply H.
    - now rewrite (IH1 e a b H), (IH2 e a b H).
  Qed.

  (** ** Equal stores give equal results *)
  Definition respects (body : Z -> store -> store * bool) : Prop :=
    forall x a b, same a b ->
      same (fst (body x a)) (fst (body x b)) /\ snd (body x a) = snd (body x b).
  Lemma iterate_same : forall body, respects body -> forall xs a b, same a b ->
    same (fst (iterate body xs a)) (fst (iterate body xs b)) /\
    snd (iterate body xs a) = snd (iterate body xs b).
  Proof.
    intros body R. induction xs as [|x xs IH]; intros a b H; cbn; [now split|].
    destruct (R x a b H) as [R1 R2].
    destruct (body x a) as [a' p], (body x b) as [b' q]; cbn in *. subst q.
    destruct p; cbn; [now split|now apply IH].
  Qed.
  Lemma run_loops_same : forall after body, respects body -> forall xss now a b, same a b ->
    same (run_loops after body now xss a) (run_loops after body now xss b).
  Proof.
    intros after body R. induction xss as [|xs xss IH]; intros now a b H; cbn; [exact H|].
    destruct (iterate_same body R (now xs) a b H) as [I1 I2].
    destruct (iterate body (now xs) a) as [a' p], (iterate body (now xs) b) as [b' q]; cbn in *.
    subst q. now apply IH.
  Qed.
  Lemma exec_same : forall al s e a b, same a b ->
    same (fst (exec al s e a)) (fst (exec al s e b)) /\
    snd (exec al s e a) = snd (exec al s e b).
  Proof.
    intros al. induction s as [t vars op rhs|v s IH|c IHc t init p IHp|s1 IH1 s2 IH2];
      intros e a b H; cbn [EarlyExit.exec].
    - cbn. rewrite (H t (coords e vars)), (eval_same rhs e a b H). split; [|reflexivity].
      now apply write_same.
    - cbn. split; [|reflexivity]. apply run_loops_same; [|exact H].
      intros x a' b' H'. now apply IH.
    - destruct (IHp e (fill a t (fun _ => init)) (fill b t (fun _ => init))) as [P1 P2];
        [now apply fill_same|].
      destruct (exec al p e (fill a t (fun _ => init))) as [a' k],
               (exec al p e (fill b t (fun _ => init))) as [b' k']; cbn in P1, P2. subst k'.
      destruct k; cbn.
      + split; [|reflexivity]. apply fill_same; [exact P1|intros; apply H].
      + destruct (IHc e a' b' P1) as [C1 C2].
        destruct (exec al c e a') as [a2 k], (exec al c e b') as [b2 k']; cbn in *. subst k'.
        split; [|reflexivity]. apply fill_same; [exact C1|intros; apply H].
    - destruct (IH1 e a b H) as [P1 P2].
      destruct (exec al s1 e a) as [a' k], (exec al s1 e b) as [b' k']; cbn in P1, P2. subst k'.
      destruct k; cbn; [now split|now apply IH2].
  Qed.
  Lemma fold_same : forall (f : store -> Z -> store),
    (forall x a b, same a b -> same (f a x) (f b x)) ->
    forall xs a b, same a b -> same (fold_left f xs a) (fold_left f xs b).
  Proof. intros f R. induction xs as [|x xs IH]; intros a b H; cbn; [exact H|]. apply IH, R, H. Qed.
  Lemma meaning_same : forall s e a b, same a b -> same (meaning s e a) (meaning s e b).
  Proof.
    induction s as [t vars op rhs|v s IH|c IHc t init p IHp|s1 IH1 s2 IH2];
      intros e a b H; cbn [EarlyExitSpec.meaning].
    - rewrite (H t (coords e vars)), (eval_same rhs e a b H). now apply write_same.
    - apply fold_same; [|exact H]. intros x a' b' H'. now apply IH.
    - apply fill_same; [|intros; apply H]. apply IHc, IHp. now apply fill_same.
    - apply IH2, IH1, H.
  Qed.

  (** ** What a statement leaves alone *)
  Lemma frame : forall s t, ~ changes s t -> forall e st c, meaning s e st t c = st t c.
  Proof.
    induction s as [t' vars op rhs|v s IH|c IHc t' init p IHp|s1 IH1 s2 IH2];
      intros t N e st cc; cbn in N; cbn [EarlyExitSpec.meaning].
    - apply write_other. exact N.
    - assert (G : forall xs st, fold_left (fun st x => meaning s (bind e v x) st) xs st t cc = st t cc).
      { induction xs as [|x xs IHx]; intros st'; cbn; [reflexivity|]. rewrite IHx. now apply IH. }
      apply G.
    - destruct (Nat.eq_dec t t') as [->|D]; [now rewrite fill_hit|].
      rewrite fill_other by exact D. rewrite IHc by tauto. rewrite IHp by tauto.
      now rewrite fill_other by exact D.
    - rewrite IH2 by tauto. apply IH1. tauto.
  Qed.
  Lemma breaks_out_dec : forall s, breaks_out s \/ ~ breaks_out s.
  Proof.
    induction s as [t' vars op rhs|v s IH|c IHc t' init p IHp|s1 IH1 s2 IH2]; cbn.
    - destruct (may_break op); [now left|right; discriminate].
    - now right.
    - tauto.
    - tauto.
  Qed.

  (** ** Reductions into one component *)
  Definition one_component (s : stmt) (t : tensor) (vars : list var) (o : operator) : Prop :=
    forall e st,
      (exists x, same (meaning s e st)
                   (write st t (coords e vars) (apply o (st t (coords e vars)) x))) /\
      (forall al, snd (exec al s e st) = true ->
        exists a ps, annihilator o = Some (a, ps) /\ meaning s e st t (coords e vars) = a).
  Definition agrees (s : stmt) : Prop :=
    forall al e st, same (fst (exec al s e st)) (meaning s e st) /\
      (~ breaks_out s -> snd (exec al s e st) = false).

  Lemma coords_fixed : forall v vars, (forall w, In w vars -> ~ moves splits v w) ->
    forall e x, coords (bind e v x) vars = coords e vars.
  Proof.
    intros v. induction vars as [|w vars IH]; intros N e x; [reflexivity|].
    change (value splits (bind e v x) w :: coords (bind e v x) vars =
            value splits e w :: coords e vars).
    rewrite IH by (intros; apply N; now right). f_equal.
    specialize (N w (or_introl eq_refl)). unfold value. unfold moves in N.
    destruct (splits w) as [[[o i] s]|]; unfold bind.
    - destruct (Nat.eqb_spec o v); [tauto || (subst; tauto)|].
      destruct (Nat.eqb_spec i v); [subst; tauto|reflexivity].
    - destruct (Nat.eqb_spec w v); [subst; tauto|reflexivity].
  Qed.

  Section Loop.
    Variable body : Z -> store -> store * bool.
    Variable plain : store -> Z -> store.
    Hypothesis R : respects body.
    Hypothesis Rp : forall x a b, same a b -> same (plain a x) (plain b x).
    Hypothesis BP : forall x st, same (fst (body x st)) (plain st x).

    Lemma iterate_never : (forall x st, snd (body x st) = false) ->
      forall xs st, same (fst (iterate body xs st)) (fold_left plain xs st) /\
        snd (iterate body xs st) = None.
    Proof.
      intros N. induction xs as [|x xs IH]; intros st; cbn; [split; [apply same_refl|reflexivity]|].
      specialize (N x st). specialize (BP x st). destruct (body x st) as [st' k]; cbn in *. subst k.
      destruct (IH st') as [I1 I2]. split; [|exact I2].
      eapply same_trans; [exact I1|]. apply fold_same; assumption.
    Qed.
    Lemma run_loops_never : (forall x st, snd (body x st) = false) ->
      forall after xss st, same (run_loops after body (fun ys => ys) xss st)
                                (fold_left plain (concat xss) st).
    Proof.
      intros N after. induction xss as [|xs xss IH]; intros st; cbn; [apply same_refl|].
      destruct (iterate_never N xs st) as [I1 I2].
      destruct (iterate body xs st) as [st' k]; cbn in *. subst k. rewrite fold_left_app.
      eapply same_trans; [apply IH|]. now apply fold_same.
    Qed.

    Variable t : tensor.
    Variable c : list Z.
    Variable o : operator.
    Hypothesis Ab : absorbing (Some o).
    Hypothesis One : forall x st, exists r, same (plain st x) (write st t c (apply o (st t c) r)).
    Hypothesis Br : forall x st, snd (body x st) = true ->
      exists a ps, annihilator o = Some (a, ps) /\ plain st x t c = a.
    Definition done (st : store) : Prop :=
      exists a ps, annihilator o = Some (a, ps) /\ st t c = a.
    Lemma done_same : forall a b, same a b -> done a -> done b.
    Proof. intros a b H (z & ps & A & E). exists z, ps. split; [exact A|]. now rewrite <- (H t c). Qed.
    Lemma done_plain : forall x st, done st -> same (plain st x) st.
    Proof.
      intros x st (a & ps & A & E). destruct (One x st) as [r H]. eapply same_trans; [exact H|].
      apply write_id. rewrite E. symmetry. now apply (Ab o a ps).
    Qed.
    Lemma done_fold : forall xs st, done st -> same (fold_left plain xs st) st.
    Proof.
      induction xs as [|x xs IH]; intros st D; cbn; [apply same_refl|].
      eapply same_trans; [apply fold_same; [exact Rp|apply (done_plain x st D)]|]. now apply IH.
    Qed.
    Lemma iterate_reduce : forall xs st,
      same (fst (iterate body xs st)) (fold_left plain xs st) /\
      (snd (iterate body xs st) <> None -> done (fst (iterate body xs st))).
    Proof.
      induction xs as [|x xs IH]; intros st; cbn; [split; [apply same_refl|congruence]|].
      pose proof (BP x st) as B. pose proof (Br x st) as K.
      destruct (body x st) as [st' k]; cbn in *. destruct k; cbn.
      - assert (D : done (plain st x)) by (apply K; reflexivity).
        split.
        + eapply same_trans; [exact B|]. apply same_sym. now apply done_fold.
        + intros _. eapply done_same; [apply same_sym; exact B|exact D].
      - destruct (IH st') as [I1 I2]. split; [|exact I2].
        eapply same_trans; [exact I1|]. now apply fold_same.
    Qed.
    Lemma run_loops_done : forall after xss now st, done st ->
      same (run_loops after body now xss st) st.
    Proof.
      intros after. induction xss as [|xs xss IH]; intros now st D; cbn; [apply same_refl|].
      destruct (iterate_reduce (now xs) st) as [I1 _].
      destruct (iterate body (now xs) st) as [st' k]; cbn in *.
      assert (S : same st' st) by (eapply same_trans; [exact I1|now apply done_fold]).
      eapply same_trans; [|exact S]. apply IH. eapply done_same; [apply same_sym; exact S|exact D].
    Qed.
    Lemma run_loops_reduce : forall after xss st,
      same (run_loops after body (fun ys => ys) xss st) (fold_left plain (concat xss) st).
    Proof.
      intros after. induction xss as [|xs xss IH]; intros st; cbn; [apply same_refl|].
      destruct (iterate_reduce xs st) as [I1 I2].
      destruct (iterate body xs st) as [st' [x|]]; cbn in *; rewrite fold_left_app.
      - assert (D : done st') by (apply I2; discriminate).
        eapply same_trans; [apply run_loops_done; exact D|].
        apply same_sym. eapply same_trans; [apply fold_same; [exact Rp|apply same_sym; exact I1]|].
        now apply done_fold.
      - eapply same_trans; [apply IH|]. now apply fold_same.
    Qed.
  End Loop.

  Lemma main : forall s, safe s ->
    agrees s /\
    forall v t, reduces v s t -> exists vars o,
      absorbing (Some o) /\ (forall w, In w vars -> ~ moves splits v w) /\ one_component s t vars o.
  Proof.
    induction s as [t vars op rhs|v s IH|c IHc t init p IHp|s1 IH1 s2 IH2]; intros S; cbn in S.
    - split.
      + intros al e st. cbn. split.
        * unfold new_value. apply same_refl.
        * intros N. unfold early_exit, may_break in *. destruct op as [o|]; [|reflexivity].
          destruct (annihilator o) as [[a ps]|]; [congruence|reflexivity].
      + intros v t0 (-> & Op & Ab & M). destruct op as [o|]; [|congruence].
        exists vars, o. split; [exact Ab|]. split; [exact M|]. intros e st. cbn. split.
        * eexists. apply same_refl.
        * intros al K. rewrite write_hit. destruct (annihilator o) as [[a ps]|]; [|discriminate].
          destruct al; [|discriminate]. exists a, ps. split; [reflexivity|]. now apply Z.eqb_eq.
    - destruct S as [S T]. destruct (IH S) as [A F]. clear IH. split; [|intros v' t K; destruct K].
      intros al e st. cbn [EarlyExit.exec EarlyExitSpec.meaning fst snd]. split; [|reflexivity].
      assert (R : respects (fun x => exec al s (bind e v x))) by (intros x a b H; now apply exec_same).
      assert (Rp : forall x a b, same a b -> same (meaning s (bind e v x) a) (meaning s (bind e v x) b))
        by (intros; now apply meaning_same).
      assert (BP : forall x st, same (fst (exec al s (bind e v x) st)) (meaning s (bind e v x) st))
        by (intros; apply A).
      destruct (breaks_out_dec s) as [B|B].
      + destruct (T B) as [t Rd]. destruct (F v t Rd) as (vars & o & Ab & M & One).
        apply (run_loops_reduce (fun x => exec al s (bind e v x))
                 (fun st x => meaning s (bind e v x) st) Rp BP t (coords e vars) o Ab).
        * intros x st'. destruct (One (bind e v x) st') as [[r H] _].
          rewrite (coords_fixed v vars M) in H. now exists r.
        * intros x st' K. destruct (One (bind e v x) st') as [_ H].
          rewrite (coords_fixed v vars M) in H. exact (H al K).
      + apply (run_loops_never (fun x => exec al s (bind e v x))
                 (fun st x => meaning s (bind e v x) st) Rp BP).
        intros x st'. now apply A.
    - destruct S as (Sc & Sp & Np). destruct (IHc Sc) as [Ac Fc]. destruct (IHp Sp) as [Ap _].
      assert (E : forall al e st,
        same (fst (exec al (Where c t init p) e st)) (meaning (Where c t init p) e st) /\
        snd (exec al (Where c t init p) e st) =
        snd (exec al c e (meaning p e (fill st t (fun _ => init))))).
      { intros al e st. cbn [EarlyExit.exec EarlyExitSpec.meaning].
        destruct (Ap al e (fill st t (fun _ => init))) as [P1 P2]. specialize (P2 Np).
        destruct (exec al p e (fill st t (fun _ => init))) as [st1 k]; cbn in P1, P2. subst k.
        destruct (exec_same al c e _ _ P1) as [X1 X2].
        destruct (Ac al e st1) as [C1 _].
        destruct (exec al c e st1) as [st2 k]; cbn in *. split; [|now symmetry].
        apply fill_same; [|reflexivity]. eapply same_trans; [exact C1|]. now apply meaning_same. }
      split.
      + intros al e st. destruct (E al e st) as [E1 E2]. split; [exact E1|]. intros N. rewrite E2.
        apply Ac. cbn in N. tauto.
      + intros v t0 (D & Rd & _ & W). destruct (Fc v t0 Rd) as (vars & o & Ab & M & One).
        exists vars, o. split; [exact Ab|]. split; [exact M|]. intros e st.
        pose (st1 := meaning p e (fill st t (fun _ => init))).
        assert (Q : forall t' cc, t' <> t -> st1 t' cc = st t' cc).
        { intros t' cc D'. unfold st1. rewrite frame by (intros K; apply W in K; congruence).
          now apply fill_other. }
        destruct (One e st1) as [[r H] K]. split.
        * exists r. intros t' cc. cbn [EarlyExitSpec.meaning]. fold st1.
          destruct (Nat.eq_dec t' t) as [->|D'].
          -- rewrite fill_hit. symmetry. apply write_other. congruence.
          -- rewrite fill_other by exact D'. rewrite (H t' cc).
             rewrite (Q t0 (coords e vars) D). unfold write.
             destruct (_ && _); [reflexivity|now apply Q].
        * intros al B. destruct (E al e st) as [_ E2]. rewrite E2 in B. fold st1 in B.
          destruct (K al B) as (a & ps & A1 & A2). exists a, ps. split; [exact A1|].
          cbn [EarlyExitSpec.meaning]. fold st1. now rewrite fill_other by exact D.
    - destruct S as (Sa & Sb & Na). destruct (IH1 Sa) as [A1 _]. destruct (IH2 Sb) as [A2 _].
      split; [|intros v' t K; destruct K].
      intros al e st. cbn [EarlyExit.exec EarlyExitSpec.meaning].
      destruct (A1 al e st) as [P1 P2]. specialize (P2 Na).
      destruct (exec al s1 e st) as [st1 k]; cbn in P1, P2. subst k.
      destruct (A2 al e st1) as [C1 C2]. split.
      + eapply same_trans; [exact C1|]. now apply meaning_same.
      + intros N. apply C2. cbn in N. tauto.
  Qed.

  Lemma exec_false : forall s e st,
    same (fst (exec false s e st)) (meaning s e st) /\ snd (exec false s e st) = false.
  Proof.
    induction s as [t vars op rhs|v s IH|c IHc t init p IHp|s1 IH1 s2 IH2]; intros e st;
      cbn [EarlyExit.exec EarlyExitSpec.meaning].
    - split; [apply same_refl|]. cbn. destruct op as [o|]; [|reflexivity]. cbn.
      destruct (annihilator o) as [[a ps]|]; reflexivity.
    - split; [|reflexivity].
      apply (run_loops_never (fun x => exec false s (bind e v x))
               (fun st x => meaning s (bind e v x) st)); intros; [now apply meaning_same|apply IH|apply IH].
    - destruct (IHp e (fill st t (fun _ => init))) as [P1 P2].
      destruct (exec false p e (fill st t (fun _ => init))) as [st1 k]; cbn in P1, P2. subst k.
      destruct (IHc e st1) as [C1 C2]. destruct (exec false c e st1) as [st2 k]; cbn in *.
      split; [|exact C2]. apply fill_same; [|reflexivity].
      eapply same_trans; [exact C1|]. now apply meaning_same.
    - destruct (IH1 e st) as [P1 P2].
      destruct (exec false s1 e st) as [st1 k]; cbn in P1, P2. subst k.
      destruct (IH2 e st1) as [C1 C2]. split; [|exact C2].
      eapply same_trans; [exact C1|]. now apply meaning_same.
  Qed.

End Proofs.
  Lemma breaks_false : forall s, breaks false s = false.
  Proof.
    induction s as [t vars op rhs|v s IH|c IHc t init p IHp|s1 IH1 s2 IH2]; cbn.
    - unfold early_exit. destruct op as [o|]; [|reflexivity].
      destruct (annihilator o) as [[a ps]|]; reflexivity.
    - reflexivity.
    - now rewrite IHp, IHc.
    - now rewrite IH1, IH2.
  Qed.
  Lemma breaks_breaks_out : forall al s, breaks al s = true -> breaks_out s.
  Proof.
    intros al. induction s as [t' vars op rhs|v s IH|c IHc t' init p IHp|s1 IH1 s2 IH2]; cbn; intros H.
    - unfold early_exit in H. unfold may_break. destruct op as [o|]; [|discriminate].
      destruct (annihilator o) as [[a ps]|]; [reflexivity|discriminate].
    - discriminate.
    - apply orb_true_iff in H. tauto.
    - apply orb_true_iff in H. tauto.
  Qed.

(** ** The check, for loops around one assignment *)
Lemma loop_order_nest : forall vs s, loop_order (nest vs s) = vs ++ loop_order s.
Proof. induction vs as [|v vs IH]; intros s; [reflexivity|].
  change (v :: loop_order (nest vs s) = v :: vs ++ loop_order s). now rewrite IH. Qed.
Lemma free_vars_nest : forall vs s, free_vars (nest vs s) = free_vars s.
Proof. induction vs as [|v vs IH]; intros s; cbn; [reflexivity|]. apply IH. Qed.
Lemma mem_In : forall v l, mem v l = true <-> In v l.
Proof.
  intros v l. unfold mem. rewrite existsb_exists. split.
  - intros (w & I & E). apply Nat.eqb_eq in E. now subst.
  - intros I. exists v. split; [exact I|]. apply Nat.eqb_refl.
Qed.
Lemma order_ok_seen : forall free l, order_ok free true l = true ->
  forall v, In v l -> ~ In v free.
Proof.
  intros free. induction l as [|w l IH]; cbn; intros H v I; [contradiction|].
  destruct (mem w free) eqn:M; [discriminate|].
  destruct I as [->|I]; [|now apply IH]. intros K. apply mem_In in K. congruence.
Qed.
Lemma order_ok_last : forall free l, order_ok free false l = true ->
  forall pre v, l = pre ++ [v] -> (exists w, In w l /\ ~ In w free) -> ~ In v free.
Proof.
  intros free. induction l as [|w l IH]; intros H pre v E (u & I & N).
  - destruct pre; discriminate.
  - cbn in H. destruct (mem w free) eqn:M.
    + destruct pre as [|x pre]; injection E as -> E.
      * subst l. destruct I as [->|[]]. exact N.
      * apply (IH H pre v E). exists u. split; [|exact N]. destruct I as [->|I]; [|exact I].
        apply mem_In in M. contradiction.
    + destruct pre as [|x pre]; injection E as -> E.
      * intros K. apply mem_In in K. congruence.
      * apply (order_ok_seen free l H). rewrite E. apply in_or_app. right. now left.
Qed.
Lemma safe_nest : forall splits vs s, safe splits s -> ~ breaks_out s -> safe splits (nest vs s).
Proof.
  intros splits vs s S N. assert (G : safe splits (nest vs s) /\ ~ breaks_out (nest vs s)).
  { induction vs as [|v vs [IH1 IH2]]; [now split|]. split; [|intros []].
    split; [exact IH1|]. intros K. now apply IH2 in K. }
  apply G.
Qed.
Lemma nest_app : forall a b s, nest (a ++ b) s = nest a (nest b s).
Proof. intros a b s. unfold nest. apply fold_right_app. Qed.
Lemma nest_breaks : forall vs s, vs <> [] -> ~ breaks_out (nest vs s).
Proof. intros [|v vs] s N; [congruence|]. intros []. Qed.
Lemma nest_changes : forall vs s t, changes (nest vs s) t -> changes s t.
Proof. induction vs as [|v vs IH]; intros s t H; [exact H|]. exact (IH s t H). Qed.
