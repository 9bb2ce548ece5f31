(** The parser accepts exactly the grammar. *)
From Coq Require Import List ZArith Lia Bool Ascii.
From Verif Require Import Parser ParserSpec.
Import ListNotations.
Local Open Scope nat_scope.

(** *** More fuel does not change a result. *)
Lemma vars_mono : forall n m vs ts, n <= m -> parse_vars n vs ts <> PFuel -> parse_vars m vs ts = parse_vars n vs ts.
Proof.
  induction n; intros [|m] vs ts Le Ok; try lia; cbn [parse_vars] in *; try congruence.
  destruct (current ts); auto. destruct (consume TComma ts) as [ts1| | | |]; cbn [pbind] in *; auto.
  destruct (parse_var ts1) as [[v ts2]| | | |]; cbn [pbind] in *; auto. apply IHn; auto. lia.
Qed.
Ltac step :=
  match goal with
  | |- context [pbind (consume ?t ?ts) _] => destruct (consume t ts) as [?| | | |]; cbn [pbind] in *; auto; try congruence
  | |- context [pbind (parse_var ?ts) _] => destruct (parse_var ts) as [[? ?]| | | |]; cbn [pbind] in *; auto; try congruence
  end.
Lemma access_mono n m ts : n <= m -> parse_access n ts <> PFuel -> parse_access m ts = parse_access n ts.
Proof.
  intros Le Ok. unfold parse_access, parse_varlist in *. destruct (current ts); auto. step.
  destruct (current a); auto.
  - step. step. erewrite (vars_mono n m); eauto. destruct (parse_vars n _ _) as [[? ?]| | | |]; cbn in *; congruence.
  - step. destruct (current a0); auto. step. step.
    erewrite (vars_mono n m); eauto. destruct (parse_vars n _ _) as [[? ?]| | | |]; cbn in *; congruence.
Qed.
Lemma final_mono n m ts : n <= m -> parse_final n ts <> PFuel -> parse_final m ts = parse_final n ts.
Proof.
  intros Le Ok. unfold parse_final in *. destruct (current ts); auto;
    (erewrite (access_mono n m); eauto; destruct (parse_access n ts) as [[[? ?] ?]| | | |]; cbn in *; congruence).
Qed.
Lemma mono : forall n m ts, n <= m ->
  (parse_expr n ts <> PFuel -> parse_expr m ts = parse_expr n ts) /\
  (forall e, expr_loop n e ts <> PFuel -> expr_loop m e ts = expr_loop n e ts) /\
  (parse_term n ts <> PFuel -> parse_term m ts = parse_term n ts) /\
  (forall e, term_loop n e ts <> PFuel -> term_loop m e ts = term_loop n e ts) /\
  (parse_factor n ts <> PFuel -> parse_factor m ts = parse_factor n ts).
Proof.
  induction n as [|n IH]; intros [|m] ts Le; try lia;
    cbn [parse_expr expr_loop parse_term term_loop parse_factor]; try (repeat split; congruence).
  assert (L : n <= m) by lia. repeat split.
  - intros Ok. destruct (IH m ts L) as (_ & _ & E & _). rewrite E by (intro Q; rewrite Q in Ok; cbn in Ok; congruence).
    destruct (parse_term n ts) as [[e ts1]| | | |]; cbn [pbind] in *; auto. apply IH; auto.
  - intros e Ok. destruct (current ts); auto; step;
      (destruct (IH m a L) as (_ & _ & E & _); rewrite E by (intro Q; rewrite Q in Ok; cbn in Ok; congruence);
       destruct (parse_term n a) as [[e1 ts1]| | | |]; cbn [pbind] in *; auto; apply IH; auto).
  - intros Ok. destruct (IH m ts L) as (_ & _ & _ & _ & E). rewrite E by (intro Q; rewrite Q in Ok; cbn in Ok; congruence).
    destruct (parse_factor n ts) as [[e ts1]| | | |]; cbn [pbind] in *; auto. apply IH; auto.
  - intros e Ok. destruct (current ts); auto; step;
      (destruct (IH m a L) as (_ & _ & _ & _ & E); rewrite E by (intro Q; rewrite Q in Ok; cbn in Ok; congruence);
       destruct (parse_factor n a) as [[e1 ts1]| | | |]; cbn [pbind] in *; auto; apply IH; auto).
  - intros Ok. destruct (current ts); try (apply final_mono; auto); step.
    + destruct (IH m a L) as (E & _). rewrite E by (intro Q; rewrite Q in Ok; cbn in Ok; congruence). reflexivity.
    + destruct (IH m a L) as (_ & _ & _ & _ & E). rewrite E by (intro Q; rewrite Q in Ok; cbn in Ok; congruence). reflexivity.
Qed.

(** *** Soundness. *)
Lemma consume_ok t ts ts' : t <> TEot -> consume t ts = POk ts' -> exists u, ts = u :: ts' /\ same_kind u t = true.
Proof.
  intros Nt. unfold consume, next_token, current. destruct ts as [|u ts]; cbn [hd tl].
  - destruct t; cbn; try discriminate; congruence.
  - destruct (same_kind u t) eqn:E; [|destruct u; discriminate].
    destruct ts as [|[] ts]; intros X; try discriminate X; injection X as <-; eauto.
Qed.
Lemma var_ok ts v ts' : parse_var ts = POk (v, ts') -> ts = TIdent v :: ts'.
Proof.
  unfold parse_var. destruct (current ts) eqn:E; try discriminate.
  destruct (consume (TIdent s) ts) as [ts1| | | |] eqn:C; cbn; try discriminate. intros X; injection X as <- <-.
  apply consume_ok in C; [|discriminate]. destruct C as (u & -> & K). cbn in E. subst u. reflexivity.
Qed.
Lemma vars_app ts vs v : d_vars ts vs -> d_vars (ts ++ [TComma; TIdent v]) (vs ++ [v]).
Proof. induction 1; cbn; repeat constructor; auto. Qed.
Lemma vars_ok : forall n vs ts vs' ts', parse_vars n vs ts = POk (vs', ts') ->
  forall t0, d_vars t0 vs -> exists t1, t0 ++ ts = t1 ++ ts' /\ d_vars t1 vs'.
Proof.
  induction n; intros vs ts vs' ts' E t0 D; cbn [parse_vars] in E; try discriminate.
  destruct (current ts) eqn:C; try (injection E as <- <-; eauto).
  destruct (consume TComma ts) as [ts1| | | |] eqn:C1; cbn [pbind] in E; try discriminate.
  destruct (parse_var ts1) as [[v ts2]| | | |] eqn:V; cbn [pbind] in E; try discriminate.
  apply consume_ok in C1; [|discriminate]. destruct C1 as (u & -> & K). cbn in C. subst u. apply var_ok in V as ->.
  destruct (IHn _ _ _ _ E (t0 ++ [TComma; TIdent v])) as (t1 & Et & D1); [apply vars_app; auto|].
  exists t1. split; auto. rewrite <- Et, <- app_assoc. reflexivity.
Qed.
Lemma varlist_ok n ts vs ts' : parse_varlist n ts = POk (vs, ts') -> exists t1, ts = t1 ++ ts' /\ d_vars t1 vs.
Proof.
  unfold parse_varlist. destruct (parse_var ts) as [[v ts1]| | | |] eqn:V; cbn [pbind]; try discriminate.
  apply var_ok in V as ->. intros E. apply (vars_ok _ _ _ _ _ E [TIdent v]). constructor.
Qed.
Ltac eat C := apply consume_ok in C; [|discriminate]; destruct C as (?u & -> & ?K);
  match goal with K : same_kind ?u _ = true |- _ => destruct u; cbn in K; try discriminate K; clear K end.
Lemma access_ok n ts s vs ts' : parse_access n ts = POk (s, vs, ts') -> exists t1, ts = t1 ++ ts' /\ d_access t1 s vs.
Proof.
  unfold parse_access. destruct (current ts) eqn:C0; try discriminate.
  destruct (consume (TIdent s0) ts) as [ts1| | | |] eqn:C; cbn [pbind]; try discriminate. eat C.
  cbn in C0. injection C0 as ->.
  destruct (current ts1) eqn:C1; try (intros X; injection X as <- <- <-; eexists [_]; split; [reflexivity|constructor]).
  - destruct (consume TLparen ts1) as [ts2| | | |] eqn:C2; cbn [pbind]; try discriminate. eat C2.
    destruct (parse_varlist n ts2) as [[vs1 ts3]| | | |] eqn:L; cbn [pbind]; try discriminate.
    destruct (consume TRparen ts3) as [ts4| | | |] eqn:C3; cbn [pbind]; try discriminate. eat C3.
    intros X; injection X as <- <- <-. destruct (varlist_ok _ _ _ _ L) as (t1 & -> & D).
    exists (TIdent s0 :: TLparen :: t1 ++ [TRparen]). split; [cbn; rewrite <- app_assoc; reflexivity|constructor; auto].
  - destruct (consume TUnderscore ts1) as [ts2| | | |] eqn:C2; cbn [pbind]; try discriminate. eat C2.
    assert (Q : (let* (v, ts) := parse_var ts2 in POk (s0, [v], ts)) = POk (s, vs, ts') ->
                exists t1, TIdent s0 :: TUnderscore :: ts2 = t1 ++ ts' /\ d_access t1 s vs).
    { destruct (parse_var ts2) as [[v ts3]| | | |] eqn:V; cbn [pbind]; try discriminate.
      apply var_ok in V as ->. intros X; injection X as <- <- <-.
      exists [TIdent s0; TUnderscore; TIdent v]. split; [reflexivity|constructor]. }
    destruct (current ts2) eqn:C3; try exact Q.
    destruct (consume TLcurly ts2) as [ts3| | | |] eqn:C4; cbn [pbind]; try discriminate. eat C4.
    destruct (parse_varlist n ts3) as [[vs1 ts4]| | | |] eqn:L; cbn [pbind]; try discriminate.
    destruct (consume TRcurly ts4) as [ts5| | | |] eqn:C5; cbn [pbind]; try discriminate. eat C5.
    intros X; injection X as <- <- <-. destruct (varlist_ok _ _ _ _ L) as (t1 & -> & D).
    exists (TIdent s0 :: TUnderscore :: TLcurly :: t1 ++ [TRcurly]). split; [cbn; rewrite <- app_assoc; reflexivity|constructor; auto].
Qed.
Lemma final_ok n ts e ts' : parse_final n ts = POk (e, ts') -> exists t1, ts = t1 ++ ts' /\ d_factor t1 e.
Proof.
  unfold parse_final. intros E.
  assert (A : (let* (s, vs, ts1) := parse_access n ts in POk (IAccess s vs, ts1)) = POk (e, ts') ->
              exists t1, ts = t1 ++ ts' /\ d_factor t1 e).
  { destruct (parse_access n ts) as [[[s vs] ts1]| | | |] eqn:P; cbn [pbind]; try discriminate.
    intros X; injection X as <- <-. destruct (access_ok _ _ _ _ _ P) as (t1 & -> & D). exists t1. split; auto. constructor; auto. }
  destruct (current ts) eqn:C; try (apply A; exact E);
    (destruct (consume _ ts) as [ts1| | | |] eqn:C1 in E; cbn [pbind] in E; try discriminate;
     eat C1; cbn in C; injection C as ->; injection E as <- <-; eexists [_]; split; [reflexivity|constructor]).
Qed.
Lemma sound : forall n ts e ts',
  (parse_expr n ts = POk (e, ts') -> exists t1, ts = t1 ++ ts' /\ d_expr t1 e) /\
  (forall e0 t0, d_expr t0 e0 -> expr_loop n e0 ts = POk (e, ts') -> exists t1, t0 ++ ts = t1 ++ ts' /\ d_expr t1 e) /\
  (parse_term n ts = POk (e, ts') -> exists t1, ts = t1 ++ ts' /\ d_term t1 e) /\
  (forall e0 t0, d_term t0 e0 -> term_loop n e0 ts = POk (e, ts') -> exists t1, t0 ++ ts = t1 ++ ts' /\ d_term t1 e) /\
  (parse_factor n ts = POk (e, ts') -> exists t1, ts = t1 ++ ts' /\ d_factor t1 e).
Proof.
  induction n as [|n IH]; intros ts e ts'; cbn [parse_expr expr_loop parse_term term_loop parse_factor];
    [repeat split; intros; discriminate|].
  repeat split.
  - destruct (parse_term n ts) as [[e1 ts1]| | | |] eqn:E; cbn [pbind]; try discriminate. intros L.
    destruct (IH ts e1 ts1) as (_ & _ & T & _). destruct (T E) as (t1 & -> & D).
    destruct (IH ts1 e ts') as (_ & X & _). apply (X e1 t1); auto. constructor; auto.
  - intros e0 t0 D0 E. destruct (current ts) eqn:C; try (injection E as <- <-; eauto);
      (destruct (consume _ ts) as [ts1| | | |] eqn:C1 in E; cbn [pbind] in E; try discriminate; eat C1;
       destruct (parse_term n ts1) as [[e1 ts2]| | | |] eqn:Et; cbn [pbind] in E; try discriminate;
       destruct (IH ts1 e1 ts2) as (_ & _ & T & _); destruct (T Et) as (t1 & -> & D);
       destruct (IH ts2 e ts') as (_ & X & _)).
    + destruct (X _ (t0 ++ TAdd :: t1) (D_add _ _ _ _ D0 D) E) as (t2 & Eq & D2). exists t2. split; auto.
      rewrite <- Eq, <- app_assoc. reflexivity.
    + destruct (X _ (t0 ++ TSub :: t1) (D_sub _ _ _ _ D0 D) E) as (t2 & Eq & D2). exists t2. split; auto.
      rewrite <- Eq, <- app_assoc. reflexivity.
  - destruct (parse_factor n ts) as [[e1 ts1]| | | |] eqn:E; cbn [pbind]; try discriminate. intros L.
    destruct (IH ts e1 ts1) as (_ & _ & _ & _ & T). destruct (T E) as (t1 & -> & D).
    destruct (IH ts1 e ts') as (_ & _ & _ & X & _). apply (X e1 t1); auto. constructor; auto.
  - intros e0 t0 D0 E. destruct (current ts) eqn:C; try (injection E as <- <-; eauto);
      (destruct (consume _ ts) as [ts1| | | |] eqn:C1 in E; cbn [pbind] in E; try discriminate; eat C1;
       destruct (parse_factor n ts1) as [[e1 ts2]| | | |] eqn:Et; cbn [pbind] in E; try discriminate;
       destruct (IH ts1 e1 ts2) as (_ & _ & _ & _ & T); destruct (T Et) as (t1 & -> & D);
       destruct (IH ts2 e ts') as (_ & _ & _ & X & _)).
    + destruct (X _ (t0 ++ TMul :: t1) (D_mul _ _ _ _ D0 D) E) as (t2 & Eq & D2). exists t2. split; auto.
      rewrite <- Eq, <- app_assoc. reflexivity.
    + destruct (X _ (t0 ++ TDiv :: t1) (D_div _ _ _ _ D0 D) E) as (t2 & Eq & D2). exists t2. split; auto.
      rewrite <- Eq, <- app_assoc. reflexivity.
  - intros E. destruct (current ts) eqn:C; try (apply (final_ok n); exact E).
    + destruct (consume TLparen ts) as [ts1| | | |] eqn:C1 in E; cbn [pbind] in E; try discriminate. eat C1.
      destruct (parse_expr n ts1) as [[e1 ts2]| | | |] eqn:Ee; cbn [pbind] in E; try discriminate.
      destruct (consume TRparen ts2) as [ts3| | | |] eqn:C2 in E; cbn [pbind] in E; try discriminate. eat C2.
      injection E as <- <-. destruct (IH ts1 e1 (TRparen :: ts3)) as (X & _). destruct (X Ee) as (t1 & -> & D).
      exists (TLparen :: t1 ++ [TRparen]). split; [cbn; rewrite <- app_assoc; reflexivity|constructor; auto].
    + destruct (consume TSub ts) as [ts1| | | |] eqn:C1 in E; cbn [pbind] in E; try discriminate. eat C1.
      destruct (parse_factor n ts1) as [[e1 ts2]| | | |] eqn:Ee; cbn [pbind] in E; try discriminate.
      injection E as <- <-. destruct (IH ts1 e1 ts2) as (_ & _ & _ & _ & X). destruct (X Ee) as (t1 & -> & D).
      exists (TSub :: t1). split; [reflexivity|constructor; auto].
Qed.

(** *** Completeness. *)
Definition good (ts : list token) : Prop := match ts with TDiverge :: _ => False | _ => True end.
Lemma consume_good t u ts : same_kind u t = true -> good ts -> consume t (u :: ts) = POk ts.
Proof. intros K G. unfold consume, next_token, current. cbn [hd tl]. rewrite K. destruct ts as [|[]]; cbn in G; tauto. Qed.
Lemma var_goes v ts : good ts -> parse_var (TIdent v :: ts) = POk (v, ts).
Proof. intros G. unfold parse_var. cbn [current hd]. rewrite consume_good; auto. Qed.
Lemma vars_good ts vs rest : d_vars ts vs -> good (ts ++ rest).
Proof. destruct 1; exact I. Qed.
Lemma vars_goes ts vs : d_vars ts vs -> forall rest acc, good rest -> current rest <> TComma ->
  exists n, parse_vars n acc (TComma :: ts ++ rest) = POk (acc ++ vs, rest).
Proof.
  induction 1 as [s|s ts vs D IH]; intros rest acc G C.
  - exists 2. cbn [parse_vars current hd app]. rewrite consume_good by (auto; exact I). cbn [pbind].
    rewrite var_goes by auto. cbn [pbind]. cbn [parse_vars]. destruct (current rest); auto; congruence.
  - destruct (IH rest (acc ++ [s]) G C) as (n & E). exists (S n). cbn [parse_vars current hd app].
    rewrite consume_good by (auto; exact I). cbn [pbind]. rewrite var_goes by exact I. cbn [pbind].
    rewrite E, <- app_assoc. reflexivity.
Qed.
Lemma varlist_goes ts vs rest : d_vars ts vs -> good rest -> current rest <> TComma ->
  exists n, parse_varlist n (ts ++ rest) = POk (vs, rest).
Proof.
  intros D G C. destruct D as [s|s ts vs D].
  - exists 1. unfold parse_varlist. cbn [app]. rewrite var_goes by auto. cbn [pbind parse_vars].
    destruct (current rest); auto; congruence.
  - destruct (vars_goes _ _ D rest [s] G C) as (n & E). exists n. unfold parse_varlist. cbn [app].
    rewrite var_goes by exact I. exact E.
Qed.
Definition ends (ts : list token) : Prop := good ts /\ current ts <> TLparen /\ current ts <> TUnderscore.
Lemma access_good ts s vs rest : d_access ts s vs -> good (ts ++ rest).
Proof. destruct 1; exact I. Qed.
Lemma access_goes ts s vs rest : d_access ts s vs -> ends rest -> exists n, parse_access n (ts ++ rest) = POk (s, vs, rest).
Proof.
  intros D (G & N1 & N2). destruct D as [s ts vs D|s ts vs D|s v|s]; cbn [app]; unfold parse_access.
  - destruct (varlist_goes ts vs (TRparen :: rest) D I) as (n & E); [discriminate|].
    exists n. cbn [current hd]. rewrite consume_good by (auto; exact I). cbn [pbind current hd].
    rewrite <- app_assoc. cbn [app]. rewrite consume_good by (auto; eapply vars_good; eauto). cbn [pbind].
    rewrite E. cbn [pbind]. rewrite consume_good by auto. reflexivity.
  - destruct (varlist_goes ts vs (TRcurly :: rest) D I) as (n & E); [discriminate|].
    exists n. cbn [current hd]. rewrite consume_good by (auto; exact I). cbn [pbind current hd].
    rewrite consume_good by (auto; exact I). cbn [pbind current hd].
    rewrite <- app_assoc. cbn [app]. rewrite consume_good by (auto; eapply vars_good; eauto). cbn [pbind].
    rewrite E. cbn [pbind]. rewrite consume_good by auto. reflexivity.
  - exists 0. cbn [current hd]. rewrite consume_good by (auto; exact I). cbn [pbind current hd].
    rewrite consume_good by (auto; exact I). cbn [pbind current hd]. rewrite var_goes by auto. reflexivity.
  - exists 0. cbn [current hd]. rewrite consume_good by auto. cbn [pbind]. destruct (current rest); auto; congruence.
Qed.

Scheme d_factor_ind2 := Induction for d_factor Sort Prop
  with d_term_ind2 := Induction for d_term Sort Prop
  with d_expr_ind2 := Induction for d_expr Sort Prop.
Combined Scheme d_ind from d_factor_ind2, d_term_ind2, d_expr_ind2.
Lemma d_good : (forall ts e, d_factor ts e -> forall rest, good (ts ++ rest)) /\
  (forall ts e, d_term ts e -> forall rest, good (ts ++ rest)) /\ (forall ts e, d_expr ts e -> forall rest, good (ts ++ rest)).
Proof.
  apply d_ind; intros; try exact I; auto; try (rewrite <- app_assoc; auto). eapply access_good; eauto.
Qed.
Definition factor_good := proj1 d_good.
Definition term_good := proj1 (proj2 d_good).
Definition expr_good := proj2 (proj2 d_good).
Definition no_product (ts : list token) : Prop := current ts <> TMul /\ current ts <> TDiv.
Lemma complete :
  (forall ts e, d_factor ts e -> forall rest, ends rest -> exists n, parse_factor n (ts ++ rest) = POk (e, rest)) /\
  (forall ts e, d_term ts e -> forall rest r, ends rest -> (exists n, term_loop n e rest = POk r) ->
     exists n, parse_term n (ts ++ rest) = POk r) /\
  (forall ts e, d_expr ts e -> forall rest r, ends rest -> no_product rest -> (exists n, expr_loop n e rest = POk r) ->
     exists n, parse_expr n (ts ++ rest) = POk r).
Proof.
  apply d_ind.
  - intros ts s vs D rest R. destruct (access_goes _ _ _ _ D R) as (n & E). exists (S n).
    assert (Q : parse_factor (S n) (ts ++ rest) = parse_final n (ts ++ rest)) by (destruct D; reflexivity).
    rewrite Q. clear Q.
    unfold parse_final. destruct D; cbn [current hd app] in *; rewrite E; reflexivity.
  - intros s rest (G & _). exists 1. cbn [parse_factor current hd app]. unfold parse_final. cbn [current hd]. rewrite consume_good; auto.
  - intros s rest (G & _). exists 1. cbn [parse_factor current hd app]. unfold parse_final. cbn [current hd]. rewrite consume_good; auto.
  - intros s rest (G & _). exists 1. cbn [parse_factor current hd app]. unfold parse_final. cbn [current hd]. rewrite consume_good; auto.
  - intros s rest (G & _). exists 1. cbn [parse_factor current hd app]. unfold parse_final. cbn [current hd]. rewrite consume_good; auto.
  - intros ts e D IH rest R. destruct (IH (TRparen :: rest) (e, TRparen :: rest)) as (n & E).
    { repeat split; discriminate. } { split; discriminate. } { exists 1. reflexivity. }
    exists (S n). cbn [parse_factor current hd app]. rewrite <- app_assoc. cbn [app].
    rewrite consume_good by (auto; apply (expr_good _ _ D)). cbn [pbind]. rewrite E. cbn [pbind].
    rewrite consume_good by (auto; apply R). reflexivity.
  - intros ts e D IH rest R. destruct (IH rest R) as (n & E). exists (S n). cbn [parse_factor current hd app].
    rewrite consume_good by (auto; apply (factor_good _ _ D)). cbn [pbind]. rewrite E. reflexivity.
  - intros ts e D IH rest r R (m & L). destruct (IH rest R) as (n & E).
    exists (S (Nat.max n m)). cbn [parse_term].
    destruct (mono n (Nat.max n m) (ts ++ rest)) as (_ & _ & _ & _ & X); [lia|]. rewrite X, E by (rewrite E; discriminate). cbn [pbind].
    destruct (mono m (Nat.max n m) rest) as (_ & _ & _ & Y & _); [lia|]. rewrite Y; auto. rewrite L. discriminate.
  - intros t1 a t2 b D1 IH1 D2 IH2 rest r R (m & L). rewrite <- app_assoc. cbn [app].
    apply IH1. { repeat split; discriminate. }
    destruct (IH2 rest R) as (n & E). exists (S (Nat.max n m)). cbn [term_loop current hd].
    rewrite consume_good by (auto; apply (factor_good _ _ D2)). cbn [pbind].
    destruct (mono n (Nat.max n m) (t2 ++ rest)) as (_ & _ & _ & _ & X); [lia|]. rewrite X, E by (rewrite E; discriminate). cbn [pbind].
    destruct (mono m (Nat.max n m) rest) as (_ & _ & _ & Y & _); [lia|]. rewrite Y; auto. rewrite L. discriminate.
  - intros t1 a t2 b D1 IH1 D2 IH2 rest r R (m & L). rewrite <- app_assoc. cbn [app].
    apply IH1. { repeat split; discriminate. }
    destruct (IH2 rest R) as (n & E). exists (S (Nat.max n m)). cbn [term_loop current hd].
    rewrite consume_good by (auto; apply (factor_good _ _ D2)). cbn [pbind].
    destruct (mono n (Nat.max n m) (t2 ++ rest)) as (_ & _ & _ & _ & X); [lia|]. rewrite X, E by (rewrite E; discriminate). cbn [pbind].
    destruct (mono m (Nat.max n m) rest) as (_ & _ & _ & Y & _); [lia|]. rewrite Y; auto. rewrite L. discriminate.
  - intros ts e D IH rest r R (P1 & P2) (m & L). destruct (IH rest (e, rest) R) as (n & E).
    { exists 1. cbn [term_loop]. destruct (current rest); auto; congruence. }
    exists (S (Nat.max n m)). cbn [parse_expr].
    destruct (mono n (Nat.max n m) (ts ++ rest)) as (_ & _ & X & _); [lia|]. rewrite X, E by (rewrite E; discriminate). cbn [pbind].
    destruct (mono m (Nat.max n m) rest) as (_ & Y & _); [lia|]. rewrite Y; auto. rewrite L. discriminate.
  - intros t1 a t2 b D1 IH1 D2 IH2 rest r R P (m & L). rewrite <- app_assoc. cbn [app].
    apply IH1. { repeat split; discriminate. } { split; discriminate. }
    destruct (IH2 rest (b, rest) R) as (n & E). { exists 1. cbn [term_loop]. destruct P. destruct (current rest); auto; congruence. }
    exists (S (Nat.max n m)). cbn [expr_loop current hd].
    rewrite consume_good by (auto; apply (term_good _ _ D2)). cbn [pbind].
    destruct (mono n (Nat.max n m) (t2 ++ rest)) as (_ & _ & X & _); [lia|]. rewrite X, E by (rewrite E; discriminate). cbn [pbind].
    destruct (mono m (Nat.max n m) rest) as (_ & Y & _); [lia|]. rewrite Y; auto. rewrite L. discriminate.
  - intros t1 a t2 b D1 IH1 D2 IH2 rest r R P (m & L). rewrite <- app_assoc. cbn [app].
    apply IH1. { repeat split; discriminate. } { split; discriminate. }
    destruct (IH2 rest (b, rest) R) as (n & E). { exists 1. cbn [term_loop]. destruct P. destruct (current rest); auto; congruence. }
    exists (S (Nat.max n m)). cbn [expr_loop current hd].
    rewrite consume_good by (auto; apply (term_good _ _ D2)). cbn [pbind].
    destruct (mono n (Nat.max n m) (t2 ++ rest)) as (_ & _ & X & _); [lia|]. rewrite X, E by (rewrite E; discriminate). cbn [pbind].
    destruct (mono m (Nat.max n m) rest) as (_ & Y & _); [lia|]. rewrite Y; auto. rewrite L. discriminate.
Qed.

(** *** The fuel suffices. *)
Definition shorter (r : presult (iexpr * list token)) (k : nat) : Prop :=
  match r with POk (_, ts) => length ts < k | PFuel => False | _ => True end.
Definition no_longer (r : presult (iexpr * list token)) (k : nat) : Prop :=
  match r with POk (_, ts) => length ts <= k | PFuel => False | _ => True end.
Lemma consume_len t ts : t <> TEot -> match consume t ts with POk ts' => length ts = S (length ts') | PFuel => False | _ => True end.
Proof.
  intros N. destruct (consume t ts) as [ts'| | | |] eqn:E; auto.
  - apply consume_ok in E; auto. destruct E as (u & -> & _). reflexivity.
  - revert E. unfold consume, next_token. destruct (same_kind _ _); [destruct (tl ts) as [|[]]|destruct (current ts)]; discriminate.
Qed.
Lemma var_len ts : match parse_var ts with POk (_, ts') => length ts = S (length ts') | PFuel => False | _ => True end.
Proof.
  unfold parse_var. destruct (current ts); auto. pose proof (consume_len (TIdent s) ts ltac:(discriminate)) as L.
  destruct (consume (TIdent s) ts); cbn; auto.
Qed.
Lemma vars_len : forall n vs ts, length ts < n ->
  match parse_vars n vs ts with POk (_, ts') => length ts' <= length ts | PFuel => False | _ => True end.
Proof.
  induction n; intros vs ts L; [lia|]. cbn [parse_vars]. destruct (current ts); auto.
  pose proof (consume_len TComma ts ltac:(discriminate)) as L1. destruct (consume TComma ts) as [ts1| | | |]; cbn [pbind]; auto.
  pose proof (var_len ts1) as L2. destruct (parse_var ts1) as [[v ts2]| | | |]; cbn [pbind]; auto.
  specialize (IHn (vs ++ [v]) ts2 ltac:(lia)). destruct (parse_vars n _ ts2) as [[? ?]| | | |]; auto; lia.
Qed.
Lemma varlist_len n ts : length ts <= n ->
  match parse_varlist n ts with POk (_, ts') => length ts' < length ts | PFuel => False | _ => True end.
Proof.
  intros L. unfold parse_varlist. pose proof (var_len ts) as L2. destruct (parse_var ts) as [[v ts2]| | | |]; cbn [pbind]; auto.
  pose proof (vars_len n [v] ts2 ltac:(lia)) as L3. destruct (parse_vars n _ ts2) as [[? ?]| | | |]; auto; lia.
Qed.
Lemma access_len n ts : length ts <= n ->
  match parse_access n ts with POk (_, ts') => length ts' < length ts | PFuel => False | _ => True end.
Proof.
  intros L. unfold parse_access. destruct (current ts); auto.
  pose proof (consume_len (TIdent s) ts ltac:(discriminate)) as L1. destruct (consume (TIdent s) ts) as [ts1| | | |]; cbn [pbind]; auto.
  destruct (current ts1); try (lia).
  - pose proof (consume_len TLparen ts1 ltac:(discriminate)) as L2. destruct (consume TLparen ts1) as [ts2| | | |]; cbn [pbind]; auto.
    pose proof (varlist_len n ts2 ltac:(lia)) as L3. destruct (parse_varlist n ts2) as [[vs ts3]| | | |]; cbn [pbind]; auto.
    pose proof (consume_len TRparen ts3 ltac:(discriminate)) as L4. destruct (consume TRparen ts3) as [ts4| | | |]; cbn [pbind]; auto. lia.
  - pose proof (consume_len TUnderscore ts1 ltac:(discriminate)) as L2. destruct (consume TUnderscore ts1) as [ts2| | | |]; cbn [pbind]; auto.
    assert (Q : match (let* (v, ts) := parse_var ts2 in POk (s, [v], ts)) with
                | POk (_, ts') => length ts' < length ts | PFuel => False | _ => True end).
    { pose proof (var_len ts2) as L3. destruct (parse_var ts2) as [[v ts3]| | | |]; cbn [pbind]; auto. lia. }
    destruct (current ts2); try exact Q.
    pose proof (consume_len TLcurly ts2 ltac:(discriminate)) as L5. destruct (consume TLcurly ts2) as [ts3| | | |]; cbn [pbind]; auto.
    pose proof (varlist_len n ts3 ltac:(lia)) as L3. destruct (parse_varlist n ts3) as [[vs ts4]| | | |]; cbn [pbind]; auto.
    pose proof (consume_len TRcurly ts4 ltac:(discriminate)) as L4. destruct (consume TRcurly ts4) as [ts5| | | |]; cbn [pbind]; auto. lia.
Qed.
Lemma final_len n ts : length ts <= n -> shorter (parse_final n ts) (length ts).
Proof.
  intros L. unfold parse_final.
  assert (A : shorter (let* (s, vs, ts1) := parse_access n ts in POk (IAccess s vs, ts1)) (length ts)).
  { pose proof (access_len n ts L) as L1. destruct (parse_access n ts) as [[[s vs] ts1]| | | |]; cbn; auto. }
  destruct (current ts); try exact A;
    (match goal with |- context [consume ?t ts] => pose proof (consume_len t ts ltac:(discriminate)) as L1; destruct (consume t ts); cbn; auto; lia end).
Qed.
Lemma enough : forall n ts,
  (4 * length ts + 3 <= n -> shorter (parse_expr n ts) (length ts)) /\
  (forall e, 4 * length ts + 1 <= n -> no_longer (expr_loop n e ts) (length ts)) /\
  (4 * length ts + 2 <= n -> shorter (parse_term n ts) (length ts)) /\
  (forall e, 4 * length ts + 1 <= n -> no_longer (term_loop n e ts) (length ts)) /\
  (4 * length ts + 1 <= n -> shorter (parse_factor n ts) (length ts)).
Proof.
  induction n as [|n IH]; intros ts; cbn [parse_expr expr_loop parse_term term_loop parse_factor]; [repeat split; intros; lia|].
  repeat split.
  - intros L. destruct (IH ts) as (_ & _ & T & _). specialize (T ltac:(lia)).
    destruct (parse_term n ts) as [[e ts1]| | | |]; cbn [pbind shorter] in *; auto.
    destruct (IH ts1) as (_ & X & _). specialize (X e ltac:(lia)). destruct (expr_loop n e ts1) as [[? ?]| | | |]; cbn in *; auto; lia.
  - intros e L. destruct (current ts); try (cbn; lia);
      (match goal with |- context [consume ?t ts] => pose proof (consume_len t ts ltac:(discriminate)) as L1; destruct (consume t ts) as [ts1| | | |]; cbn [pbind]; auto end;
       destruct (IH ts1) as (_ & _ & T & _); specialize (T ltac:(lia));
       destruct (parse_term n ts1) as [[e1 ts2]| | | |]; cbn [pbind shorter] in *; auto;
       destruct (IH ts2) as (_ & X & _);
       match goal with |- context [expr_loop n ?x ts2] => specialize (X x ltac:(lia)); destruct (expr_loop n x ts2) as [[? ?]| | | |]; cbn in *; auto; lia end).
  - intros L. destruct (IH ts) as (_ & _ & _ & _ & T). specialize (T ltac:(lia)).
    destruct (parse_factor n ts) as [[e ts1]| | | |]; cbn [pbind shorter] in *; auto.
    destruct (IH ts1) as (_ & _ & _ & X & _). specialize (X e ltac:(lia)). destruct (term_loop n e ts1) as [[? ?]| | | |]; cbn in *; auto; lia.
  - intros e L. destruct (current ts); try (cbn; lia);
      (match goal with |- context [consume ?t ts] => pose proof (consume_len t ts ltac:(discriminate)) as L1; destruct (consume t ts) as [ts1| | | |]; cbn [pbind]; auto end;
       destruct (IH ts1) as (_ & _ & _ & _ & T); specialize (T ltac:(lia));
       destruct (parse_factor n ts1) as [[e1 ts2]| | | |]; cbn [pbind shorter] in *; auto;
       destruct (IH ts2) as (_ & _ & _ & X & _);
       match goal with |- context [term_loop n ?x ts2] => specialize (X x ltac:(lia)); destruct (term_loop n x ts2) as [[? ?]| | | |]; cbn in *; auto; lia end).
  - intros L. destruct (current ts); try (apply final_len; lia).
    + pose proof (consume_len TLparen ts ltac:(discriminate)) as L1. destruct (consume TLparen ts) as [ts1| | | |]; cbn [pbind shorter]; auto.
      destruct (IH ts1) as (X & _). specialize (X ltac:(lia)). destruct (parse_expr n ts1) as [[e ts2]| | | |]; cbn [pbind shorter] in *; auto.
      pose proof (consume_len TRparen ts2 ltac:(discriminate)) as L2. destruct (consume TRparen ts2) as [ts3| | | |]; cbn; auto. lia.
    + pose proof (consume_len TSub ts ltac:(discriminate)) as L1. destruct (consume TSub ts) as [ts1| | | |]; cbn [pbind shorter]; auto.
      destruct (IH ts1) as (_ & _ & _ & _ & X). specialize (X ltac:(lia)). destruct (parse_factor n ts1) as [[e ts2]| | | |]; cbn [pbind shorter] in *; auto. lia.
Qed.
Lemma assign_total n ts : 4 * length ts + 3 <= n -> parse_assign n ts <> PFuel.
Proof.
  intros L E. unfold parse_assign in E.
  pose proof (access_len n ts ltac:(lia)) as L1. destruct (parse_access n ts) as [[[s vs] ts1]| | | |]; cbn [pbind] in E; try discriminate; auto.
  assert (Q : match match current ts1 with TAdd => let* ts := consume TAdd ts1 in POk (true, ts) | _ => POk (false, ts1) end with
              | POk (_, ts') => length ts' <= length ts1 | PFuel => False | _ => True end).
  { destruct (current ts1); auto. pose proof (consume_len TAdd ts1 ltac:(discriminate)) as L2. destruct (consume TAdd ts1); cbn; auto. lia. }
  destruct (match current ts1 with TAdd => _ | _ => _ end) as [[acc ts2]| | | |]; cbn [pbind] in E; try discriminate; auto.
  pose proof (consume_len TEq ts2 ltac:(discriminate)) as L2. destruct (consume TEq ts2) as [ts3| | | |]; cbn [pbind] in E; try discriminate; auto.
  destruct (enough n ts3) as (X & _). specialize (X ltac:(lia)). destruct (parse_expr n ts3) as [[e ts4]| | | |]; cbn in E, X; try discriminate; auto.
Qed.
Lemma parse_total s : parse s <> PFuel.
Proof.
  unfold parse, parse_tokens. intros E.
  assert (N : forall ts, parse_assign (4 * length ts + 8) ts <> PFuel) by (intro; apply assign_total; lia).
  specialize (N (lex s)). destruct (lex s) as [|[] ts]; try discriminate E;
    (destruct (parse_assign _ _) as [[? ?]| | | |]; cbn in E; congruence).
Qed.

Lemma assign_sound n ts a ts' : parse_assign n ts = POk (a, ts') -> exists t1, ts = t1 ++ ts' /\ d_assign t1 a.
Proof.
  unfold parse_assign. destruct (parse_access n ts) as [[[s vs] ts1]| | | |] eqn:A; cbn [pbind]; try discriminate.
  destruct (access_ok _ _ _ _ _ A) as (t1 & -> & D).
  destruct (match current ts1 with TAdd => _ | _ => _ end) as [[acc ts2]| | | |] eqn:E; cbn [pbind]; try discriminate.
  destruct (consume TEq ts2) as [ts3| | | |] eqn:C; cbn [pbind]; try discriminate. eat C.
  destruct (parse_expr n ts3) as [[e ts4]| | | |] eqn:P; cbn [pbind]; try discriminate. intros X; injection X as <- <-.
  destruct (proj1 (sound n ts3 e ts4) P) as (t2 & -> & D2).
  assert (Q : (acc = true /\ ts1 = TAdd :: TEq :: t2 ++ ts4) \/ (acc = false /\ ts1 = TEq :: t2 ++ ts4)).
  { destruct (current ts1) eqn:Cu; try (injection E as <- <-; auto).
    destruct (consume TAdd ts1) as [ts5| | | |] eqn:C5; cbn [pbind] in E; try discriminate. eat C5. injection E as <- ->. auto. }
  destruct Q as [[-> ->]|[-> ->]].
  - exists (t1 ++ TAdd :: TEq :: t2). split; [rewrite <- app_assoc; reflexivity|constructor; auto].
  - exists (t1 ++ TEq :: t2). split; [rewrite <- app_assoc; reflexivity|constructor; auto].
Qed.
Lemma access_fuel n m ts r : parse_access n ts = POk r -> n <= m -> parse_access m ts = POk r.
Proof. intros E L. rewrite (access_mono n m) by (auto; rewrite E; discriminate). auto. Qed.
Lemma expr_fuel n m ts r : parse_expr n ts = POk r -> n <= m -> parse_expr m ts = POk r.
Proof. intros E L. rewrite (proj1 (mono n m ts L)) by (rewrite E; discriminate). auto. Qed.
Lemma assign_mono n m ts : n <= m -> parse_assign n ts <> PFuel -> parse_assign m ts = parse_assign n ts.
Proof.
  intros L N. unfold parse_assign in *. rewrite (access_mono n m ts L) by (intro Q; rewrite Q in N; cbn in N; congruence).
  destruct (parse_access n ts) as [[[s vs] ts1]| | | |]; cbn [pbind] in *; auto.
  destruct (match current ts1 with TAdd => _ | _ => _ end) as [[acc ts2]| | | |]; cbn [pbind] in *; auto.
  destruct (consume TEq ts2) as [ts3| | | |]; cbn [pbind] in *; auto.
  rewrite (proj1 (mono n m ts3 L)) by (intro Q; rewrite Q in N; cbn in N; congruence). reflexivity.
Qed.
Lemma assign_complete ts a rest : d_assign ts a -> continues (current rest) = false -> good rest ->
  parse_tokens (ts ++ rest) = POk (a, rest).
Proof.
  intros D C G.
  assert (X : exists n, parse_assign n (ts ++ rest) = POk (a, rest)).
  { assert (R : ends rest /\ no_product rest). { unfold ends, no_product. destruct (current rest); try discriminate C; repeat split; auto; discriminate. }
    destruct R as (R & P).
    destruct D as [t1 s vs t2 e A E|t1 s vs t2 e A E].
    - destruct (proj2 (proj2 complete) _ _ E rest (e, rest) R P) as (n & En).
      { exists 1. cbn [expr_loop]. destruct (current rest); try discriminate C; reflexivity. }
      destruct (access_goes _ _ _ (TEq :: t2 ++ rest) A) as (m & Em). { repeat split; discriminate. }
      exists (Nat.max n m). unfold parse_assign. rewrite <- app_assoc. cbn [app].
      rewrite (access_fuel m _ _ _ Em) by lia. cbn [pbind current hd].
      rewrite consume_good by (auto; apply (expr_good _ _ E)). cbn [pbind]. rewrite (expr_fuel n _ _ _ En) by lia. reflexivity.
    - destruct (proj2 (proj2 complete) _ _ E rest (e, rest) R P) as (n & En).
      { exists 1. cbn [expr_loop]. destruct (current rest); try discriminate C; reflexivity. }
      destruct (access_goes _ _ _ (TAdd :: TEq :: t2 ++ rest) A) as (m & Em). { repeat split; discriminate. }
      exists (Nat.max n m). unfold parse_assign. rewrite <- app_assoc. cbn [app].
      rewrite (access_fuel m _ _ _ Em) by lia. cbn [pbind current hd].
      rewrite consume_good by (auto; exact I). cbn [pbind].
      rewrite consume_good by (auto; apply (expr_good _ _ E)). cbn [pbind]. rewrite (expr_fuel n _ _ _ En) by lia. reflexivity. }
  destruct X as (n & E).
  assert (E2 : parse_assign (4 * length (ts ++ rest) + 8) (ts ++ rest) = POk (a, rest)).
  { pose proof (assign_total (4 * length (ts ++ rest) + 8) (ts ++ rest) ltac:(lia)) as N.
    destruct (Nat.le_ge_cases n (4 * length (ts ++ rest) + 8)) as [L|L].
    - rewrite (assign_mono n _ _ L); auto. rewrite E. discriminate.
    - rewrite <- (assign_mono _ _ _ L N). exact E. }
  unfold parse_tokens. destruct D as [t1 s vs t2 e A E'|t1 s vs t2 e A E']; destruct A; exact E2.
Qed.
