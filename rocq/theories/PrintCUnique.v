(** Lemmas for C52: the grammar of statements is unambiguous. *)
From Coq Require Import String List Bool Ascii Arith Lia.
From Verif Require Import Parser PrintC PrintCSpec PrintCParse.
Import ListNotations.
Local Open Scope nat_scope.

Definition p_simple (f : nat) (ts : list ctoken) : option (cstmt * list ctoken) :=
  bind (p_expr f 8 ts) (fun '(e, r) =>
    match r with
    | KPunct p :: r' =>
        if text_eqb p (str "++") then Some (CIncr e, r')
        else match assign_of p with
             | Some o => bind (p_expr f 8 r') (fun '(b, r) => Some (CAssign o e b, r))
             | None => Some (CDo e, r)
             end
    | _ => Some (CDo e, r)
    end).
Definition expect_k (s : string) (ts : list ctoken) : option (list ctoken) :=
  match ts with t :: r => if is_k s t then Some r else None | [] => None end.
(** type x = e; *)
Definition p_decl (f : nat) (ts : list ctoken) : option ((list text * bool * text * cexpr) * list ctoken) :=
  let '(ty, r) := take_type ts in
  let '(ptr, r) := take_star r in
  bind (if ptr then expect_k "restrict" r else Some r) (fun r =>
  match r with
  | KId x :: r => bind (expect "=" r) (fun r => bind (p_expr f 8 r) (fun '(e, r) => bind (expect ";" r) (fun r => Some ((ty, ptr, x, e), r))))
  | _ => None
  end).
(** ( e ) *)
Definition p_cond (f : nat) (ts : list ctoken) : option (cexpr * list ctoken) :=
  bind (expect "(" ts) (fun r => bind (p_expr f 8 r) (fun '(e, r) => bind (expect ")" r) (fun r => Some (e, r)))).
Fixpoint p_stmt (f : nat) (ts : list ctoken) : option (cstmt * list ctoken) :=
  match f with O => None | S f =>
    match ts with
    | [] => None
    | t :: r =>
        if is_k "if" t then
          bind (p_cond f r) (fun '(c, r) => bind (p_stmt f r) (fun '(s, r) =>
            match expect_k "else" r with
            | Some r => bind (p_stmt f r) (fun '(e, r) => Some (CIf c s (Some e), r))
            | None => Some (CIf c s None, r)
            end))
        else if is_k "while" t then bind (p_cond f r) (fun '(c, r) => bind (p_stmt f r) (fun '(s, r) => Some (CWhile c s, r)))
        else if is_k "for" t then
          bind (expect "(" r) (fun r => bind (p_decl f r) (fun '(ty, ptr, x, a, r) => bind (p_expr f 8 r) (fun '(b, r) => bind (expect ";" r) (fun r =>
          bind (p_simple f r) (fun '(u, r) => bind (expect ")" r) (fun r => bind (p_stmt f r) (fun '(s, r) => Some (CFor ty x a b u s, r))))))))
        else if is_k "switch" t then
          bind (p_cond f r) (fun '(e, r) => bind (expect "{" r) (fun r => bind (p_cases f r) (fun '(cs, r) => bind (expect "}" r) (fun r => Some (CSwitch e cs, r)))))
        else if is_k "continue" t then bind (expect ";" r) (fun r => Some (CContinue, r))
        else if is_k "break" t then bind (expect ";" r) (fun r => Some (CBreak, r))
        else if is_p "{" t then bind (p_items f r) (fun '(ss, r) => bind (expect "}" r) (fun r => Some (CBlock ss, r)))
        else bind (p_simple f ts) (fun '(s, r) => bind (expect ";" r) (fun r => Some (s, r)))
    end
  end
with p_items (f : nat) (ts : list ctoken) : option (list cstmt * list ctoken) :=
  match f with O => None | S f =>
    match ts with
    | [] => Some ([], [])
    | t :: _ =>
        if is_p "}" t then Some ([], ts)
        else if is_t t then bind (p_decl f ts) (fun '(ty, ptr, x, e, r) => bind (p_items f r) (fun '(ss, r) => Some (CDecl ty ptr x e :: ss, r)))
        else bind (p_stmt f ts) (fun '(s, r) => bind (p_items f r) (fun '(ss, r) => Some (s :: ss, r)))
    end
  end
with p_cases (f : nat) (ts : list ctoken) : option (list (cexpr * cstmt) * list ctoken) :=
  match f with O => None | S f =>
    match expect_k "case" ts with
    | Some r => bind (p_expr f 8 r) (fun '(e, r) => bind (expect ":" r) (fun r => bind (p_stmt f r) (fun '(s, r) =>
                bind (p_cases f r) (fun '(cs, r) => Some ((e, s) :: cs, r)))))
    | None => Some ([], ts)
    end
  end.

Lemma up_simple ts f : le_opt (p_simple f ts) (p_simple (S f) ts).
Proof.
  apply (le_bind _ _ (p_expr f 8 ts) (p_expr (S f) 8 ts)); [apply up_expr|]. intros [e r]. destruct r as [|[| | |p] r]; try apply le_refl.
  destruct (text_eqb p (str "++")); [apply le_refl|]. destruct (assign_of p); [|apply le_refl].
  apply (le_bind _ _ (p_expr f 8 r) (p_expr (S f) 8 r)); [apply up_expr|]. intros [b r']. apply le_refl.
Qed.
Lemma up_decl ts f : le_opt (p_decl f ts) (p_decl (S f) ts).
Proof.
  unfold p_decl. destruct (take_type ts) as [ty r]. destruct (take_star r) as [ptr r1]. apply le_bind; [apply le_refl|]. intros r2.
  destruct r2 as [|[x| | |] r2]; try apply le_refl. apply le_bind; [apply le_refl|]. intros r3.
  apply (le_bind _ _ (p_expr f 8 r3) (p_expr (S f) 8 r3)); [apply up_expr|]. intros [e r4]. apply le_refl.
Qed.
Lemma up_cond ts f : le_opt (p_cond f ts) (p_cond (S f) ts).
Proof.
  apply le_bind; [apply le_refl|]. intros r. apply (le_bind _ _ (p_expr f 8 r) (p_expr (S f) 8 r)); [apply up_expr|]. intros [e r']. apply le_refl.
Qed.
Lemma fuel_up_stmt : forall f,
  (forall ts, le_opt (p_stmt f ts) (p_stmt (S f) ts)) /\ (forall ts, le_opt (p_items f ts) (p_items (S f) ts)) /\ (forall ts, le_opt (p_cases f ts) (p_cases (S f) ts)).
Proof.
  induction f as [|f (I1 & I2 & I3)]; [repeat split; intros; apply le_none|]. repeat split; intros ts.
  - remember (S f) as g eqn:Eg. cbn [p_stmt]. rewrite Eg at 1. cbn [p_stmt]. rewrite <- ?Eg in *. destruct ts as [|t r]; [apply le_refl|].
    assert (Uc : forall r, le_opt (p_cond f r) (p_cond g r)) by (subst; intros; apply up_cond).
    assert (Ue : forall r, le_opt (p_expr f 8 r) (p_expr g 8 r)) by (subst; intros; apply up_expr).
    assert (Us : forall r, le_opt (p_simple f r) (p_simple g r)) by (subst; intros; apply up_simple).
    assert (Ud : forall r, le_opt (p_decl f r) (p_decl g r)) by (subst; intros; apply up_decl).
    destruct (is_k "if" t).
    { apply le_bind; [apply Uc|]. intros [c r1]. apply le_bind; [apply I1|]. intros [s r2]. destruct (expect_k "else" r2); [|apply le_refl]. apply le_bind; [apply I1|]. intros [? ?]. apply le_refl. }
    destruct (is_k "while" t).
    { apply le_bind; [apply Uc|]. intros [c r1]. apply le_bind; [apply I1|]. intros [s r2]. apply le_refl. }
    destruct (is_k "for" t).
    { apply le_bind; [apply le_refl|]. intros r1. apply le_bind; [apply Ud|]. intros [[[[ty ptr] x] a] r2]. apply le_bind; [apply Ue|]. intros [b r3]. apply le_bind; [apply le_refl|]. intros r4.
      apply le_bind; [apply Us|]. intros [u r5]. apply le_bind; [apply le_refl|]. intros r6. apply le_bind; [apply I1|]. intros [s r7]. apply le_refl. }
    destruct (is_k "switch" t).
    { apply le_bind; [apply Uc|]. intros [c r1]. apply le_bind; [apply le_refl|]. intros r2. apply le_bind; [apply I3|]. intros [cs r3]. apply le_refl. }
    destruct (is_k "continue" t); [apply le_refl|]. destruct (is_k "break" t); [apply le_refl|].
    destruct (is_p "{" t).
    { apply le_bind; [apply I2|]. intros [ss r1]. apply le_refl. }
    apply le_bind; [apply Us|]. intros [s r1]. apply le_refl.
  - remember (S f) as g eqn:Eg. cbn [p_items]. rewrite Eg at 1. cbn [p_items]. rewrite <- ?Eg in *. destruct ts as [|t r]; [apply le_refl|].
    assert (Ud : forall r, le_opt (p_decl f r) (p_decl g r)) by (subst; intros; apply up_decl).
    destruct (is_p "}" t); [apply le_refl|]. destruct (is_t t).
    + apply le_bind; [apply Ud|]. intros [[[[ty ptr] x] a] r2]. apply le_bind; [apply I2|]. intros [? ?]. apply le_refl.
    + apply le_bind; [apply I1|]. intros [s r2]. apply le_bind; [apply I2|]. intros [? ?]. apply le_refl.
  - remember (S f) as g eqn:Eg. cbn [p_cases]. rewrite Eg at 1. cbn [p_cases]. rewrite <- ?Eg in *. destruct (expect_k "case" ts) as [r|]; [|apply le_refl].
    assert (Ue : forall r, le_opt (p_expr f 8 r) (p_expr g 8 r)) by (subst; intros; apply up_expr).
    apply le_bind; [apply Ue|]. intros [e r1]. apply le_bind; [apply le_refl|]. intros r2. apply le_bind; [apply I1|]. intros [s r3]. apply le_bind; [apply I3|]. intros [? ?]. apply le_refl.
Qed.
Lemma up_stmt ts f : le_opt (p_stmt f ts) (p_stmt (S f) ts). Proof. apply fuel_up_stmt. Qed.
Lemma up_items ts f : le_opt (p_items f ts) (p_items (S f) ts). Proof. apply fuel_up_stmt. Qed.
Lemma up_cases ts f : le_opt (p_cases f ts) (p_cases (S f) ts). Proof. apply fuel_up_stmt. Qed.

Lemma ends_const {A} (x : A) : ends (fun _ => Some x) x. Proof. exists 0. reflexivity. Qed.
Lemma cond_parses tc c rest : d_expr 8 tc c -> ends (fun f => p_cond f (punct "(" ++ tc ++ punct ")" ++ rest)) (c, rest).
Proof.
  intros D. apply (ends_bind (fun f => p_expr f 8 (tc ++ punct ")" ++ rest)) (fun f '(e, r) => bind (expect ")" r) (fun r => Some (e, r))) (c, punct ")" ++ rest));
    [intros; apply up_expr|intros; apply le_refl|apply expr_parses; auto|exists 0; reflexivity].
Qed.
(** Simple statements, up to ; or ) *)
Definition closing (r : list ctoken) : Prop := exists p r', r = KPunct p :: r' /\ In p [str ";"; str ")"].
Lemma closing_no r : closing r -> op_of r = None /\ expect "[" r = None /\ expect "(" r = None.
Proof. intros (p & r' & -> & [<-|[<-|[]]]); auto. Qed.
Lemma d_post_expr ts e : d_post ts e -> d_expr 8 ts e.
Proof. intros H. do 8 apply D_up. apply D_post. exact H. Qed.
Lemma simple_parses ts s rest : d_simple ts s -> closing rest -> ends (fun f => p_simple f (ts ++ rest)) (s, rest).
Proof.
  intros D C. pose proof (closing_no rest C) as (N1 & N2 & N3).
  set (k := fun f '(e, r) => match r with
    | KPunct p :: r' => if text_eqb p (str "++") then Some (CIncr e, r')
        else match assign_of p with Some o => bind (p_expr f 8 r') (fun '(b, r) => Some (CAssign o e b, r)) | None => Some (CDo e, r) end
    | _ => Some (CDo e, r) end).
  change (ends (fun f => bind (p_expr f 8 (ts ++ rest)) (k f)) (s, rest)).
  assert (Uk : forall a f, le_opt (k f a) (k (S f) a)).
  { intros [e r] f. unfold k. destruct r as [|[| | |p] r]; try apply le_refl. destruct (text_eqb p (str "++")); [apply le_refl|]. destruct (assign_of p); [|apply le_refl].
    apply (le_bind _ _ (p_expr f 8 r) (p_expr (S f) 8 r)); [apply up_expr|]. intros [b r']. apply le_refl. }
  destruct D as [o tl l tr r Ao Dl Dr|tl l Dl|te e De].
  - rewrite <- !app_assoc. apply (ends_bind _ k (l, [KPunct (assign_text o)] ++ tr ++ rest)); [intros; apply up_expr|apply Uk| |].
    + apply expr_parses; [apply d_post_expr; auto|..]; destruct o as [[]|]; cbn in Ao; first [reflexivity|exfalso; repeat (destruct Ao as [Ao|Ao]; [discriminate Ao|]); destruct Ao].
    + assert (E : text_eqb (assign_text o) (str "++") = false /\ assign_of (assign_text o) = Some o)
        by (destruct o as [[]|]; cbn in Ao; first [split; reflexivity|exfalso; repeat (destruct Ao as [Ao|Ao]; [discriminate Ao|]); destruct Ao]).
      destruct E as [E1 E2]. unfold k. cbn [app]. rewrite E1, E2.
      apply (ends_bind _ (fun f '(b, r) => Some (CAssign o l b, r)) (r, rest)); [intros; apply up_expr|intros; apply le_refl|apply expr_parses; auto|apply ends_const].
  - rewrite <- !app_assoc. apply (ends_bind _ k (l, punct "++" ++ rest)); [intros; apply up_expr|apply Uk|apply expr_parses; auto; apply d_post_expr; auto|]. exists 0. reflexivity.
  - apply (ends_bind _ k (e, rest)); [intros; apply up_expr|apply Uk|apply expr_parses; auto|]. destruct C as (p & r' & -> & [<-|[<-|[]]]); exists 0; reflexivity.
Qed.
Lemma decl_parses ty (ptr : bool) x te e rest : is_type ty -> ~ In x reserved -> d_expr 8 te e ->
  ends (fun f => p_decl f (map KId ty ++ (if ptr then punct "*" ++ keyword "restrict" else []) ++ [KId x] ++ punct "=" ++ te ++ punct ";" ++ rest)) ((ty, ptr, x, e), rest).
Proof.
  intros T N D. apply not_reserved_b in N. unfold p_decl. rewrite take_type_app; [|apply T|].
  2: { destruct ptr; [reflexivity|]. unfold no_type. cbn. apply reserved_b in N. tauto. }
  assert (X : ends (fun f => bind (p_expr f 8 (te ++ punct ";" ++ rest)) (fun '(e, r) => bind (expect ";" r) (fun r => Some ((ty, ptr, x, e), r)))) ((ty, ptr, x, e), rest)).
  { apply (ends_bind _ (fun f '(e, r) => bind (expect ";" r) (fun r => Some ((ty, ptr, x, e), r))) (e, punct ";" ++ rest)); [intros; apply up_expr|intros; apply le_refl|apply expr_parses; auto|exists 0; reflexivity]. }
  destruct ptr; exact X.
Qed.
Lemma expect_k_none s r : match r with t :: _ => is_k s t = false | [] => True end -> expect_k s r = None.
Proof. destruct r as [|t r]; auto. cbn [expect_k]. intros ->. reflexivity. Qed.

Scheme d_stmt_m := Minimality for d_stmt Sort Prop with d_items_m := Minimality for d_items Sort Prop with d_cases_m := Minimality for d_cases Sort Prop.
Combined Scheme s_mut from d_stmt_m, d_items_m, d_cases_m.
(** What a statement begins with *)
Definition sstarter (t : ctoken) : bool :=
  starter t || existsb (fun s => is_k s t) ["if"; "while"; "for"; "switch"; "continue"; "break"]%string || is_p "{" t.
Definition sstarts (ts : list ctoken) : Prop := match ts with t :: _ => sstarter t = true | [] => False end.
Lemma sstarts_app ts us : sstarts ts -> sstarts (ts ++ us).
Proof. destruct ts; [intros []|auto]. Qed.
Lemma starts_sstarts ts : starts ts -> sstarts ts.
Proof. destruct ts; auto. cbn [starts sstarts]. unfold sstarter. intros ->. reflexivity. Qed.
Lemma simple_starts ts s : d_simple ts s -> starts ts.
Proof. destruct 1 as [o tl l tr r A D1 D2|tl l D1|te e D1]; [apply starts_app; exact (proj1 (proj2 d_starts) _ _ D1)..|exact (proj1 d_starts _ _ _ D1)]. Qed.
Lemma stmt_starts b ts s : d_stmt b ts s -> sstarts ts.
Proof. destruct 1; try reflexivity. apply sstarts_app, starts_sstarts. eapply simple_starts; eauto. Qed.
Lemma sstarter_facts t : sstarter t = true -> is_k "else" t = false /\ is_k "case" t = false /\ is_p "}" t = false /\ is_t t = false.
Proof.
  unfold sstarter. intros H. apply orb_true_iff in H. destruct H as [H|H]; [apply orb_true_iff in H; destruct H as [H|H]|].
  - split; [|split; [|split; [|apply starter_no_type; auto]]].
    + destruct t; cbn [is_k]; auto. destruct (text_eqb x (str "else")) eqn:E; auto. apply teqb_eq in E. subst. vm_compute in H. discriminate H.
    + destruct t; cbn [is_k]; auto. destruct (text_eqb x (str "case")) eqn:E; auto. apply teqb_eq in E. subst. vm_compute in H. discriminate H.
    + destruct t; cbn [is_p]; auto. destruct (text_eqb p (str "}")) eqn:E; auto. apply teqb_eq in E. subst. vm_compute in H. discriminate H.
  - apply existsb_exists in H. destruct H as (s & I & E). destruct t; try discriminate E. cbn [is_k] in E. apply teqb_eq in E. subst.
    cbn in I. repeat (destruct I as [<-|I]; [repeat split; vm_compute; reflexivity|]). destruct I.
  - destruct t; try discriminate H. cbn [is_p] in H. apply teqb_eq in H. subst. repeat split.
Qed.
Lemma starter_dispatch t : starter t = true -> Forall (fun s => is_k s t = false) ["if"; "while"; "for"; "switch"; "continue"; "break"]%string /\ is_p "{" t = false.
Proof.
  intros H. split.
  - apply Forall_forall. intros s I. destruct t; cbn [is_k]; auto. destruct (text_eqb x (str s)) eqn:E; auto. apply teqb_eq in E. subst.
    cbn in I. repeat (destruct I as [<-|I]; [vm_compute in H; discriminate H|]). destruct I.
  - destruct t; cbn [is_p]; auto. destruct (text_eqb p (str "{")) eqn:E; auto. apply teqb_eq in E. subst. vm_compute in H. discriminate H.
Qed.
Definition no_else (r : list ctoken) : Prop := expect_k "else" r = None.
Definition item_end (r : list ctoken) : Prop := r = [] \/ exists r', r = punct "}" ++ r'.
Lemma item_end_no_else r : item_end r -> no_else r.
Proof. intros [->|[r' ->]]; reflexivity. Qed.
Lemma decl_head td d us : d_decl td d -> exists t r, td ++ us = t :: r /\ is_t t = true /\ is_p "}" t = false /\ is_k "else" t = false.
Proof.
  destruct 1 as [ty ptr x te e [T I] _ _]. destruct ty as [|w ty]; [congruence|]. exists (KId w). cbn [map app]. eexists. split; [reflexivity|].
  specialize (I w (or_introl eq_refl)). split; [apply type_word_in; auto|]. split; [reflexivity|]. cbn [is_k]. destruct (text_eqb w (str "else")) eqn:E; auto. apply teqb_eq in E. subst.
  vm_compute in I. repeat (destruct I as [I|I]; [discriminate I|]). destruct I.
Qed.
Lemma items_no_else ts ss rest : d_items ts ss -> item_end rest -> no_else (ts ++ rest).
Proof.
  intros D E. destruct D as [|td d ts ss D _|b t s ts ss D _].
  - apply item_end_no_else. exact E.
  - rewrite <- app_assoc. destruct (decl_head td d (ts ++ rest) D) as (t & r & -> & _ & _ & X). apply expect_k_none. exact X.
  - apply stmt_starts in D. destruct t as [|t0 t]; [destruct D|]. cbn [app]. apply expect_k_none. apply sstarter_facts. exact D.
Qed.
Lemma cases_no_else ts cs rest : d_cases ts cs -> no_else (ts ++ punct "}" ++ rest).
Proof. destruct 1; reflexivity. Qed.
Definition Q_stmt (b : bool) (ts : list ctoken) (s : cstmt) : Prop :=
  forall rest, (b = false -> no_else rest) -> ends (fun f => p_stmt f (ts ++ rest)) (s, rest).
Definition Q_items (ts : list ctoken) (ss : list cstmt) : Prop := forall rest, item_end rest -> ends (fun f => p_items f (ts ++ rest)) (ss, rest).
Definition Q_cases (ts : list ctoken) (cs : list (cexpr * cstmt)) : Prop := forall rest, ends (fun f => p_cases f (ts ++ punct "}" ++ rest)) (cs, punct "}" ++ rest).
Lemma stmts_parse : (forall b ts s, d_stmt b ts s -> Q_stmt b ts s) /\ (forall ts ss, d_items ts ss -> Q_items ts ss) /\ (forall ts cs, d_cases ts cs -> Q_cases ts cs).
Proof.
  apply s_mut.
  - (* simple *)
    intros b ts s D rest _. rewrite <- app_assoc. apply (ends_step _ (fun f => bind (p_simple f (ts ++ punct ";" ++ rest)) (fun '(s, r) => bind (expect ";" r) (fun r => Some (s, r))))).
    + intros f. pose proof (simple_starts ts s D) as St. destruct ts as [|t ts]; [destruct St|]. cbn [starts] in St. destruct (starter_dispatch t St) as [F B].
      inversion F as [|? ? F1 F']; subst. inversion F' as [|? ? F2 F'']; subst. inversion F'' as [|? ? F3 F''']; subst. inversion F''' as [|? ? F4 F4']; subst. inversion F4' as [|? ? F5 F5']; subst. inversion F5' as [|? ? F6 F6']; subst.
      cbn [app p_stmt]. rewrite F1, F2, F3, F4, F5, F6, B. reflexivity.
    + apply (ends_bind _ (fun f '(s, r) => bind (expect ";" r) (fun r => Some (s, r))) (s, punct ";" ++ rest)); [intros; apply up_simple|intros; apply le_refl| |exists 0; reflexivity].
      apply simple_parses; auto. exists (str ";"), rest. split; [reflexivity|cbn; auto].
  - (* if *)
    intros b tc c ts s Dc Ds Qs rest NE. specialize (NE eq_refl). rewrite <- !app_assoc.
    set (k2 := fun c f '(s, r) => match expect_k "else" r with
            | Some r => bind (p_stmt f r) (fun '(e, r) => Some (CIf c s (Some e), r))
            | None => Some (CIf c s None, r)
            end).
    apply (ends_step _ (fun f => bind (p_cond f (punct "(" ++ tc ++ punct ")" ++ ts ++ rest)) (fun '(c, r) => bind (p_stmt f r) (k2 c f)))); [reflexivity|].
    apply (ends_bind _ (fun f '(c, r) => bind (p_stmt f r) (k2 c f)) (c, ts ++ rest)); [intros; apply up_cond| |apply cond_parses; auto|].
    + intros f. apply le_bind; [apply up_stmt|]. intros [s' r']. unfold k2. destruct (expect_k "else" r') as [r''|]; [|apply le_refl]. apply (le_bind _ _ (p_stmt f r'') (p_stmt (S f) r'')); [apply up_stmt|intros [? ?]; apply le_refl].
    + apply (ends_bind _ (k2 c) (s, rest)); [intros; apply up_stmt| |apply Qs; auto|].
      * intros f. unfold k2. rewrite NE. apply le_refl.
      * unfold k2. rewrite NE. apply ends_const.
  - (* if else *)
    intros b tc c ts s te e Dc Ds Qs De Qe rest NE. rewrite <- !app_assoc.
    set (k2 := fun c f '(s, r) => match expect_k "else" r with
            | Some r => bind (p_stmt f r) (fun '(e, r) => Some (CIf c s (Some e), r))
            | None => Some (CIf c s None, r)
            end).
    assert (Uk : forall c a f, le_opt (k2 c f a) (k2 c (S f) a)).
    { intros c' [s' r'] f. unfold k2. destruct (expect_k "else" r') as [r''|]; [|apply le_refl]. apply (le_bind _ _ (p_stmt f r'') (p_stmt (S f) r'')); [apply up_stmt|intros [? ?]; apply le_refl]. }
    apply (ends_step _ (fun f => bind (p_cond f (punct "(" ++ tc ++ punct ")" ++ ts ++ keyword "else" ++ te ++ rest)) (fun '(c, r) => bind (p_stmt f r) (k2 c f)))); [reflexivity|].
    apply (ends_bind _ (fun f '(c, r) => bind (p_stmt f r) (k2 c f)) (c, ts ++ keyword "else" ++ te ++ rest)); [intros; apply up_cond| |apply cond_parses; auto|].
    + intros f. apply le_bind; [apply up_stmt|]. intros z; apply Uk.
    + apply (ends_bind _ (k2 c) (s, keyword "else" ++ te ++ rest)); [intros; apply up_stmt|apply Uk|apply Qs; discriminate|].
      change (ends (fun f => bind (p_stmt f (te ++ rest)) (fun '(e, r) => Some (CIf c s (Some e), r))) (CIf c s (Some e), rest)).
      apply (ends_bind _ (fun f '(e, r) => Some (CIf c s (Some e), r)) (e, rest)); [intros; apply up_stmt|intros; apply le_refl|apply Qe; auto|apply ends_const].
  - (* while *)
    intros b tc c ts s Dc Ds Qs rest NE. rewrite <- !app_assoc.
    apply (ends_step _ (fun f => bind (p_cond f (punct "(" ++ tc ++ punct ")" ++ ts ++ rest)) (fun '(c, r) => bind (p_stmt f r) (fun '(s, r) => Some (CWhile c s, r))))); [reflexivity|].
    apply (ends_bind _ (fun f '(c, r) => bind (p_stmt f r) (fun '(s, r) => Some (CWhile c s, r))) (c, ts ++ rest)); [intros; apply up_cond| |apply cond_parses; auto|].
    + intros f. apply le_bind; [apply up_stmt|intros; apply le_refl].
    + apply (ends_bind _ (fun f '(s, r) => Some (CWhile c s, r)) (s, rest)); [intros; apply up_stmt|intros; apply le_refl|apply Qs; auto|apply ends_const].
  - (* for *)
    intros b ty x ta a tb bb tu u ts s T N Da Db Du Ds Qs rest NE. rewrite <- !app_assoc.
    set (k5 := fun ty x a b u (f : nat) '(s, r) => Some (CFor ty x a b u s, r) : option (cstmt * list ctoken)).
    set (k4 := fun ty x a b f '(u, r) => bind (expect ")" r) (fun r => bind (p_stmt f r) (k5 ty x a b u f))).
    set (k3 := fun ty x a f '(b, r) => bind (expect ";" r) (fun r => bind (p_simple f r) (k4 ty x a b f))).
    set (k1 := fun f (z : (list text * bool * text * cexpr) * list ctoken) => let '(ty, ptr, x, a, r) := z in bind (p_expr f 8 r) (k3 ty x a f)).
    assert (U5 : forall ty x a b u z f, le_opt (k5 ty x a b u f z) (k5 ty x a b u (S f) z)) by (intros; apply le_refl).
    assert (U4 : forall ty x a b z f, le_opt (k4 ty x a b f z) (k4 ty x a b (S f) z)) by (intros ? ? ? ? [? ?] f; apply le_bind; [apply le_refl|]; intros; apply le_bind; [apply up_stmt|intros; apply U5]).
    assert (U3 : forall ty x a z f, le_opt (k3 ty x a f z) (k3 ty x a (S f) z)) by (intros ? ? ? [? ?] f; apply le_bind; [apply le_refl|]; intros; apply le_bind; [apply up_simple|intros; apply U4]).
    assert (U1 : forall z f, le_opt (k1 f z) (k1 (S f) z)) by (intros [[[[? ?] ?] ?] ?] f; apply le_bind; [apply up_expr|intros; apply U3]).
    apply (ends_step _ (fun f => bind (p_decl f (map KId ty ++ [KId x] ++ punct "=" ++ ta ++ punct ";" ++ tb ++ punct ";" ++ tu ++ punct ")" ++ ts ++ rest)) (k1 f))); [reflexivity|].
    apply (ends_bind _ k1 (ty, false, x, a, tb ++ punct ";" ++ tu ++ punct ")" ++ ts ++ rest)); [intros; apply up_decl|apply U1|exact (decl_parses ty false x ta a _ T N Da)|].
    apply (ends_bind _ (k3 ty x a) (bb, punct ";" ++ tu ++ punct ")" ++ ts ++ rest)); [intros; apply up_expr|apply U3|apply expr_parses; auto|].
    apply (ends_bind (fun f => p_simple f (tu ++ punct ")" ++ ts ++ rest)) (k4 ty x a bb) (u, punct ")" ++ ts ++ rest)); [intros; apply up_simple|apply U4| |].
    + apply simple_parses; auto. exists (str ")"). eexists. split; [reflexivity|cbn; auto].
    + apply (ends_bind (fun f => p_stmt f (ts ++ rest)) (k5 ty x a bb u) (s, rest)); [intros; apply up_stmt|apply U5|apply Qs; auto|apply ends_const].
  - (* switch *)
    intros b te e tcs cs De Dc Qc rest NE. rewrite <- !app_assoc.
    set (k2 := fun (e : cexpr) (f : nat) '(cs, r) => bind (expect "}" r) (fun r => Some (CSwitch e cs, r))).
    set (k1 := fun f '(e, r) => bind (expect "{" r) (fun r => bind (p_cases f r) (k2 e f))).
    assert (U1 : forall z f, le_opt (k1 f z) (k1 (S f) z)) by (intros [? ?] f; apply le_bind; [apply le_refl|]; intros; apply le_bind; [apply up_cases|intros; apply le_refl]).
    apply (ends_step _ (fun f => bind (p_cond f (punct "(" ++ te ++ punct ")" ++ punct "{" ++ tcs ++ punct "}" ++ rest)) (k1 f))); [reflexivity|].
    apply (ends_bind _ k1 (e, punct "{" ++ tcs ++ punct "}" ++ rest)); [intros; apply up_cond|apply U1|apply cond_parses; auto|].
    apply (ends_bind (fun f => p_cases f (tcs ++ punct "}" ++ rest)) (k2 e) (cs, punct "}" ++ rest)); [intros; apply up_cases|intros; apply le_refl|apply Qc|exists 0; reflexivity].
  - (* block *)
    intros b ts ss D Q rest NE. rewrite <- !app_assoc.
    apply (ends_step _ (fun f => bind (p_items f (ts ++ punct "}" ++ rest)) (fun '(ss, r) => bind (expect "}" r) (fun r => Some (CBlock ss, r))))); [reflexivity|].
    apply (ends_bind _ (fun f '(ss, r) => bind (expect "}" r) (fun r => Some (CBlock ss, r))) (ss, punct "}" ++ rest)); [intros; apply up_items|intros; apply le_refl|apply Q; right; eauto|exists 0; reflexivity].
  - intros b rest NE. apply ends_now. reflexivity.
  - intros b rest NE. apply ends_now. reflexivity.
  - intros rest [->|[r ->]]; apply ends_now; reflexivity.
  - (* declarations *)
    intros td d ts ss D Di Q rest E. rewrite <- app_assoc. destruct (decl_head td d (ts ++ rest) D) as (t & r & Et & It & Ip & _).
    apply (ends_step _ (fun f => bind (p_decl f (td ++ ts ++ rest)) (fun '(ty, ptr, x, e, r) => bind (p_items f r) (fun '(ss, r) => Some (CDecl ty ptr x e :: ss, r))))).
    + intros f. cbn [p_items]. rewrite Et, It, Ip. reflexivity.
    + destruct D as [ty ptr x te e T N De].
      apply (ends_bind _ (fun f '(ty, ptr, x, e, r) => bind (p_items f r) (fun '(ss, r) => Some (CDecl ty ptr x e :: ss, r))) (ty, ptr, x, e, ts ++ rest)); [intros; apply up_decl| | |].
      * intros f. apply le_bind; [apply up_items|intros; apply le_refl].
      * rewrite <- !app_assoc. apply decl_parses; auto.
      * apply (ends_bind _ (fun f '(ss, r) => Some (CDecl ty ptr x e :: ss, r)) (ss, rest)); [intros; apply up_items|intros; apply le_refl|apply Q; auto|apply ends_const].
  - (* statements *)
    intros b t s ts ss D Qs Di Q rest E. rewrite <- app_assoc. pose proof (stmt_starts b t s D) as St.
    apply (ends_step _ (fun f => bind (p_stmt f (t ++ ts ++ rest)) (fun '(s, r) => bind (p_items f r) (fun '(ss, r) => Some (s :: ss, r))))).
    + intros f. destruct t as [|t0 t]; [destruct St|]. destruct (sstarter_facts t0 St) as (_ & _ & F1 & F2). cbn [app p_items]. rewrite F1, F2. reflexivity.
    + apply (ends_bind _ (fun f '(s, r) => bind (p_items f r) (fun '(ss, r) => Some (s :: ss, r))) (s, ts ++ rest)); [intros; apply up_stmt| | |].
      * intros f. apply le_bind; [apply up_items|intros; apply le_refl].
      * apply Qs. intros _. eapply items_no_else; eauto.
      * apply (ends_bind _ (fun f '(ss, r) => Some (s :: ss, r)) (ss, rest)); [intros; apply up_items|intros; apply le_refl|apply Q; auto|apply ends_const].
  - intros rest. apply ends_now. reflexivity.
  - (* cases *)
    intros b te e t s ts cs De D Qs Dc Qc rest. rewrite <- !app_assoc.
    set (k3 := fun (e : cexpr) (s : cstmt) (f : nat) '(cs, r) => Some ((e, s) :: cs, r) : option (list (cexpr * cstmt) * list ctoken)).
    set (k2 := fun e f '(s, r) => bind (p_cases f r) (k3 e s f)).
    set (k1 := fun f '(e, r) => bind (expect ":" r) (fun r => bind (p_stmt f r) (k2 e f))).
    assert (U2 : forall e z f, le_opt (k2 e f z) (k2 e (S f) z)) by (intros ? [? ?] f; apply le_bind; [apply up_cases|intros; apply le_refl]).
    assert (U1 : forall z f, le_opt (k1 f z) (k1 (S f) z)) by (intros [? ?] f; apply le_bind; [apply le_refl|]; intros; apply le_bind; [apply up_stmt|intros; apply U2]).
    apply (ends_step _ (fun f => bind (p_expr f 8 (te ++ punct ":" ++ t ++ ts ++ punct "}" ++ rest)) (k1 f))); [reflexivity|].
    apply (ends_bind _ k1 (e, punct ":" ++ t ++ ts ++ punct "}" ++ rest)); [intros; apply up_expr|apply U1|apply expr_parses; auto|].
    apply (ends_bind (fun f => p_stmt f (t ++ ts ++ punct "}" ++ rest)) (k2 e) (s, ts ++ punct "}" ++ rest)); [intros; apply up_stmt|apply U2| |].
    + apply Qs. intros _. eapply cases_no_else; eauto.
    + apply (ends_bind (fun f => p_cases f (ts ++ punct "}" ++ rest)) (k3 e s) (cs, punct "}" ++ rest)); [intros; apply up_cases|intros; apply le_refl|apply Qc|apply ends_const].
Qed.
Lemma items_unique ts cs cs' : d_items ts cs -> d_items ts cs' -> cs = cs'.
Proof.
  intros D D'. pose proof (proj1 (proj2 stmts_parse) ts cs D [] (or_introl eq_refl)) as A. pose proof (proj1 (proj2 stmts_parse) ts cs' D' [] (or_introl eq_refl)) as B.
  pose proof (ends_inj _ _ _ (up_items (ts ++ [])) A B) as X. congruence.
Qed.
