(** Lemmas for C52: the grammar is unambiguous.  A parser by recursive descent finds any
    program that a list of tokens is derived from; it is only used in this proof. *)
From Coq Require Import String List Bool Ascii Arith Lia.
From Verif Require Import Parser PrintC PrintCSpec.
Import ListNotations.
Local Open Scope nat_scope.

Lemma teqb_refl x : text_eqb x x = true.
Proof. unfold text_eqb. destruct (list_eq_dec ascii_dec x x); congruence. Qed.
Lemma teqb_eq x y : text_eqb x y = true -> x = y.
Proof. unfold text_eqb. destruct (list_eq_dec ascii_dec x y); congruence. Qed.
Lemma teqb_neq x y : x <> y -> text_eqb x y = false.
Proof. unfold text_eqb. destruct (list_eq_dec ascii_dec x y); congruence. Qed.

Definition bind {A B} (x : option A) (k : A -> option B) : option B := match x with Some a => k a | None => None end.
Definition is_p (s : string) (t : ctoken) : bool := match t with KPunct p => text_eqb p (str s) | _ => false end.
Definition is_k (s : string) (t : ctoken) : bool := match t with KId x => text_eqb x (str s) | _ => false end.
Definition expect (s : string) (ts : list ctoken) : option (list ctoken) :=
  match ts with t :: r => if is_p s t then Some r else None | [] => None end.
Definition type_word (x : text) : bool := existsb (text_eqb x) type_words.
Definition is_t (t : ctoken) : bool := match t with KId x => type_word x | _ => false end.
Definition head_type (ts : list ctoken) : bool := match ts with t :: _ => is_t t | [] => false end.
Fixpoint take_type (ts : list ctoken) : list text * list ctoken :=
  match ts with
  | KId x :: r => if type_word x then let '(ty, r) := take_type r in (x :: ty, r) else ([], ts)
  | _ => ([], ts)
  end.
Definition take_star (ts : list ctoken) : bool * list ctoken :=
  match expect "*" ts with Some r => (true, r) | None => (false, ts) end.
Definition operators := [Add; Sub; Mul; Div; Rem; BitAnd; BitOr; Eq; Neq; Gt; Lt; Gte; Lte; And; Or].
Definition op_of (ts : list ctoken) : option (binop * list ctoken) :=
  match ts with
  | KPunct p :: r => match find (fun o => text_eqb (op_text o) p) operators with Some o => Some (o, r) | None => None end
  | _ => None
  end.
Definition assign_of (p : text) : option (option binop) :=
  find (fun o => text_eqb (assign_text o) p) [None; Some Add; Some Sub; Some Mul; Some Div; Some Rem; Some BitAnd; Some BitOr].

Fixpoint p_expr (f n : nat) (ts : list ctoken) : option (cexpr * list ctoken) :=
  match f with O => None | S f =>
    match n with
    | O => p_un f ts
    | S m => bind (p_expr f m ts) (fun '(e, r) => p_loop f (S m) e r)
    end
  end
with p_loop (f n : nat) (e : cexpr) (ts : list ctoken) : option (cexpr * list ctoken) :=
  match f with O => None | S f =>
    match op_of ts with
    | Some (o, r) => if level o =? n then bind (p_expr f (n - 1) r) (fun '(b, r) => p_loop f n (CBin o e b) r) else Some (e, ts)
    | None => Some (e, ts)
    end
  end
with p_un (f : nat) (ts : list ctoken) : option (cexpr * list ctoken) :=
  match f with O => None | S f =>
    match ts with
    | [] => None
    | t :: r =>
        if is_p "-" t then bind (p_expr f 0 r) (fun '(e, r) => Some (CMinus e, r))
        else if is_p "!" t then bind (p_expr f 0 r) (fun '(e, r) => Some (CNot e, r))
        else if is_k "sizeof" t then bind (expect "(" r) (fun r => let '(ty, r) := take_type r in bind (expect ")" r) (fun r => Some (CSizeof ty, r)))
        else if is_p "(" t && head_type r then
          let '(ty, r) := take_type r in let '(ptr, r) := take_star r in
          bind (expect ")" r) (fun r => bind (p_expr f 0 r) (fun '(e, r) => Some (CCast ty ptr e, r)))
        else p_prim f ts
    end
  end
with p_prim (f : nat) (ts : list ctoken) : option (cexpr * list ctoken) :=
  match f with O => None | S f =>
    match ts with
    | KNum n :: r => p_post f (CNum n) r
    | KStr s :: r => p_post f (CStr s) r
    | KId x :: r =>
        match expect "(" r with
        | Some r => bind (p_args f r) (fun '(es, r) => bind (expect ")" r) (fun r => p_post f (CCall x es) r))
        | None => p_post f (CId x) r
        end
    | KPunct p :: r => bind (expect "(" ts) (fun r => bind (p_expr f 8 r) (fun '(e, r) => bind (expect ")" r) (fun r => p_post f e r)))
    | [] => None
    end
  end
with p_post (f : nat) (e : cexpr) (ts : list ctoken) : option (cexpr * list ctoken) :=
  match f with O => None | S f =>
    match expect "[" ts with
    | Some r => bind (p_expr f 8 r) (fun '(i, r) => bind (expect "]" r) (fun r => p_post f (CIndex e i) r))
    | None => Some (e, ts)
    end
  end
with p_args (f : nat) (ts : list ctoken) : option (list cexpr * list ctoken) :=
  match f with O => None | S f =>
    match expect ")" ts with Some _ => Some ([], ts) | None => p_list f ts end
  end
with p_list (f : nat) (ts : list ctoken) : option (list cexpr * list ctoken) :=
  match f with O => None | S f =>
    bind (p_expr f 8 ts) (fun '(e, r) =>
      match expect "," r with Some r => bind (p_list f r) (fun '(es, r) => Some (e :: es, r)) | None => Some ([e], r) end)
  end.

(** More fuel does no harm. *)
Definition le_opt {A} (a b : option A) : Prop := forall x, a = Some x -> b = Some x.
Lemma le_refl A (a : option A) : le_opt a a. Proof. intros x H; exact H. Qed.
Lemma le_none A (b : option A) : le_opt None b. Proof. intros x H; discriminate. Qed.
Lemma le_bind A B (a a' : option A) (k k' : A -> option B) : le_opt a a' -> (forall x, le_opt (k x) (k' x)) -> le_opt (bind a k) (bind a' k').
Proof. intros H K. destruct a as [a|]; [|apply le_none]. rewrite (H a eq_refl). apply K. Qed.
Lemma fuel_up : forall f,
  (forall n ts, le_opt (p_expr f n ts) (p_expr (S f) n ts)) /\ (forall n e ts, le_opt (p_loop f n e ts) (p_loop (S f) n e ts)) /\
  (forall ts, le_opt (p_un f ts) (p_un (S f) ts)) /\ (forall ts, le_opt (p_prim f ts) (p_prim (S f) ts)) /\
  (forall e ts, le_opt (p_post f e ts) (p_post (S f) e ts)) /\ (forall ts, le_opt (p_args f ts) (p_args (S f) ts)) /\
  (forall ts, le_opt (p_list f ts) (p_list (S f) ts)).
Proof.
  induction f as [|f (I1 & I2 & I3 & I4 & I5 & I6 & I7)].
  - repeat split; intros; apply le_none.
  - repeat split; intros.
    + change (le_opt (match n with O => p_un f ts | S m => bind (p_expr f m ts) (fun '(e, r) => p_loop f (S m) e r) end)
               (match n with O => p_un (S f) ts | S m => bind (p_expr (S f) m ts) (fun '(e, r) => p_loop (S f) (S m) e r) end)).
      destruct n; [apply I3|]. apply le_bind; [apply I1|]. intros [e r]. apply I2.
    + cbn [p_loop]. destruct (op_of ts) as [[o r]|]; [|apply le_refl]. destruct (level o =? n); [|apply le_refl].
      apply (le_bind _ _ (p_expr f (n - 1) r) (p_expr (S f) (n - 1) r)); [apply I1|]. intros [b r']. apply I2.
    + cbn [p_un]. destruct ts as [|t r]; [apply le_refl|].
      destruct (is_p "-" t); [apply (le_bind _ _ (p_expr f 0 r) (p_expr (S f) 0 r)); [apply I1|]; intros [? ?]; apply le_refl|].
      destruct (is_p "!" t); [apply (le_bind _ _ (p_expr f 0 r) (p_expr (S f) 0 r)); [apply I1|]; intros [? ?]; apply le_refl|].
      destruct (is_k "sizeof" t); [apply le_refl|]. destruct (is_p "(" t && head_type r); [|apply I4].
      destruct (take_type r) as [ty r1]. destruct (take_star r1) as [ptr r2]. apply le_bind; [apply le_refl|]. intros r3.
      apply (le_bind _ _ (p_expr f 0 r3) (p_expr (S f) 0 r3)); [apply I1|]; intros [? ?]; apply le_refl.
    + cbn [p_prim]. destruct ts as [|[x|n|s|p] r]; [apply le_refl| |apply I5|apply I5|].
      * destruct (expect "(" r) as [r1|]; [|apply I5]. apply (le_bind _ _ (p_args f r1) (p_args (S f) r1)); [apply I6|]. intros [es r2].
        apply le_bind; [apply le_refl|]. intros r3. apply I5.
      * apply le_bind; [apply le_refl|]. intros r1. apply (le_bind _ _ (p_expr f 8 r1) (p_expr (S f) 8 r1)); [apply I1|]. intros [e r2].
        apply le_bind; [apply le_refl|]. intros r3. apply I5.
    + cbn [p_post]. destruct (expect "[" ts) as [r1|]; [|apply le_refl]. apply (le_bind _ _ (p_expr f 8 r1) (p_expr (S f) 8 r1)); [apply I1|]. intros [i r2].
      apply le_bind; [apply le_refl|]. intros r3. apply I5.
    + cbn [p_args]. destruct (expect ")" ts); [apply le_refl|apply I7].
    + cbn [p_list]. apply (le_bind _ _ (p_expr f 8 ts) (p_expr (S f) 8 ts)); [apply I1|]. intros [e r]. destruct (expect "," r) as [r1|]; [|apply le_refl].
      apply (le_bind _ _ (p_list f r1) (p_list (S f) r1)); [apply I7|]. intros [es r2]. apply le_refl.
Qed.
Lemma up {A} (p : nat -> option A) : (forall f, le_opt (p f) (p (S f))) -> forall f g x, f <= g -> p f = Some x -> p g = Some x.
Proof. intros H f g x L E. induction L; auto. apply H. auto. Qed.
Definition ends {A} (p : nat -> option A) (x : A) : Prop := exists f, p f = Some x.
Lemma ends_inj {A} (p : nat -> option A) x y : (forall f, le_opt (p f) (p (S f))) -> ends p x -> ends p y -> x = y.
Proof.
  intros H [f E] [g F]. apply (up p H f (max f g)) in E; [|lia]. apply (up p H g (max f g)) in F; [|lia]. congruence.
Qed.
Lemma up_expr n ts f : le_opt (p_expr f n ts) (p_expr (S f) n ts). Proof. apply fuel_up. Qed.
Lemma up_loop n e ts f : le_opt (p_loop f n e ts) (p_loop (S f) n e ts). Proof. apply fuel_up. Qed.
Lemma up_un ts f : le_opt (p_un f ts) (p_un (S f) ts). Proof. apply fuel_up. Qed.
Lemma up_prim ts f : le_opt (p_prim f ts) (p_prim (S f) ts). Proof. apply fuel_up. Qed.
Lemma up_post e ts f : le_opt (p_post f e ts) (p_post (S f) e ts). Proof. apply fuel_up. Qed.
Lemma up_args ts f : le_opt (p_args f ts) (p_args (S f) ts). Proof. apply fuel_up. Qed.
Lemma up_list ts f : le_opt (p_list f ts) (p_list (S f) ts). Proof. apply fuel_up. Qed.
(** One step *)
Lemma ends_step {A} (p q : nat -> option A) x : (forall f, p (S f) = q f) -> ends q x -> ends p x.
Proof. intros H [f E]. exists (S f). rewrite H. exact E. Qed.
Lemma ends_now {A} (p : nat -> option A) x : (forall f, p (S f) = Some x) -> ends p x.
Proof. intros H. exists 1. apply H. Qed.
Lemma ends_bind {A B} (p : nat -> option A) (k : nat -> A -> option B) a x :
  (forall f, le_opt (p f) (p (S f))) -> (forall f, le_opt (k f a) (k (S f) a)) ->
  ends p a -> ends (fun f => k f a) x -> ends (fun f => bind (p f) (k f)) x.
Proof.
  intros U V [f E] [g F]. exists (max f g). rewrite (up p U f (max f g) a) by (auto; lia).
  cbn [bind]. apply (up (fun f => k f a) V g (max f g)); [lia|exact F].
Qed.

(** What an expression begins with *)
Definition starter (t : ctoken) : bool :=
  match t with
  | KId x => text_eqb x (str "sizeof") || negb (existsb (text_eqb x) reserved)
  | KPunct p => text_eqb p (str "-") || text_eqb p (str "!") || text_eqb p (str "(")
  | _ => true
  end.
Definition starts (ts : list ctoken) : Prop := match ts with t :: _ => starter t = true | [] => False end.
Scheme d_expr_m := Minimality for d_expr Sort Prop with d_post_m := Minimality for d_post Sort Prop
  with d_args_m := Minimality for d_args Sort Prop with d_list_m := Minimality for d_list Sort Prop.
Combined Scheme d_mut from d_expr_m, d_post_m, d_args_m, d_list_m.
Lemma not_reserved_b x : ~ In x reserved -> existsb (text_eqb x) reserved = false.
Proof. intros H. destruct (existsb (text_eqb x) reserved) eqn:E; auto. apply existsb_exists in E. destruct E as (y & I & E). apply teqb_eq in E. subst. tauto. Qed.
Lemma starts_app ts us : starts ts -> starts (ts ++ us).
Proof. destruct ts; [intros []|auto]. Qed.
Lemma d_starts : (forall n ts e, d_expr n ts e -> starts ts) /\ (forall ts e, d_post ts e -> starts ts) /\ (forall ts es, d_args ts es -> True) /\ (forall ts es, d_list ts es -> starts ts).
Proof.
  apply d_mut; intros; auto using starts_app; try reflexivity; cbn [starts starter app]; rewrite ?not_reserved_b, ?orb_true_r by auto; reflexivity.
Qed.
Lemma reserved_b x : existsb (text_eqb x) reserved = false -> type_word x = false /\ existsb (text_eqb x) keywords = false.
Proof. unfold reserved. rewrite existsb_app. intros H. apply orb_false_iff in H. unfold type_word. tauto. Qed.
Lemma starter_no_type t : starter t = true -> is_t t = false.
Proof.
  destruct t; cbn [starter is_t]; auto. intros H. apply orb_true_iff in H. destruct H as [H|H].
  - apply teqb_eq in H. subst. vm_compute. reflexivity.
  - apply negb_true_iff in H. apply reserved_b in H. tauto.
Qed.
Lemma starts_no_type ts us : starts ts -> head_type (ts ++ us) = false.
Proof. destruct ts; [intros []|]. apply starter_no_type. Qed.
Lemma starts_no s ts us : starts ts -> starter (KPunct (str s)) = false -> expect s (ts ++ us) = None.
Proof.
  destruct ts as [|t ts]; [intros []|]. intros H N. cbn [app expect]. destruct t; cbn [is_p]; auto. destruct (text_eqb p (str s)) eqn:E; auto.
  apply teqb_eq in E. subst. cbn [starts] in H. congruence.
Qed.
Lemma type_word_in x : In x type_words -> type_word x = true.
Proof. intros H. apply existsb_exists. exists x. split; auto. apply teqb_refl. Qed.
Definition no_type (r : list ctoken) : Prop := head_type r = false.
Lemma take_type_app ty r : incl ty type_words -> no_type r -> take_type (map KId ty ++ r) = (ty, r).
Proof.
  intros I N. induction ty as [|x ty IH]; cbn [map app].
  - destruct r as [|[x| | |] r]; auto. cbn in *. unfold no_type in N. cbn in N. rewrite N. reflexivity.
  - cbn [take_type]. rewrite type_word_in by (apply I; left; reflexivity). rewrite IH; auto. intros y Hy. apply I. right. exact Hy.
Qed.
Lemma type_head ty r : is_type ty -> head_type (map KId ty ++ r) = true.
Proof. intros [N I]. destruct ty as [|x ty]; [congruence|]. cbn. apply type_word_in, I. left. reflexivity. Qed.

(** What may follow an expression *)
Definition stop (n : nat) (r : list ctoken) : Prop :=
  expect "[" r = None /\ expect "(" r = None /\ forall o r', op_of r = Some (o, r') -> n <= level o.
Lemma op_of_op o r : op_of (KPunct (op_text o) :: r) = Some (o, r).
Proof. destruct o; reflexivity. Qed.
Lemma stop_op o n r : level o = S n -> stop (S n) (KPunct (op_text o) :: r) /\ stop n (KPunct (op_text o) :: r).
Proof.
  intros L. split; (split; [destruct o; reflexivity|]; split; [destruct o; reflexivity|]); intros o' r' H; rewrite op_of_op in H; injection H; intros; subst; lia.
Qed.
Lemma stop_p n p r : op_of (KPunct p :: r) = None -> is_p "[" (KPunct p) = false -> is_p "(" (KPunct p) = false -> stop n (KPunct p :: r).
Proof. intros O A B. split; [cbn [expect]; rewrite A; reflexivity|]. split; [cbn [expect]; rewrite B; reflexivity|]. rewrite O. discriminate. Qed.
Ltac stops := apply stop_p; reflexivity.
Definition P_expr (n : nat) (ts : list ctoken) (e : cexpr) : Prop :=
  forall rest x, stop n rest -> ends (fun f => p_loop f n e rest) x -> ends (fun f => p_expr f n (ts ++ rest)) x.
Definition P_post (ts : list ctoken) (e : cexpr) : Prop :=
  (forall rest x, expect "(" rest = None -> ends (fun f => p_post f e rest) x -> ends (fun f => p_prim f (ts ++ rest)) x) /\
  (forall rest f, p_un (S f) (ts ++ rest) = p_prim f (ts ++ rest)).
Definition P_args (ts : list ctoken) (es : list cexpr) : Prop :=
  forall rest, ends (fun f => p_args f (ts ++ punct ")" ++ rest)) (es, punct ")" ++ rest).
Definition P_list (ts : list ctoken) (es : list cexpr) : Prop :=
  forall rest, ends (fun f => p_list f (ts ++ punct ")" ++ rest)) (es, punct ")" ++ rest).
Lemma loop_stops n e r : (forall o r', op_of r = Some (o, r') -> S n <= level o) -> ends (fun f => p_loop f n e r) (e, r).
Proof.
  intros H. apply ends_now. intros f. cbn [p_loop]. destruct (op_of r) as [[o r']|]; auto. specialize (H o r' eq_refl).
  destruct (Nat.eqb_spec (level o) n); auto. lia.
Qed.
Lemma op_le8 o : 1 <= level o <= 8. Proof. destruct o; cbn; lia. Qed.
(** up to any token that is no operator *)
Lemma P_full ts e rest : P_expr 8 ts e -> op_of rest = None -> expect "[" rest = None -> expect "(" rest = None -> ends (fun f => p_expr f 8 (ts ++ rest)) (e, rest).
Proof.
  intros H O A B. apply H; [split; auto; split; auto; rewrite O; discriminate|]. apply loop_stops. rewrite O. discriminate.
Qed.
Lemma P_zero ts e rest : P_expr 0 ts e -> stop 0 rest -> ends (fun f => p_expr f 0 (ts ++ rest)) (e, rest).
Proof. intros H S. apply H; auto. apply loop_stops. intros o r' _. apply op_le8. Qed.
Lemma loop0 e rest x : ends (fun f => p_loop f 0 e rest) x -> x = (e, rest).
Proof.
  intros H. eapply ends_inj; [|exact H|]; [intros; apply up_loop|]. apply loop_stops. intros o r' _. apply op_le8.
Qed.
Lemma P_of_un ts e : (forall rest, stop 0 rest -> ends (fun f => p_un f (ts ++ rest)) (e, rest)) -> P_expr 0 ts e.
Proof.
  intros H rest x S L. apply loop0 in L. subst. apply (ends_step _ (fun f => p_un f (ts ++ rest))); [reflexivity|]. apply H. exact S.
Qed.
Lemma parses : (forall n ts e, d_expr n ts e -> P_expr n ts e) /\ (forall ts e, d_post ts e -> P_post ts e) /\
  (forall ts es, d_args ts es -> P_args ts es) /\ (forall ts es, d_list ts es -> P_list ts es).
Proof.
  apply d_mut.
  - (* up *)
    intros n ts e D P rest x (A & B & C) L.
    apply (ends_step _ (fun f => bind (p_expr f n (ts ++ rest)) (fun '(e, r) => p_loop f (S n) e r))); [reflexivity|].
    apply (ends_bind _ (fun f '(e, r) => p_loop f (S n) e r) (e, rest)); [intros; apply up_expr|intros; apply up_loop| |exact L].
    apply P; [split; auto; split; auto; intros o r' H; specialize (C o r' H); lia|]. apply loop_stops. exact C.
  - (* operations *)
    intros o n ta a tb b Lo Da Pa Db Pb rest x S L. rewrite <- !app_assoc. destruct (stop_op o n (tb ++ rest) Lo) as [S1 S2].
    apply Pa; [exact S1|]. cbn [app].
    apply (ends_step _ (fun f => bind (p_expr f n (tb ++ rest)) (fun '(b, r) => p_loop f (Datatypes.S n) (CBin o a b) r))).
    { intros f. cbn [p_loop]. rewrite op_of_op, Lo, Nat.eqb_refl. cbn [Nat.sub]. rewrite Nat.sub_0_r. reflexivity. }
    apply (ends_bind _ (fun f '(b, r) => p_loop f (Datatypes.S n) (CBin o a b) r) (b, rest)); [intros; apply up_expr|intros; apply up_loop| |exact L].
    destruct S as (A & B & C). apply Pb; [split; auto; split; auto; intros o' r' H; specialize (C o' r' H); lia|]. apply loop_stops. exact C.
  - (* minus *)
    intros ts a D P. apply P_of_un. intros rest S.
    apply (ends_step _ (fun f => bind (p_expr f 0 (ts ++ rest)) (fun '(e, r) => Some (CMinus e, r)))); [reflexivity|].
    apply (ends_bind _ (fun f '(e, r) => Some (CMinus e, r)) (a, rest)); [intros; apply up_expr|intros; apply le_refl|apply P_zero; auto|exists 0; reflexivity].
  - intros ts a D P. apply P_of_un. intros rest S.
    apply (ends_step _ (fun f => bind (p_expr f 0 (ts ++ rest)) (fun '(e, r) => Some (CNot e, r)))); [reflexivity|].
    apply (ends_bind _ (fun f '(e, r) => Some (CNot e, r)) (a, rest)); [intros; apply up_expr|intros; apply le_refl|apply P_zero; auto|exists 0; reflexivity].
  - (* casts *)
    intros ty ptr ts a T D P. apply P_of_un. intros rest S. rewrite <- !app_assoc.
    apply (ends_step _ (fun f => bind (p_expr f 0 (ts ++ rest)) (fun '(e, r) => Some (CCast ty ptr e, r)))).
    { intros f. pose proof (type_head ty (stars ptr ++ punct ")" ++ ts ++ rest) T) as Hh.
      assert (Ht : take_type (map KId ty ++ stars ptr ++ punct ")" ++ ts ++ rest) = (ty, stars ptr ++ punct ")" ++ ts ++ rest))
        by (apply take_type_app; [apply T|destruct ptr; reflexivity]).
      set (R := map KId ty ++ stars ptr ++ punct ")" ++ ts ++ rest) in *. cbn [app punct p_un].
      change (is_p "-" (KPunct (str "("))) with false. change (is_p "!" (KPunct (str "("))) with false. change (is_k "sizeof" (KPunct (str "("))) with false.
      change (is_p "(" (KPunct (str "("))) with true. cbn [andb]. rewrite Hh, Ht. destruct ptr; reflexivity. }
    apply (ends_bind _ (fun f '(e, r) => Some (CCast ty ptr e, r)) (a, rest)); [intros; apply up_expr|intros; apply le_refl|apply P_zero; auto|exists 0; reflexivity].
  - (* sizeof *)
    intros ty T. apply P_of_un. intros rest S. rewrite <- !app_assoc. apply ends_now. intros f.
    assert (Ht : take_type (map KId ty ++ punct ")" ++ rest) = (ty, punct ")" ++ rest)) by (apply take_type_app; [apply T|reflexivity]).
    set (R := map KId ty ++ punct ")" ++ rest) in *. cbn [app keyword p_un].
    change (is_p "-" (KId (str "sizeof"))) with false. change (is_p "!" (KId (str "sizeof"))) with false. change (is_k "sizeof" (KId (str "sizeof"))) with true. cbn iota.
    change (expect "(" (punct "(" ++ R)) with (Some R). cbn [bind]. rewrite Ht. reflexivity.
  - (* postfix expressions *)
    intros ts e D [P1 P2]. apply P_of_un. intros rest (A & B & C). apply (ends_step _ (fun f => p_prim f (ts ++ rest))); [intros; apply P2|]. apply P1; auto.
    apply ends_now. intros f. cbn [p_post]. rewrite A. reflexivity.
  - (* numbers *)
    intros n. split; [|reflexivity]. intros rest x _ L. apply (ends_step _ (fun f => p_post f (CNum n) rest)); [reflexivity|exact L].
  - (* names *)
    intros x N. apply not_reserved_b in N. split.
    + intros rest y A L. apply (ends_step _ (fun f => p_post f (CId x) rest)); [intros; cbn [app p_prim]; rewrite A; reflexivity|exact L].
    + intros rest f. cbn [app p_un is_p is_k andb]. destruct (text_eqb x (str "sizeof")) eqn:E; auto. apply teqb_eq in E. subst. vm_compute in N. discriminate N.
  - intros s. split; [|reflexivity]. intros rest x _ L. apply (ends_step _ (fun f => p_post f (CStr s) rest)); [reflexivity|exact L].
  - (* parentheses *)
    intros ts e D P. pose proof (proj1 d_starts _ _ _ D) as St. split.
    + intros rest x A L. rewrite <- !app_assoc.
      apply (ends_step _ (fun f => bind (p_expr f 8 (ts ++ punct ")" ++ rest)) (fun '(e, r) => bind (expect ")" r) (fun r => p_post f e r)))); [reflexivity|].
      apply (ends_bind _ (fun f '(e, r) => bind (expect ")" r) (fun r => p_post f e r)) (e, punct ")" ++ rest));
        [intros; apply up_expr|intros f; apply le_bind; [apply le_refl|intros; apply up_post]|apply P_full; auto|exact L].
    + intros rest f. rewrite <- !app_assoc. pose proof (starts_no_type ts (punct ")" ++ rest) St) as X. set (R := ts ++ punct ")" ++ rest) in *. cbn [app punct p_un].
      change (is_p "-" (KPunct (str "("))) with false. change (is_p "!" (KPunct (str "("))) with false. change (is_k "sizeof" (KPunct (str "("))) with false. rewrite X, andb_false_r. reflexivity.
  - (* subscripts *)
    intros ta a ti i Da [P1 P2] Di Pi. split.
    + intros rest x A L. rewrite <- !app_assoc. apply P1; [reflexivity|].
      apply (ends_step _ (fun f => bind (p_expr f 8 (ti ++ punct "]" ++ rest)) (fun '(i, r) => bind (expect "]" r) (fun r => p_post f (CIndex a i) r)))); [reflexivity|].
      apply (ends_bind _ (fun f '(i, r) => bind (expect "]" r) (fun r => p_post f (CIndex a i) r)) (i, punct "]" ++ rest));
        [intros; apply up_expr|intros f; apply le_bind; [apply le_refl|intros; apply up_post]|apply P_full; auto|exact L].
    + intros rest f. rewrite <- !app_assoc. apply P2.
  - (* calls *)
    intros g ts args N D P. apply not_reserved_b in N. split.
    + intros rest x A L.
      apply (ends_step _ (fun f => bind (p_args f (ts ++ punct ")" ++ rest)) (fun '(es, r) => bind (expect ")" r) (fun r => p_post f (CCall g es) r)))).
      { intros f. cbn [app p_prim punct]. change (expect "(" (KPunct (str "(") :: (ts ++ [KPunct (str ")")]) ++ rest)) with (Some ((ts ++ [KPunct (str ")")]) ++ rest)). rewrite <- app_assoc. reflexivity. }
      apply (ends_bind _ (fun f '(es, r) => bind (expect ")" r) (fun r => p_post f (CCall g es) r)) (args, punct ")" ++ rest));
        [intros; apply up_args|intros f; apply le_bind; [apply le_refl|intros; apply up_post]|apply P|exact L].
    + intros rest f. cbn [app p_un is_p is_k andb]. destruct (text_eqb g (str "sizeof")) eqn:E; auto. apply teqb_eq in E. subst. vm_compute in N. discriminate N.
  - intros rest. apply ends_now. reflexivity.
  - intros ts es D P rest. apply (ends_step _ (fun f => p_list f (ts ++ punct ")" ++ rest))).
    + intros f. cbn [p_args]. rewrite starts_no; [reflexivity| |reflexivity]. eapply d_starts, D.
    + apply P.
  - intros ts e D P rest.
    apply (ends_step _ (fun f => bind (p_expr f 8 (ts ++ punct ")" ++ rest)) (fun '(e, r) => match expect "," r with Some r => bind (p_list f r) (fun '(es, r) => Some (e :: es, r)) | None => Some ([e], r) end))); [reflexivity|].
    apply (ends_bind _ (fun f '(e, r) => match expect "," r with Some r => bind (p_list f r) (fun '(es, r) => Some (e :: es, r)) | None => Some ([e], r) end) (e, punct ")" ++ rest));
      [intros; apply up_expr|intros; apply le_refl|apply P_full; auto|exists 0; reflexivity].
  - intros ts e ts' es D P Ds Ps rest. rewrite <- !app_assoc.
    apply (ends_step _ (fun f => bind (p_expr f 8 (ts ++ punct "," ++ ts' ++ punct ")" ++ rest)) (fun '(e, r) => match expect "," r with Some r => bind (p_list f r) (fun '(es, r) => Some (e :: es, r)) | None => Some ([e], r) end))); [reflexivity|].
    apply (ends_bind _ (fun f '(e, r) => match expect "," r with Some r => bind (p_list f r) (fun '(es, r) => Some (e :: es, r)) | None => Some ([e], r) end) (e, punct "," ++ ts' ++ punct ")" ++ rest));
      [intros; apply up_expr| |apply P_full; auto|].
    + intros f. change (expect "," (punct "," ++ ts' ++ punct ")" ++ rest)) with (Some (ts' ++ punct ")" ++ rest)). cbn iota. apply le_bind; [apply up_list|]. intros [? ?]. apply le_refl.
    + change (expect "," (punct "," ++ ts' ++ punct ")" ++ rest)) with (Some (ts' ++ punct ")" ++ rest)). cbn iota.
      apply (ends_bind _ (fun f '(es, r) => Some (e :: es, r)) (es, punct ")" ++ rest)); [intros; apply up_list|intros; apply le_refl|apply Ps|exists 0; reflexivity].
Qed.
Lemma expr_parses ts e rest : d_expr 8 ts e -> op_of rest = None -> expect "[" rest = None -> expect "(" rest = None -> ends (fun f => p_expr f 8 (ts ++ rest)) (e, rest).
Proof. intros D. apply P_full. apply parses. exact D. Qed.
Lemma expr_unique ts e e' : d_expr 8 ts e -> d_expr 8 ts e' -> e = e'.
Proof.
  intros D D'. pose proof (expr_parses ts e [] D eq_refl eq_refl eq_refl) as A. pose proof (expr_parses ts e' [] D' eq_refl eq_refl eq_refl) as B.
  pose proof (ends_inj _ _ _ (up_expr 8 (ts ++ [])) A B) as X. congruence.
Qed.
