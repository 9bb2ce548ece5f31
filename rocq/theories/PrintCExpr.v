(** Lemmas for C52: the text of an expression is read as the expression. *)
From Coq Require Import String List Bool Ascii Arith Lia.
From Verif Require Import Parser PrintC PrintCSpec PrintCLex.
Import ListNotations.
Local Open Scope nat_scope.

Section Induction.
Variable P : pexpr -> Prop.
Hypothesis H_lit : forall n t, P (PLit n t).
Hypothesis H_complex : forall a b c d, P (PComplex a b c d).
Hypothesis H_var : forall x, P (PVar x).
Hypothesis H_neg : forall b a, P a -> P (PNeg b a).
Hypothesis H_sqrt : forall a, P a -> P (PSqrt a).
Hypothesis H_bin : forall o a b, P a -> P b -> P (PBin o a b).
Hypothesis H_min : forall f es, Forall P es -> P (PMin f es).
Hypothesis H_max : forall es, Forall P es -> P (PMax es).
Hypothesis H_cast : forall ty a, P a -> P (PCast ty a).
Hypothesis H_call : forall f es, Forall P es -> P (PCall f es).
Hypothesis H_load : forall a i, P a -> P i -> P (PLoad a i).
Hypothesis H_malloc : forall a, P a -> P (PMalloc a).
Hypothesis H_sizeof : forall ty, P (PSizeof ty).
Fixpoint pexpr_ind' (e : pexpr) : P e :=
  let fix go (es : list pexpr) : Forall P es :=
    match es with [] => Forall_nil _ | e :: es => Forall_cons _ (pexpr_ind' e) (go es) end in
  match e with
  | PLit n t => H_lit n t
  | PComplex a b c d => H_complex a b c d
  | PVar x => H_var x
  | PNeg b a => H_neg b a (pexpr_ind' a)
  | PSqrt a => H_sqrt a (pexpr_ind' a)
  | PBin o a b => H_bin o a b (pexpr_ind' a) (pexpr_ind' b)
  | PMin f es => H_min f es (go es)
  | PMax es => H_max es (go es)
  | PCast ty a => H_cast ty a (pexpr_ind' a)
  | PCall f es => H_call f es (go es)
  | PLoad a i => H_load a i (pexpr_ind' a) (pexpr_ind' i)
  | PMalloc a => H_malloc a (pexpr_ind' a)
  | PSizeof ty => H_sizeof ty
  end.
End Induction.

Lemma d_le n m ts e : n <= m -> d_expr n ts e -> d_expr m ts e.
Proof. induction 1; auto. intros. apply D_up. auto. Qed.
(** The level of what is printed without parentheses *)
Definition lvl (p : nat) : nat :=
  if p <=? 5 then 0 else if p <=? 6 then 1 else if p <=? 9 then 2 else if p <=? 10 then 3 else if p <=? 11 then 4 else if p <=? 15 then 6 else 8.
Lemma lvl_8 p : lvl p <= 8.
Proof. unfold lvl. repeat match goal with |- context [if ?c then _ else _] => destruct c end; lia. Qed.
Lemma lvl_op o : lvl (prec o) <= level o - 1 /\ 1 <= level o.
Proof. destruct o; vm_compute; lia. Qed.
Lemma lvl_parens o p : needs_parentheses (prec o) p = false -> level o <= lvl p.
Proof.
  unfold needs_parentheses. intros H. apply orb_false_iff in H. destruct H as [H1 H2]. apply Nat.leb_gt in H1. unfold lvl.
  assert (H3 : prec o = prec And -> p <> prec Or) by (intros E F; rewrite E, F in H2; discriminate H2).
  repeat match goal with |- context [?a <=? ?b] => destruct (Nat.leb_spec a b) end; destruct o; cbn [prec level] in *; try lia;
    exfalso; apply H3; auto; lia.
Qed.

Definition reads (s : text) (ts : list ctoken) : Prop :=
  forall b r tr, follows r -> lexes false r tr -> lexes b (s ++ r) (ts ++ tr).
Definition good (p : nat) (e : pexpr) : Prop :=
  exists ts, reads (fst (print_expr p e)) ts /\ d_expr (lvl p) ts (meant e) /\ begins (fst (print_expr p e)) /\
    (p <= 5 -> minus (fst (print_expr p e)) = true -> starts_minus e = true) /\
    (array e -> p <= 5 -> d_post ts (meant e)) /\ (location e -> d_post ts (meant e)).
Lemma reads_solid p s ts : In p solid -> reads s ts -> reads (p ++ s) (KPunct p :: ts).
Proof. intros H R b r tr F L. rewrite <- app_assoc. cbn [app]. apply lx_solid; auto. Qed.
Lemma follows_solid p s : In p solid -> follows (p ++ s).
Proof. intros H. cbn in H. repeat (destruct H as [<-|H]; [split; [reflexivity|discriminate]|]). destruct H. Qed.
Lemma follows_blank s : follows (str " " ++ s).
Proof. split; [reflexivity|discriminate]. Qed.
(** what is read, a solid, and the rest *)
Lemma reads_app_solid s ts p u tu : In p solid -> reads s ts -> reads u tu -> reads (s ++ p ++ u) (ts ++ KPunct p :: tu).
Proof.
  intros H R U b r tr F L. rewrite <- !app_assoc. cbn [app]. apply R; [apply follows_solid; auto|]. apply lx_solid; auto.
Qed.
Lemma reads_end s ts p : In p solid -> reads s ts -> reads (s ++ p) (ts ++ [KPunct p]).
Proof.
  intros H R b r tr F L. rewrite <- !app_assoc. cbn [app]. apply R; [apply follows_solid; auto|]. apply lx_solid; auto.
Qed.
Lemma begins_app s t : begins s -> begins (s ++ t).
Proof. destruct s; cbn; auto; intros []. Qed.
Lemma minus_app s t : begins s -> minus (s ++ t) = minus s.
Proof. destruct s; cbn; auto; intros []. Qed.
Lemma begins_name x : name x -> begins x /\ minus x = false.
Proof.
  intros (A & _). destruct x as [|c x]; [destruct A|]. cbn. split; [unfold opens; rewrite A; reflexivity|].
  destruct c as [[][][][][][][][]]; first [discriminate A|reflexivity].
Qed.
Lemma begins_number t : numeral t -> begins t /\ minus t = false.
Proof.
  intros (A & _). destruct t as [|c x]; [destruct A|]. cbn. split; [unfold opens; rewrite A, orb_true_r; reflexivity|].
  destruct c as [[][][][][][][][]]; first [discriminate A|reflexivity].
Qed.
Lemma reads_name x : name x -> reads x [KId x].
Proof. intros N b r tr F L. apply lx_id; auto using name_wordlike, follows_word. Qed.
(** A call: the name, and what is between the parentheses *)
Lemma reads_call f s ts : name f -> reads s ts -> reads (f ++ str "(" ++ s ++ str ")") (KId f :: punct "(" ++ ts ++ punct ")").
Proof.
  intros N R b r tr F L. rewrite <- !app_assoc. cbn [app punct]. apply lx_id; [apply name_wordlike; auto|reflexivity|].
  apply lx_solid; [cbn; auto|]. rewrite <- app_assoc. apply R; [split; [reflexivity|discriminate]|]. apply lx_solid; [cbn; auto 10|exact L].
Qed.
Lemma reads_call0 f : name f -> reads (f ++ str "(" ++ str ")") (KId f :: punct "(" ++ punct ")").
Proof.
  intros N b r tr F L. rewrite <- !app_assoc. cbn [app punct]. apply lx_id; [apply name_wordlike; auto|reflexivity|].
  apply lx_solid; [cbn; auto|]. apply lx_solid; [cbn; auto 10|exact L].
Qed.
Ltac in_list := cbn; repeat (first [left; reflexivity|right]).
Lemma not_reserved x : name x -> ~ In x reserved.
Proof. intros (_ & _ & H). exact H. Qed.
Lemma dec_name x : wordlike x -> (if in_dec (list_eq_dec ascii_dec) x reserved then false else true) = true -> name x.
Proof. intros [A B] H. split; [exact A|]. split; [exact B|]. destruct (in_dec (list_eq_dec ascii_dec) x reserved); [discriminate|auto]. Qed.
Lemma name_sqrt : name (str "sqrt"). Proof. apply dec_name; [split|]; vm_compute; reflexivity. Qed.
Lemma name_fmin : name (str "fmin"). Proof. apply dec_name; [split|]; vm_compute; reflexivity. Qed.
Lemma name_min : name (str "TACO_MIN"). Proof. apply dec_name; [split|]; vm_compute; reflexivity. Qed.
Lemma name_max : name (str "TACO_MAX"). Proof. apply dec_name; [split|]; vm_compute; reflexivity. Qed.
Lemma name_malloc : name (str "malloc"). Proof. apply dec_name; [split|]; vm_compute; reflexivity. Qed.
Lemma name_realloc : name (str "realloc"). Proof. apply dec_name; [split|]; vm_compute; reflexivity. Qed.
Lemma name_calloc : name (str "calloc"). Proof. apply dec_name; [split|]; vm_compute; reflexivity. Qed.
Lemma name_free : name (str "free"). Proof. apply dec_name; [split|]; vm_compute; reflexivity. Qed.
Lemma name_printf : name (str "printf"). Proof. apply dec_name; [split|]; vm_compute; reflexivity. Qed.
Lemma name_qsort : name (str "qsort"). Proof. apply dec_name; [split|]; vm_compute; reflexivity. Qed.
Lemma name_cmp : name (str "cmp"). Proof. apply dec_name; [split|]; vm_compute; reflexivity. Qed.

Definition goods (e : pexpr) : Prop := printable e -> forall p, good p e.
Lemma join_good es : Forall goods es -> all printable es -> es <> [] -> forall p,
  exists ts, reads (fst (accept_join print_expr (str ", ") p es)) ts /\ d_list ts (map meant es) /\ begins (fst (accept_join print_expr (str ", ") p es)).
Proof.
  intros F. induction F as [|e es G F IH]; intros A N p; [congruence|]. destruct A as [A1 A].
  destruct (G A1 p) as (ts & R & D & B & _). cbn [accept_join]. destruct (print_expr p e) as [s q]. cbn [fst] in *.
  destruct es as [|e' es].
  - exists ts. split; auto. split; auto. cbn [map]. apply D_one. eapply d_le; [apply lvl_8|exact D].
  - destruct (IH A ltac:(discriminate) q) as (ts' & R' & D' & B').
    destruct (accept_join print_expr (str ", ") q (e' :: es)) as [t r]. cbn [fst] in *.
    exists (ts ++ punct "," ++ ts'). split; [|split; [cbn [map]; apply D_cons; [eapply d_le; [apply lvl_8|exact D]|exact D']|apply begins_app; auto]].
    intros b u tu Fu L. rewrite <- !app_assoc. apply R; [split; [reflexivity|discriminate]|].
    apply (lx_solid false (str ",")); [in_list|]. apply lx_space. apply R'; auto.
Qed.
Lemma nested_good f es : name f -> Forall goods es -> all printable es -> forall p,
  match es with
  | [] => True
  | [e] => good p e
  | _ => exists ts, reads (fst (accept_nested print_expr f p es)) ts /\ d_post ts (nested f (map meant es)) /\
           begins (fst (accept_nested print_expr f p es)) /\ minus (fst (accept_nested print_expr f p es)) = false
  end.
Proof.
  intros N F. induction F as [|e es G F IH]; intros A p; [exact I|]. destruct A as [A1 A].
  destruct (G A1 p) as (ts & R & D & B & X). destruct es as [|e' es]; [apply G; auto|].
  assert (Y : exists ts', reads (fst (accept_nested print_expr f (snd (print_expr p e)) (e' :: es))) ts' /\ d_expr 8 ts' (nested f (map meant (e' :: es)))).
  { specialize (IH A (snd (print_expr p e))). destruct es as [|e'' es].
    - destruct IH as (ts' & R' & D' & _). exists ts'. split; [exact R'|]. cbn [map nested]. eapply d_le; [apply lvl_8|exact D'].
    - destruct IH as (ts' & R' & D' & _). exists ts'. split; [exact R'|]. eapply d_le; [|apply D_post, D']. lia. }
  destruct Y as (ts' & R' & D').
  change (accept_nested print_expr f p (e :: e' :: es)) with
    (let '(s, q) := print_expr p e in let '(t, r) := accept_nested print_expr f q (e' :: es) in (f ++ str "(" ++ s ++ str "," ++ t ++ str ")", r)).
  destruct (print_expr p e) as [s q]. cbn [fst snd] in *. destruct (accept_nested print_expr f q (e' :: es)) as [t r]. cbn [fst] in *.
  exists (KId f :: punct "(" ++ (ts ++ punct "," ++ ts') ++ punct ")"). split; [|split; [|split]].
  - replace (f ++ str "(" ++ s ++ str "," ++ t ++ str ")") with (f ++ str "(" ++ (s ++ str "," ++ t) ++ str ")") by (rewrite <- !app_assoc; reflexivity).
    apply reads_call; auto. apply reads_app_solid; auto. in_list.
  - change (nested f (map meant (e :: e' :: es))) with (CCall f [meant e; nested f (map meant (e' :: es))]).
    apply D_call; [apply not_reserved; auto|]. apply D_some. apply D_cons; [eapply d_le; [apply lvl_8|exact D]|]. apply D_one. exact D'.
  - apply begins_app. apply begins_name. auto.
  - rewrite minus_app by (apply begins_name; auto). apply begins_name. auto.
Qed.
Lemma good_post p e ts : reads (fst (print_expr p e)) ts -> d_post ts (meant e) -> begins (fst (print_expr p e)) -> minus (fst (print_expr p e)) = false -> good p e.
Proof.
  intros R D B M. exists ts. split; auto. split; [eapply d_le; [|apply D_post, D]; lia|]. split; auto. split; [rewrite M; discriminate|]. auto.
Qed.
Lemma op_opens o : exists c r, op_text o = c :: r.
Proof. destruct o; cbn; eauto. Qed.

Lemma expr_good : forall e, goods e.
Proof.
  induction e using pexpr_ind'; intros Pr p; cbn [printable] in Pr.
  - (* literals *)
    assert (X : exists t', reads t [t'] /\ d_post [t'] (atom t) /\ begins t /\ minus t = false).
    { destruct Pr as [N|N].
      - exists (KNum t). split; [intros b r tr F L; apply lx_num; auto|]. pose proof (begins_number t N). split; [|tauto].
        destruct N as [N _]. unfold atom. destruct t as [|c t]; [destruct N|]. rewrite N. apply D_num.
      - exists (KId t). split; [apply reads_name; auto|]. pose proof (begins_name t N). split; [|tauto]. pose proof (not_reserved t N) as R.
        destruct N as [N _]. unfold atom. destruct t as [|c t]; [destruct N|].
        assert (Y : is_digit c = false) by (destruct c as [[][][][][][][][]]; first [discriminate N|reflexivity]). rewrite Y. apply D_id. exact R. }
    destruct X as (t' & R & D & B & M). destruct n; cbn [print_expr fst sign app].
    + exists (punct "-" ++ [t']). cbn [print_expr fst sign]. split.
      * intros b r tr F L. apply lx_minus; [apply begins_app; auto|rewrite minus_app; auto|]. apply R; auto.
      * split; [eapply d_le; [|apply D_minus, D_post, D]; lia|]. split; [reflexivity|]. split; [auto|]. split; intros [].
    + apply good_post with (ts := [t']); auto.
  - destruct Pr.
  - apply good_post with (ts := [KId x]); cbn [print_expr fst]; try apply begins_name; auto using reads_name. apply D_id. apply not_reserved. auto.
  - (* negation *)
    destruct Pr as [Pa S]. destruct (IHe Pa p_neg) as (ts & R & D & B & M & _). unfold good. cbn [print_expr]. destruct (print_expr p_neg e) as [s q]. cbn [fst] in *.
    destruct b.
    + exists (punct "!" ++ ts). split; [intros b r tr F L; apply lx_not; [apply begins_app; auto|]; apply R; auto|].
      split; [eapply d_le; [|apply D_not, D]; lia|]. split; [reflexivity|]. split; [intros _ X; discriminate X|]. split; intros [].
    + exists (punct "-" ++ ts). split.
      * intros b r tr F L. apply lx_minus; [apply begins_app; auto| |apply R; auto]. rewrite minus_app by auto.
        destruct (minus s) eqn:E; auto. specialize (M ltac:(unfold p_neg; lia) eq_refl). rewrite S in M by auto. discriminate M.
      * split; [eapply d_le; [|apply D_minus, D]; lia|]. split; [reflexivity|]. split; [auto|]. split; intros [].
  - (* square root *)
    destruct (IHe Pr p) as (ts & R & D & _). apply good_post with (ts := KId (str "sqrt") :: punct "(" ++ ts ++ punct ")"); cbn [print_expr]; destruct (print_expr p e) as [s q]; cbn [fst] in *; try reflexivity.
    + exact (reads_call (str "sqrt") s ts name_sqrt R).
    + apply D_call; [apply not_reserved, name_sqrt|]. apply D_some, D_one. eapply d_le; [apply lvl_8|exact D].
  - (* binary operations *)
    destruct Pr as [P1 P2]. destruct (IHe1 P1 (prec o)) as (ta & Ra & Da & Ba & _). destruct (IHe2 P2 (prec o)) as (tb & Rb & Db & Bb & _).
    destruct (lvl_op o) as [Lo Lp]. destruct (level o) as [|n] eqn:En; [lia|].
    assert (D : d_expr (S n) (ta ++ [KPunct (op_text o)] ++ tb) (CBin o (meant e1) (meant e2))).
    { apply D_bin; auto; [eapply d_le; [|exact Da]; lia|eapply d_le; [|exact Db]; lia]. }
    assert (L8 : S n <= 8) by (rewrite <- En; destruct o; cbn; lia).
    cbn [meant]. destruct (needs_parentheses (prec o) p) eqn:Np.
    + apply good_post with (ts := punct "(" ++ (ta ++ [KPunct (op_text o)] ++ tb) ++ punct ")"); cbn [print_expr]; rewrite ?Np;
        destruct (print_expr (prec o) e1) as [s q1]; destruct (print_expr (prec o) e2) as [t q2]; cbn [fst parens] in *; try reflexivity.
      * intros b r tr F L. change (("("%char :: (s ++ str " " ++ op_text o ++ str " " ++ t) ++ [")"%char]) ++ r) with (str "(" ++ ((s ++ str " " ++ op_text o ++ str " " ++ t) ++ str ")") ++ r).
        rewrite <- ?app_assoc. apply lx_solid; [in_list|]. cbn [app]. rewrite <- ?app_assoc. apply Ra; [apply follows_blank|]. apply lx_space. cbn [app]. apply lx_op.
        rewrite <- ?app_assoc. apply Rb; [split; [reflexivity|discriminate]|]. apply lx_solid; [in_list|exact L].
      * apply D_paren. eapply d_le; [exact L8|exact D].
    + pose proof (lvl_parens o p Np) as Lv. exists (ta ++ [KPunct (op_text o)] ++ tb). cbn [print_expr]. rewrite Np.
      destruct (print_expr (prec o) e1) as [s q1]; destruct (print_expr (prec o) e2) as [t q2]; cbn [fst parens] in *.
      split; [|split; [eapply d_le; [|exact D]; lia|split; [apply begins_app; auto|]]].
      * intros b r tr F L. rewrite <- ?app_assoc. apply Ra; [apply follows_blank|]. apply lx_space. cbn [app]. apply lx_op. apply Rb; auto.
      * assert (X : 5 < p).
        { unfold needs_parentheses in Np. apply orb_false_iff in Np. destruct Np as [Np _]. apply Nat.leb_gt in Np. assert (5 <= prec o) by (destruct o; cbn; lia). lia. }
        split; [lia|]. split; [lia|intros []].
  - (* minima *)
    destruct Pr as [Ne Pa]. assert (Nf : name (if f then str "fmin" else str "TACO_MIN")) by (destruct f; [apply name_fmin|apply name_min]).
    pose proof (nested_good _ es Nf H Pa p) as X. destruct es as [|e [|e' es]]; [congruence| |].
    + destruct X as (ts & R & D & B & M & _). exists ts. cbn [print_expr accept_nested meant map nested starts_minus]. repeat split; auto; intros [].
    + destruct X as (ts & R & D & B & M). apply good_post with (ts := ts); auto.
  - destruct Pr as [Ne Pa].
    pose proof (nested_good _ es name_max H Pa p) as X. destruct es as [|e [|e' es]]; [congruence| |].
    + destruct X as (ts & R & D & B & M & _). exists ts. cbn [print_expr accept_nested meant map nested starts_minus]. repeat split; auto; intros [].
    + destruct X as (ts & R & D & B & M). apply good_post with (ts := ts); auto.
  - (* casts *)
    destruct Pr as [Ty Pa]. destruct (IHe Pa p_cast) as (ts & R & D & _). unfold good. cbn [print_expr]. destruct (print_expr p_cast e) as [s q]. cbn [fst] in *.
    exists (punct "(" ++ map KId ty ++ stars false ++ punct ")" ++ ts). split; [|split; [eapply d_le; [|apply D_cast; auto; exact D]; lia|]].
    + intros b r tr F L. rewrite <- ?app_assoc. apply lx_solid; [in_list|]. apply lx_type; [auto|reflexivity|]. apply lx_solid; [in_list|]. apply R; auto.
    + split; [reflexivity|]. split; [intros _ X; discriminate X|]. split; intros [].
  - (* calls *)
    destruct Pr as [Nf Pa]. destruct es as [|e es].
    + apply good_post with (ts := KId f :: punct "(" ++ punct ")"); cbn [print_expr accept_join fst meant map app].
      * exact (reads_call0 f Nf).
      * apply (D_call f [] []); [apply not_reserved; auto|apply D_none].
      * apply begins_app, begins_name. auto.
      * rewrite minus_app by (apply begins_name; auto). apply begins_name. auto.
    + destruct (join_good (e :: es) H Pa ltac:(discriminate) p_call) as (ts & R & D & B).
      apply good_post with (ts := KId f :: punct "(" ++ ts ++ punct ")"); change (print_expr p (PCall f (e :: es))) with
        (let '(s, q) := accept_join print_expr (str ", ") p_call (e :: es) in (f ++ str "(" ++ s ++ str ")", q));
        destruct (accept_join print_expr (str ", ") p_call (e :: es)) as [s q]; cbn [fst] in *.
      * apply reads_call; auto.
      * change (meant (PCall f (e :: es))) with (CCall f (map meant (e :: es))). apply D_call; [apply not_reserved; auto|]. apply D_some. exact D.
      * apply begins_app, begins_name. auto.
      * rewrite minus_app by (apply begins_name; auto). apply begins_name. auto.
  - (* loads *)
    destruct Pr as (Pa & Pi & Ar). destruct (IHe1 Pa p_load) as (ta & Ra & Da & Ba & Ma & Aa & _). destruct (IHe2 Pi p_load) as (ti & Ri & Di & _).
    specialize (Aa Ar ltac:(unfold p_load; lia)).
    apply good_post with (ts := ta ++ punct "[" ++ ti ++ punct "]"); cbn [print_expr]; destruct (print_expr p_load e1) as [s q1]; destruct (print_expr p_load e2) as [t q2]; cbn [fst] in *.
    + apply reads_app_solid; [in_list|exact Ra|]. apply reads_end; [in_list|exact Ri].
    + apply D_index; auto. eapply d_le; [apply lvl_8|exact Di].
    + apply begins_app. auto.
    + rewrite minus_app by auto. destruct (minus s) eqn:E; auto. specialize (Ma ltac:(unfold p_load; lia) eq_refl).
      destruct e1; cbn in Ar, Ma; try discriminate; destruct Ar.
  - destruct (IHe Pr p_top) as (ts & R & D & _). apply good_post with (ts := KId (str "malloc") :: punct "(" ++ ts ++ punct ")"); cbn [print_expr]; destruct (print_expr p_top e) as [s q]; cbn [fst] in *; try reflexivity.
    + exact (reads_call (str "malloc") s ts name_malloc R).
    + apply D_call; [apply not_reserved, name_malloc|]. apply D_some, D_one. eapply d_le; [apply lvl_8|exact D].
  - exists (keyword "sizeof" ++ punct "(" ++ map KId ty ++ punct ")"). cbn [print_expr fst]. split; [|split; [eapply d_le; [|apply D_sizeof; auto]; lia|]].
    + intros b r tr F L. change (str "sizeof(" ++ type_text ty ++ str ")") with (str "sizeof" ++ str "(" ++ type_text ty ++ str ")"). rewrite <- ?app_assoc.
      apply lx_id; [split; vm_compute; reflexivity|reflexivity|]. apply lx_solid; [in_list|]. cbn [app]. rewrite <- ?app_assoc. apply lx_type; [auto|reflexivity|]. apply lx_solid; [in_list|exact L].
    + split; [reflexivity|]. split; [intros _ X; discriminate X|]. split; intros [].
Qed.
