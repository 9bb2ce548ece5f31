(** C58: functions that declare an annihilator or an identity are left out only
    where this does not change the result. *)
From Coq Require Import List Arith Bool ZArith Lia.
From Verif Require Import Checks ChecksSpec FuncProps FuncPropsSpec FuncPropsProofs.
Import ListNotations.
Local Open Scope nat_scope.

(** The coordinates at which a function is computed: where all the arguments are
    stored whose fill value is the annihilator; otherwise where any argument is
    stored, if the identity is the fill value of all of them (or has positions);
    otherwise everywhere. *)
Theorem C58_space : forall V (V_eq : forall a b : V, {a = b} + {a <> b}) (o : ops V) fill p args x,
  (forall a, annihilator p = Some a -> proper a (length args)) ->
  inferAlg V_eq (v0 o) fill p args = Ok (Some x) ->
  (annihilated V_eq o fill p args /\ forall m, inside m x <->
     forall a k e, annihilator p = Some a -> about a k -> nth_error args k = Some e ->
                   known_fill V_eq o fill e (p_value a) -> m k) \/
  (~ annihilated V_eq o fill p args /\ neutral V_eq o fill p args /\
     forall m, inside m x <-> exists k, k < length args /\ m k) \/
  (~ annihilated V_eq o fill p args /\ ~ neutral V_eq o fill p args /\
     forall m, (forall k, m k \/ ~ m k) -> inside m x).
Proof. exact @inferAlg_space. Qed.
Print Assumptions C58_space.

(** An algebra is always found for arguments that are tensors, literals or
    arithmetic on tensors filled with zero. *)
Theorem C58_no_failure : forall V (V_eq : forall a b : V, {a = b} + {a <> b}) (o : ops V) fill p args,
  args <> [] -> (forall e, In e args -> plain o fill e) ->
  (forall a, annihilator p = Some a -> proper a (length args)) ->
  exists x, inferAlg V_eq (v0 o) fill p args = Ok (Some x).
Proof. exact @inferAlg_ok. Qed.
Print Assumptions C58_no_failure.

(** Where an expression is not computed it has the value it has where nothing is
    stored, if all functions in it have the properties they declare. *)
Theorem C58_background : forall V (V_eq : forall a b : V, {a = b} + {a <> b}) (o : ops V) fill,
  arithmetic o -> forall c e,
  truthful e -> inferred V_eq o fill e -> safe_divisors o e -> zero_factors o fill e ->
  ~ visited c e -> eval o fill c e = background o fill e.
Proof. exact @outside_background. Qed.
Print Assumptions C58_background.

(** That value is the annihilator or the identity when these were used. *)
Theorem C58_background_annihilator : forall V (V_eq : forall a b : V, {a = b} + {a <> b}) (o : ops V) fill,
  arithmetic o -> forall f p x args a,
  truthful (FCall f p x args) -> safe_divisors o (FCall f p x args) ->
  annihilated V_eq o fill p args -> annihilator p = Some a ->
  background o fill (FCall f p x args) = l_val (p_value a).
Proof. exact @annihilated_background. Qed.
Print Assumptions C58_background_annihilator.
Theorem C58_background_identity : forall V (V_eq : forall a b : V, {a = b} + {a <> b}) (o : ops V) fill,
  arithmetic o -> forall f p x args i,
  truthful (FCall f p x args) -> safe_divisors o (FCall f p x args) ->
  neutral V_eq o fill p args -> identity p = Some i -> p_positions i = [] ->
  background o fill (FCall f p x args) = l_val (p_value i).
Proof. exact @neutral_background. Qed.
Print Assumptions C58_background_identity.

(** A fill value that is found is the value of the expression where nothing is
    stored. *)
Theorem C58_fill_values : forall V (V_eq : forall a b : V, {a = b} + {a <> b}) (o : ops V) fill,
  arithmetic o -> forall e, truthful e -> safe_divisors o e ->
  forall l, inferFill V_eq (v0 o) fill e = Ok (Some (FLit l)) -> background o fill e = l_val l.
Proof. exact @inferFill_value. Qed.
Print Assumptions C58_fill_values.

(** Simplifying a call by its properties does not change its value. *)
Theorem C58_simplified : forall V (V_eq : forall a b : V, {a = b} + {a <> b}) (o : ops V) fill f p exprs e' c,
  has_properties f (length exprs) p ->
  from_properties V_eq p exprs = Ok (Some e') ->
  eval o fill c e' = f (map (eval o fill c) exprs).
Proof. exact @from_properties_value. Qed.
Print Assumptions C58_simplified.

(** Leaving exhausted tensors out of an expression never fails and does not change
    its value if the exhausted tensors are zero; an expression that is left out is
    zero. *)
Theorem C58_zeroing : forall V (V_eq : forall a b : V, {a = b} + {a <> b}) (o : ops V) fill dtype zeroed c,
  (forall t, zeroed t = true -> value fill c t = v0 o) ->
  arithmetic o -> forall e, truthful e -> safe_divisors o e ->
  exists r, zero V_eq (v0 o) dtype zeroed e = Ok r /\
            match r with Some e' => eval o fill c e' | None => v0 o end = eval o fill c e.
Proof. exact @zero_value. Qed.
Print Assumptions C58_zeroing.

(** What is left of the expression does not read an exhausted tensor. *)
Theorem C58_zeroed_not_read : forall V (V_eq : forall a b : V, {a = b} + {a <> b}) (o : ops V) dtype zeroed e e' t,
  zero V_eq (v0 o) dtype zeroed e = Ok (Some e') -> occurs (FAcc t) e' -> zeroed t = false.
Proof. exact @zero_gone. Qed.
Print Assumptions C58_zeroed_not_read.

(** ** Examples *)
Definition Zops : ops Z := Ops 0%Z Z.opp Z.add Z.sub Z.mul Z.div (fun _ x => x).
Lemma Zarith : arithmetic Zops.
Proof. constructor; cbn; intros; first [lia | reflexivity | apply Z.div_0_l; assumption]. Qed.
Definition lit (v : Z) : literal Z := Lit 0 v.
(** Tensors 0 to 9 are filled with zero, 10 and above with five. *)
Definition fills (t : nat) : literal Z := lit (if t <? 10 then 0%Z else 5%Z).
Definition prod_f (l : list Z) : Z := fold_right Z.mul 1%Z l.
Definition prod_p : properties Z := Props (Some (Prp (lit 0) [])) (Some (Prp (lit 1) [])).
Lemma prod_zero l k : nth_error l k = Some 0%Z -> prod_f l = 0%Z.
Proof. unfold prod_f. revert k; induction l as [|a l IH]; intros [|k]; cbn; intros H; try discriminate; [injection H as ->; reflexivity|rewrite (IH _ H); lia]. Qed.
Lemma prod_ones l : (forall j w, nth_error l j = Some w -> w = 1%Z) -> prod_f l = 1%Z.
Proof.
  unfold prod_f. induction l as [|a l IH]; cbn; intros H; [reflexivity|]. rewrite (H 0 a eq_refl), IH; [reflexivity|].
  intros j w h. apply (H (S j)). exact h.
Qed.
Lemma prod_others l k v : nth_error l k = Some v ->
  (forall j w, j <> k -> nth_error l j = Some w -> w = 1%Z) -> prod_f l = v.
Proof.
  revert k. induction l as [|a l IH]; intros [|k]; cbn; intros H Ho; try discriminate.
  - injection H as ->. change (fold_right Z.mul 1%Z l) with (prod_f l). rewrite prod_ones; [lia|]. intros j w h. apply (Ho (S j)); [lia|exact h].
  - rewrite (Ho 0 a) by (try lia; reflexivity). change (fold_right Z.mul 1%Z l) with (prod_f l). rewrite (IH k H); [lia|]. intros j w hj h. apply (Ho (S j)); [lia|exact h].
Qed.
Lemma prod_properties n : has_properties prod_f n prod_p.
Proof.
  split; intros q H; injection H as <-; (split; [split; [constructor|intros k []]|]).
  - intros vs k _ _ h. apply (prod_zero vs k). exact h.
  - split.
    + intros vs k v _ h1 h2. apply (prod_others vs k); [exact h1|]. intros j w hj hw. apply (h2 j w hj hw).
    + intros vs _ h. apply prod_ones. intros j w hw. apply (h j w hw).
Qed.

(** A product of two tensors and a scaled one, as a function: it is computed where
    all three are stored, and is zero elsewhere. *)
Definition prod_args : list (fexpr Z) := [FAcc 0; FAcc 1; FMul (FLit (lit 2)) (FAcc 2)].
Definition prod_x : alg nat := Intersect (Intersect (Region 0) (Region 1)) (Region 2).
Definition prod_e : fexpr Z := FCall prod_f prod_p prod_x prod_args.
Example C58_situation :
  truthful prod_e /\ inferred Z.eq_dec Zops fills prod_e /\ safe_divisors Zops prod_e /\ zero_factors Zops fills prod_e /\
  (forall e, In e prod_args -> plain Zops fills e) /\ annihilated Z.eq_dec Zops fills prod_p prod_args /\
  ~ visited (fun t => if t =? 1 then None else Some 7%Z) prod_e /\
  visited (fun t => Some 7%Z) prod_e /\ eval Zops fills (fun t => Some 7%Z) prod_e = 686%Z.
Proof.
  split; [|split; [|split; [|split; [|split; [|split; [|split; [|split]]]]]]].
  - intros f p x args H. inversion H as [|? | | | | | | | | | |? ? ? ? a Ha Hc]; subst; [apply prod_properties|].
    destruct Ha as [<-|[<-|[<-|[]]]]; inversion Hc; subst; match goal with H : occurs _ _ |- _ => inversion H end.
  - intros f p x args H. inversion H as [|? | | | | | | | | | |? ? ? ? a Ha Hc]; subst; [vm_compute; reflexivity|].
    destruct Ha as [<-|[<-|[<-|[]]]]; inversion Hc; subst; match goal with H : occurs _ _ |- _ => inversion H end.
  - intros d d' H. inversion H as [|? | | | | | | | | | |? ? ? ? a Ha Hc]; subst.
    destruct Ha as [<-|[<-|[<-|[]]]]; inversion Hc; subst; match goal with H : occurs _ _ |- _ => inversion H end.
  - intros d d' H. inversion H as [|? | | | | | | | | | |? ? ? ? a Ha Hc]; subst.
    destruct Ha as [<-|[<-|[<-|[]]]]; inversion Hc; subst; try (match goal with H : occurs _ _ |- _ => solve [inversion H] end).
    split; [right; intros c; exact I|left; reflexivity].
  - intros e [<-|[<-|[<-|[]]]]; [constructor|constructor|]. apply pl_zero, zf_scale_l, zf_acc. reflexivity.
  - split; [cbn; lia|]. exists (Prp (lit 0) []), 0, (FAcc 0). repeat split; left; reflexivity.
  - cbn. tauto.
  - cbn. repeat split; discriminate.
  - reflexivity.
Qed.

(** Exhausted tensors: the call is replaced by the annihilator. *)
Example C58_zeroing_situation :
  zero Z.eq_dec 0%Z (fun _ => 0) (fun t => t =? 1) prod_e = Ok (Some (FLit (lit 0))) /\
  (forall t, (t =? 1) = true -> value fills nothing t = 0%Z).
Proof. split; [vm_compute; reflexivity|]. intros t H. apply Nat.eqb_eq in H. subst. reflexivity. Qed.

(** A sum with identity zero is computed where any argument is stored. *)
Example C58_identity_situation :
  inferAlg Z.eq_dec 0%Z fills (Props None (Some (Prp (lit 0) []))) [FAcc 0; FNeg (FAcc 1)] = Ok (Some (Union (Region 0) (Region 1))) /\
  neutral Z.eq_dec Zops fills (Props None (Some (Prp (lit 0) []))) [FAcc 0; FNeg (FAcc 1)] /\
  inferAlg Z.eq_dec 0%Z fills (Props None (Some (Prp (lit 0) []))) [FAcc 0; FAcc 10] =
    Ok (Some (Union (Union (Region 0) (Region 1)) (Complement (Union (Region 0) (Region 1))))).
Proof.
  split; [reflexivity|split; [|reflexivity]]. split; [cbn; lia|]. eexists. split; [reflexivity|].
  intros _ e [<-|[<-|[]]]; reflexivity.
Qed.

(** ** Findings *)

(** Exhausted tensors are replaced by zero, not by their fill value: the sum of a
    tensor filled with five and another. *)
Definition sum_f (l : list Z) : Z := fold_right Z.add 0%Z l.
Theorem C58_exhausted_fill_refuted : exists (e : fexpr Z) e' c,
  truthful e /\ c 10 = None /\
  zero Z.eq_dec 0%Z (fun _ => 0) (fun t => t =? 10) e = Ok (Some e') /\
  eval Zops fills c e' <> eval Zops fills c e.
Proof.
  exists (FCall sum_f (Props None None) (unionAll 2) [FAcc 0; FAcc 10]). eexists.
  exists (fun t => if t =? 0 then Some 1%Z else None). split; [|split; [reflexivity|split; [vm_compute; reflexivity|]]].
  - intros f p x args H. inversion H as [|? | | | | | | | | | |? ? ? ? a Ha Hc]; subst.
    + split; discriminate.
    + destruct Ha as [<-|[<-|[]]]; inversion Hc.
  - vm_compute. discriminate.
Qed.
Print Assumptions C58_exhausted_fill_refuted.

(** A product with a tensor that is not filled with zero is not visited where only
    the other factor is stored, although it differs there from its background. *)
Theorem C58_filled_factor_refuted : exists (e : fexpr Z) c,
  inferred Z.eq_dec Zops fills e /\ ~ visited c e /\ eval Zops fills c e <> background Zops fills e.
Proof.
  exists (FMul (FAcc 0) (FAcc 10)), (fun t => if t =? 0 then Some 1%Z else None). split; [|split].
  - intros f p x args H. inversion H; subst; match goal with H : occurs _ (FAcc _) |- _ => inversion H end.
  - cbn. intros (_ & H). apply H. reflexivity.
  - vm_compute. discriminate.
Qed.
Print Assumptions C58_filled_factor_refuted.

(** A position that is given twice counts twice: [x - 0] becomes [0]. *)
Definition minus (l : list Z) : Z := match l with [a; b] => (a - b)%Z | _ => 0%Z end.
Theorem C58_repeated_position_refuted : exists i e',
  has_identity minus 2 i /\ (forall k, In k (p_positions i) -> k < 2) /\
  from_properties Z.eq_dec (Props None (Some i)) [FAcc 0; FLit (lit 0)] = Ok (Some e') /\
  exists c, eval Zops fills c e' <> minus (map (eval Zops fills c) [FAcc 0; FLit (lit 0)]).
Proof.
  exists (Prp (lit 0) [1; 1]). eexists. split; [|split; [|split; [vm_compute; reflexivity|]]].
  - split.
    + intros vs k v Hl Hk Ho. destruct vs as [|a [|b [|]]]; try discriminate. cbn.
      destruct k as [|[|k]]; cbn in Hk; [| |destruct k; discriminate].
      * injection Hk as ->. destruct (Ho 1 b ltac:(lia) eq_refl) as (_ & ->). cbn. lia.
      * destruct (Ho 0 a ltac:(lia) eq_refl) as ([h|[h|[h|[]]]] & _); discriminate.
    + intros vs Hl Ho. destruct vs as [|a [|b [|]]]; try discriminate.
      destruct (Ho 0 a eq_refl) as ([h|[h|[h|[]]]] & _); discriminate.
  - intros k [<-|[<-|[]]]; lia.
  - exists (fun _ => Some 3%Z). vm_compute. discriminate.
Qed.
Print Assumptions C58_repeated_position_refuted.

(** Positions are not checked: the arguments are read past their end. *)
Theorem C58_positions_refuted :
  inferAlg Z.eq_dec 0%Z fills (Props (Some (Prp (lit 0) [2])) None) [FAcc 0; FAcc 1] = Undefined /\
  zero Z.eq_dec 0%Z (fun _ => 0) (fun t => false)
    (FCall sum_f (Props None (Some (Prp (lit 0) [2]))) (unionAll 2) [FAcc 0; FAcc 1]) = Undefined.
Proof. split; reflexivity. Qed.
Print Assumptions C58_positions_refuted.

(** Calling a function with an annihilator on [g(x, y) * z] dereferences an
    undefined expression, although everything is as declared. *)
Definition nested : fexpr Z := FMul (FCall prod_f prod_p (Intersect (Region 0) (Region 1)) [FAcc 0; FAcc 1]) (FAcc 2).
Lemma nested_occurs e : occurs e nested ->
  e = nested \/ e = FCall prod_f prod_p (Intersect (Region 0) (Region 1)) [FAcc 0; FAcc 1] \/ e = FAcc 0 \/ e = FAcc 1 \/ e = FAcc 2.
Proof.
  unfold nested. intros H. inversion H as [| | | | | |a b Ha|a b Hb| | | |]; subst; [auto| |].
  - inversion Ha as [| | | | | | | | | | |? ? ? ? a Hi Hc]; subst; [auto|].
    destruct Hi as [<-|[<-|[]]]; inversion Hc; auto.
  - inversion Hb. auto.
Qed.
Theorem C58_nested_call_refuted : exists (args : list (fexpr Z)),
  (forall e, In e args -> truthful e /\ inferred Z.eq_dec Zops fills e /\ zero_factors Zops fills e) /\
  (forall n, has_properties prod_f n prod_p) /\
  inferAlg Z.eq_dec 0%Z fills prod_p args = Undefined.
Proof.
  exists [nested; FAcc 3].
  split; [|split; [exact prod_properties|reflexivity]].
  intros e [<-|[<-|[]]]; (split; [|split]); intros d d'.
  - intros x args H. destruct (nested_occurs _ H) as [E|[E|[E|[E|E]]]]; try discriminate. injection E as -> -> -> ->. apply prod_properties.
  - intros x args H. destruct (nested_occurs _ H) as [E|[E|[E|[E|E]]]]; try discriminate. injection E as -> -> -> ->. reflexivity.
  - intros H. destruct (nested_occurs _ H) as [E|[E|[E|[E|E]]]]; try discriminate. injection E as -> ->. split; left; reflexivity.
  - intros x args H. inversion H.
  - intros x args H. inversion H.
  - intros H. inversion H.
Qed.
Print Assumptions C58_nested_call_refuted.

(** An argument whose fill value is not the annihilator is left out of the
    algebra, so that no iterator over it enters the loops. *)
Theorem C58_argument_left_out_refuted : exists x,
  inferAlg Z.eq_dec 0%Z fills prod_p [FAcc 0; FAcc 10] = Ok (Some x) /\ ~ In 1 (regions x).
Proof. exists (Region 0). split; [reflexivity|]. cbn. intros [H|[]]. discriminate. Qed.
Print Assumptions C58_argument_left_out_refuted.
