(** Proofs about which code a tensor runs. *)
From Coq Require Import String List Bool Arith Lia.
From Verif Require Import FileIO Modules ModulesSpec.
Import ListNotations.
Local Open Scope nat_scope.
Local Open Scope string_scope.

Lemma twice_app n a b : In n a -> In n b -> twice (a ++ b) = true.
Proof.
  induction a as [|x a IH]; cbn; intros H I; [destruct H|destruct H as [H|H]].
  - subst x. replace (existsb _ _) with true; auto. symmetry. apply existsb_exists. exists n. split; [apply in_or_app; auto|apply String.eqb_refl].
  - rewrite IH by auto. apply orb_true_r.
Qed.
Lemma twice_NoDup l : twice l = false <-> NoDup l.
Proof.
  induction l as [|x l IH]; cbn; [split; auto; constructor|]. rewrite orb_false_iff, IH. split.
  - intros [E N]. constructor; auto. intros I. assert (existsb (String.eqb x) l = true); [|congruence].
    apply existsb_exists. exists x. split; auto. apply String.eqb_refl.
  - intros N. inversion N; subst. split; auto. destruct (existsb (String.eqb x) l) eqn:E; auto.
    apply existsb_exists in E as (y & I & E). apply String.eqb_eq in E. congruence.
Qed.
Lemma set_nth_length {A} n (x : A) l : List.length (set_nth n x l) = List.length l.
Proof. revert n. induction l as [|y l IH]; destruct n; cbn; auto. Qed.
Lemma set_nth_same {A} n (x : A) l : n < List.length l -> nth_error (set_nth n x l) n = Some x.
Proof. revert n. induction l as [|y l IH]; destruct n; cbn; intros; try lia; auto. apply IH. lia. Qed.
Lemma set_nth_other {A} n k (x : A) l : n <> k -> nth_error (set_nth n x l) k = nth_error l k.
Proof. revert n k. induction l as [|y l IH]; destruct n, k; cbn; intros; try congruence; auto. Qed.

Section Modules.
Variable S : Type.
Variable same iso : S -> S -> bool.
Variable C : Type.
Variable lower_assemble : S -> C.
Variable lower_compute : S -> bool -> C.
Variable fails : list (def C) -> bool.
Hypothesis iso_refl : forall s, iso s s = true.
Notation D := (Def C).
Notation shim := (shim C).
Notation K s b := [D "assemble" (Body C (lower_assemble s)); D "compute" (Body C (lower_compute s b))].
Notation KT s b := [D "assemble" (Body C (lower_assemble s)); D "compute" (Body C (lower_compute s b)); shim "assemble"; shim "compute"].
Hypothesis kernels_compile : forall s b, fails (KT s b) = false.
Notation state := (state S C).
Notation step := (step S same iso C lower_assemble lower_compute fails).
Notation run := (run S same iso C lower_assemble lower_compute fails).
Notation cm := (compile_module C fails).
Notation lookup := (lookup C).
Notation UT src := (map (fun d => D (fst d) (Body C (snd d))) src ++ [shim "assemble"; shim "compute"])%list.

Lemma new_kernel s b : cm (MkModule C [] (K s b) false None) = (MkModule C (K s b) (K s b) false (Some (KT s b)), true).
Proof.
  unfold compile_module. cbn [user funcs lib map app dname]. change (D "assemble" _ :: D "compute" _ :: map _ [] ++ _)%list with (KT s b).
  rewrite kernels_compile. reflexivity.
Qed.

Definition kernel_mod (m : module C) (s : S) (b : bool) : Prop := funcs C m = K s b /\ lib C m = Some (KT s b).
Lemma kernel_source m s b src : kernel_mod m s b -> exists m', cm (set_source C m (UT src)) = (m', false) /\ kernel_mod m' s b.
Proof.
  intros [F L]. unfold compile_module, set_source. cbn [user source funcs lib]. rewrite F.
  replace (twice _) with true.
  - cbn [orb]. eexists. split; [reflexivity|]. split; auto.
  - symmetry. rewrite map_app. apply (twice_app "_shim_assemble"); rewrite ?map_app, ?in_app_iff; cbn; auto.
Qed.

Lemma lookup_app n a b : ~ In n (map (dname C) a) -> lookup n (a ++ b) = lookup n b.
Proof.
  induction a as [|d a IH]; cbn; intros N; auto. destruct (String.eqb_spec (dname C d) n); [tauto|]. apply IH. tauto.
Qed.
Lemma lookup_in n l : (exists c, lookup n l = Some c) <-> In n (map (dname C) l).
Proof.
  induction l as [|d l IH]; cbn; [firstorder congruence|]. destruct (String.eqb_spec (dname C d) n) as [->|N]; [split; eauto|].
  rewrite IH. intuition congruence.
Qed.
Lemma names_body src : map (dname C) (map (fun d : string * C => D (fst d) (Body C (snd d))) src) = map fst src.
Proof. rewrite map_map. reflexivity. Qed.
Lemma lookup_body f c src r : NoDup (map fst src) -> In (f, c) src ->
  lookup f (map (fun d => D (fst d) (Body C (snd d))) src ++ r) = Some (Body C c).
Proof.
  induction src as [|[g e] src IH]; cbn; intros N I; [tauto|]. inversion N; subst. destruct I as [I|I].
  - inversion I; subst. rewrite String.eqb_refl. reflexivity.
  - destruct (String.eqb_spec g f); auto. subst. exfalso. apply H1. apply in_map_iff. exists (f, c). auto.
Qed.

(** A first source *)
Lemma first_source_good m src : funcs C m = [] -> source C m = [] -> good fails src ->
  cm (set_source C m (UT src)) = (MkModule C (UT src) [] true (Some (UT src)), true).
Proof.
  intros F E (N & A & B & NA & NB & Fa). unfold compile_module, set_source. cbn [user source funcs lib]. rewrite F, E.
  cbn [map app]. rewrite app_nil_r.
  assert (T : twice (map (dname C) (UT src)) = false).
  { apply twice_NoDup. rewrite map_app, names_body. cbn.
    revert N NA NB. clear. induction src as [|[g e] src IH]; cbn; intros N NA NB.
    - repeat constructor; cbn; intuition discriminate.
    - inversion N; subst. constructor; [|apply IH; tauto]. rewrite in_app_iff. cbn. intuition. }
  change (fails (UT src) = false) in Fa.
  rewrite T, Fa. cbn [orb]. replace (resolved C _) with true; auto. symmetry. unfold resolved. apply forallb_forall.
  intros d I. apply in_app_or in I as [I|I].
  - apply in_map_iff in I as ([g e] & <- & _). reflexivity.
  - assert (X : forall n, In n (map fst src) -> exists c, lookup n (UT src) = Some c).
    { intros n In'. apply lookup_in. rewrite map_app, names_body. apply in_or_app. auto. }
    destruct I as [<-|[<-|[]]].
    + destruct (X "assemble" A) as [c Hc]. cbn [Modules.shim dcode]. rewrite Hc. reflexivity.
    + destruct (X "compute" B) as [c Hc]. cbn [Modules.shim dcode]. rewrite Hc. reflexivity.
Qed.
Lemma first_source_bad m src : funcs C m = [] -> source C m = [] -> lib C m = None -> ~ good fails src ->
  cm (set_source C m (UT src)) = (MkModule C (UT src) [] true None, false).
Proof.
  intros F E L G. unfold compile_module, set_source. cbn [user source funcs lib]. rewrite F, E, L. cbn [map app]. rewrite app_nil_r.
  destruct (twice _) eqn:T; [reflexivity|]. cbn [orb]. destruct (fails _) eqn:Fa; [reflexivity|].
  destruct (resolved _ _) eqn:R; [|reflexivity]. exfalso. apply G.
  apply twice_NoDup in T. rewrite map_app, names_body in T. cbn in T.
  assert (Nn : NoDup (map fst src)) by (clear -T; induction (map fst src); [constructor|inversion T; subst; constructor; auto; intros I; apply H1, in_or_app; auto]).
  assert (Na : forall x, In x (map fst src) -> x <> "_shim_assemble" /\ x <> "_shim_compute").
  { clear -T. induction (map fst src) as [|y l IH]; cbn; intros x []; inversion T; subst; auto.
    split; intros ->; apply H2, in_or_app; cbn; auto. }
  unfold resolved in R. rewrite forallb_forall in R.
  assert (X : forall n, In n ["assemble"; "compute"] -> In n (map fst src)).
  { intros n I. assert (Rn : In (shim n) (UT src)) by (apply in_or_app; right; destruct I as [<-|[<-|[]]]; cbn; auto).
    apply R in Rn. change (dcode C (shim n)) with (Shim C n) in Rn. cbv iota in Rn.
    destruct (lookup n (UT src)) as [c|] eqn:Lk; [|discriminate].
    assert (In' : In n (map (dname C) (UT src))) by (apply lookup_in; eauto). rewrite map_app, names_body in In'.
    apply in_app_or in In' as [In'|In']; auto. cbn in In', I. destruct I as [<-|[<-|[]]]; intuition discriminate. }
  repeat split; auto; try (apply X; cbn; auto).
  - intros I. destruct (Na _ I); congruence.
  - intros I. destruct (Na _ I); congruence.
Qed.
(** A later source *)
Lemma later_source m src : funcs C m = [] -> In "_shim_assemble" (map (dname C) (source C m)) ->
  cm (set_source C m (UT src)) = (MkModule C (source C m ++ UT src) [] true (lib C m), false).
Proof.
  intros F I. unfold compile_module, set_source. cbn [user source funcs lib]. rewrite F. cbn [map]. rewrite app_nil_r.
  replace (twice _) with true; auto. symmetry. rewrite map_app. apply (twice_app "_shim_assemble"); auto.
  rewrite map_app, in_app_iff. cbn. auto.
Qed.

Definition Global (st : state) : Prop :=
  (forall t x, nth_error (tensors S C st) t = Some x -> modul S x < List.length (heap S C st)) /\
  (forall s p, In (s, p) (cache S C st) -> exists m b, nth_error (heap S C st) p = Some m /\ kernel_mod m s b) /\
  (forall t1 t2 x1 x2, t1 <> t2 -> nth_error (tensors S C st) t1 = Some x1 -> nth_error (tensors S C st) t2 = Some x2 ->
     modul S x1 = modul S x2 -> exists m s b, nth_error (heap S C st) (modul S x1) = Some m /\ kernel_mod m s b).
Definition Mod (v : view S C) (m : module C) : Prop :=
  match runs v with
  | None => funcs C m = [] /\ lib C m = None /\ (if touched v then In "_shim_assemble" (map (dname C) (source C m)) else source C m = [])
  | Some (Kernel s b0 c) => touched v = true /\ exists s' b, iso s s' = true /\ (c = false -> s' = s /\ b = b0) /\ kernel_mod m s' b
  | Some (Source src) => touched v = true /\ good fails src /\ funcs C m = [] /\ lib C m = Some (UT src) /\ In "_shim_assemble" (map (dname C) (source C m))
  end.
Definition Rel (st : state) (t : nat) (v : view S C) : Prop :=
  exists x m, nth_error (tensors S C st) t = Some x /\ nth_error (heap S C st) (modul S x) = Some m /\
    assignment S x = assigned v /\ flag S x = while_compute v /\ needs_compile S x = pending v /\ Mod v m.

Lemma cached_in c s p : cached S iso c s = Some p -> exists s', In (s', p) c /\ iso s s' = true.
Proof.
  unfold cached. destruct (find _ _) as [[s' q]|] eqn:F; [|discriminate]. intros E. inversion E; subst.
  apply find_some in F as [I H]. exists s'. split; auto. apply in_rev; auto.
Qed.

(** Changing a tensor but not its module *)
Lemma Global_set st t x y : Global st -> nth_error (tensors S C st) t = Some x -> modul S y = modul S x ->
  Global (State S C (heap S C st) (set_nth t y (tensors S C st)) (cache S C st)).
Proof.
  intros (G1 & G2 & G3) E M.
  assert (T : t < List.length (tensors S C st)) by (apply nth_error_Some; congruence).
  assert (X : forall k z, nth_error (set_nth t y (tensors S C st)) k = Some z -> exists z', nth_error (tensors S C st) k = Some z' /\ modul S z' = modul S z).
  { intros k z H. destruct (Nat.eq_dec t k) as [<-|N].
    - rewrite set_nth_same in H by auto. inversion H; subst. eauto.
    - rewrite set_nth_other in H by auto. eauto. }
  split; [|split]; cbn.
  - intros k z H. apply X in H as (z' & H & <-). eauto.
  - auto.
  - intros t1 t2 x1 x2 N H1 H2 Em. apply X in H1 as (z1 & H1 & E1). apply X in H2 as (z2 & H2 & E2). rewrite <- E1, <- E2 in *. eauto.
Qed.

Lemma compile_stmt_global st t x s b c : Global st -> nth_error (tensors S C st) t = Some x ->
  Global (fst (compile_stmt S iso C lower_assemble lower_compute fails st t x s b c)).
Proof.
  intros (G1 & G2 & G3) E. unfold compile_stmt. destruct (needs_compile S x); [|cbn; split; auto].
  assert (T : t < List.length (tensors S C st)) by (apply nth_error_Some; congruence).
  destruct (if c then _ else _) as [p|] eqn:Ca.
  - cbn [fst]. assert (exists s', In (s', p) (cache S C st) /\ iso s s' = true) as (s' & I & Is).
    { destruct c; [|discriminate]. apply cached_in in Ca. auto. }
    destruct (G2 _ _ I) as (m & b' & Hm & Km).
    assert (P : p < List.length (heap S C st)) by (apply nth_error_Some; congruence).
    split; [|split]; cbn; auto.
    + intros k z H. destruct (Nat.eq_dec t k) as [<-|N]; [rewrite set_nth_same in H by auto; inversion H; subst; auto|rewrite set_nth_other in H by auto; eauto].
    + intros t1 t2 x1 x2 N H1 H2 Em.
      destruct (Nat.eq_dec t t1) as [<-|N1].
      { rewrite set_nth_same in H1 by auto. inversion H1; subst. cbn. eauto. }
      rewrite set_nth_other in H1 by auto. destruct (Nat.eq_dec t t2) as [<-|N2].
      { rewrite set_nth_same in H2 by auto. inversion H2; subst. cbn in Em. rewrite Em. eauto. }
      rewrite set_nth_other in H2 by auto. eauto.
  - rewrite new_kernel. cbn [fst]. split; [|split]; cbn [heap tensors cache].
    + intros k z H. rewrite app_length. cbn. destruct (Nat.eq_dec t k) as [<-|N]; [rewrite set_nth_same in H by auto; inversion H; subst; cbn; lia|rewrite set_nth_other in H by auto; apply G1 in H; lia].
    + intros s0 p I. apply in_app_or in I as [I|I].
      * destruct (G2 _ _ I) as (m & b' & Hm & Km). exists m, b'. split; auto. rewrite nth_error_app1; auto. apply nth_error_Some. congruence.
      * cbn in I. destruct I as [I|[]]. inversion I; subst. eexists _, b. rewrite nth_error_app2, Nat.sub_diag by auto. cbn. split; [reflexivity|]. split; reflexivity.
    + intros t1 t2 x1 x2 N H1 H2 Em.
      destruct (Nat.eq_dec t t1) as [<-|N1].
      { rewrite set_nth_same in H1 by auto. inversion H1; subst. cbn in *. rewrite set_nth_other in H2 by auto. apply G1 in H2. lia. }
      rewrite set_nth_other in H1 by auto. destruct (Nat.eq_dec t t2) as [<-|N2].
      { rewrite set_nth_same in H2 by auto. inversion H2; subst. cbn in *. apply G1 in H1. lia. }
      rewrite set_nth_other in H2 by auto. destruct (G3 _ _ _ _ N H1 H2 Em) as (m & s0 & b0 & Hm & Km). exists m, s0, b0. split; auto.
      rewrite nth_error_app1; auto. eapply G1; eauto.
Qed.

Lemma nth_heap st t x : Global st -> nth_error (tensors S C st) t = Some x -> nth_error (heap S C st) (modul S x) = Some (nth (modul S x) (heap S C st) (no_module C)).
Proof. intros (G1 & _) E. apply nth_error_nth'. eauto. Qed.

(** Compiling a source keeps the modules of kernels what they are. *)
Lemma step_global st o : Global st -> Global (fst (step st o)).
Proof.
  intros G. destruct o as [|t s|t b|t c|t s b c|t src|t f]; cbn [Modules.step].
  - destruct G as (G1 & G2 & G3). cbn [fst]. split; [|split]; cbn [heap tensors cache].
    + intros t x H. rewrite app_length. cbn. destruct (Nat.lt_ge_cases t (List.length (tensors S C st))) as [L|L].
      * rewrite nth_error_app1 in H by auto. apply G1 in H. lia.
      * rewrite nth_error_app2 in H by auto. destruct (t - _) as [|k] eqn:Ek; cbn in H; [inversion H; subst; cbn; lia|destruct k; discriminate].
    + intros s p I. destruct (G2 _ _ I) as (m & b & Hm & Km). exists m, b. split; auto. rewrite nth_error_app1; auto. apply nth_error_Some. congruence.
    + assert (X : forall t x, nth_error (tensors S C st ++ [Tensor S None false false (List.length (heap S C st))]) t = Some x ->
          (nth_error (tensors S C st) t = Some x /\ modul S x < List.length (heap S C st)) \/ (t = List.length (tensors S C st) /\ modul S x = List.length (heap S C st))).
      { intros t x H. destruct (Nat.lt_ge_cases t (List.length (tensors S C st))) as [L|L].
        - rewrite nth_error_app1 in H by auto. left. eauto.
        - rewrite nth_error_app2 in H by auto. right. destruct (t - _) as [|k] eqn:Ek; cbn in H; [inversion H; subst; cbn; split; lia|destruct k; discriminate]. }
      intros t1 t2 x1 x2 N H1 H2 Em. apply X in H1 as [[H1 L1]|[-> L1]]; apply X in H2 as [[H2 L2]|[-> L2]]; try lia.
      destruct (G3 _ _ _ _ N H1 H2 Em) as (m & s & b & Hm & Km). exists m, s, b. split; auto. rewrite nth_error_app1; auto.
  - destruct (nth_error _ t) as [x|] eqn:E; auto. cbn [fst]. eapply Global_set; eauto.
  - destruct (nth_error _ t) as [x|] eqn:E; auto. cbn [fst]. eapply Global_set; eauto.
  - destruct (nth_error _ t) as [x|] eqn:E; auto. destruct (assignment S x); auto. now apply compile_stmt_global.
  - destruct (nth_error _ t) as [x|] eqn:E; auto. now apply compile_stmt_global.
  - destruct (nth_error _ t) as [x|] eqn:E; auto. destruct (assignment S x) as [a|] eqn:Ea; auto.
    destruct (cm _) as [m ok] eqn:Cm. cbn [fst].
    assert (G' : Global (State S C (set_nth (modul S x) m (heap S C st)) (tensors S C st) (cache S C st))).
    { pose proof (nth_heap st t x G E) as Hh. destruct G as (G1 & G2 & G3).
      assert (X : forall p m0 s b, nth_error (heap S C st) p = Some m0 -> kernel_mod m0 s b ->
        exists m1, nth_error (set_nth (modul S x) m (heap S C st)) p = Some m1 /\ kernel_mod m1 s b).
      { intros p m0 s b H Km. destruct (Nat.eq_dec (modul S x) p) as [<-|N].
        - rewrite set_nth_same by eauto. exists m. split; auto. rewrite Hh in H. inversion H; subst m0.
          destruct (kernel_source _ _ _ src Km) as (m' & Cm' & Km'). rewrite Cm in Cm'. inversion Cm'; subst. auto.
        - rewrite set_nth_other by auto. eauto. }
      split; [|split]; cbn [heap tensors cache].
      - intros k z H. rewrite set_nth_length. eauto.
      - intros s p I. destruct (G2 _ _ I) as (m0 & b & Hm & Km). destruct (X _ _ _ _ Hm Km) as (m1 & ? & ?). eauto.
      - intros t1 t2 x1 x2 N H1 H2 Em. destruct (G3 _ _ _ _ N H1 H2 Em) as (m0 & s & b & Hm & Km). destruct (X _ _ _ _ Hm Km) as (m1 & ? & ?). eauto. }
    destruct ok; auto. apply (Global_set _ t x _ G'); auto.
  - destruct (nth_error _ t) as [x|] eqn:E; auto.
Qed.

(** Another tensor *)
Lemma Rel_frame st st' t v : Rel st t v ->
  (forall x, nth_error (tensors S C st) t = Some x -> nth_error (tensors S C st') t = Some x /\
     exists m m', nth_error (heap S C st) (modul S x) = Some m /\ nth_error (heap S C st') (modul S x) = Some m' /\
       (m' = m \/ exists s b, kernel_mod m s b /\ kernel_mod m' s b)) -> Rel st' t v.
Proof.
  intros (x & m & E & Hm & A & Fl & P & M) F. destruct (F x E) as (E' & m0 & m' & Hm0 & Hm' & X). rewrite Hm in Hm0. inversion Hm0; subst m0.
  exists x, m'. repeat split; auto. destruct X as [->|(s & b & K1 & K2)]; auto.
  unfold Mod in *. destruct (runs v) as [[s0 b0 c0|src]|].
  - destruct M as (T & s' & b' & Is & Un & K3). split; auto. exists s', b'. split; auto. split; auto. destruct K1 as [F1 L1], K2 as [F2 L2], K3 as [F3 L3]. split; congruence.
  - destruct M as (_ & _ & F1 & _). destruct K1 as [F2 _]. rewrite F2 in F1. discriminate.
  - destruct M as (F1 & _). destruct K1 as [F2 _]. rewrite F2 in F1. discriminate.
Qed.

Lemma compile_stmt_other st t t' v x s b c : t <> t' -> Rel st t v -> nth_error (tensors S C st) t' = Some x ->
  Rel (fst (compile_stmt S iso C lower_assemble lower_compute fails st t' x s b c)) t v.
Proof.
  intros N R E. unfold compile_stmt. destruct (needs_compile S x); auto.
  destruct (if c then _ else _) as [p|]; [|rewrite new_kernel]; cbn [fst]; apply (Rel_frame _ _ _ _ R); cbn [tensors heap]; intros y Ey; (split; [rewrite set_nth_other; auto|]);
    destruct R as (x0 & m & E0 & Hm & _); rewrite Ey in E0; inversion E0; subst x0; exists m, m; repeat split; auto.
  rewrite nth_error_app1; auto. apply nth_error_Some. congruence.
Qed.
Lemma compile_stmt_same st t v x s b c : Global st -> Rel st t v -> nth_error (tensors S C st) t = Some x -> pending v = true ->
  Rel (fst (compile_stmt S iso C lower_assemble lower_compute fails st t x s b c)) t (View (assigned v) (while_compute v) false (Some (Kernel s b c)) true).
Proof.
  intros G (x0 & m & E0 & Hm & A & Fl & P & M) E Pe. rewrite E in E0. inversion E0; subst x0. unfold compile_stmt. rewrite P, Pe.
  assert (T : t < List.length (tensors S C st)) by (apply nth_error_Some; congruence).
  destruct (if c then _ else _) as [p|] eqn:Ca; [|rewrite new_kernel]; cbn [fst].
  - destruct c; [|discriminate]. apply cached_in in Ca as (s' & I & Is). destruct G as (_ & G2 & _). destruct (G2 _ _ I) as (m' & b' & Hm' & K').
    eexists _, m'. cbn [tensors heap]. rewrite set_nth_same by auto. split; [reflexivity|]. cbn. repeat split; auto. exists s', b'. split; auto. split; [discriminate|auto].
  - eexists _, _. cbn [tensors heap]. rewrite set_nth_same by auto. split; [reflexivity|]. cbn [modul]. rewrite nth_error_app2, Nat.sub_diag by auto. cbn.
    split; [reflexivity|]. repeat split; auto. exists s, b. split; auto. split; auto. split; reflexivity.
Qed.
Lemma compile_stmt_no st t v x s b c : Rel st t v -> nth_error (tensors S C st) t = Some x -> pending v = false ->
  Rel (fst (compile_stmt S iso C lower_assemble lower_compute fails st t x s b c)) t v.
Proof.
  intros R E Pe. pose proof R as (x0 & m & E0 & Hm & A & Fl & P & M). rewrite E in E0. inversion E0; subst x0. unfold compile_stmt. rewrite P, Pe. auto.
Qed.

Lemma source_same st t v x a src m : Rel st t v -> nth_error (tensors S C st) t = Some x -> assignment S x = Some a ->
  nth_error (heap S C st) (modul S x) = Some m -> forall m' ok v', cm (set_source C m (UT src)) = (m', ok) -> Mod v' m' ->
  assigned v' = assigned v -> while_compute v' = while_compute v -> pending v' = (if ok then false else pending v) ->
  Rel (State S C (set_nth (modul S x) m' (heap S C st)) (if ok then set_nth t (Tensor S (assignment S x) (flag S x) false (modul S x)) (tensors S C st) else tensors S C st) (cache S C st)) t v'.
Proof.
  intros (x0 & m0 & E0 & Hm & A & Fl & P & M) E Ea Hm0 m' ok v' Cm M' A' F' P'. rewrite E in E0. inversion E0; subst x0.
  assert (T : t < List.length (tensors S C st)) by (apply nth_error_Some; congruence).
  assert (L : modul S x < List.length (heap S C st)) by (apply nth_error_Some; congruence).
  destruct ok; eexists _, m'; cbn [tensors heap]; [rewrite set_nth_same by auto|rewrite E]; (split; [reflexivity|]); cbn [modul]; rewrite set_nth_same by auto;
    repeat split; auto; cbn; congruence.
Qed.

Lemma step_rel st o t v v' : Global st -> Rel st t v -> seen S C same fails t v o v' -> Rel (fst (step st o)) t v'.
Proof.
  intros G R H. pose proof R as (x & m & E & Hm & A & Fl & P & M).
  destruct H as [v s|v s c As Pe|v c N|v s b c Pe|v s b c Pe|v src As To Go|v src As To Go|v src N|v b|v f|v|v o t' N O]; cbn [Modules.step].
  - rewrite E. cbn [fst]. assert (T : t < List.length (tensors S C st)) by (apply nth_error_Some; congruence).
    eexists _, m. cbn [tensors heap]. rewrite set_nth_same by auto. split; [reflexivity|]. cbn. repeat split; auto.
    rewrite A, P. destruct (match assigned v with Some _ => _ | None => _ end); cbn; [apply orb_false_r|apply orb_true_r].
  - rewrite E, A, As. rewrite <- As, Fl. now apply compile_stmt_same.
  - rewrite E. destruct N as [N|N]; [rewrite A, N; auto|]. destruct (assignment S x); auto. now apply compile_stmt_no.
  - rewrite E. now apply compile_stmt_same.
  - rewrite E. now apply compile_stmt_no.
  - rewrite E. destruct (assignment S x) as [a|] eqn:Ea; [|congruence]. rewrite (nth_error_nth _ _ _ Hm).
    assert (Rn : runs v = None) by (unfold Mod in M; destruct (runs v) as [[]|]; auto; destruct M; congruence).
    unfold Mod in M. rewrite Rn, To in M. destruct M as (F & L & So).
    pose proof (first_source_good m src F So Go) as Cm. cbn [Modules.shim] in *. rewrite Cm. cbn [fst]. rewrite <- Ea.
    eapply (source_same st t v x a src m R E Ea Hm _ true); eauto. unfold Mod. cbn [runs touched funcs lib source].
    split; [reflexivity|]. split; [exact Go|]. split; [reflexivity|]. split; [reflexivity|]. rewrite map_app, in_app_iff. cbn. auto.
  - rewrite E. destruct (assignment S x) as [a|] eqn:Ea; [|congruence]. rewrite (nth_error_nth _ _ _ Hm).
    assert (Rn : runs v = None) by (unfold Mod in M; destruct (runs v) as [[]|]; auto; destruct M; congruence).
    unfold Mod in M. rewrite Rn, To in M. destruct M as (F & L & So).
    pose proof (first_source_bad m src F So L Go) as Cm. rewrite Cm. cbn [fst].
    eapply (source_same st t v x a src m R E Ea Hm _ false); eauto. unfold Mod. cbn [runs touched]. rewrite Rn. cbn [funcs lib source]. repeat split; auto.
    unfold Modules.shim. rewrite map_app, in_app_iff. cbn. auto.
  - rewrite E. destruct (assignment S x) as [a|] eqn:Ea; auto. rewrite (nth_error_nth _ _ _ Hm).
    assert (To : touched v = true) by (destruct N as [N|N]; auto; congruence).
    assert (X : exists m', cm (set_source C m (UT src)) = (m', false) /\ Mod v m').
    { unfold Mod in *. destruct (runs v) as [[s b0 c0|src0]|].
      - destruct M as (_ & s' & b & Is & Un & Km). destruct (kernel_source m s' b src Km) as (m' & Cm & Km'). exists m'. split; auto. split; auto. eauto.
      - destruct M as (_ & Go & F & L & I). rewrite later_source by auto. eexists. split; [reflexivity|]. cbn [runs touched funcs lib source].
        split; [auto|]. split; [exact Go|]. split; [reflexivity|]. split; [exact L|]. rewrite map_app, in_app_iff. auto.
      - destruct M as (F & L & I). rewrite To in *. rewrite later_source by auto. eexists. split; [reflexivity|]. cbn. repeat split; auto. rewrite map_app, in_app_iff. auto. }
    destruct X as (m' & Cm & M'). rewrite Cm. cbn [fst]. eapply (source_same st t v x a src m R E Ea Hm _ false); eauto.
  - rewrite E. cbn [fst]. assert (T : t < List.length (tensors S C st)) by (apply nth_error_Some; congruence).
    eexists _, m. cbn [tensors heap]. rewrite set_nth_same by auto. split; [reflexivity|]. cbn. repeat split; auto.
  - rewrite E. auto.
  - cbn [fst]. apply (Rel_frame _ _ _ _ R). cbn [tensors heap]. intros y Ey. split; [rewrite nth_error_app1; auto; apply nth_error_Some; congruence|].
    rewrite Ey in E. inversion E; subst. exists m, m. repeat split; auto. rewrite nth_error_app1; auto. apply nth_error_Some. congruence.
  - assert (Fr : forall y z, nth_error (tensors S C st) t' = Some y -> Rel (State S C (heap S C st) (set_nth t' z (tensors S C st)) (cache S C st)) t v).
    { intros y z Ey. apply (Rel_frame _ _ _ _ R). cbn [tensors heap]. intros w Ew. split; [rewrite set_nth_other; auto|].
      rewrite Ew in E. inversion E; subst. exists m, m. repeat split; auto. }
    destruct O as [(s & ->)|[(c & ->)|[(s & b & c & ->)|[(src & ->)|[(b & ->)|(f & ->)]]]]]; cbn [Modules.step];
      destruct (nth_error (tensors S C st) t') as [y|] eqn:Ey; auto; cbn [fst].
    + eapply Fr; eauto.
    + destruct (assignment S y); auto. apply compile_stmt_other; auto.
    + apply compile_stmt_other; auto.
    + destruct (assignment S y) as [a|] eqn:Ea; auto. destruct (cm _) as [m' ok] eqn:Cm. cbn [fst].
      apply (Rel_frame _ _ _ _ R). cbn [tensors heap]. intros w Ew. rewrite Ew in E. inversion E; subst w. split.
      { destruct ok; auto. rewrite set_nth_other; auto. }
      destruct (Nat.eq_dec (modul S y) (modul S x)) as [Em|Nm].
      * destruct G as (G1 & G2 & G3). destruct (G3 t' t y x N Ey Ew Em) as (m0 & s & b & Hm0 & Km).
        rewrite (nth_error_nth _ _ _ Hm0) in Cm. destruct (kernel_source m0 s b src Km) as (m1 & Cm' & Km'). rewrite Cm in Cm'. inversion Cm'; subst m1 ok.
        rewrite Em in *. rewrite Hm in Hm0. inversion Hm0; subst m0. exists m, m'. split; auto. split; [apply set_nth_same; apply nth_error_Some; congruence|]. right. eauto.
      * exists m, m. split; auto. split; [rewrite set_nth_other; auto|]. auto.
    + eapply Fr; eauto.
Qed.

Lemma initial_global : Global (initial S C).
Proof. split; [|split]; cbn; [intros [] x; discriminate|tauto|intros [] t2 x1 x2 _ H; discriminate]. Qed.
Lemma run_global st h : Global st -> Global (run st h).
Proof. revert st. induction h as [|o h IH]; cbn; auto. intros st G. apply IH. now apply step_global. Qed.
Lemma run_rel st h t v v' : Global st -> Rel st t v -> history S C same fails t v h v' -> Rel (run st h) t v'.
Proof.
  intros G R H. revert st G R. induction H as [|v o v1 h v2 So Hh IH]; cbn; auto. intros st G R. apply IH; [now apply step_global|]. eapply step_rel; eauto.
Qed.
Lemma run_app st a b : run st (a ++ b) = run (run st a) b.
Proof. revert st. induction a; cbn; auto. Qed.

Lemma step_length st o : List.length (tensors S C (fst (step st o))) = List.length (tensors S C st) + match o with New _ _ => 1 | _ => 0 end.
Proof.
  assert (X : forall t x s b c, List.length (tensors S C (fst (compile_stmt S iso C lower_assemble lower_compute fails st t x s b c))) = List.length (tensors S C st)).
  { intros. unfold compile_stmt. destruct (needs_compile S x); auto. destruct (if c then _ else _); [cbn; apply set_nth_length|].
    rewrite new_kernel. cbn. apply set_nth_length. }
  destruct o as [|t s|t b|t c|t s b c|t src|t f]; cbn [Modules.step]; [cbn; rewrite app_length; reflexivity|..]; rewrite Nat.add_0_r;
    destruct (nth_error _ t) as [x|]; auto; cbn [fst tensors]; auto; try apply set_nth_length.
  - destruct (assignment S x); auto.
  - destruct (assignment S x); auto. destruct (cm _) as [m []]; cbn; auto. apply set_nth_length.
Qed.
Lemma run_length st h : List.length (tensors S C (run st h)) = List.length (tensors S C st) + made h.
Proof.
  revert st. induction h as [|o h IH]; cbn [Modules.run]; intros st; [unfold made; cbn; lia|]. rewrite IH, step_length. unfold made. cbn. destruct o; cbn; lia.
Qed.

Lemma new_rel st : Rel (fst (step st (New S C))) (List.length (tensors S C st)) fresh_view.
Proof.
  exists (Tensor S None false false (List.length (heap S C st))), (no_module C). cbn [Modules.step fst tensors heap modul].
  rewrite !nth_error_app2, !Nat.sub_diag by auto. repeat split.
Qed.

Lemma history_rel h0 h v : history S C same fails (made h0) fresh_view h v -> Rel (run (initial S C) (h0 ++ New S C :: h)) (made h0) v.
Proof.
  intros H. rewrite run_app. change (run ?a (New S C :: h)) with (run (fst (step a (New S C))) h).
  eapply run_rel; eauto; [apply step_global, run_global, initial_global|].
  replace (made h0) with (List.length (tensors S C (run (initial S C) h0))); [apply new_rel|]. rewrite run_length. reflexivity.
Qed.

Lemma kernel_call m s b : kernel_mod m s b -> call C m "assemble" = FOk (lower_assemble s) /\ call C m "compute" = FOk (lower_compute s b).
Proof. intros [_ L]. unfold call. rewrite L. split; reflexivity. Qed.
Lemma source_call m src f c : lib C m = Some (UT src) -> good fails src -> In f ["assemble"; "compute"] -> In (f, c) src -> call C m f = FOk c.
Proof.
  intros L (N & _ & _ & NA & NB & _) F I. unfold call. rewrite L.
  destruct F as [<-|[<-|[]]]; rewrite lookup_app by (rewrite names_body; auto); cbn [Modules.lookup Modules.shim dname dcode]; cbn; erewrite lookup_body; eauto.
Qed.

Lemma good_dec src : good fails src \/ ~ good fails src.
Proof.
  unfold good. assert (N : NoDup (map fst src) \/ ~ NoDup (map fst src)) by (rewrite <- twice_NoDup; destruct (twice (map fst src)); [right; discriminate|left; reflexivity]).
  destruct N; [|tauto].
  destruct (in_dec string_dec "assemble" (map fst src)); [|tauto]. destruct (in_dec string_dec "compute" (map fst src)); [|tauto].
  destruct (in_dec string_dec "_shim_assemble" (map fst src)); [tauto|]. destruct (in_dec string_dec "_shim_compute" (map fst src)); [tauto|].
  destruct (fails _); [right; intuition discriminate|left; repeat split; auto].
Qed.
Lemma seen_total t v o : exists v', seen S C same fails t v o v'.
Proof.
  assert (O : forall t', t' <> t -> (exists s, o = Assign S C t' s) \/ (exists c, o = Compile S C t' c) \/ (exists s b c, o = CompileStmt S C t' s b c) \/
    (exists src, o = CompileSource S C t' src) \/ (exists b, o = SetFlag S C t' b) \/ (exists f, o = Call S C t' f) -> exists v', seen S C same fails t v o v').
  { intros t' N H. exists v. eapply seen_other; eauto. }
  destruct o as [|t' s|t' b|t' c|t' s b c|t' src|t' f]; [eexists; constructor|..]; (destruct (Nat.eq_dec t' t) as [->|N]; [|apply (O t' N); eauto 20]).
  - eexists; constructor.
  - eexists; constructor.
  - destruct (assigned v) eqn:A; [destruct (pending v) eqn:P|]; eexists; [eapply seen_compile|apply seen_compile_no|apply seen_compile_no]; eauto.
  - destruct (pending v) eqn:P; eexists; [apply seen_stmt|apply seen_stmt_no]; auto.
  - destruct (assigned v) as [a|] eqn:A; [|exists v; apply seen_source_no; auto]. destruct (touched v) eqn:T; [exists v; apply seen_source_no; auto|].
    destruct (good_dec src); eexists; [apply seen_source|apply seen_source_bad]; auto; congruence.
  - eexists; constructor.
Qed.
Lemma history_total t v h : exists v', history S C same fails t v h v'.
Proof.
  revert v. induction h as [|o h IH]; intros v; [exists v; constructor|]. destruct (seen_total t v o) as [v1 H1]. destruct (IH v1) as [v2 H2]. exists v2. econstructor; eauto.
Qed.
End Modules.
