(** Proofs about code for GPUs. *)
From Coq Require Import List ZArith Bool Lia Sorting.Permutation.
Import ListNotations.
From Verif Require Import Cuda CudaSpec.
Local Open Scope Z_scope.

(** ** Lists *)
Lemma flat_map_ext_in {A B} (f g : A -> list B) xs :
  (forall x, In x xs -> f x = g x) -> flat_map f xs = flat_map g xs.
Proof.
  induction xs as [|x xs IH]; intros H; [reflexivity|]. cbn. rewrite (H x) by now left.
  f_equal. apply IH. intros y I. apply H. now right.
Qed.
Lemma flat_map_perm {A B} (f g : A -> list B) xs :
  (forall x, In x xs -> Permutation (f x) (g x)) -> Permutation (flat_map f xs) (flat_map g xs).
Proof.
  induction xs as [|x xs IH]; intros H; [constructor|]. cbn. apply Permutation_app.
  - apply H. now left.
  - apply IH. intros y I. apply H. now right.
Qed.
Lemma flat_map_both {A B} (f g : A -> list B) xs :
  Permutation (flat_map (fun x => f x ++ g x) xs) (flat_map f xs ++ flat_map g xs).
Proof.
  induction xs as [|x xs IH]; [constructor|]. cbn. rewrite <- !app_assoc. apply Permutation_app_head.
  rewrite IH. rewrite !app_assoc. apply Permutation_app_tail. apply Permutation_app_comm.
Qed.
Lemma flat_map_nil {A B} (xs : list A) : flat_map (fun _ => @nil B) xs = [].
Proof. induction xs; auto. Qed.
Lemma flat_map_swap {A B C} (f : A -> B -> list C) xs ys :
  Permutation (flat_map (fun x => flat_map (f x) ys) xs) (flat_map (fun y => flat_map (fun x => f x y) xs) ys).
Proof.
  induction xs as [|x xs IH]; cbn.
  - now rewrite flat_map_nil.
  - rewrite IH. symmetry. apply flat_map_both.
Qed.
Lemma flat_map_map_ {A B C} (g : A -> B) (f : B -> list C) xs : flat_map f (map g xs) = flat_map (fun x => f (g x)) xs.
Proof. induction xs as [|x xs IH]; [reflexivity|]. cbn. now rewrite IH. Qed.

(** ** Iterations *)
Lemma range_in n x : In x (range n) <-> 0 <= x < n.
Proof.
  unfold range. rewrite in_map_iff. setoid_rewrite in_seq. split.
  - intros (k & <- & H). lia.
  - intros H. exists (Z.to_nat x). lia.
Qed.
Lemma range_S n : range (Z.of_nat (S n)) = 0 :: map Z.succ (range (Z.of_nat n)).
Proof.
  unfold range. rewrite !Nat2Z.id. cbn [seq map]. f_equal. rewrite <- seq_shift, !map_map.
  apply map_ext. intros. lia.
Qed.
Lemma iterate_range inc hi : 0 < inc -> forall n lo fuel, (n <= fuel)%nat ->
  hi - lo <= Z.of_nat n * inc -> (n = O \/ (Z.of_nat n - 1) * inc < hi - lo) ->
  iterate fuel lo hi inc = map (fun k => k * inc + lo) (range (Z.of_nat n)).
Proof.
  intros P. induction n as [|n IH]; intros lo fuel F H1 H2.
  - destruct fuel; cbn; [reflexivity|]. destruct (Z.ltb_spec lo hi); [lia|reflexivity].
  - destruct fuel as [|fuel]; [lia|]. cbn [iterate]. destruct H2 as [H2|H2]; [lia|].
    destruct (Z.ltb_spec lo hi) as [L|L]; [|nia]. rewrite range_S. cbn [map].
    f_equal. rewrite (IH (lo + inc) fuel) by (first [lia|nia|destruct n; [now left|right; nia]]).
    rewrite map_map. apply map_ext. intros. lia.
Qed.
Lemma iterations_count lo hi inc n : 0 < inc -> 0 <= n ->
  hi - lo <= n * inc -> (n = 0 \/ (n - 1) * inc < hi - lo) ->
  iterations lo hi inc = map (fun k => k * inc + lo) (range n).
Proof.
  intros P N H1 H2. unfold iterations. rewrite <- (Z2Nat.id n) at 1 by exact N.
  apply iterate_range; try exact P; rewrite ?Z2Nat.id by exact N; try assumption.
  - destruct H2 as [->|H2]; [cbn; lia|]. nia.
  - destruct H2 as [->|H2]; [now left|now right].
Qed.
Lemma iterations_grid lo hi inc : 0 < inc ->
  iterations lo hi inc = map (fun k => k * inc + lo) (range (grid_size lo hi inc)).
Proof.
  intros P. unfold grid_size. destruct (Z.le_gt_cases hi lo) as [L|L].
  - unfold iterations. replace (Z.to_nat (hi - lo)) with O by lia. cbn [iterate].
    assert (Q : Z.quot (hi - lo + (inc - 1)) inc <= 0).
    { destruct (Z.le_gt_cases 0 (hi - lo + (inc - 1))) as [S|S].
      - rewrite Z.quot_small by lia. lia.
      - replace (hi - lo + (inc - 1)) with (- - (hi - lo + (inc - 1))) by lia.
        rewrite Z.quot_opp_l by lia. pose proof (Z.quot_pos (-(hi - lo + (inc - 1))) inc). lia. }
    unfold range. replace (Z.to_nat (Z.quot (hi - lo + (inc - 1)) inc)) with O by lia. reflexivity.
  - rewrite Z.quot_div_nonneg by lia.
    pose proof (Z.div_mod (hi - lo + (inc - 1)) inc ltac:(lia)) as E.
    pose proof (Z.mod_pos_bound (hi - lo + (inc - 1)) inc P) as B.
    set (n := (hi - lo + (inc - 1)) / inc) in *. apply iterations_count; try nia.
Qed.
Lemma even_count l : even l -> 0 < count_of l /\
  (let '(_, lo, hi, inc) := l in iterations lo hi inc) = map (fun k => id_of k l) (range (count_of l)).
Proof.
  destruct l as [[[v lo] hi] inc]. intros (P & L & [q Q]). cbn [count_of id_of].
  assert (E : Z.quot (hi - lo) inc = q) by (rewrite Q; apply Z.quot_mul; lia).
  rewrite E. split; [nia|]. apply iterations_count; nia.
Qed.
Lemma iterations_first lo hi inc : 0 < inc -> lo < hi ->
  exists r, iterations lo hi inc = lo :: r /\ forall x, In x r -> lo < x.
Proof.
  intros P L. rewrite iterations_grid by exact P.
  assert (G : 0 < grid_size lo hi inc).
  { unfold grid_size. rewrite Z.quot_div_nonneg by lia. apply Z.div_str_pos. lia. }
  rewrite <- (Z2Nat.id (grid_size lo hi inc)) by lia. destruct (Z.to_nat (grid_size lo hi inc)) as [|n] eqn:E; [lia|].
  rewrite range_S. cbn [map]. eexists. split; [f_equal|].
  intros x I. rewrite map_map in I. apply in_map_iff in I. destruct I as (k & <- & K). apply range_in in K. nia.
Qed.
Lemma iterations_sorted lo hi inc : 0 < inc -> exists n, iterations lo hi inc = map (fun k => k * inc + lo) (range n).
Proof. intros P. eexists. apply iterations_grid. exact P. Qed.

(** Pairs of numbers as numbers *)
Lemma seq_mul a b : seq 0 (a * S b) = seq 0 (a * b) ++ seq (a * b) a.
Proof. replace (a * S b)%nat with (a * b + a)%nat by lia. now rewrite seq_app. Qed.
Lemma seq_plus c len : forall n, seq (c + n) len = map (Nat.add c) (seq n len).
Proof.
  induction len as [|len IH]; intros n; [reflexivity|]. cbn [seq map]. f_equal.
  rewrite <- IH. f_equal. lia.
Qed.
Lemma range_mul {A} (f : Z -> list A) a b : 0 <= a -> 0 <= b ->
  flat_map f (range (a * b)) = flat_map (fun w => flat_map (fun t => f (w * a + t)) (range a)) (range b).
Proof.
  intros Ha Hb. rewrite <- (Z2Nat.id a), <- (Z2Nat.id b) by assumption. clear Ha Hb.
  generalize (Z.to_nat a) (Z.to_nat b). clear a b. intros a b. unfold range. rewrite <- Nat2Z.inj_mul, !Nat2Z.id.
  rewrite !flat_map_map_. induction b as [|b IH].
  - rewrite Nat.mul_0_r. reflexivity.
  - rewrite seq_mul, flat_map_app, IH. clear IH. replace (S b) with (b + 1)%nat by lia.
    rewrite seq_app, flat_map_app. f_equal. cbn [plus seq flat_map]. rewrite app_nil_r, flat_map_map_.
    rewrite <- (Nat.add_0_r (a * b)), seq_plus, flat_map_map_.
    apply flat_map_ext. intros t. f_equal. lia.
Qed.

(** ** Environments *)
Lemma sem_ext d s : forall e e', (forall v, e v = e' v) -> sem d e s = sem d e' s.
Proof.
  induction s as [a vs|s1 IH1 s2 IH2|v lo hi inc b IH|u v lo hi inc b IH|v lo hi inc b IH]; intros e e' H; cbn [sem].
  - f_equal. f_equal. apply map_ext. exact H.
  - now rewrite (IH1 e e' H), (IH2 e e' H).
  - unfold eval. rewrite !(map_ext e e' H). apply flat_map_ext. intros x. apply IH.
    intros w. unfold upd. now destruct (Nat.eqb w v).
  - destruct (d u); [now apply IH|]. apply flat_map_ext. intros x. apply IH.
    intros w. unfold upd. now destruct (Nat.eqb w v).
  - rewrite H. destruct (d Thread && negb (e' v =? lo)); [reflexivity|]. apply flat_map_ext. intros x. apply IH.
    intros w. unfold upd. now destruct (Nat.eqb w v).
Qed.
Lemma upd_swap e v w x y : v <> w -> forall z, upd (upd e v x) w y z = upd (upd e w y) v x z.
Proof.
  intros N z. unfold upd. destruct (Nat.eqb_spec z w), (Nat.eqb_spec z v); subst; congruence.
Qed.
Lemma upd_twice e v x y : forall z, upd (upd e v x) v y z = upd e v y z.
Proof. intros z. unfold upd. now destruct (Nat.eqb z v). Qed.
Lemma upd_same e v x : upd e v x v = x.
Proof. unfold upd. now rewrite Nat.eqb_refl. Qed.
Lemma eval_upd e v x b : ~ In v (uses b) -> eval (upd e v x) b = eval e b.
Proof.
  intros N. unfold eval. f_equal. apply map_ext_in. intros w I. unfold upd.
  destruct (Nat.eqb_spec w v); [subst; contradiction|reflexivity].
Qed.
Lemma sem_silent d s : forall e, silent s -> sem d e s = [].
Proof.
  induction s as [a vs|s1 IH1 s2 IH2|v lo hi inc b IH|u v lo hi inc b IH|v lo hi inc b IH]; intros e H; cbn [silent sem] in *; try contradiction.
  - destruct H. now rewrite IH1, IH2.
  - rewrite (flat_map_ext _ (fun _ => [])) by (intros; now apply IH). apply flat_map_nil.
Qed.
Lemma sem_without u d d' s : (forall u', u' <> u -> d' u' = d u') ->
  forall e, without u s -> sem d' e s = sem d e s.
Proof.
  intros D. induction s as [a vs|s1 IH1 s2 IH2|v lo hi inc b IH|u' v lo hi inc b IH|v lo hi inc b IH]; intros e H; cbn [without sem] in *.
  - reflexivity.
  - destruct H. now rewrite IH1, IH2.
  - apply flat_map_ext. intros. now apply IH.
  - destruct H as [N H]. rewrite (D u' N). destruct (d u'); [now apply IH|]. apply flat_map_ext. intros. now apply IH.
  - destruct H as [N H]. rewrite (D Thread) by congruence. destruct (d Thread && _); [reflexivity|].
    apply flat_map_ext. intros. now apply IH.
Qed.

(** ** One unit at a time *)
Lemma eliminate u l d d' s : placed u l s -> even l ->
  d u = false -> d' u = true -> (forall u', u' <> u -> d' u' = d u') -> (u = Thread -> d Warp = true \/ without Warp s) ->
  forall e, Permutation
    (flat_map (fun x => sem d' (upd e (var_of l) x) s) (let '(_, lo, hi, inc) := l in iterations lo hi inc))
    (sem d e s).
Proof.
  intros P E D1 D2 D3. induction P as
    [v lo hi inc b -> W|s1 s2 P IH Q|s1 s2 Q P IH|v lo hi inc b P IH N1 N2 N3|v lo hi inc b U P IH|s v lo hi inc hi' inc' b U -> P IH W];
    intros D4 e; cbn [sem var_of].
  - rewrite D1, D2. rewrite (flat_map_ext _ (fun x => sem d (upd e v x) b)); [reflexivity|].
    intros x. now apply (sem_without u).
  - rewrite (sem_silent d s2 e Q), app_nil_r.
    rewrite (flat_map_ext _ (fun x => sem d' (upd e (var_of l) x) s1)).
    + apply IH. intros T. destruct (D4 T) as [H|H]; [now left|right; apply H].
    + intros x. now rewrite (sem_silent d' s2 _ Q), app_nil_r.
  - rewrite (sem_silent d s1 e Q). cbn [app].
    rewrite (flat_map_ext _ (fun x => sem d' (upd e (var_of l) x) s2)).
    + apply IH. intros T. destruct (D4 T) as [H|H]; [now left|right; apply H].
    + intros x. now rewrite (sem_silent d' s1 _ Q).
  - rewrite (flat_map_ext _ (fun x => flat_map (fun y => sem d' (upd (upd e v y) (var_of l) x) b)
                                 (iterations (eval e lo) (eval e hi) inc))).
    + rewrite flat_map_swap. apply flat_map_perm. intros y _. apply IH.
      intros T. destruct (D4 T) as [H|H]; [now left|right; apply H].
    + intros x. rewrite !eval_upd by assumption. apply flat_map_ext. intros y. apply sem_ext.
      intros z. apply upd_swap. congruence.
  - destruct (D4 U) as [H|[H _]]; [|congruence]. rewrite (D3 Warp) by (subst u; discriminate). rewrite H.
    apply IH. now left.
  - subst u. rewrite D1. cbn [andb]. rewrite D2. cbn [andb]. rewrite flat_map_both. apply Permutation_app.
    + apply IH. intros T. destruct (D4 T) as [H|H]; [now left|right; apply H].
    + destruct E as (Pi & L & _). destruct (iterations_first lo hi inc Pi L) as (r & -> & R).
      cbn [flat_map]. rewrite upd_same, Z.eqb_refl. cbn [negb].
      rewrite (flat_map_ext_in _ (fun _ => []) r).
      * rewrite flat_map_nil, app_nil_r. rewrite (flat_map_ext _ (fun x => sem d (upd e v x) b)); [reflexivity|].
        intros x. rewrite (sem_ext d' b _ _ (upd_twice e v lo x)). now apply (sem_without Thread).
      * intros x I. rewrite upd_same. apply R in I. destruct (Z.eqb_spec x lo); [lia|reflexivity].
Qed.

(** ** What is collected *)
Lemma collect_silent s : forall st, silent s -> collect st s = Some st.
Proof.
  induction s; intros st H; cbn in *; try contradiction.
  - destruct H as [H1 H2]. now rewrite IHs1, IHs2.
  - now apply IHs.
Qed.
Lemma collect_without s : forall st, without Thread s -> without Warp s -> without Block s -> collect st s = Some st.
Proof.
  induction s as [a vs|s1 IH1 s2 IH2|v lo hi inc b IH|u v lo hi inc b IH|v lo hi inc b IH]; intros st T W B; cbn in *; auto.
  - destruct T, W, B. now rewrite IH1, IH2.
  - destruct u; tauto.
  - tauto.
Qed.
Lemma collect_thread t s : placed Thread t s -> without Warp s -> without Block s ->
  forall w, collect (w, None) s = Some (w, Some t).
Proof.
  induction 1 as
    [v lo hi inc b -> W|s1 s2 P IH Q|s1 s2 Q P IH|v lo hi inc b P IH N1 N2 N3|v lo hi inc b U P IH|s v lo hi inc hi' inc' b U -> P IH W];
    intros Ww Wb w; cbn in Ww, Wb |- *.
  - apply collect_without; tauto.
  - rewrite IH by tauto. now apply collect_silent.
  - rewrite (collect_silent s1 _ Q). apply IH; tauto.
  - apply IH; tauto.
  - tauto.
  - rewrite IH by tauto. apply collect_without; tauto.
Qed.
Lemma placed_not_silent u l s : placed u l s -> silent s -> False.
Proof. induction 1; cbn; tauto. Qed.
Lemma collect_warp w t s : placed Warp w s -> placed Thread t s -> without Block s ->
  collect (None, None) s = Some (Some w, Some t).
Proof.
  induction 1 as
    [v lo hi inc b -> W|s1 s2 P IH Q|s1 s2 Q P IH|v lo hi inc b P IH N1 N2 N3|v lo hi inc b U P IH|s v lo hi inc hi' inc' b U E P IH W];
    intros T B; inversion T; subst; cbn in B |- *; try discriminate; try tauto;
    try (match goal with H : placed _ _ ?s, K : silent ?s |- _ =>
           exfalso; exact (placed_not_silent _ _ _ H K) end).
  - apply collect_thread; tauto.
  - rewrite IH by tauto. now apply collect_silent.
  - destruct Q.
  - rewrite (collect_silent s1 _ Q). apply IH; tauto.
Qed.

(** ** Kernels *)
Lemma kernel_right e v lo hi inc s w t : kernel_body s w t -> 0 < inc -> block_size w t <= max_threads ->
  exists evs, kernel e v lo hi inc s = Some evs /\
    Permutation evs (sequential e (Par Block v lo hi inc s)).
Proof.
  intros K P S. unfold kernel.
  assert (C : collect (None, None) s = Some (w, Some t)).
  { destruct K; [now apply collect_thread|now apply collect_warp]. }
  rewrite C.
  assert (Z1 : 1 <= block_size w t).
  { destruct K as [s t T W B Et|s w t T W B Et Ew N]; cbn [block_size].
    - destruct (even_count t Et). lia.
    - destruct (even_count t Et), (even_count w Ew). nia. }
  destruct (Z.leb_spec 1 (block_size w t)) as [_|?]; [|lia].
  destruct (Z.leb_spec (block_size w t) max_threads) as [_|?]; [|lia]. cbn [andb].
  eexists. split; [reflexivity|]. unfold sequential. cbn [sem]. rewrite iterations_grid by exact P.
  rewrite flat_map_map_. apply flat_map_perm. intros k _. unfold thread_env. cbn [var_of id_of].
  set (e1 := upd e v (k * inc + lo)). clearbody e1. clear e v lo hi inc P S C Z1 k.
  destruct K as [s t T W B Et|s w t T W B Et Ew N].
  - cbn [block_size]. destruct (even_count t Et) as [Cp Ct].
    pose proof (eliminate Thread t (fun _ => false) (fun u => match u with Thread => true | _ => false end) s T Et
      eq_refl eq_refl) as El. cbn beta in El.
    rewrite <- El; [|intros [] H; congruence|now right]. rewrite Ct, flat_map_map_.
    apply flat_map_perm. intros x I. apply range_in in I. rewrite Z.rem_small by lia.
    rewrite (sem_without Warp (fun u => match u with Thread => true | _ => false end) device s); [reflexivity| |exact W].
    intros [] H; try reflexivity; congruence.
  - cbn [block_size]. destruct (even_count t Et) as [Ctp Ct]. destruct (even_count w Ew) as [Cwp Cw].
    rewrite range_mul by lia.
    pose proof (eliminate Warp w (fun _ => false) (fun u => match u with Warp => true | _ => false end) s W Ew
      eq_refl eq_refl) as Elw. cbn beta in Elw.
    rewrite <- Elw; [|intros [] H; congruence|discriminate]. rewrite Cw, flat_map_map_.
    apply flat_map_perm. intros x I. apply range_in in I.
    pose proof (eliminate Thread t (fun u => match u with Warp => true | _ => false end) device s T Et
      eq_refl eq_refl) as Elt. cbn beta in Elt.
    rewrite <- Elt; [|intros [] H; reflexivity || congruence|now left]. rewrite Ct, flat_map_map_.
    apply flat_map_perm. intros y J. apply range_in in J.
    rewrite Z.quot_div_nonneg, Z.rem_mod_nonneg by nia.
    replace (x * count_of t + y) with (y + x * count_of t) by lia.
    rewrite Z.mod_add, Z.div_add, Z.mod_small, Z.div_small by lia. cbn [Z.add].
    rewrite (sem_ext device s _ (upd (upd e1 (var_of w) (id_of x w)) (var_of t) (id_of y t))); [reflexivity|].
    intros z. apply upd_swap. congruence.
Qed.

Lemma both_all_perm {A} (xs : list A) (f : A -> option (list event)) (g : A -> list event) :
  (forall x, In x xs -> exists l, f x = Some l /\ Permutation l (g x)) ->
  exists l, both_all (map f xs) = Some l /\ Permutation l (flat_map g xs).
Proof.
  induction xs as [|x xs IH]; intros H; [now exists []|]. cbn.
  destruct (H x (or_introl eq_refl)) as (l & -> & P). destruct IH as (r & -> & Q).
  - intros y I. apply H. now right.
  - exists (l ++ r). split; [reflexivity|]. now apply Permutation_app.
Qed.
Lemma host_right s : gpu_program s -> forall e, exists evs, host e s = Some evs /\ Permutation evs (sequential e s).
Proof.
  induction 1 as [a vs|s1 s2 G1 IH1 G2 IH2|v lo hi inc b G IH|v lo hi inc b w t K P S]; intros e.
  - now exists [(a, map e vs)].
  - cbn [host]. destruct (IH1 e) as (l1 & E1 & P1), (IH2 e) as (l2 & E2 & P2). rewrite E1, E2.
    exists (l1 ++ l2 ++ []). split; [reflexivity|]. rewrite app_nil_r. now apply Permutation_app.
  - cbn [host]. unfold sequential. cbn [sem]. apply both_all_perm. intros x _. apply IH.
  - cbn [host]. exact (kernel_right e v lo hi inc b w t K P S).
Qed.

(** ** Atomic updates *)
Definition left_to_do (ts : list thread) : list step := concat (map snd ts).
Lemma left_step before old s rest after old' :
  Permutation (left_to_do (before ++ (old, s :: rest) :: after))
    (s :: left_to_do (before ++ (old', rest) :: after)).
Proof.
  unfold left_to_do. rewrite !map_app, !concat_app. cbn [map snd concat app].
  symmetry. apply Permutation_middle.
Qed.
Lemma left_none ts : (forall t, In t ts -> snd t = []) -> left_to_do ts = [].
Proof.
  induction ts as [|t ts IH]; intros H; [reflexivity|]. unfold left_to_do in *. cbn.
  rewrite (H t) by now left. apply IH. intros u I. apply H. now right.
Qed.
Definition added (l : nat) (ss : list step) : list Z :=
  flat_map (fun s => match s with Add k z => if Nat.eqb k l then [z] else [] | _ => [] end) ss.
Definition ored (l : nat) (ss : list step) : list Z :=
  flat_map (fun s => match s with Or k z => if Nat.eqb k l then [z] else [] | _ => [] end) ss.
Lemma total_app a b : total (a ++ b) = total a + total b.
Proof. induction a as [|x a IH]; cbn; [reflexivity|]. unfold total in *. lia. Qed.
Lemma union_app a b : union (a ++ b) = Z.lor (union a) (union b).
Proof. induction a as [|x a IH]; cbn; [reflexivity|]. unfold union in *. now rewrite IH, Z.lor_assoc. Qed.
Lemma total_perm a b : Permutation a b -> total a = total b.
Proof. induction 1; unfold total in *; cbn in *; lia. Qed.
Lemma union_perm a b : Permutation a b -> union a = union b.
Proof.
  induction 1; unfold union in *; cbn in *; try congruence.
  rewrite !Z.lor_assoc. now rewrite (Z.lor_comm y x).
Qed.
Lemma flat_map_permutation {A B} (f : A -> list B) xs ys : Permutation xs ys -> Permutation (flat_map f xs) (flat_map f ys).
Proof.
  induction 1; cbn; auto.
  - now apply Permutation_app_head.
  - rewrite !app_assoc. apply Permutation_app_tail. apply Permutation_app_comm.
  - etransitivity; eassumption.
Qed.
Lemma added_perm l a b : Permutation a b -> Permutation (added l a) (added l b).
Proof. apply flat_map_permutation. Qed.
Lemma ored_perm l a b : Permutation a b -> Permutation (ored l a) (ored l b).
Proof. apply flat_map_permutation. Qed.
Lemma added_cons l k z ss : added l (Add k z :: ss) = (if Nat.eqb k l then [z] else []) ++ added l ss.
Proof. reflexivity. Qed.
Lemma ored_cons l k z ss : ored l (Or k z :: ss) = (if Nat.eqb k l then [z] else []) ++ ored l ss.
Proof. reflexivity. Qed.
Lemma all_added m ts m' : interleaving m ts m' ->
  (forall s, In s (left_to_do ts) -> exists l z, s = Add l z) ->
  forall l, m' l = m l + total (added l (left_to_do ts)).
Proof.
  induction 1 as [m ts F|m before old s rest after m' R IH]; intros A l.
  - rewrite (left_none ts F). cbn. lia.
  - pose proof (left_step before old s rest after (snd (do_step m old s))) as P.
    rewrite (total_perm _ _ (added_perm l _ _ P)).
    destruct (A s) as (k & z & ->).
    { apply (Permutation_in _ (Permutation_sym P)). now left. }
    rewrite (IH (fun s' I => A s' (Permutation_in _ (Permutation_sym P) (or_intror I)))).
    rewrite added_cons, total_app. cbn [do_step fst snd]. unfold upd.
    destruct (Nat.eqb_spec l k), (Nat.eqb_spec k l); subst; try congruence; cbn [total fold_right]; lia.
Qed.
Lemma all_ored m ts m' : interleaving m ts m' ->
  (forall s, In s (left_to_do ts) -> exists l z, s = Or l z) ->
  forall l, m' l = Z.lor (m l) (union (ored l (left_to_do ts))).
Proof.
  induction 1 as [m ts F|m before old s rest after m' R IH]; intros A l.
  - rewrite (left_none ts F). cbn. now rewrite Z.lor_0_r.
  - pose proof (left_step before old s rest after (snd (do_step m old s))) as P.
    rewrite (union_perm _ _ (ored_perm l _ _ P)).
    destruct (A s) as (k & z & ->).
    { apply (Permutation_in _ (Permutation_sym P)). now left. }
    rewrite (IH (fun s' I => A s' (Permutation_in _ (Permutation_sym P) (or_intror I)))).
    rewrite ored_cons, union_app. cbn [do_step fst snd]. unfold upd.
    destruct (Nat.eqb_spec l k), (Nat.eqb_spec k l); subst; try congruence; cbn [union fold_right].
    + rewrite Z.lor_0_r. now rewrite Z.lor_assoc.
    + reflexivity.
Qed.
Lemma left_start uss : left_to_do (map start uss) = concat (map steps_of (concat uss)).
Proof.
  unfold left_to_do. induction uss as [|us uss IH]; [reflexivity|]. cbn [map concat].
  rewrite map_app, concat_app. cbn [start snd]. now rewrite IH.
Qed.
Lemma adds_steps us : adds us -> (forall s, In s (concat (map steps_of us)) -> exists l z, s = Add l z) /\
  forall l, added l (concat (map steps_of us)) = operands l us.
Proof.
  induction us as [|u us IH]; intros H; [split; [easy|reflexivity]|].
  destruct IH as [I J]. { intros x X. apply H. now right. }
  destruct (H u) as (k & z & ->); [now left|]. cbn [map concat steps_of app]. split.
  - intros s [<-|S]; [now exists k, z|now apply I].
  - intros l. cbn [added flat_map operands]. fold (added l). f_equal. apply J.
Qed.
Lemma ors_steps us : ors us -> (forall s, In s (concat (map steps_of us)) -> exists l z, s = Or l z) /\
  forall l, ored l (concat (map steps_of us)) = operands l us.
Proof.
  induction us as [|u us IH]; intros H; [split; [easy|reflexivity]|].
  destruct IH as [I J]. { intros x X. apply H. now right. }
  destruct (H u) as (k & z & ->); [now left|]. cbn [map concat steps_of app]. split.
  - intros s [<-|S]; [now exists k, z|now apply I].
  - intros l. cbn [ored flat_map operands]. fold (ored l). f_equal. apply J.
Qed.
(** One thread *)
Fixpoint run (m : memory) (old : Z) (ss : list step) : memory :=
  match ss with
  | [] => m
  | s :: r => run (fst (do_step m old s)) (snd (do_step m old s)) r
  end.
Lemma alone m ts m' : interleaving m ts m' -> forall old ss, ts = [(old, ss)] -> m' = run m old ss.
Proof.
  induction 1 as [m ts F|m before o s rest after m' R IH]; intros old ss E.
  - subst ts. specialize (F _ (or_introl eq_refl)). cbn in F. now subst ss.
  - destruct before as [|b before].
    + cbn in E. injection E as <- <- ->. cbn [run]. now apply IH.
    + cbn in E. injection E as _ E. destruct before; discriminate.
Qed.
Lemma run_muls us : muls us -> forall m old l, run m old (concat (map steps_of us)) l = m l * product (operands l us).
Proof.
  induction us as [|u us IH]; intros H m old l; [cbn; lia|].
  destruct (H u) as (k & z & ->); [now left|]. cbn [map concat steps_of app run do_step fst snd].
  rewrite Z.eqb_refl. rewrite IH by (intros x X; apply H; now right). unfold upd.
  cbn [operands flat_map]. fold (operands l us).
  destruct (Nat.eqb_spec l k), (Nat.eqb_spec k l); subst; try congruence; cbn; unfold product; cbn; lia.
Qed.

(** ** Warps *)
Lemma fold_lanes (active : nat -> bool) (index : nat -> nat) v ls : forall m l,
  fold_left (fun m i => if active i then upd m (index i) (m (index i) + v i) else m) ls m l =
  m l + total (map v (filter (fun i => active i && Nat.eqb (index i) l) ls)).
Proof.
  induction ls as [|i ls IH]; intros m l; cbn [fold_left filter map]; [cbn; lia|].
  rewrite IH. destruct (active i); cbn [andb]; [|reflexivity]. unfold upd.
  destruct (Nat.eqb_spec l (index i)), (Nat.eqb_spec (index i) l); subst; try congruence; cbn; unfold total; cbn; lia.
Qed.
Lemma tree_sum active junk v : (forall i, (i < 32)%nat -> active i = true) ->
  fold_left (reduce_step active junk) [16; 8; 4; 2; 1]%nat v 0%nat = total (map v lanes).
Proof.
  intros H. unfold lanes, total.
  cbn [fold_left seq map fold_right]. unfold reduce_step, shfl_down.
  cbn [Nat.add Nat.ltb Nat.leb].
  rewrite !(H 1%nat), !(H 2%nat), !(H 3%nat), !(H 4%nat), !(H 5%nat), !(H 6%nat), !(H 7%nat), !(H 8%nat) by lia.
  repeat (rewrite H by lia). lia.
Qed.
Lemma warp_right active junk index junk_index v m l :
  add_warp active junk index junk_index v m l =
  m l + total (map v (filter (fun i => active i && Nat.eqb (index i) l) lanes)).
Proof.
  unfold add_warp.
  destruct (forallb (fun i => active i && Nat.eqb (if active 0%nat then index 0%nat else junk_index) (index i)) lanes) eqn:M.
  2: apply fold_lanes.
  rewrite forallb_forall in M.
  assert (A : forall i, (i < 32)%nat -> active i = true).
  { intros i L. assert (I : In i lanes) by (apply in_seq; lia). apply M in I. now apply andb_true_iff in I. }
  assert (X : forall i, (i < 32)%nat -> index i = index 0%nat).
  { intros i L. assert (I : In i lanes) by (apply in_seq; lia). apply M in I. apply andb_true_iff in I.
    destruct I as [_ I]. apply Nat.eqb_eq in I. rewrite A in I by lia. now symmetry. }
  rewrite tree_sum by exact A. unfold upd.
  rewrite (filter_ext_in _ (fun _ => Nat.eqb (index 0%nat) l) lanes).
  2: { intros i I. apply in_seq in I. rewrite A by lia. now rewrite X by lia. }
  destruct (Nat.eqb_spec l (index 0%nat)), (Nat.eqb_spec (index 0%nat) l); subst; try congruence.
  - replace (filter (fun _ => true) lanes) with lanes; [reflexivity|].
    clear. induction lanes as [|i ls IH]; [reflexivity|]. cbn. now rewrite <- IH.
  - replace (filter (fun _ => false) lanes) with (@nil nat) by (clear; induction lanes; auto). cbn. lia.
Qed.

(** ** Searches *)
Lemma filter_range {A} (f : Z -> A) n k : 0 <= n -> n <= k ->
  flat_map (fun i => if n <=? i then [] else [f i]) (range k) = map f (range n).
Proof.
  intros N K. unfold range. replace (Z.to_nat k) with (Z.to_nat n + Z.to_nat (k - n))%nat by lia.
  rewrite seq_app, map_app, flat_map_app, !flat_map_map_. cbn [plus].
  rewrite (flat_map_ext_in _ (fun _ => []) (seq (Z.to_nat n) _)).
  - rewrite flat_map_nil, app_nil_r. rewrite (flat_map_ext_in _ (fun i => [f (Z.of_nat i)])).
    + rewrite map_map. induction (seq 0 (Z.to_nat n)) as [|x xs IH]; [reflexivity|]. cbn. now rewrite IH.
    + intros x I. apply in_seq in I. destruct (Z.leb_spec n (Z.of_nat x)); [lia|reflexivity].
  - intros x I. apply in_seq in I. destruct (Z.leb_spec n (Z.of_nat x)); [reflexivity|lia].
Qed.
Lemma search_right search target size nb : 1 <= size <= max_threads -> 0 <= nb ->
  search_launch search target size nb = map (fun idx => (idx, search (target idx))) (range (nb + 1)).
Proof.
  intros S N. unfold search_launch. destruct (Z.leb_spec 1 size); [|lia].
  destruct (Z.leb_spec size max_threads); [|lia]. cbn [andb].
  rewrite Z.quot_div_nonneg by lia.
  pose proof (Z.div_mod (nb + 1 + size - 1) size ltac:(lia)) as E.
  pose proof (Z.mod_pos_bound (nb + 1 + size - 1) size ltac:(lia)) as B.
  set (q := (nb + 1 + size - 1) / size) in *. assert (0 <= q) by nia.
  pose proof (range_mul (fun idx => if nb + 1 <=? idx then [] else [(idx, search (target idx))]) size q ltac:(lia) ltac:(lia)) as R.
  cbn beta zeta. rewrite <- R. apply (filter_range (fun idx => (idx, search (target idx)))); nia.
Qed.

(** ** Continue *)
Lemma break_right guard body n inc lo : 0 < inc ->
  (forall x y, x < y -> guard x = true -> guard y = true) ->
  loop_break guard body (map (fun k => k * inc + lo) (range n)) =
  flat_map (fun x => if guard x then [] else body x) (map (fun k => k * inc + lo) (range n)).
Proof.
  intros P M. unfold range. generalize (Z.to_nat n). clear n. intros n.
  generalize 0%nat. induction n as [|n IH]; intros s; [reflexivity|]. cbn [seq map loop_break flat_map].
  destruct (guard (Z.of_nat s * inc + lo)) eqn:G.
  - cbn [app]. symmetry. rewrite !flat_map_map_. rewrite (flat_map_ext_in _ (fun _ => [])); [apply flat_map_nil|].
    intros k I. apply in_seq in I. rewrite (M (Z.of_nat s * inc + lo) (Z.of_nat k * inc + lo)); [reflexivity|nia|exact G].
  - f_equal. apply IH.
Qed.
