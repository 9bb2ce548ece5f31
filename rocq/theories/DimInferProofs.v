(** Proofs about the inference of dimensions. *)
From Coq Require Import List ZArith Bool Lia Ascii.
From Verif Require Import Parser DimInfer DimInferSpec.
Import ListNotations.
Local Open Scope nat_scope.

Lemma text_eqb_spec : forall a b, reflect (a = b) (text_eqb a b).
Proof. intros a b. unfold text_eqb. destruct (list_eq_dec ascii_dec a b); constructor; assumption. Qed.
Lemma text_eqb_refl : forall a, text_eqb a a = true.
Proof. intros a. destruct (text_eqb_spec a a); congruence. Qed.

Definition text_dec : forall a b : text, {a = b} + {a <> b} := list_eq_dec ascii_dec.

(** * Maps *)
Lemma find_app : forall A (m m' : list (text * A)) k,
  find k (m ++ m') = match find k m with Some a => Some a | None => find k m' end.
Proof. induction m as [|[k' a] m IH]; intros m' k; cbn; [reflexivity|]. destruct (text_eqb k k'); [reflexivity|apply IH]. Qed.
Lemma find_insert : forall A (m : list (text * A)) k k' a,
  find k (insert k' a m) = match find k m with Some b => Some b | None => if text_eqb k k' then Some a else None end.
Proof.
  intros A m k k' a. unfold insert. destruct (find k' m) eqn:E.
  - destruct (find k m) eqn:F; [reflexivity|]. destruct (text_eqb_spec k k') as [->|]; [congruence|reflexivity].
  - rewrite find_app. cbn. reflexivity.
Qed.
Lemma find_in : forall A (m : list (text * A)) k a, find k m = Some a -> In (k, a) m.
Proof.
  induction m as [|[k' b] m IH]; intros k a; cbn; [discriminate|].
  destruct (text_eqb_spec k k') as [->|]; [intros [= ->]; left; reflexivity|right; apply IH; assumption].
Qed.
Lemma find_none : forall A (m : list (text * A)) k a, find k m = None -> ~ In (k, a) m.
Proof.
  induction m as [|[k' b] m IH]; intros k a; cbn; [intros _ []|].
  destruct (text_eqb_spec k k') as [->|N]; [discriminate|]. intros E [[= -> ->]|I]; [congruence|exact (IH k a E I)].
Qed.
Lemma find_update : forall A (m : list (text * A)) k k' a,
  find k (update k' a m) = match find k m with Some b => if text_eqb k k' then Some a else Some b | None => None end.
Proof.
  induction m as [|[k'' b] m IH]; intros k k' a; cbn; [reflexivity|].
  destruct (text_eqb_spec k' k'') as [->|N]; cbn.
  - destruct (text_eqb k k''); [reflexivity|]. destruct (find k m); reflexivity.
  - destruct (text_eqb_spec k k'') as [->|N'].
    + destruct (text_eqb_spec k'' k') as [<-|]; [congruence|reflexivity].
    + apply IH.
Qed.
Lemma find_updates : forall A (new m : list (text * A)) k,
  NoDup (map fst new) -> find k m <> None ->
  find k (fold_left (fun ts p => update (fst p) (snd p) ts) new m)
  = match find k new with Some a => Some a | None => find k m end.
Proof.
  intros A. induction new as [|[k' a] new IH]; intros m k ND NN; cbn [fold_left find fst snd]; [reflexivity|].
  cbn in ND. inversion ND as [|? ? NI ND']; subst.
  assert (F := find_update A m k k' a).
  rewrite IH; [|exact ND'|rewrite F; destruct (find k m); [destruct (text_eqb k k'); discriminate|congruence]].
  rewrite F. destruct (text_eqb_spec k k') as [->|N].
  - destruct (find k' new) eqn:E.
    + exfalso. apply NI. apply in_map_iff. exists (k', a0). split; [reflexivity|exact (find_in _ _ _ _ E)].
    + destruct (find k' m); [reflexivity|congruence].
  - destruct (find k new); [reflexivity|]. destruct (find k m); reflexivity.
Qed.
Lemma insert_keys : forall A (m : list (text * A)) k a, NoDup (map fst m) -> NoDup (map fst (insert k a m)).
Proof.
  intros A m k a ND. unfold insert. destruct (find k m) eqn:E; [exact ND|].
  rewrite map_app. cbn. induction m as [|[k' b] m IH]; cbn in *.
  - constructor; [intros []|constructor].
  - inversion ND as [|? ? NI ND']; subst. destruct (text_eqb_spec k k') as [->|N]; [discriminate|].
    constructor; [|apply IH; assumption]. rewrite in_app_iff. intros [I|[I|[]]]; [exact (NI I)|congruence].
Qed.

(** * Collecting *)
(** Entering a list of facts about variables into a map, if they agree. *)
Fixpoint enter (facts : list (text * Z)) (dims : list (text * Z)) : dresult (list (text * Z)) :=
  match facts with
  | [] => DOk dims
  | (v, d) :: facts =>
      match find v dims with
      | Some d' => if (d' =? d)%Z then enter facts dims else DError
      | None => enter facts (insert v d dims)
      end
  end.
Definition agree (R : text -> Z -> Prop) : Prop := forall v d d', R v d -> R v d' -> d = d'.
Lemma enter_agrees : forall facts dims,
  agree (fun v d => find v dims = Some d \/ In (v, d) facts) ->
  exists dims', enter facts dims = DOk dims' /\ forall v d, find v dims' = Some d <-> find v dims = Some d \/ In (v, d) facts.
Proof.
  induction facts as [|[v0 d0] facts IH]; intros dims A; cbn [enter].
  - exists dims. split; [reflexivity|]. intros v d. cbn. tauto.
  - destruct (find v0 dims) as [d'|] eqn:E.
    + assert (d' = d0) as -> by (apply (A v0); [left; exact E|right; left; reflexivity]).
      rewrite Z.eqb_refl. destruct (IH dims) as (D & H & S).
      { intros v d e [X|X] [Y|Y]; apply (A v); solve [left; assumption|right; right; assumption]. }
      exists D. split; [exact H|]. intros v d. rewrite S. cbn. split; [tauto|]. intros [X|[[= <- <-]|X]]; tauto.
    + destruct (IH (insert v0 d0 dims)) as (D & H & S).
      { assert (G : forall v d, find v (insert v0 d0 dims) = Some d \/ In (v, d) facts -> find v dims = Some d \/ In (v, d) ((v0, d0) :: facts)).
        { intros v d [X|X]; [|right; right; exact X]. rewrite find_insert in X.
          destruct (find v dims); [left; exact X|]. destruct (text_eqb_spec v v0) as [->|]; [|discriminate].
          injection X as <-. right. left. reflexivity. }
        intros v d e X Y. exact (A v d e (G _ _ X) (G _ _ Y)). }
      exists D. split; [exact H|]. intros v d. rewrite S, find_insert. cbn.
      split.
      * intros [X|X]; [|tauto]. destruct (find v dims); [tauto|]. destruct (text_eqb_spec v v0) as [->|]; [|discriminate]. injection X as <-. tauto.
      * intros [X|[[= <- <-]|X]]; [left; rewrite X; reflexivity| |tauto]. left. rewrite E, text_eqb_refl. reflexivity.
Qed.
Lemma enter_ok : forall facts dims dims', enter facts dims = DOk dims' ->
  agree (fun v d => find v dims = Some d \/ In (v, d) facts).
Proof.
  induction facts as [|[v0 d0] facts IH]; intros dims dims' H v d e; cbn [enter] in H.
  - intros [X|[]] [Y|[]]. congruence.
  - destruct (find v0 dims) as [d'|] eqn:E.
    + destruct (Z.eqb_spec d' d0) as [->|]; [|discriminate]. specialize (IH _ _ H v d e).
      intros X Y. apply IH.
      * destruct X as [X|[[= <- <-]|X]]; [left; exact X|left; exact E|right; exact X].
      * destruct Y as [Y|[[= <- <-]|Y]]; [left; exact Y|left; exact E|right; exact Y].
    + specialize (IH _ _ H v d e). cbv beta in IH. rewrite !find_insert in IH. intros X Y. apply IH.
      * destruct X as [X|[[= <- <-]|X]]; [left; rewrite X; reflexivity|left; rewrite E, text_eqb_refl; reflexivity|right; exact X].
      * destruct Y as [Y|[[= <- <-]|Y]]; [left; rewrite Y; reflexivity|left; rewrite E, text_eqb_refl; reflexivity|right; exact Y].
Qed.
Lemma enter_defined : forall facts dims, enter facts dims <> DUndefined.
Proof.
  induction facts as [|[v0 d0] facts IH]; intros dims; cbn; [discriminate|].
  destruct (find v0 dims); [|apply IH]. destruct (_ =? _)%Z; [apply IH|discriminate].
Qed.
Lemma enter_app : forall f f' dims, enter (f ++ f') dims = (do dims <- enter f dims; enter f' dims).
Proof.
  induction f as [|[v d] f IH]; intros f' dims; cbn; [reflexivity|].
  destruct (find v dims); [|apply IH]. destruct (_ =? _)%Z; [apply IH|reflexivity].
Qed.
Lemma check_enter : forall facts dims, fst (check_modes facts dims) = true <-> exists dims', enter facts dims = DOk dims'.
Proof.
  induction facts as [|[v d] facts IH]; intros dims; cbn [check_modes enter].
  - split; [intros _; eexists; reflexivity|reflexivity].
  - destruct (find v dims); [|apply IH]. destruct (_ =? _)%Z; [apply IH|]. cbn. split; [discriminate|intros [? ?]; discriminate].
Qed.
Lemma check_iff : forall l rs, check l rs = true <-> agree (fun v d => In (v, d) (concat (map modes_of (l :: rs)))).
Proof.
  intros l rs. unfold check. rewrite check_enter. split.
  - intros (D & H) v d e X Y. exact (enter_ok _ _ _ H v d e (or_intror X) (or_intror Y)).
  - intros A. destruct (enter_agrees (concat (map modes_of (l :: rs))) []) as (D & H & _).
    + intros v d e [X|X] [Y|Y]; try discriminate. exact (A v d e X Y).
    + exists D. exact H.
Qed.

(** The facts an access gives. *)
Definition defaulted (M : list (nat * nat)) (id i : nat) : bool := existsb (fun p => (fst p =? id) && (snd p =? i)) M.
Lemma defaulted_iff : forall M id i, defaulted M id i = true <-> In (id, i) M.
Proof.
  intros M id i. unfold defaulted. rewrite existsb_exists. split.
  - intros ([x y] & I & E). cbn in E. apply andb_true_iff in E. destruct E as [E1 E2].
    apply Nat.eqb_eq in E1, E2. subst. exact I.
  - intros I. exists (id, i). split; [exact I|]. cbn. rewrite !Nat.eqb_refl. reflexivity.
Qed.
Fixpoint facts_from (M : list (nat * nat)) (id i : nat) (modes : list (text * Z)) : list (text * Z) :=
  match modes with
  | [] => []
  | p :: modes => (if defaulted M id i then [] else [p]) ++ facts_from M id (S i) modes
  end.
Lemma collect_modes_enter : forall M id modes i dims, collect_modes M id i modes dims = enter (facts_from M id i modes) dims.
Proof.
  intros M id. induction modes as [|[v d] modes IH]; intros i dims; cbn [collect_modes facts_from]; [reflexivity|].
  fold (defaulted M id i). destruct (defaulted M id i); cbn; [apply IH|].
  destruct (find v dims); [|cbn; apply IH]. destruct (_ =? _)%Z; cbn; [apply IH|reflexivity].
Qed.
Definition facts (M : list (nat * nat)) (a : access) : list (text * Z) := facts_from M (t_id (a_tensor a)) 0 (modes_of a).
Lemma collect_enter : forall M l dims, collect M l dims = enter (concat (map (facts M) l)) dims.
Proof.
  intros M. induction l as [|a l IH]; intros dims; cbn; [reflexivity|].
  rewrite enter_app. unfold collect_access. rewrite collect_modes_enter. unfold facts, modes_of.
  destruct (enter _ dims); cbn; [apply IH|reflexivity|reflexivity].
Qed.
Lemma nth_combine : forall A B (l : list A) (l' : list B) i p,
  nth_error (combine l l') i = Some p <-> nth_error l i = Some (fst p) /\ nth_error l' i = Some (snd p).
Proof.
  intros A B. induction l as [|x l IH]; intros l' i p; cbn.
  - destruct i; split; try discriminate; intros [? ?]; discriminate.
  - destruct l' as [|y l'].
    + destruct i; cbn; split; try discriminate; intros [? ?]; discriminate.
    + destruct i; cbn; [|apply IH]. destruct p as [u w]. cbn. split; [intros [= -> ->]; split; reflexivity|intros [[= ->] [= ->]]; reflexivity].
Qed.
Lemma facts_from_in : forall M id modes i v d,
  In (v, d) (facts_from M id i modes) <-> exists k, nth_error modes k = Some (v, d) /\ ~ In (id, i + k) M.
Proof.
  intros M id. induction modes as [|p modes IH]; intros i v d; cbn [facts_from].
  - split; [intros []|intros ([|k] & H & _); discriminate].
  - rewrite in_app_iff, IH. split.
    + intros [I|(k & H & N)].
      * destruct (defaulted M id i) eqn:E; [destruct I|]. destruct I as [->|[]]. exists 0. split; [reflexivity|].
        rewrite Nat.add_0_r, <- defaulted_iff, E. discriminate.
      * exists (S k). split; [exact H|]. rewrite Nat.add_succ_r. exact N.
    + intros ([|k] & H & N).
      * injection H as ->. left. rewrite Nat.add_0_r, <- defaulted_iff in N. destruct (defaulted M id i); [congruence|left; reflexivity].
      * right. exists k. split; [exact H|]. rewrite Nat.add_succ_r in N. exact N.
Qed.
Lemma facts_in : forall M a v d,
  In (v, d) (facts M a) <->
  exists k, nth_error (a_vars a) k = Some v /\ nth_error (t_dims (a_tensor a)) k = Some d /\ ~ In (t_id (a_tensor a), k) M.
Proof.
  intros M a v d. unfold facts. rewrite facts_from_in. unfold modes_of.
  split; intros (k & H); exists k; rewrite nth_combine in *; cbn in *; tauto.
Qed.

(** * Parsing the accesses *)
Section Given.
Variable g : given.

Definition gv (v : text) : option Z := match find v (tensorDimensions g) with Some (d :: _) => Some d | _ => None end.
Lemma gv_iff : forall v d, gv v = Some d <-> given_var g v d.
Proof.
  intros v d. unfold gv, given_var. destruct (find v (tensorDimensions g)) as [[|x r]|]; split; intros H; try discriminate.
  - destruct H as [r H]. discriminate.
  - injection H as ->. exists r. reflexivity.
  - destruct H as [r' [= -> ->]]. reflexivity.
  - destruct H as [r H]. discriminate.
Qed.
Definition base : nat := max_id (loaded g).
Lemma max_id_in : forall (l : list (text * tensor)) n t, In (n, t) l -> t_id t < max_id l.
Proof.
  unfold max_id. induction l as [|[m u] l IH]; intros n t I; cbn [fold_right snd]; [destruct I|].
  destruct I as [[= -> ->]|I]; [|specialize (IH _ _ I)]; lia.
Qed.
Lemma loaded_old : forall n t, find n (loaded g) = Some t -> t_id t < base.
Proof. intros n t H. exact (max_id_in _ _ _ (find_in _ _ _ _ H)). Qed.

(** How a mode with variable [v] gets its dimension; [def]: by default. *)
Definition mode_is (n : text) (o : option Z) (j : nat) (d : Z) (def : bool) : Prop :=
  match find n (tensorDimensions g) with
  | Some l => nth_error l j = Some d /\ def = false
  | None => match o with Some d' => d = d' /\ def = false | None => d = defaultDimension g /\ def = true end
  end.
Lemma mode_dimensions_ok : forall n dims vs i ds, mode_dimensions g n dims i vs = DOk ds ->
  length ds = length vs /\
  forall k v, nth_error vs k = Some v -> exists d b, nth_error ds k = Some (d, b) /\ mode_is n (find v dims) (i + k) d b.
Proof.
  intros n dims. induction vs as [|v vs IH]; intros i ds H; cbn [mode_dimensions] in H.
  - injection H as <-. split; [reflexivity|]. intros [|k] v E; discriminate.
  - assert (X : exists d b, mode_is n (find v dims) i d b /\ (do ds <- mode_dimensions g n dims (S i) vs; DOk ((d, b) :: ds)) = DOk ds).
    { unfold mode_is. destruct (find n (tensorDimensions g)) as [l|].
      - destruct (nth_error l i) as [d|] eqn:E; [|discriminate]. exists d, false. cbn in H. auto.
      - destruct (find v dims) as [d|]; cbn in H; [exists d, false|exists (defaultDimension g), true]; auto. }
    destruct X as (d & b & M & X). destruct (mode_dimensions g n dims (S i) vs) as [ds'| |] eqn:E; cbn in X; try discriminate.
    injection X as <-. destruct (IH _ _ E) as [L N]. split; [cbn; congruence|].
    intros [|k] w F; cbn in F.
    + injection F as <-. exists d, b. rewrite Nat.add_0_r. split; [reflexivity|exact M].
    + destruct (N k w F) as (d' & b' & F' & M'). exists d', b'. split; [exact F'|]. rewrite Nat.add_succ_r. exact M'.
Qed.
Lemma mode_dimensions_defined : forall n dims vs i,
  (forall l, find n (tensorDimensions g) = Some l -> i + length vs <= length l) ->
  exists ds, mode_dimensions g n dims i vs = DOk ds.
Proof.
  intros n dims. induction vs as [|v vs IH]; intros i H; cbn [mode_dimensions]; [eexists; reflexivity|].
  destruct (IH (S i)) as [ds E]; [intros l F; specialize (H l F); cbn in H; lia|]. rewrite E.
  destruct (find n (tensorDimensions g)) as [l|].
  - specialize (H l eq_refl). cbn in H. destruct (nth_error l i) eqn:F; [eexists; reflexivity|].
    apply nth_error_None in F. lia.
  - destruct (find v dims); eexists; reflexivity.
Qed.
Lemma default_modes_in : forall id ds i id' j,
  In (id', j) (default_modes id i ds) <-> id' = id /\ exists k d, j = i + k /\ nth_error ds k = Some (d, true).
Proof.
  intros id. induction ds as [|[d b] ds IH]; intros i id' j; cbn [default_modes].
  - split; [intros []|intros (_ & [|k] & d & _ & H); discriminate].
  - rewrite in_app_iff, IH. split.
    + intros [I|(-> & k & d' & -> & H)].
      * destruct b; [|destruct I]. destruct I as [[= <- <-]|[]]. split; [reflexivity|]. exists 0, d. split; [lia|reflexivity].
      * split; [reflexivity|]. exists (S k), d'. split; [lia|exact H].
    + intros (-> & [|k] & d' & -> & H); cbn in H.
      * injection H as -> ->. left. left. f_equal. lia.
      * right. split; [reflexivity|]. exists k, d'. split; [lia|exact H].
Qed.
Lemma getIndexVars_ok : forall vs dims dims', getIndexVars g vs dims = DOk dims' ->
  forall v, find v dims' = match find v dims with Some d => Some d | None => if in_dec text_dec v vs then gv v else None end.
Proof.
  induction vs as [|w vs IH]; intros dims dims' H v; cbn [getIndexVars] in H.
  - injection H as <-. cbn. destruct (find v dims); reflexivity.
  - unfold getIndexVar in H. assert (G : gv w = match find w (tensorDimensions g) with Some (d :: _) => Some d | _ => None end) by reflexivity.
    destruct (find w (tensorDimensions g)) as [[|d r]|]; cbn [dbind] in H; [discriminate| |]; rewrite (IH _ _ H v).
    + rewrite find_insert. destruct (find v dims); [reflexivity|].
      destruct (text_eqb_spec v w) as [->|N].
      * destruct (in_dec text_dec w (w :: vs)) as [_|X]; [symmetry; exact G|exfalso; apply X; left; reflexivity].
      * destruct (in_dec text_dec v vs) as [I|I], (in_dec text_dec v (w :: vs)) as [J|J]; try reflexivity; exfalso; cbn in J; [tauto|].
        destruct J as [J|J]; [congruence|tauto].
    + destruct (find v dims); [reflexivity|].
      destruct (in_dec text_dec v vs) as [I|I], (in_dec text_dec v (w :: vs)) as [J|J]; try reflexivity; cbn in J; [exfalso; tauto|].
      destruct J as [<-|J]; [symmetry; exact G|exfalso; tauto].
Qed.
Lemma getIndexVars_defined : forall vs dims, (forall v, In v vs -> find v (tensorDimensions g) <> Some []) ->
  exists dims', getIndexVars g vs dims = DOk dims'.
Proof.
  induction vs as [|w vs IH]; intros dims H; cbn [getIndexVars]; [eexists; reflexivity|].
  unfold getIndexVar. destruct (find w (tensorDimensions g)) as [[|d r]|] eqn:E.
  - exfalso. exact (H w (or_introl eq_refl) E).
  - cbn. apply IH. intros v I. apply H. right. exact I.
  - cbn. apply IH. intros v I. apply H. right. exact I.
Qed.

Definition seen_var (seen : list (text * list text)) (v : text) : Prop := exists n vs, In (n, vs) seen /\ In v vs.
Definition created (seen : list (text * list text)) (c : content) (n : text) (t : tensor) : Prop :=
  find n (loaded g) = None /\ base <= t_id t < next_id c /\
  exists vs, In (n, vs) seen /\ length (t_dims t) = length vs /\
  forall k v, nth_error vs k = Some v ->
    exists d b, nth_error (t_dims t) k = Some d /\ mode_is n (gv v) k d b /\ (In (t_id t, k) (modesWithDefaults c) <-> b = true).
Record inv (seen : list (text * list text)) (c : content) : Prop := {
  i_dims : forall v d, find v (indexVarDimensions c) = Some d <-> seen_var seen v /\ gv v = Some d;
  i_loaded : forall n t, find n (loaded g) = Some t -> find n (tensors c) = Some t;
  i_next : base <= next_id c;
  i_defaults : forall id i, In (id, i) (modesWithDefaults c) -> base <= id < next_id c;
  i_made : forall n t, find n (tensors c) = Some t -> find n (loaded g) = Some t \/ created seen c n t }.

Lemma dims_seen : forall seen vs n dims dims',
  (forall v d, find v dims = Some d <-> seen_var seen v /\ gv v = Some d) -> getIndexVars g vs dims = DOk dims' ->
  forall v d, find v dims' = Some d <-> seen_var (seen ++ [(n, vs)]) v /\ gv v = Some d.
Proof.
  intros seen vs n dims dims' I H v d. rewrite (getIndexVars_ok _ _ _ H v).
  assert (SV : seen_var (seen ++ [(n, vs)]) v <-> seen_var seen v \/ In v vs).
  { unfold seen_var. split.
    - intros (m & ws & J & K). apply in_app_iff in J. destruct J as [J|[[= <- <-]|[]]]; [left; eauto|right; exact K].
    - intros [(m & ws & J & K)|K]; [exists m, ws|exists n, vs]; (split; [apply in_app_iff|exact K]); [left; exact J|right; left; reflexivity]. }
  rewrite SV. destruct (find v dims) as [d'|] eqn:E.
  - apply I in E. destruct E as [E1 E2]. rewrite E2. split; [intros [= <-]; tauto|intros [_ X]; exact X].
  - assert (N : ~ (seen_var seen v /\ gv v = Some d)) by (intros X; apply I in X; congruence).
    destruct (in_dec text_dec v vs); split; try tauto; discriminate.
Qed.
Lemma created_mono : forall seen seen' c c' n t, created seen c n t ->
  incl seen seen' -> next_id c <= next_id c' ->
  (forall id i, In (id, i) (modesWithDefaults c') <-> In (id, i) (modesWithDefaults c) \/ (next_id c <= id /\ In (id, i) (modesWithDefaults c'))) ->
  created seen' c' n t.
Proof.
  intros seen seen' c c' n t (L & B & vs & I & LE & M) SS NN MM. split; [exact L|]. split; [lia|].
  exists vs. split; [apply SS; exact I|]. split; [exact LE|]. intros k v F.
  destruct (M k v F) as (d & b & E & IS & D). exists d, b. split; [exact E|]. split; [exact IS|].
  rewrite MM. split; [|tauto]. intros [X|[X _]]; [tauto|lia].
Qed.
Lemma parse_tensor_ok : forall seen c n vs x c', inv seen c -> parse_tensor g n vs c = DOk (x, c') ->
  inv (seen ++ [(n, vs)]) c' /\ a_name x = n /\ a_vars x = vs /\ find n (tensors c') = Some (a_tensor x) /\
  length vs = length (t_dims (a_tensor x)) /\ (forall m t, find m (tensors c) = Some t -> find m (tensors c') = Some t).
Proof.
  intros seen c n vs x c' I H. unfold parse_tensor in H.
  destruct (getIndexVars g vs (indexVarDimensions c)) as [dims| |] eqn:G; try discriminate. cbn [dbind] in H.
  assert (DS := dims_seen seen vs n _ _ (i_dims _ _ I) G).
  assert (SS : incl seen (seen ++ [(n, vs)])) by (apply incl_appl, incl_refl).
  destruct (find n (tensors c)) as [t|] eqn:F.
  - destruct (Nat.eqb_spec (length vs) (length (t_dims t))) as [L|]; [|discriminate]. injection H as <- <-. cbn.
    split; [|auto 6]. constructor; cbn.
    + exact DS.
    + apply (i_loaded _ _ I).
    + apply (i_next _ _ I).
    + apply (i_defaults _ _ I).
    + intros m u E. destruct (i_made _ _ I m u E) as [X|X]; [left; exact X|right].
      eapply created_mono; [exact X|exact SS|cbn; lia|]. intros id i. cbn. split; [tauto|]. intros [Y|[_ Y]]; exact Y.
  - destruct (mode_dimensions g n dims 0 vs) as [ds| |] eqn:MD; try discriminate. cbn [dbind] in H. injection H as <- <-.
    destruct (mode_dimensions_ok _ _ _ _ _ MD) as [LD MO].
    assert (FI : forall m u, find m (tensors c) = Some u -> find m (insert n {| t_id := next_id c; t_dims := map fst ds |} (tensors c)) = Some u)
      by (intros m u E; rewrite find_insert, E; reflexivity).
    cbn. split; [|repeat split; auto; [rewrite find_insert, F, text_eqb_refl; reflexivity|rewrite map_length; congruence]].
    constructor; cbn.
    + exact DS.
    + intros m t E. apply FI. exact (i_loaded _ _ I _ _ E).
    + assert (X := i_next _ _ I). lia.
    + intros id i J. apply in_app_iff in J. destruct J as [J|J].
      * apply (i_defaults _ _ I) in J. lia.
      * apply default_modes_in in J. destruct J as [-> _]. assert (X := i_next _ _ I). lia.
    + intros m t E. rewrite find_insert in E. destruct (find m (tensors c)) as [u|] eqn:E0.
      * injection E as <-. destruct (i_made _ _ I m u E0) as [X|X]; [left; exact X|right].
        eapply created_mono; [exact X|exact SS|cbn; lia|]. intros id i. cbn. rewrite in_app_iff, default_modes_in. split; [|tauto].
        intros [Y|Y]; [left; exact Y|right]. split; [destruct Y; lia|right; exact Y].
      * destruct (text_eqb_spec m n) as [->|]; [|discriminate]. injection E as <-. right.
        split; [destruct (find n (loaded g)) eqn:E; [apply (i_loaded _ _ I) in E; congruence|reflexivity]|].
        cbn. split; [assert (X := i_next _ _ I); lia|]. exists vs.
        split; [apply in_app_iff; right; left; reflexivity|]. split; [rewrite map_length; exact LD|].
        intros k v K. destruct (MO k v K) as (d & b & E & M). exists d, b.
        split; [rewrite nth_error_map, E; reflexivity|].
        assert (V : find v dims = gv v).
        { destruct (find v dims) as [d'|] eqn:Q.
          - apply DS in Q. symmetry. apply Q.
          - destruct (gv v) as [d'|] eqn:Q'; [|reflexivity]. assert (find v dims = Some d') by
              (apply DS; split; [exists n, vs; split; [apply in_app_iff; right; left; reflexivity|exact (nth_error_In _ _ K)]|exact Q']). congruence. }
        rewrite V in M. split; [exact M|]. rewrite in_app_iff, default_modes_in. split.
        -- intros [Y|(_ & k' & d' & Y & Y')]; [apply (i_defaults _ _ I) in Y; lia|]. cbn in Y. subst k'. rewrite E in Y'. injection Y' as _ ->. reflexivity.
        -- intros ->. right. split; [reflexivity|]. exists k, d. split; [reflexivity|exact E].
Qed.
Definition parsed (c : content) (x : access) : Prop :=
  find (a_name x) (tensors c) = Some (a_tensor x) /\ length (a_vars x) = length (t_dims (a_tensor x)).
Lemma parse_tensors_ok : forall accs seen c l c', inv seen c -> parse_tensors g accs c = DOk (l, c') ->
  inv (seen ++ accs) c' /\ map shape_of l = accs /\ Forall (parsed c') l /\
  (forall m t, find m (tensors c) = Some t -> find m (tensors c') = Some t).
Proof.
  induction accs as [|[n vs] accs IH]; intros seen c l c' I H; cbn [parse_tensors] in H.
  - injection H as <- <-. rewrite app_nil_r. split; [exact I|]. split; [reflexivity|]. split; [constructor|auto].
  - destruct (parse_tensor g n vs c) as [[x c1]| |] eqn:P; try discriminate. cbn [dbind] in H.
    destruct (parse_tensors g accs c1) as [[l' c2]| |] eqn:Q; try discriminate. cbn [dbind] in H. injection H as <- <-.
    destruct (parse_tensor_ok _ _ _ _ _ _ I P) as (I1 & N & V & F & L & X).
    destruct (IH _ _ _ _ I1 Q) as (I2 & M & FA & X2). rewrite <- app_assoc in I2. cbn in I2.
    split; [exact I2|]. split; [cbn; unfold shape_of at 1; congruence|]. split; [|auto].
    constructor; [|exact FA]. split; [rewrite N; apply X2; exact F|congruence].
Qed.
Lemma inv_init : inv [] (Content (loaded g) [] [] base).
Proof.
  constructor; cbn; [|auto|lia|tauto|auto].
  intros v d. split; [discriminate|]. intros [(n & vs & [] & _) _].
Qed.

(** When parsing succeeds. *)
Lemma parse_tensor_defined : forall seen c n vs, inv seen c ->
  (forall v, In v vs -> find v (tensorDimensions g) <> Some []) ->
  (forall ds, given_dims g n = Some ds -> length ds = length vs) ->
  (forall ws, In (n, ws) seen -> length ws = length vs) ->
  exists r, parse_tensor g n vs c = DOk r.
Proof.
  intros seen c n vs I P O Q. unfold parse_tensor.
  destruct (getIndexVars_defined vs (indexVarDimensions c) P) as [dims ->]. cbn [dbind].
  destruct (find n (tensors c)) as [t|] eqn:F.
  - assert (L : length vs = length (t_dims t)).
    { destruct (i_made _ _ I _ _ F) as [X|(X & _ & ws & J & K & _)].
      - symmetry. apply O. unfold given_dims. rewrite X. reflexivity.
      - rewrite K. symmetry. apply Q. exact J. }
    rewrite L, Nat.eqb_refl. eexists. reflexivity.
  - destruct (mode_dimensions_defined n dims vs 0) as [ds ->]; [|eexists; reflexivity].
    intros l H. rewrite Nat.add_0_l. rewrite (O l); [lia|]. unfold given_dims. rewrite H.
    destruct (find n (loaded g)) eqn:E; [apply (i_loaded _ _ I) in E; congruence|reflexivity].
Qed.
Lemma parse_tensors_defined : forall accs seen c, inv seen c ->
  (forall n vs v, In (n, vs) accs -> In v vs -> find v (tensorDimensions g) <> Some []) ->
  (forall n vs ds, In (n, vs) accs -> given_dims g n = Some ds -> length ds = length vs) ->
  (forall n vs ws, In (n, vs) accs -> In (n, ws) (seen ++ accs) -> length ws = length vs) ->
  exists r, parse_tensors g accs c = DOk r.
Proof.
  induction accs as [|[n vs] accs IH]; intros seen c I P O Q; cbn [parse_tensors]; [eexists; reflexivity|].
  destruct (parse_tensor_defined seen c n vs I) as [[x c1] E].
  - intros v J. exact (P n vs v (or_introl eq_refl) J).
  - intros ds J. exact (O n vs ds (or_introl eq_refl) J).
  - intros ws J. apply (Q n vs ws (or_introl eq_refl)). apply in_app_iff. left. exact J.
  - rewrite E. cbn [dbind]. destruct (parse_tensor_ok _ _ _ _ _ _ I E) as (I1 & _).
    destruct (IH _ _ I1) as [[l c2] F].
    + intros m ws v J. apply (P m ws v (or_intror J)).
    + intros m ws ds J. apply (O m ws ds (or_intror J)).
    + intros m ws us J K. apply (Q m ws us (or_intror J)). rewrite <- app_assoc in K. exact K.
    + rewrite F. eexists. reflexivity.
Qed.

(** * Rewriting *)
Lemma new_dims_nth : forall D modes k, nth_error (new_dims D modes) k =
  match nth_error modes k with Some (v, d) => Some (match find v D with Some d' => d' | None => d end) | None => None end.
Proof. intros D. induction modes as [|[v d] modes IH]; intros [|k]; cbn; auto. Qed.
Lemma new_dims_length : forall D modes, length (new_dims D modes) = length modes.
Proof. intros D. induction modes as [|[v d] modes IH]; cbn; auto. Qed.
Lemma same_dims_iff : forall a b, same_dims a b = true <-> a = b.
Proof. intros a b. unfold same_dims. destruct (list_eq_dec Z.eq_dec a b); split; congruence. Qed.
(** Two lists that agree at every place. *)
Lemma nth_ext_error : forall A (l l' : list A), length l = length l' ->
  (forall k a, nth_error l k = Some a -> nth_error l' k = Some a) -> l = l'.
Proof.
  intros A. induction l as [|x l IH]; intros [|y l'] L H; try discriminate; [reflexivity|].
  assert (E := H 0 x eq_refl). cbn in E. injection E as ->. f_equal. apply IH; [cbn in L; congruence|].
  intros k a F. exact (H (S k) a F).
Qed.
(** An access all whose facts are in the map is kept. *)
Lemma rewrite_kept : forall D x made, length (a_vars x) = length (t_dims (a_tensor x)) ->
  (forall k v d, nth_error (a_vars x) k = Some v -> nth_error (t_dims (a_tensor x)) k = Some d -> find v D = Some d \/ find v D = None) ->
  rewrite_access D x made = DOk (x, made).
Proof.
  intros D x [ts id] L H. unfold rewrite_access. rewrite L, Nat.eqb_refl. cbn [negb].
  replace (same_dims _ _) with true; [reflexivity|]. symmetry. apply same_dims_iff.
  apply nth_ext_error; [rewrite new_dims_length, combine_length; lia|].
  intros k d E. rewrite new_dims_nth in E. destruct (nth_error (combine _ _) k) as [[v d']|] eqn:F; [|discriminate].
  apply nth_combine in F. cbn in F. destruct F as [F1 F2]. injection E as <-.
  destruct (H k v d' F1 F2) as [X|X]; rewrite X; exact F2.
Qed.

(** What rewriting does in general. *)
Definition kept (D : list (text * Z)) (x : access) : Prop := new_dims D (modes_of x) = t_dims (a_tensor x).
Definition ordered (x : access) : Prop := length (a_vars x) = length (t_dims (a_tensor x)).
Definition rewritten (D : list (text * Z)) (x x' : access) : Prop := shape_of x' = shape_of x /\ ordered x' /\ (kept D x -> x' = x).
Lemma rewrite_access_ok : forall D x ts id x' ts' id', rewrite_access D x (ts, id) = DOk (x', (ts', id')) -> NoDup (map fst ts) ->
  rewritten D x x' /\ NoDup (map fst ts') /\ (forall n t, find n ts' = Some t -> find n ts = Some t \/ (n = a_name x /\ ~ kept D x)).
Proof.
  intros D x ts id x' ts' id' H ND. unfold rewrite_access in H.
  destruct (Nat.eqb_spec (length (a_vars x)) (length (t_dims (a_tensor x)))) as [L|]; [|discriminate]. cbn [negb] in H.
  fold (modes_of x) in H. destruct (same_dims (new_dims D (modes_of x)) (t_dims (a_tensor x))) eqn:E.
  - injection H as <- <- <-. repeat split; auto.
  - assert (NK : ~ kept D x) by (intros K; apply same_dims_iff in K; congruence).
    destruct (find (a_name x) ts) as [t|] eqn:F.
    + destruct (Nat.eqb_spec (length (a_vars x)) (length (t_dims t))) as [L'|]; [|discriminate]. injection H as <- <- <-.
      repeat split; auto. intros K; contradiction.
    + injection H as <- <- <-. split; [|split; [apply insert_keys; exact ND|]].
      * repeat split; [|intros K; contradiction]. unfold ordered. cbn. rewrite new_dims_length. unfold modes_of. rewrite combine_length. lia.
      * intros n t G. rewrite find_insert in G. destruct (find n ts); [left; exact G|].
        destruct (text_eqb_spec n (a_name x)) as [->|]; [|discriminate]. right. split; [reflexivity|exact NK].
Qed.
Lemma rewrite_all_ok : forall D l ts id l' ts' id', rewrite_all D l (ts, id) = DOk (l', (ts', id')) -> NoDup (map fst ts) ->
  Forall2 (rewritten D) l l' /\ NoDup (map fst ts') /\
  (forall n t, find n ts' = Some t -> find n ts = Some t \/ exists x, In x l /\ n = a_name x /\ ~ kept D x).
Proof.
  intros D. induction l as [|x l IH]; intros ts id l' ts' id' H ND; cbn [rewrite_all] in H.
  - injection H as <- <- <-. auto.
  - destruct (rewrite_access D x (ts, id)) as [[x' [ts1 id1]]| |] eqn:E; try discriminate. cbn [dbind] in H.
    destruct (rewrite_all D l (ts1, id1)) as [[l1 [ts2 id2]]| |] eqn:F; try discriminate. cbn [dbind] in H. injection H as <- <- <-.
    destruct (rewrite_access_ok _ _ _ _ _ _ _ E ND) as (R & ND1 & X).
    destruct (IH _ _ _ _ _ F ND1) as (R2 & ND2 & X2).
    split; [constructor; assumption|]. split; [exact ND2|]. intros n t G. destruct (X2 n t G) as [Y|(y & I & Y)].
    + destruct (X n t Y) as [Z|[Z K]]; [left; exact Z|right; exists x; repeat split; [left; reflexivity|exact Z|exact K]].
    + right. exists y. split; [right; exact I|exact Y].
Qed.
Lemma kept_iff : forall D x, ordered x ->
  (forall k v d, nth_error (a_vars x) k = Some v -> nth_error (t_dims (a_tensor x)) k = Some d -> find v D = Some d) -> kept D x.
Proof.
  intros D x L H. unfold kept. apply nth_ext_error; [unfold modes_of; rewrite new_dims_length, combine_length; unfold ordered in L; lia|].
  intros k d E. rewrite new_dims_nth in E. destruct (nth_error (modes_of x) k) as [[v d']|] eqn:F; [|discriminate].
  apply nth_combine in F. cbn in F. destruct F as [F1 F2]. injection E as <-.
  rewrite (H k v d' F1 F2). exact F2.
Qed.

(** When the new dimensions of an access depend on its name only. *)
Section Uniform.
Variables (D : list (text * Z)) (T : text -> tensor) (tgt : text -> list Z).
Definition uniform (x : access) : Prop := ordered x /\ a_tensor x = T (a_name x) /\ new_dims D (modes_of x) = tgt (a_name x).
Definition good (ts : list (text * tensor)) : Prop := forall n t, find n ts = Some t -> t_dims t = tgt n /\ t_dims (T n) <> tgt n.
Definition final (ts : list (text * tensor)) (n : text) : tensor := match find n ts with Some t => t | None => T n end.
Lemma uniform_length : forall x, uniform x -> length (a_vars x) = length (tgt (a_name x)).
Proof. intros x (L & _ & N). rewrite <- N, new_dims_length. unfold modes_of. rewrite combine_length. unfold ordered in L. lia. Qed.
Lemma rewrite_access_uniform : forall x ts id, uniform x -> good ts ->
  exists x' ts' id', rewrite_access D x (ts, id) = DOk (x', (ts', id')) /\ good ts' /\
    (forall n t, find n ts = Some t -> find n ts' = Some t) /\
    x' = Access (a_name x) (final ts' (a_name x)) (a_vars x) /\ t_dims (final ts' (a_name x)) = tgt (a_name x).
Proof.
  intros x ts id U G. assert (LU := uniform_length x U). destruct U as (L & TE & N). unfold rewrite_access. unfold ordered in L. rewrite <- L, Nat.eqb_refl. cbn [negb].
  fold (modes_of x). rewrite N. destruct (same_dims (tgt (a_name x)) (t_dims (a_tensor x))) eqn:E.
  - apply same_dims_iff in E. exists x, ts, id. split; [reflexivity|]. split; [exact G|]. split; [auto|].
    assert (F : find (a_name x) ts = None).
    { destruct (find (a_name x) ts) eqn:F; [|reflexivity]. destruct (G _ _ F) as [_ X]. congruence. }
    unfold final. rewrite F, <- TE. split; [destruct x; reflexivity|congruence].
  - assert (NE : t_dims (T (a_name x)) <> tgt (a_name x)).
    { intros X. rewrite <- TE in X. symmetry in X. apply same_dims_iff in X. congruence. }
    destruct (find (a_name x) ts) as [t|] eqn:F.
    + destruct (G _ _ F) as [X _]. rewrite X, <- LU, Nat.eqb_refl. do 3 eexists. split; [reflexivity|]. unfold final. rewrite F. auto.
    + do 3 eexists. split; [reflexivity|]. unfold final. rewrite find_insert, F, text_eqb_refl. cbn. repeat split.
      * rename H into H0. rewrite find_insert in H0. destruct (find n ts) as [u|] eqn:Q.
        -- injection H0 as <-. exact (proj1 (G _ _ Q)).
        -- destruct (text_eqb_spec n (a_name x)) as [->|]; [|discriminate]. injection H0 as <-. reflexivity.
      * rename H into H0. rewrite find_insert in H0. destruct (find n ts) as [u|] eqn:Q.
        -- injection H0 as <-. exact (proj2 (G _ _ Q)).
        -- destruct (text_eqb_spec n (a_name x)) as [->|]; [|discriminate]. exact NE.
      * intros n t Q. rewrite find_insert, Q. reflexivity.
Qed.
Lemma final_mono : forall ts ts', good ts' -> (forall n t, find n ts = Some t -> find n ts' = Some t) ->
  forall n, t_dims (final ts n) = tgt n -> final ts' n = final ts n.
Proof.
  intros ts ts' G X n E. unfold final in *. destruct (find n ts) as [t|] eqn:F; [rewrite (X _ _ F); reflexivity|].
  destruct (find n ts') as [t|] eqn:F'; [|reflexivity]. destruct (G _ _ F') as [_ Y]. contradiction.
Qed.
Lemma rewrite_all_uniform : forall l ts id, Forall uniform l -> good ts ->
  exists l' ts' id', rewrite_all D l (ts, id) = DOk (l', (ts', id')) /\ good ts' /\
    (forall n t, find n ts = Some t -> find n ts' = Some t) /\
    l' = map (fun x => Access (a_name x) (final ts' (a_name x)) (a_vars x)) l /\
    Forall (fun x => t_dims (final ts' (a_name x)) = tgt (a_name x)) l.
Proof.
  induction l as [|x l IH]; intros ts id U G; cbn [rewrite_all].
  - do 3 eexists. split; [reflexivity|]. auto.
  - inversion U as [|? ? U1 U2]; subst.
    destruct (rewrite_access_uniform x ts id U1 G) as (x' & ts1 & id1 & E & G1 & X1 & -> & DE). rewrite E. cbn [dbind].
    destruct (IH ts1 id1 U2 G1) as (l' & ts2 & id2 & F & G2 & X2 & -> & DF). rewrite F. cbn [dbind].
    assert (FM := final_mono ts1 ts2 G2 X2 (a_name x) DE).
    do 3 eexists. split; [reflexivity|]. split; [exact G2|]. split; [auto|]. cbn. rewrite FM. split; [reflexivity|].
    constructor; [rewrite FM; exact DE|exact DF].
Qed.
End Uniform.

(** * Modes of given and of open tensors *)
Lemma given_mode : forall seen c x ds, inv seen c -> parsed c x -> given_dims g (a_name x) = Some ds ->
  forall k d, nth_error (t_dims (a_tensor x)) k = Some d -> nth_error ds k = Some d /\ ~ In (t_id (a_tensor x), k) (modesWithDefaults c).
Proof.
  intros seen c x ds I [F L] GD k d H. unfold given_dims in GD. destruct (i_made _ _ I _ _ F) as [X|(X & B & vs & J & LE & M)].
  - rewrite X in GD. injection GD as <-. split; [exact H|]. intros Y. apply (i_defaults _ _ I) in Y.
    assert (Z := loaded_old _ _ X). lia.
  - rewrite X in GD. destruct (nth_error vs k) as [v|] eqn:V.
    + destruct (M k v V) as (d' & b & E & IS & DD). unfold mode_is in IS. rewrite GD in IS. destruct IS as [IS ->].
      rewrite DD. split; [congruence|discriminate].
    + apply nth_error_None in V. assert (k < length (t_dims (a_tensor x))) by (apply nth_error_Some; congruence). lia.
Qed.
Lemma open_mode : forall seen c x, inv seen c -> parsed c x -> given_dims g (a_name x) = None ->
  exists vs, In (a_name x, vs) seen /\ length vs = length (t_dims (a_tensor x)) /\
  forall k v, nth_error vs k = Some v -> exists d, nth_error (t_dims (a_tensor x)) k = Some d /\
    ((gv v = Some d /\ ~ In (t_id (a_tensor x), k) (modesWithDefaults c)) \/
     (gv v = None /\ d = defaultDimension g /\ In (t_id (a_tensor x), k) (modesWithDefaults c))).
Proof.
  intros seen c x I [F L] GD. unfold given_dims in GD. destruct (i_made _ _ I _ _ F) as [X|(X & B & vs & J & LE & M)].
  - rewrite X in GD. discriminate.
  - rewrite X in GD. exists vs. split; [exact J|]. split; [congruence|]. intros k v V.
    destruct (M k v V) as (d & b & E & IS & DD). exists d. split; [exact E|]. unfold mode_is in IS. rewrite GD in IS.
    destruct (gv v) as [d'|]; destruct IS as [-> ->].
    + left. split; [reflexivity|]. rewrite DD. discriminate.
    + right. split; [reflexivity|]. split; [reflexivity|]. apply DD. reflexivity.
Qed.

(** * Everything *)
Variable a : assignment.
(** The parts of a run. *)
Lemma infer_parts : forall r, infer g a = DOk r ->
  exists l c1 rs c D rs' ts id l' ts' id',
    parse_tensor g (lhs_name a) (lhs_vars a) (Content (loaded g) [] [] base) = DOk (l, c1) /\
    parse_tensors g (operands (rhs a)) c1 = DOk (rs, c) /\
    collect (modesWithDefaults c) rs (indexVarDimensions c) = DOk D /\
    rewrite_all D rs ([], next_id c) = DOk (rs', (ts, id)) /\
    rewrite_access D l (ts, id) = DOk (l', (ts', id')) /\
    i_tensors r = fold_left (fun ts p => update (fst p) (snd p) ts) ts' (tensors c) /\
    find (lhs_name a) (i_tensors r) = Some (a_tensor (i_lhs r)) /\
    length (lhs_vars a) = length (t_dims (a_tensor (i_lhs r))) /\
    i_lhs r = Access (lhs_name a) (a_tensor (i_lhs r)) (lhs_vars a) /\ i_rhs r = rs' /\
    accumulate a || check (i_lhs r) rs' = true.
Proof.
  intros r H. unfold infer in H. fold base in H.
  destruct (parse_tensor _ _ _ _) as [[l c1]| |] eqn:P1; try discriminate. cbn [dbind] in H.
  destruct (parse_tensors _ _ _) as [[rs c]| |] eqn:P2; try discriminate. cbn [dbind] in H.
  destruct (collect _ _ _) as [D| |] eqn:P3; try discriminate. cbn [dbind] in H.
  destruct (rewrite_all _ _ _) as [[rs' [ts id]]| |] eqn:P4; try discriminate. cbn [dbind] in H.
  destruct (rewrite_access _ _ _) as [[l' [ts' id']]| |] eqn:P5; try discriminate. cbn [dbind fst] in H.
  destruct (find (lhs_name a) _) as [t|] eqn:F; [|discriminate].
  destruct (Nat.eqb_spec (length (lhs_vars a)) (length (t_dims t))) as [L|]; [|discriminate]. cbn [negb] in H.
  destruct (accumulate a || check _ _) eqn:C; [|discriminate]. injection H as <-.
  exists l, c1, rs, c, D, rs', ts, id, l', ts', id'. cbn. auto 15.
Qed.

Lemma collected : forall c rs D, collect (modesWithDefaults c) rs (indexVarDimensions c) = DOk D ->
  forall v d, find v D = Some d <-> find v (indexVarDimensions c) = Some d \/ exists x, In x rs /\ In (v, d) (facts (modesWithDefaults c) x).
Proof.
  intros c rs D H v d. rewrite collect_enter in H. assert (A := enter_ok _ _ _ H).
  destruct (enter_agrees _ _ A) as (D' & E & X). rewrite E in H. injection H as ->. rewrite X.
  rewrite in_concat. split; (intros [Y|Y]; [left; exact Y|right]).
  - destruct Y as (f & I & J). apply in_map_iff in I. destruct I as (x & <- & I). exists x. auto.
  - destruct Y as (x & I & J). exists (facts (modesWithDefaults c) x). split; [apply in_map; exact I|exact J].
Qed.
Lemma given_kept : forall seen c rs D x ds, inv seen c -> collect (modesWithDefaults c) rs (indexVarDimensions c) = DOk D ->
  In x rs -> parsed c x -> given_dims g (a_name x) = Some ds -> kept D x.
Proof.
  intros seen c rs D x ds I H J P GD. apply kept_iff; [apply P|]. intros k v d V E.
  apply (collected _ _ _ H). right. exists x. split; [exact J|]. apply facts_in. exists k.
  destruct (given_mode _ _ _ _ I P GD k d E). auto.
Qed.
Lemma forall2_in_r : forall A B (R : A -> B -> Prop) l l' y, Forall2 R l l' -> In y l' -> exists x, In x l /\ R x y.
Proof.
  intros A B R l l' y F. induction F as [|x z l l' R1 F IH]; intros I; [destruct I|].
  destruct I as [<-|I]; [exists x; split; [left; reflexivity|exact R1]|]. destruct (IH I) as (w & J & K). exists w. split; [right; exact J|exact K].
Qed.

Theorem infer_shapes : forall r, infer g a = DOk r ->
  shape_of (i_lhs r) = (lhs_name a, lhs_vars a) /\ map shape_of (i_rhs r) = operands (rhs a) /\
  Forall ordered (i_lhs r :: i_rhs r) /\
  (forall x, In x (i_rhs r) -> forall ds, given_dims g (a_name x) = Some ds ->
     forall k d, nth_error (t_dims (a_tensor x)) k = Some d -> nth_error ds k = Some d) /\
  (forall n t, find n (loaded g) = Some t ->
     (n <> lhs_name a -> find n (i_tensors r) = Some t) /\ (forall x, In x (i_rhs r) -> a_name x = n -> a_tensor x = t)) /\
  (accumulate a = false -> agree (fun v d => In (v, d) (concat (map modes_of (i_lhs r :: i_rhs r))))).
Proof.
  intros r H. destruct (infer_parts r H) as (l & c1 & rs & c & D & rs' & ts & id & l' & ts' & id' & P1 & P2 & P3 & P4 & P5 & TE & TF & TL & LE & RE & CK).
  destruct (parse_tensor_ok _ _ _ _ _ _ inv_init P1) as (I1 & N1 & V1 & F1 & L1 & X1).
  destruct (parse_tensors_ok _ _ _ _ _ I1 P2) as (I & SH & PA & X2).
  destruct (rewrite_all_ok _ _ _ _ _ _ _ P4 (NoDup_nil _)) as (R & ND & FR).
  destruct (rewrite_access_ok _ _ _ _ _ _ _ P5 ND) as (RL & ND' & FL).
  assert (K : forall x ds, In x rs -> given_dims g (a_name x) = Some ds -> kept D x).
  { intros x ds J GD. rewrite Forall_forall in PA. exact (given_kept _ _ _ _ _ _ I P3 J (PA x J) GD). }
  split; [rewrite LE; reflexivity|]. split.
  { rewrite RE, <- SH. clear -R. induction R as [|x x' l l' (E & _) R IH]; [reflexivity|]. cbn. rewrite E, IH. reflexivity. }
  split.
  { constructor; [rewrite LE; unfold ordered; cbn; exact TL|]. rewrite RE. apply Forall_forall. intros y J.
    destruct (forall2_in_r _ _ _ _ _ _ R J) as (x & _ & _ & O & _). exact O. }
  split.
  { rewrite RE. intros y J ds GD k d E. destruct (forall2_in_r _ _ _ _ _ _ R J) as (x & J' & SE & _ & KE).
    assert (NE : a_name y = a_name x) by (unfold shape_of in SE; congruence). rewrite NE in GD.
    rewrite (KE (K x ds J' GD)) in E. rewrite Forall_forall in PA. exact (proj1 (given_mode _ _ _ _ I (PA x J') GD k d E)). }
  split; [|intros AC; rewrite AC in CK; cbn in CK; rewrite RE; apply check_iff; exact CK].
  intros n t LO. assert (FT := i_loaded _ _ I _ _ LO). assert (GD : given_dims g n = Some (t_dims t)) by (unfold given_dims; rewrite LO; reflexivity).
  split.
  - intros NL. rewrite TE, find_updates; [|exact ND'|congruence].
    destruct (find n ts') as [u|] eqn:F; [|exact FT]. exfalso.
    destruct (FL n u F) as [Y|[Y _]]; [|congruence]. destruct (FR n u Y) as [Y'|(x & J & -> & NK)]; [discriminate|].
    exact (NK (K x _ J GD)).
  - rewrite RE. intros y J NE. destruct (forall2_in_r _ _ _ _ _ _ R J) as (x & J' & SE & _ & KE).
    assert (NX : a_name x = n) by (unfold shape_of in SE; congruence). rewrite <- NX in GD.
    rewrite (KE (K x _ J' GD)). rewrite Forall_forall in PA. destruct (PA x J') as [Q _]. rewrite NX, FT in Q. congruence.
Qed.

Lemma seen_used : forall v, seen_var (accesses a) v <-> used a v.
Proof. intros v. reflexivity. Qed.
Section Positive.
Hypothesis PR : proper g a.
Hypothesis OW : one_way g a.
Lemma same_order : forall n vs ws, In (n, vs) (accesses a) -> In (n, ws) (accesses a) -> length ws = length vs.
Proof.
  intros n vs ws I J. destruct (given_dims g n) as [ds|] eqn:E.
  - destruct PR as [_ P]. rewrite <- (P _ _ _ I E), <- (P _ _ _ J E). reflexivity.
  - rewrite (OW _ _ _ E I J). reflexivity.
Qed.
Lemma parses : exists l c1 rs c,
    parse_tensor g (lhs_name a) (lhs_vars a) (Content (loaded g) [] [] base) = DOk (l, c1) /\
    parse_tensors g (operands (rhs a)) c1 = DOk (rs, c) /\
    inv (accesses a) c /\ shape_of l = (lhs_name a, lhs_vars a) /\ map shape_of rs = operands (rhs a) /\ Forall (parsed c) (l :: rs).
Proof.
  destruct PR as [P1 P2].
  destruct (parse_tensor_defined [] (Content (loaded g) [] [] base) (lhs_name a) (lhs_vars a) inv_init) as [[l c1] E].
  - intros v I. apply P1. exists (lhs_name a), (lhs_vars a). split; [left; reflexivity|exact I].
  - intros ds GD. exact (P2 _ _ _ (or_introl eq_refl) GD).
  - intros ws [].
  - destruct (parse_tensor_ok _ _ _ _ _ _ inv_init E) as (I1 & N1 & V1 & F1 & L1 & X1). cbn [app] in I1.
    destruct (parse_tensors_defined (operands (rhs a)) _ _ I1) as [[rs c] F].
    + intros n vs v I J. apply P1. exists n, vs. split; [right; exact I|exact J].
    + intros n vs ds I GD. exact (P2 _ _ _ (or_intror I) GD).
    + intros n vs ws I J. apply (same_order n); [right; exact I|exact J].
    + destruct (parse_tensors_ok _ _ _ _ _ I1 F) as (I & SH & PA & X2).
      exists l, c1, rs, c. split; [exact E|]. split; [exact F|]. split; [exact I|].
      split; [unfold shape_of; congruence|]. split; [exact SH|]. constructor; [|exact PA].
      split; [rewrite N1; apply X2; exact F1|congruence].
Qed.
Lemma known_facts : forall c rs, inv (accesses a) c -> map shape_of rs = operands (rhs a) -> Forall (parsed c) rs ->
  forall v d, (find v (indexVarDimensions c) = Some d \/ exists x, In x rs /\ In (v, d) (facts (modesWithDefaults c) x)) <-> known g a v d.
Proof.
  intros c rs I SH PA v d. rewrite Forall_forall in PA.
  assert (KV : find v (indexVarDimensions c) = Some d <-> used a v /\ given_var g v d).
  { rewrite (i_dims _ _ I), seen_used, gv_iff. reflexivity. }
  split.
  - intros [X|(x & J & X)]; [apply KV in X; destruct X; apply K_var; assumption|].
    apply facts_in in X. destruct X as (k & V & E & NM).
    assert (IN : In (a_name x, a_vars x) (operands (rhs a))) by (rewrite <- SH; exact (in_map shape_of _ _ J)).
    destruct (given_dims g (a_name x)) as [ds|] eqn:GD.
    + destruct (given_mode _ _ _ _ I (PA x J) GD k d E) as [Y _]. exact (K_mode g a v d _ _ _ _ IN GD V Y).
    + destruct (open_mode _ _ _ I (PA x J) GD) as (vs & SE & LE & M).
      assert (vs = a_vars x) as -> by (apply (OW (a_name x)); [exact GD|exact SE|right; exact IN]).
      destruct (M k v V) as (d' & E' & [[Y _]|(_ & _ & Y)]); [|contradiction]. assert (d' = d) as -> by congruence.
      apply K_var; [exists (a_name x), (a_vars x); split; [exact SE|exact (nth_error_In _ _ V)]|apply gv_iff; exact Y].
  - intros [U G|n vs ds m J GD V E]; [left; apply KV; auto|]. right.
    assert (JJ := J). rewrite <- SH in J. apply in_map_iff in J. destruct J as (x & SE & J). unfold shape_of in SE. injection SE as <- <-.
    exists x. split; [exact J|]. apply facts_in. exists m. split; [exact V|].
    assert (LE : length ds = length (a_vars x)) by (apply (proj2 PR) with (n := a_name x); [right; exact JJ|exact GD]).
    destruct (nth_error (t_dims (a_tensor x)) m) as [d'|] eqn:E'.
    + destruct (given_mode _ _ _ _ I (PA x J) GD m d' E') as [Y Z]. rewrite E in Y. injection Y as <-. auto.
    + exfalso. apply nth_error_None in E'. destruct (PA x J) as [_ L]. assert (m < length (a_vars x)) by (apply nth_error_Some; congruence). lia.
Qed.
Theorem infer_inconsistent : ~ consistent g a -> infer g a = DError.
Proof.
  intros NC. destruct parses as (l & c1 & rs & c & P1 & P2 & I & _ & SH & PA).
  unfold infer. fold base. rewrite P1. cbn [dbind]. rewrite P2. cbn [dbind].
  rewrite collect_enter. destruct (enter _ _) as [D| |] eqn:E; [exfalso|reflexivity|exfalso; exact (enter_defined _ _ E)].
  apply NC. inversion PA as [|? ? _ PA']; subst. rewrite <- collect_enter in E.
  assert (C := collected _ _ _ E). intros v d d' X Y. apply (known_facts _ _ I SH PA') in X, Y. apply C in X, Y. congruence.
Qed.
Hypothesis CO : consistent g a.
Hypothesis RA : result_agrees g a.
Theorem infer_consistent : exists r ext, infer g a = DOk r /\ extent g a ext /\
  shape_of (i_lhs r) = (lhs_name a, lhs_vars a) /\ map shape_of (i_rhs r) = operands (rhs a) /\
  (forall x, In x (i_lhs r :: i_rhs r) -> t_dims (a_tensor x) = map ext (a_vars x) /\ find (a_name x) (i_tensors r) = Some (a_tensor x)) /\
  (forall n t, find n (loaded g) = Some t -> find n (i_tensors r) = Some t).
Proof.
  destruct parses as (l & c1 & rs & c & P1 & P2 & I & SL & SH & PA).
  inversion PA as [|? ? PL PA']; subst. assert (KF := known_facts _ _ I SH PA').
  assert (AG : agree (fun v d => find v (indexVarDimensions c) = Some d \/ In (v, d) (concat (map (facts (modesWithDefaults c)) rs)))).
  { intros v d d' X Y. apply (CO v); apply KF; (destruct X as [X|X]; [left; exact X|right]) || (destruct Y as [Y|Y]; [left; exact Y|right]).
    - apply in_concat in X. destruct X as (f & J & X). apply in_map_iff in J. destruct J as (x & <- & J). eauto.
    - apply in_concat in Y. destruct Y as (f & J & Y). apply in_map_iff in J. destruct J as (x & <- & J). eauto. }
  destruct (enter_agrees _ _ AG) as (D & E & _). rewrite <- collect_enter in E.
  assert (DK : forall v d, find v D = Some d <-> known g a v d) by (intros v d; rewrite (collected _ _ _ E); apply KF).
  set (ext := fun v => match find v D with Some d => d | None => defaultDimension g end).
  assert (EX : extent g a ext).
  { intros v _. unfold ext. destruct (find v D) as [d|] eqn:F; [left; apply DK; exact F|right]. split; [reflexivity|].
    intros d K. apply DK in K. congruence. }
  set (T := fun n => match find n (tensors c) with Some t => t | None => Tensor 0 [] end).
  set (tgt := fun n => match given_dims g n with Some ds => ds | None => match find n (accesses a) with Some vs => map ext vs | None => [] end end).
  assert (SA : map shape_of (l :: rs) = accesses a) by (cbn; rewrite SL, SH; reflexivity).
  assert (GIV : forall x ds, In x (l :: rs) -> given_dims g (a_name x) = Some ds ->
            t_dims (a_tensor x) = ds /\ map ext (a_vars x) = ds /\ new_dims D (modes_of x) = ds).
  { intros x ds J GD. rewrite Forall_forall in PA. assert (P := PA x J).
    assert (IN : In (a_name x, a_vars x) (accesses a)) by (rewrite <- SA; exact (in_map shape_of _ _ J)).
    assert (LE := proj2 PR _ _ _ IN GD). destruct (PA x J) as [_ LX].
    assert (TD : t_dims (a_tensor x) = ds).
    { apply nth_ext_error; [congruence|]. intros k d F. exact (proj1 (given_mode _ _ _ _ I P GD k d F)). }
    assert (KN : forall k v d, nth_error (a_vars x) k = Some v -> nth_error ds k = Some d -> find v D = Some d).
    { intros k v d V F. apply DK. destruct J as [<-|J].
      - unfold shape_of in SL. injection SL as NL VL. rewrite NL in GD. rewrite VL in V. exact (RA _ _ _ _ GD V F).
      - assert (IN' : In (a_name x, a_vars x) (operands (rhs a))) by (rewrite <- SH; exact (in_map shape_of _ _ J)).
        exact (K_mode g a v d _ _ _ _ IN' GD V F). }
    split; [exact TD|]. split.
    - apply nth_ext_error; [rewrite map_length; congruence|]. intros k d F. rewrite nth_error_map in F.
      destruct (nth_error (a_vars x) k) as [v|] eqn:V; [|discriminate]. injection F as <-.
      destruct (nth_error ds k) as [d|] eqn:F; [unfold ext; rewrite (KN k v d V F); reflexivity|].
      exfalso. apply nth_error_None in F. assert (k < length (a_vars x)) by (apply nth_error_Some; congruence). lia.
    - rewrite <- TD. apply kept_iff; [exact LX|]. intros k v d V F. rewrite TD in F. exact (KN k v d V F). }
  assert (TG : forall x, In x (l :: rs) -> tgt (a_name x) = map ext (a_vars x) /\ uniform D T tgt x).
  { intros x J. assert (IN : In (a_name x, a_vars x) (accesses a)) by (rewrite <- SA; exact (in_map shape_of _ _ J)).
    rewrite Forall_forall in PA. assert (P := PA x J). destruct (PA x J) as [FX LX]. unfold uniform.
    assert (TX : a_tensor x = T (a_name x)) by (unfold T; rewrite FX; reflexivity).
    unfold tgt. destruct (given_dims g (a_name x)) as [ds|] eqn:GD.
    - destruct (GIV x ds J GD) as (G1 & G2 & G3). repeat split; auto.
    - destruct (find (a_name x) (accesses a)) as [vs|] eqn:FA; [|exfalso; exact (find_none _ _ _ _ FA IN)].
      assert (vs = a_vars x) as -> by (apply (OW (a_name x)); [exact GD|exact (find_in _ _ _ _ FA)|exact IN]).
      split; [reflexivity|]. split; [exact LX|]. split; [exact TX|].
      destruct (open_mode _ _ _ I P GD) as (vs & SE & LE & M).
      assert (vs = a_vars x) as -> by (apply (OW (a_name x)); [exact GD|exact SE|exact IN]).
      apply nth_ext_error; [unfold modes_of; rewrite new_dims_length, combine_length, map_length; lia|].
      intros k d F. rewrite new_dims_nth in F. destruct (nth_error (modes_of x) k) as [[v d']|] eqn:Q; [|discriminate].
      apply nth_combine in Q. cbn in Q. destruct Q as [Q1 Q2]. injection F as <-. rewrite nth_error_map, Q1. cbn. f_equal. unfold ext.
      destruct (find v D) as [e|] eqn:FD; [reflexivity|].
      destruct (M k v Q1) as (d'' & Q3 & [[Y _]|(_ & -> & _)]); [|congruence].
      exfalso. assert (KK : known g a v d'') by (apply K_var; [exists (a_name x), (a_vars x); split; [exact IN|exact (nth_error_In _ _ Q1)]|apply gv_iff; exact Y]).
      apply DK in KK. congruence. }
  destruct (rewrite_all_uniform D T tgt rs [] (next_id c)) as (rs' & ts1 & id1 & R1 & G1 & X1 & RE & DE).
  { apply Forall_forall. intros x J. exact (proj2 (TG x (or_intror J))). }
  { intros n t F. discriminate. }
  destruct (rewrite_access_uniform D T tgt l ts1 id1 (proj2 (TG l (or_introl eq_refl))) G1) as (l' & ts2 & id2 & R2 & G2 & X2 & LE & DL).
  destruct (rewrite_all_ok _ _ _ _ _ _ _ R1 (NoDup_nil _)) as (_ & ND1 & _).
  destruct (rewrite_access_ok _ _ _ _ _ _ _ R2 ND1) as (_ & ND2 & _).
  set (TS := fold_left (fun ts p => update (fst p) (snd p) ts) ts2 (tensors c)).
  assert (FT : forall n, find n (tensors c) <> None -> find n TS = Some (final T ts2 n)).
  { intros n N. unfold TS. rewrite find_updates; [|exact ND2|exact N]. unfold final, T. destruct (find n ts2); [reflexivity|].
    destruct (find n (tensors c)); [reflexivity|congruence]. }
  assert (FX : forall x, In x (l :: rs) -> find (a_name x) TS = Some (final T ts2 (a_name x))).
  { intros x J. apply FT. rewrite Forall_forall in PA. destruct (PA x J) as [F _]. congruence. }
  assert (RE2 : rs' = map (fun x => Access (a_name x) (final T ts2 (a_name x)) (a_vars x)) rs).
  { rewrite RE. apply map_ext_in. intros x J. rewrite Forall_forall in DE.
    rewrite (final_mono T tgt ts1 ts2 G2 X2 (a_name x) (DE x J)). reflexivity. }
  assert (DD : forall x, In x (l :: rs) -> t_dims (final T ts2 (a_name x)) = map ext (a_vars x)).
  { intros x [<-|J]; [rewrite DL; exact (proj1 (TG l (or_introl eq_refl)))|].
    rewrite Forall_forall in DE. rewrite (final_mono T tgt ts1 ts2 G2 X2 (a_name x) (DE x J)), (DE x J). exact (proj1 (TG x (or_intror J))). }
  unfold shape_of in SL. injection SL as NL VL.
  set (L := Access (lhs_name a) (final T ts2 (lhs_name a)) (lhs_vars a)).
  assert (DLL : t_dims (final T ts2 (lhs_name a)) = map ext (lhs_vars a)) by (rewrite <- NL, <- VL; exact (DD l (or_introl eq_refl))).
  assert (ALL : forall x, In x (L :: rs') -> t_dims (a_tensor x) = map ext (a_vars x) /\ find (a_name x) TS = Some (a_tensor x)).
  { intros x [<-|J].
    - unfold L. cbn. split; [exact DLL|]. rewrite <- NL. exact (FX l (or_introl eq_refl)).
    - rewrite RE2 in J. apply in_map_iff in J. destruct J as (y & <- & J). cbn. split; [exact (DD y (or_intror J))|exact (FX y (or_intror J))]. }
  assert (CK : check L rs' = true).
  { apply check_iff. assert (W : forall v d, In (v, d) (concat (map modes_of (L :: rs'))) -> d = ext v).
    { intros v d J. apply in_concat in J. destruct J as (f & J & K). apply in_map_iff in J. destruct J as (x & <- & J).
      unfold modes_of in K. rewrite (proj1 (ALL x J)) in K. clear -K. revert K. generalize (a_vars x). induction l as [|w l IH]; cbn; [intros []|].
      intros [[= -> <-]|K]; [reflexivity|exact (IH K)]. }
    intros v d d' X Y. rewrite (W _ _ X), (W _ _ Y). reflexivity. }
  exists (Inferred L rs' TS), ext. split; [|split; [exact EX|split; [reflexivity|split; [|split; [exact ALL|]]]]].
  - unfold infer. fold base. rewrite P1. cbn [dbind]. rewrite P2. cbn [dbind]. rewrite E. cbn [dbind]. rewrite R1. cbn [dbind]. rewrite R2. cbn [dbind fst].
    fold TS. assert (FL := FX l (or_introl eq_refl)). rewrite NL in FL. rewrite FL.
    rewrite DLL, map_length, Nat.eqb_refl. cbn [negb]. fold L. rewrite CK, orb_true_r. reflexivity.
  - cbn [i_rhs]. rewrite RE2, map_map. rewrite <- SH. reflexivity.
  - intros n t LO. cbn [i_tensors]. assert (FN := i_loaded _ _ I _ _ LO). rewrite FT; [|congruence]. f_equal. unfold final.
    destruct (find n ts2) as [u|] eqn:F; [exfalso|unfold T; rewrite FN; reflexivity].
    destruct (G2 _ _ F) as [_ N]. apply N. unfold T, tgt, given_dims. rewrite FN, LO. reflexivity.
Qed.
End Positive.
End Given.

(** In the terms of the specification. *)
Lemma indexed_modes : forall x v d, indexed x v d <-> In (v, d) (modes_of x).
Proof.
  intros x v d. unfold indexed, modes_of. split.
  - intros (k & V & E). apply (nth_error_In _ k). apply nth_combine. auto.
  - intros I. apply In_nth_error in I. destruct I as [k I]. apply nth_combine in I. exists k. exact I.
Qed.
Theorem infer_agrees : forall g a r, infer g a = DOk r -> accumulate a = false ->
  forall x y v d d', In x (i_lhs r :: i_rhs r) -> In y (i_lhs r :: i_rhs r) -> indexed x v d -> indexed y v d' -> d = d'.
Proof.
  intros g a r H AC x y v d d' X Y I J. destruct (infer_shapes g a r H) as (_ & _ & _ & _ & _ & A).
  specialize (A AC v d d'). cbv beta in A. apply A; apply in_concat; [exists (modes_of x)|exists (modes_of y)];
    (split; [apply in_map; assumption|apply indexed_modes; assumption]).
Qed.
Theorem infer_respects : forall g a r, infer g a = DOk r ->
  shape_of (i_lhs r) = (lhs_name a, lhs_vars a) /\ map shape_of (i_rhs r) = operands (rhs a) /\
  (forall x, In x (i_lhs r :: i_rhs r) -> length (t_dims (a_tensor x)) = length (a_vars x)) /\
  (forall x ds, In x (i_rhs r) -> given_dims g (a_name x) = Some ds -> t_dims (a_tensor x) = firstn (length (a_vars x)) ds) /\
  (forall n t, find n (loaded g) = Some t ->
     (n <> lhs_name a -> find n (i_tensors r) = Some t) /\ (forall x, In x (i_rhs r) -> a_name x = n -> a_tensor x = t)).
Proof.
  intros g a r H. destruct (infer_shapes g a r H) as (S1 & S2 & O & G & L & _). rewrite Forall_forall in O.
  split; [exact S1|]. split; [exact S2|]. split; [intros x I; symmetry; exact (O x I)|]. split; [|exact L].
  intros x ds I GD. assert (OX := O x (or_intror I)). unfold ordered in OX. rewrite OX.
  assert (X := G x I ds GD). clear -X. revert ds X. induction (t_dims (a_tensor x)) as [|d l IH]; intros ds X; [reflexivity|].
  assert (E := X 0 d eq_refl). destruct ds as [|e ds]; [discriminate|]. cbn in E. injection E as ->. cbn. f_equal.
  apply IH. intros k b F. exact (X (S k) b F).
Qed.
