(** C65: iterating only over the stored positions of a temporary does not
    change the result, when it is safe to do so. *)
From Coq Require Import List Arith Lia Bool Permutation Sorted Ring_theory ZArith.
Import ListNotations.
From Verif Require Import Outcome IndexExpr Eval Notation NotationSpec WhereLower Workspace WorkspaceSpec WorkspaceProofs Prop_Workspace Accel AccelSpec AccelProofs.
Local Open Scope nat_scope.

Section Statements.
Context {V : Type}.
Variable R : ring_ops V.
Variable fn : nat -> V -> V.
Variable dv : V -> V -> V.
Variable inj : nat -> V.
Variable derived : ivar -> ivar -> bool.

(** The right-hand side [e] in the iteration in which [j] is [i] and the
    temporary [w] holds [x]; [r] gives the variables of the loops around. *)
Definition rhs (r : ivar -> nat) other (w : tensor) (j : ivar) (e : cexpr V) (i : nat) (x : V) : V :=
  ceval R fn dv inj (fun v => if v =? j then i else r v) other w x e.

(** What is fixed in all theorems: the right-hand side reads the temporary at
    [j], the producer stores inside it, and the list of positions is sorted by a
    sorting function; if the temporary is iterated by its list, its arrays have
    been allocated, with any contents. *)
Record setting (d : decision) (w : tensor) (j : ivar) (e : cexpr V) (n : nat) (us : list (nat * V))
    (srt : list nat -> list nat) (ws : wsp V) (rv : list ivar) (f : fmt) : Prop := {
  s_reads : In (w, [j]) (accesses e);
  s_stores : forall u, In u us -> fst u < n;
  s_sorts : sorts srt;
  s_arrays : forall s, d = Decided true s -> exists vals lst, ws = allocated n vals lst /\ length vals = n /\ length lst = n;
  s_underived : forall v, In v rv -> derived j v = false;
  s_nodup : NoDup rv }.
Definition accelerated (d : decision) : Prop := exists s, d = Decided true s.
End Statements.

Lemma one_access : forall V (e : cexpr V) w j tv, In (w, [j]) (accesses e) -> map snd (accesses e) = [tv] -> tv = [j].
Proof. intros V e w j tv I M. destruct (accesses e) as [|a [|b l]]; try discriminate. injection M as <-. destruct I as [->|[]]. auto. Qed.

Lemma cases_in : forall V (e : cexpr V) w derived cuda flag dense order j rv f m lv,
  In (w, [j]) (accesses e) -> NoDup rv -> nth_error rv m = Some j -> (forall v, In v rv -> derived j v = false) ->
  self_inverse (f_ordering f) -> stored_in f m lv ->
  let d := can_accelerate derived cuda flag dense order (map snd (accesses e)) [(rv, f)] in
  let all := cuda = false /\ flag = true /\ dense = true /\ order = 1 /\ length (accesses e) = 1 in
  (~ all /\ d = Decided false false) \/
  (all /\ d = if l_full lv then Decided false false else Decided true (l_ordered lv)).
Proof.
  intros V e w derived cuda flag dense order j rv f m lv I ND J D SI ST d all.
  destruct cuda; [left; split; [intros (? & _); discriminate|reflexivity]|].
  destruct flag; [|left; split; [intros (_ & ? & _); discriminate|reflexivity]].
  destruct dense; [|left; split; [intros (_ & _ & ? & _); discriminate|reflexivity]].
  destruct (Nat.eqb_spec order 1) as [->|NO].
  2: { left. split; [intros (_ & _ & _ & ? & _); contradiction|]. unfold d, can_accelerate. apply Nat.eqb_neq in NO. rewrite NO. reflexivity. }
  destruct (map snd (accesses e)) as [|tv [|tv2 tl]] eqn:M.
  - destruct (accesses e); [destruct I|discriminate].
  - right. split.
    + repeat split; auto. apply (f_equal (@length _)) in M. rewrite map_length in M. exact M.
    + unfold d. rewrite (one_access V e w j tv I M). eapply decide_in; eauto.
  - left. split; [|reflexivity]. intros (_ & _ & _ & _ & L). apply (f_equal (@length _)) in M. rewrite map_length, L in M. discriminate.
Qed.
Lemma cases_out : forall V (e : cexpr V) w derived cuda flag dense order j rv f,
  In (w, [j]) (accesses e) -> ~ In j rv -> (forall v, In v rv -> derived j v = false) ->
  let d := can_accelerate derived cuda flag dense order (map snd (accesses e)) [(rv, f)] in
  d = Decided false false \/ d = Decided true false.
Proof.
  intros V e w derived cuda flag dense order j rv f I NI D d.
  destruct cuda; [left; reflexivity|]. destruct flag; [|left; reflexivity]. destruct dense; [|left; reflexivity].
  destruct (Nat.eqb_spec order 1) as [->|NO].
  2: { left. unfold d, can_accelerate. apply Nat.eqb_neq in NO. rewrite NO. reflexivity. }
  destruct (map snd (accesses e)) as [|tv [|tv2 tl]] eqn:M.
  - destruct (accesses e); [destruct I|discriminate].
  - right. unfold d. rewrite (one_access V e w j tv I M). eapply decide_out; eauto.
  - left. reflexivity.
Qed.

(** The choice, for mode orderings that are their own inverse: the positions
    stored in the temporary are iterated exactly if code for the CPU is
    generated, the temporary is a dense vector that may be accelerated, the
    consumer reads nothing else, and the result's level that stores [j] is
    sparse; they are sorted exactly if that level is ordered. *)
Theorem C65_choice : forall V (e : cexpr V) w derived cuda flag dense order j rv f m lv s,
  In (w, [j]) (accesses e) -> NoDup rv -> nth_error rv m = Some j -> (forall v, In v rv -> derived j v = false) ->
  self_inverse (f_ordering f) -> stored_in f m lv ->
  (can_accelerate derived cuda flag dense order (map snd (accesses e)) [(rv, f)] = Decided true s <->
   cuda = false /\ flag = true /\ dense = true /\ order = 1 /\ length (accesses e) = 1 /\ l_full lv = false /\ s = l_ordered lv).
Proof.
  intros V e w derived cuda flag dense order j rv f m lv s I ND J D SI ST.
  destruct (cases_in V e w derived cuda flag dense order j rv f m lv I ND J D SI ST) as [[NA ->]|[A ->]].
  - split; [discriminate|]. intros (A1 & A2 & A3 & A4 & A5 & _). exfalso. apply NA. auto.
  - destruct A as (A1 & A2 & A3 & A4 & A5). destruct (l_full lv).
    + split; [discriminate|]. intros (_ & _ & _ & _ & _ & X & _). discriminate.
    + split; [intros [= ->]; auto 10|]. intros (_ & _ & _ & _ & _ & _ & ->). auto.
Qed.
Print Assumptions C65_choice.

(** A result whose level of [j] is full: every component is assigned (or
    updated by) the right-hand side, whatever was in it. *)
Theorem C65_full : forall V (R : ring_ops V), is_ring R ->
  forall fn dv inj derived cuda flag dense order j w e rv f r other n pop rop srt us ws b m lv,
  let d := can_accelerate derived cuda flag dense order (map snd (accesses e)) [(rv, f)] in
  let g i := rhs R fn dv inj r other w j e i (temporary R pop us i) in
  setting derived d w j e n us srt ws rv f -> pop <> Some RProd ->
  nth_error rv m = Some j -> self_inverse (f_ordering f) -> stored_in f m lv -> l_full lv = true -> length b = n ->
  exists b', run_where R d n pop srt us ws rop (rhs R fn dv inj r other w j e) (Full b) = Some (Full b') /\ length b' = n /\
    forall i, i < n -> nth_error b' i = option_map (fun x => assigned R rop x (g i)) (nth_error b i).
Proof.
  intros V R RT fn dv inj derived cuda flag dense order j w e rv f r other n pop rop srt us ws b m lv d g S NP J SI ST F L.
  assert (D : d = Decided false false).
  { destruct (cases_in V e w derived cuda flag dense order j rv f m lv) as [[_ E]|[_ E]]; auto; try apply S. unfold d. rewrite E, F. auto. }
  rewrite D in *.
  destruct (visits_ok R RT (Decided false false) n pop srt us ws rop (rhs R fn dv inj r other w j e) (Full b)) as (is & E & _ & _ & _ & _ & IS);
    try apply S; try congruence; try discriminate.
  rewrite E, (IS false eq_refl).
  destruct (stores_full R rop g (seq 0 n) b) as (b' & E2 & L2 & I2 & _).
  { apply seq_NoDup. } { intros i I. apply in_seq in I. lia. }
  exists b'. split; [exact E2|]. split; [congruence|]. intros i I. apply I2. apply in_seq. lia.
Qed.
Print Assumptions C65_full.

(** A result whose level of [j] is sparse: coordinates below [n] are appended,
    each at most once, in increasing order if the level is ordered, and every
    component is the right-hand side, provided that the right-hand side is zero
    where the temporary is (if the temporary is iterated by its list). *)
Theorem C65_sparse : forall V (R : ring_ops V), is_ring R ->
  forall fn dv inj derived cuda flag dense order j w e rv f r other n pop rop srt us ws l m lv,
  let d := can_accelerate derived cuda flag dense order (map snd (accesses e)) [(rv, f)] in
  let g i := rhs R fn dv inj r other w j e i (temporary R pop us i) in
  setting derived d w j e n us srt ws rv f -> (pop = Some RProd -> accelerated d) ->
  nth_error rv m = Some j -> self_inverse (f_ordering f) -> stored_in f m lv -> l_full lv = false ->
  (accelerated d -> forall i, i < n -> rhs R fn dv inj r other w j e i (r0 R) = r0 R) ->
  exists new, run_where R d n pop srt us ws rop (rhs R fn dv inj r other w j e) (Appended l) = Some (Appended (l ++ new)) /\
    NoDup (map fst new) /\ (forall i, In i (map fst new) -> i < n) /\
    (l_ordered lv = true -> StronglySorted lt (map fst new)) /\
    forall i, i < n -> component R new i = g i.
Proof.
  intros V R RT fn dv inj derived cuda flag dense order j w e rv f r other n pop rop srt us ws l m lv d g S NP J SI ST F Z.
  assert (D : d = Decided false false \/ d = Decided true (l_ordered lv)).
  { destruct (cases_in V e w derived cuda flag dense order j rv f m lv) as [[_ E]|[_ E]]; auto; try apply S.
    right. unfold d. rewrite E, F. auto. }
  destruct (visits_ok R RT d n pop srt us ws rop (rhs R fn dv inj r other w j e) (Appended l)) as (is & E & N & LT & O & SO & _);
    try apply S; auto. { destruct D as [-> | ->]; discriminate. }
  rewrite E, stores_appended. eexists. split; [reflexivity|]. rewrite map_map. cbn [fst]. rewrite map_id.
  split; auto. split; auto. split.
  { intros OR. apply SO. intros s DS. destruct D as [D|D]; congruence. }
  intros i I. rewrite (component_map R g). destruct (in_dec Nat.eq_dec i is) as [|NI]; auto.
  destruct (O i I NI) as [A T]. unfold g. rewrite T. symmetry. apply Z; auto.
Qed.
Print Assumptions C65_sparse.

(** A result that does not depend on [j]: it grows by the sum of the right-hand
    sides over the whole dimension. *)
Theorem C65_reduction : forall V (R : ring_ops V), is_ring R ->
  forall fn dv inj derived cuda flag dense order j w e rv f r other n pop srt us ws x,
  let d := can_accelerate derived cuda flag dense order (map snd (accesses e)) [(rv, f)] in
  let g i := rhs R fn dv inj r other w j e i (temporary R pop us i) in
  setting derived d w j e n us srt ws rv f -> (pop = Some RProd -> accelerated d) -> ~ In j rv ->
  (accelerated d -> forall i, i < n -> rhs R fn dv inj r other w j e i (r0 R) = r0 R) ->
  run_where R d n pop srt us ws (Some RSum) (rhs R fn dv inj r other w j e) (Reduced x) = Some (Reduced (radd R x (sum_to R n g))).
Proof.
  intros V R RT fn dv inj derived cuda flag dense order j w e rv f r other n pop srt us ws x d g S NP NJ Z.
  assert (D : d = Decided false false \/ d = Decided true false) by (eapply cases_out; eauto; apply S).
  destruct (visits_ok R RT d n pop srt us ws (Some RSum) (rhs R fn dv inj r other w j e) (Reduced x)) as (is & E & N & LT & O & _ & _);
    try apply S; auto. { destruct D as [-> | ->]; discriminate. }
  rewrite E, (stores_reduced R RT). do 3 f_equal. rewrite map_map. cbn [snd]. fold g.
  rewrite <- (total_sum R g n). set (q := fun i => if in_dec Nat.eq_dec i is then true else false).
  rewrite <- (total_filter R RT q g (seq 0 n)).
  - apply total_perm; auto. apply Permutation_map. apply NoDup_Permutation; auto; [apply NoDup_filter, seq_NoDup|].
    intros i. rewrite filter_In, in_seq. unfold q. destruct (in_dec Nat.eq_dec i is) as [I|I].
    + split; auto. intros _. specialize (LT i I). split; [lia|auto].
    + split; [contradiction|]. intros [_ X]. discriminate.
  - intros i I Q. apply in_seq in I. unfold q in Q. destruct (in_dec Nat.eq_dec i is) as [|NI]; [discriminate|].
    destruct (O i ltac:(lia) NI) as [A T]. unfold g. rewrite T. apply Z; auto. lia.
Qed.
Print Assumptions C65_reduction.

(** When the right-hand side is zero where the temporary is: negation, sums of
    such terms, products with such a factor, zero-preserving functions and
    quotients of zero. *)
Fixpoint keeps_zero {V} (zp : nat -> bool) (w : tensor) (e : cexpr V) : bool :=
  match e with
  | CAcc t _ => t =? w
  | CLit _ | CVar _ => false
  | CNeg a => keeps_zero zp w a
  | CFun h a => zp h && keeps_zero zp w a
  | CAdd a b | CSub a b => keeps_zero zp w a && keeps_zero zp w b
  | CMul a b => keeps_zero zp w a || keeps_zero zp w b
  | CDiv a b => keeps_zero zp w a
  end.
Theorem C65_zero : forall V (R : ring_ops V), is_ring R -> forall fn dv inj zp r other w j e i,
  (forall h, zp h = true -> fn h (r0 R) = r0 R) -> (forall y, dv (r0 R) y = r0 R) ->
  keeps_zero zp w e = true -> rhs R fn dv inj r other w j e i (r0 R) = r0 R.
Proof.
  intros V R RT fn dv inj zp r other w j e i ZP ZD. unfold rhs. set (rr := fun v => _). clearbody rr.
  induction e; cbn [keeps_zero ceval]; intros K; try discriminate.
  - rewrite K. auto.
  - rewrite IHe by auto. rewrite <- (Radd_0_l RT (ropp R (r0 R))). apply (Ropp_def RT).
  - apply andb_prop in K as [K1 K2]. rewrite IHe by auto. auto.
  - apply andb_prop in K as [K1 K2]. rewrite IHe1, IHe2 by auto. apply (Radd_0_l RT).
  - apply andb_prop in K as [K1 K2]. rewrite IHe1, IHe2 by auto. rewrite (Rsub_def RT). apply (Ropp_def RT).
  - assert (M : forall x, rmul R (r0 R) x = r0 R).
    { intros x. assert (E : radd R (rmul R (r0 R) x) (rmul R (r0 R) x) = rmul R (r0 R) x) by (rewrite <- (Rdistr_l RT), (Radd_0_l RT); auto).
      set (y := rmul R (r0 R) x) in *. clearbody y.
      assert (E2 : radd R (radd R y y) (ropp R y) = r0 R) by (rewrite E; apply (Ropp_def RT)).
      rewrite <- (Radd_assoc RT), (Ropp_def RT), (Radd_comm RT), (Radd_0_l RT) in E2. auto. }
    apply orb_prop in K as [K|K].
    + rewrite IHe1 by auto. apply M.
    + rewrite IHe2 by auto. rewrite (Rmul_comm RT). apply M.
  - rewrite IHe1 by auto. auto.
Qed.
Print Assumptions C65_zero.

(** Temporaries of parallel loops: the parts of the threads are inside the
    shared array and separate, so that in any order of the threads' steps every
    thread's part ends up as if only that thread had run, on an array of its own. *)
Theorem C65_threads : forall V size T steps (a : list V), length a = size * T ->
  (forall s, In s steps -> s_thread s < T /\ s_loc s < size) ->
  exists a', exec size a steps = Some a' /\ length a' = size * T /\
    forall t, t < T ->
      exec size (part size t a) (map (fun s => Step 0 (s_loc s) (s_fun s)) (filter (fun s => s_thread s =? t) steps)) = Some (part size t a').
Proof. exact @exec_parts. Qed.
Print Assumptions C65_threads.

(** *** Findings *)
Definition nofun : nat -> Z -> Z := fun _ x => x.
Definition zdiv : Z -> Z -> Z := Z.div.
Definition under : ivar -> ivar -> bool := fun _ _ => false.
Definition nothing : tensor -> list nat -> Z := fun _ _ => 0%Z.
Definition dense_level := Level true true.
Definition sparse_level := Level false true.
Definition hash_level := Level false false.
Notation zrhs := (rhs Zops nofun zdiv Z.of_nat (fun _ => 0) nothing).

(** A sum with a constant is accelerated too, and its components are lost where
    nothing was stored in the temporary: A(j) = w(j) + 1 with A sparse. *)
Theorem C65_constant_refuted : exists e rv f us ws new,
  let d := can_accelerate under false true true 1 (map snd (accesses e)) [(rv, f)] in
  stored_in f 0 sparse_level /\ setting under d 1 0 e 3 us isort ws rv f /\
  run_where Zops d 3 (Some RSum) isort us ws None (zrhs 1 0 e) (Appended []) = Some (Appended new) /\
  component Zops new 0 = 0%Z /\ zrhs 1 0 e 0 (temporary Zops (Some RSum) us 0) = 1%Z.
Proof.
  exists (CAdd (CAcc 1 [0]) (CLit 1%Z)), [0], (Fmt [0] [sparse_level]), [(1, 5%Z)], (allocated 3 [7; 7; 7]%Z [0; 0; 0]), [(1, 6%Z)].
  cbv zeta. split; [exists 0; auto|]. split; [|repeat split; vm_compute; auto].
  split; [left; auto|intros u [<-|[]]; cbn; lia|apply isort_sorts| |intros; auto|repeat constructor; auto].
  intros s _. exists [7; 7; 7]%Z, [0; 0; 0]. auto.
Qed.
Print Assumptions C65_constant_refuted.

(** ... and so are sums over the whole dimension: s += w(j) + 1. *)
Theorem C65_constant_sum_refuted : exists e us ws y,
  let d := can_accelerate under false true true 1 (map snd (accesses e)) [([], Fmt [] [])] in
  setting under d 1 0 e 3 us isort ws [] (Fmt [] []) /\
  run_where Zops d 3 (Some RSum) isort us ws (Some RSum) (zrhs 1 0 e) (Reduced 0%Z) = Some (Reduced y) /\
  y <> sum_to Zops 3 (fun i => zrhs 1 0 e i (temporary Zops (Some RSum) us i)).
Proof.
  exists (CAdd (CAcc 1 [0]) (CLit 1%Z)), [(1, 5%Z)], (allocated 3 [7; 7; 7]%Z [0; 0; 0]), 6%Z.
  cbv zeta. split; [|split; vm_compute; auto; discriminate].
  split; [left; auto|intros u [<-|[]]; cbn; lia|apply isort_sorts| |intros; auto|constructor].
  intros s _. exists [7; 7; 7]%Z, [0; 0; 0]. auto.
Qed.
Print Assumptions C65_constant_sum_refuted.

(** A temporary that is multiplied up ( *= ) holds the product if it is
    accelerated and zero if it is not. *)
Theorem C65_product_refuted : exists e rv us ws,
  let d flag := can_accelerate under false flag true 1 (map snd (accesses e)) [(rv, Fmt [0] [sparse_level])] in
  (forall flag, setting under (d flag) 1 0 e 2 us isort ws rv (Fmt [0] [sparse_level])) /\
  run_where Zops (d true) 2 (Some RProd) isort us ws None (zrhs 1 0 e) (Appended []) = Some (Appended [(1, 6%Z)]) /\
  run_where Zops (d false) 2 (Some RProd) isort us ws None (zrhs 1 0 e) (Appended []) = Some (Appended [(0, 0%Z); (1, 0%Z)]).
Proof.
  exists (CAcc 1 [0]), [0], [(1, 2%Z); (1, 3%Z)], (allocated 2 [7; 7]%Z [0; 0]).
  cbv zeta. split; [|split; vm_compute; auto]. intros flag.
  split; [left; auto|intros u [<-|[<-|[]]]; cbn; lia|apply isort_sorts| |intros; auto|repeat constructor; auto].
  intros s _. exists [7; 7]%Z, [0; 0]. auto.
Qed.
Print Assumptions C65_product_refuted.

(** With a mode ordering that is not its own inverse, another level is
    consulted than the one that stores [j].  Here mode 0 is stored at the last
    level, which is dense, and the sparse level 1 is consulted: components that
    the temporary does not hold are not written. *)
Theorem C65_ordering_refuted : exists e rv f us ws b b',
  let d := can_accelerate under false true true 1 (map snd (accesses e)) [(rv, f)] in
  nth_error rv 0 = Some 0 /\ stored_in f 0 dense_level /\ setting under d 1 0 e 2 us isort ws rv f /\
  run_where Zops d 2 (Some RSum) isort us ws None (zrhs 1 0 e) (Full b) = Some (Full b') /\
  nth_error b 0 = nth_error b' 0 /\ nth_error b' 0 <> Some (zrhs 1 0 e 0 (temporary Zops (Some RSum) us 0)).
Proof.
  exists (CAcc 1 [0]), [0; 1; 2], (Fmt [1; 2; 0] [dense_level; sparse_level; dense_level]), [(1, 5%Z)],
    (allocated 2 [7; 7]%Z [0; 0]), [99; 99]%Z, [99; 5]%Z.
  cbv zeta. split; auto. split; [exists 2; auto|]. split; [|repeat split; vm_compute; auto; discriminate].
  split; [left; auto|intros u [<-|[]]; cbn; lia|apply isort_sorts| |intros; auto|].
  { intros s _. exists [7; 7]%Z, [0; 0]. auto. } repeat constructor; cbn; intuition lia.
Qed.
Print Assumptions C65_ordering_refuted.

(** In the same way an ordered level can receive coordinates out of order ... *)
Theorem C65_sorting_refuted : exists e rv f us ws new,
  let d := can_accelerate under false true true 1 (map snd (accesses e)) [(rv, f)] in
  nth_error rv 0 = Some 0 /\ stored_in f 0 sparse_level /\ setting under d 1 0 e 2 us isort ws rv f /\
  run_where Zops d 2 (Some RSum) isort us ws None (zrhs 1 0 e) (Appended []) = Some (Appended new) /\
  map fst new = [1; 0].
Proof.
  exists (CAcc 1 [0]), [0; 1; 2], (Fmt [1; 2; 0] [dense_level; hash_level; sparse_level]), [(1, 5%Z); (0, 4%Z)],
    (allocated 2 [7; 7]%Z [0; 0]), [(1, 5%Z); (0, 4%Z)].
  cbv zeta. split; auto. split; [exists 2; auto|]. split; [|repeat split; vm_compute; auto; discriminate].
  split; [left; auto|intros u [<-|[<-|[]]]; cbn; lia|apply isort_sorts| |intros; auto|].
  { intros s _. exists [7; 7]%Z, [0; 0]. auto. } repeat constructor; cbn; intuition lia.
Qed.
Print Assumptions C65_sorting_refuted.

(** ... and a sparse level every coordinate, with explicit zeros. *)
Theorem C65_missed_refuted : exists e rv f us ws new,
  let d := can_accelerate under false true true 1 (map snd (accesses e)) [(rv, f)] in
  nth_error rv 0 = Some 0 /\ stored_in f 0 sparse_level /\ setting under d 1 0 e 3 us isort ws rv f /\
  run_where Zops d 3 (Some RSum) isort us ws None (zrhs 1 0 e) (Appended []) = Some (Appended new) /\
  new = [(0, 0%Z); (1, 5%Z); (2, 0%Z)].
Proof.
  exists (CAcc 1 [0]), [0; 1; 2], (Fmt [1; 2; 0] [dense_level; dense_level; sparse_level]), [(1, 5%Z)],
    (allocated 3 [7; 7; 7]%Z [0; 0; 0]), [(0, 0%Z); (1, 5%Z); (2, 0%Z)].
  cbv zeta. split; auto. split; [exists 2; auto|]. split; [|repeat split; vm_compute; auto; discriminate].
  split; [left; auto|intros u [<-|[]]; cbn; lia|apply isort_sorts| |intros; auto|].
  { intros s _. exists [7; 7; 7]%Z, [0; 0; 0]. auto. } repeat constructor; cbn; intuition lia.
Qed.
Print Assumptions C65_missed_refuted.

(** A consumer that reads only a scalar makes the decision read past the end of
    that access's variables. *)
Theorem C65_scalar_operand_refuted : exists (e : cexpr Z),
  accesses e = [(2, [])] /\ can_accelerate under false true true 1 (map snd (accesses e)) [([0], Fmt [0] [sparse_level])] = Undefined.
Proof. exists (CAcc 2 []). auto. Qed.
Print Assumptions C65_scalar_operand_refuted.

(** *** The hypotheses are met *)
(** A(i,j) = 2 w(j) with A in compressed sparse rows, then columns. *)
Example C65_example_rows :
  let e := CMul (CLit 2%Z) (CAcc 1 [0]) in
  let f := Fmt [0; 1] [dense_level; sparse_level] in
  let us := [(4, 1%Z); (2, 10%Z); (4, 2%Z)] in
  let ws := allocated 5 [9; 9; 9; 9; 9]%Z [7; 7; 7; 7; 7] in
  let d := can_accelerate under false true true 1 (map snd (accesses e)) [([3; 0], f)] in
  setting under d 1 0 e 5 us isort ws [3; 0] f /\ self_inverse (f_ordering f) /\ stored_in f 1 sparse_level /\
  keeps_zero (fun _ => true) 1 e = true /\ accelerated d /\
  run_where Zops d 5 (Some RSum) isort us ws None (zrhs 1 0 e) (Appended [(3, 8%Z)]) = Some (Appended [(3, 8%Z); (2, 20%Z); (4, 6%Z)]).
Proof.
  cbv zeta. split; [|split; [|split; [|split; [reflexivity|split; [|reflexivity]]]]].
  - split; [left; auto|intros u [<-|[<-|[<-|[]]]]; cbn; lia|apply isort_sorts| |intros; auto|repeat constructor; cbn; intuition lia].
    intros s _. exists [9; 9; 9; 9; 9]%Z, [7; 7; 7; 7; 7]. auto.
  - intros [|[|[|?]]] m E; try discriminate; injection E as <-; auto.
  - exists 1. auto.
  - exists true. auto.
Qed.
(** Two threads in one shared array. *)
Example C65_example_threads :
  exec 2 [0; 0; 0; 0]%Z [Step 1 0 (Z.add 5); Step 0 1 (Z.add 3); Step 1 0 (Z.mul 2)] = Some [0; 3; 10; 0]%Z.
Proof. reflexivity. Qed.
