(** C80: calling a compiled kernel on tensor storages. *)
From Coq Require Import List Arith Bool ZArith Lia.
From Verif Require Import Kernels KernelsSpec KernelsProofs.
Import ListNotations.
Local Open Scope nat_scope.

(** The two calls that replace the results: evaluating and assembling. *)
Definition replacing (k : kernel) (call : memory -> list sto -> list nat -> outcome (memory * list sto * bool))
    (f : code) : Prop :=
  (call = evaluate (Some k) /\ f = f_evaluate k) \/ (call = assemble (Some k) /\ f = f_assemble k).

(** The function that runs gets structures that hold exactly what the storages passed to
    the kernel hold, whether or not a storage is passed more than once, and what it leaves
    in them is what the results are read from. *)
Theorem C80_arguments : forall f m stos args,
  (forall h, In h args -> exists s, nth_error stos h = Some s /\ has_levels s /\
     exists cs vs, reads m s cs vs /\ sized cs 1 (length vs)) ->
  exists rs, (exists stos1, run f m stos args =
                Some (fst (fst (f args m rs)), stos1, snd (f args m rs)) /\
                (length (snd (fst (f args m rs))) = length stos ->
                 map k_raw stos1 = snd (fst (f args m rs)))) /\
    forall h s cs vs, In h args -> nth_error stos h = Some s -> reads m s cs vs -> sized cs 1 (length vs) ->
      exists r, nth_error rs h = Some r /\ stored m (k_levels s) r cs vs.
Proof.
  intros f m stos args F. destruct (pack_arguments_ok m args stos) as (stos1 & P & _ & G).
  { intros h I. destruct (F h I) as (s & E & H & C). exists s. repeat split; auto. }
  exists (map k_raw stos1). unfold run. rewrite P. split.
  - destruct (f args m (map k_raw stos1)) as [[m' rs'] c]. eexists. split; [reflexivity|]. simpl. intros L.
    apply with_raws_raws. rewrite L. symmetry. eapply pack_arguments_length; eauto.
  - intros h s cs vs I E R S. destruct (G h s cs vs I E R S) as (s1 & A & B).
    exists (k_raw s1). split; auto. apply map_nth_error. auto.
Qed.
Print Assumptions C80_arguments.

(** If the function leaves complete tensors in new arrays of its results, then the call
    succeeds and returns whether the function returned 0; each result reads back exactly
    what the function left, and the next call passes on the same arrays; storages
    that are not results keep their arrays, and no other memory is freed. *)
Theorem C80_results : forall k call f m stos args m1 stos1 r,
  replacing k call f ->
  run f m stos args = Some (m1, stos1, r) ->
  n_results k <= length args ->
  let results := firstn (n_results k) args in
  NoDup results ->
  (forall h, In h results -> exists s cs vs,
     nth_error stos1 h = Some s /\ stored m1 (k_levels s) (k_raw s) cs vs) ->
  new_arrays m1 stos1 results ->
  exists m2 stos2, call m stos args = Done (m2, stos2, (r =? 0)%Z) /\
    (forall h s cs vs, In h results -> nth_error stos1 h = Some s ->
       stored m1 (k_levels s) (k_raw s) cs vs ->
       exists s2, nth_error stos2 h = Some s2 /\ k_levels s2 = k_levels s /\ reads m2 s2 cs vs /\
         exists s3, pack_storage s2 = Some s3 /\
           kept (k_levels s) (k_raw s3) = kept (k_levels s) (k_raw s)) /\
    (forall h s, ~ In h results -> nth_error stos h = Some s ->
       exists s2, nth_error stos2 h = Some s2 /\ same_arrays s s2) /\
    (forall p b, block m1 (Some p) = Some b ->
       (forall h s, In h results -> nth_error stos1 h = Some s -> ~ In p (owned s)) ->
       block m2 (Some p) = Some b).
Proof.
  intros k call f m stos args m1 stos1 r C R L results ND ST NEW.
  destruct (unpack_results_ok results m1 stos1 ND ST NEW) as (m2 & stos2 & U & G1 & G2 & G3).
  assert (E : call m stos args = run_and_unpack f (n_results k) m stos args).
  { destruct C as [[-> ->]|[-> ->]]; reflexivity. }
  exists m2, stos2. split; [|split; [exact G1|split; [|exact G3]]].
  - rewrite E. unfold run_and_unpack. rewrite R.
    replace (length args <? n_results k) with false by (symmetry; apply Nat.ltb_ge; lia).
    fold results. rewrite U. reflexivity.
  - intros h s N S. rewrite G2 by auto. eapply run_same; eauto.
Qed.
Print Assumptions C80_results.

(** Computing keeps the index and the values of every storage where they are: the
    function changes memory in place. *)
Theorem C80_compute : forall k m stos args m1 stos1 r,
  run (f_compute k) m stos args = Some (m1, stos1, r) ->
  exists stos2, compute (Some k) m stos args = Done (m1, stos2, (r =? 0)%Z) /\
    forall h s, nth_error stos h = Some s -> exists s2, nth_error stos2 h = Some s2 /\ same_arrays s s2.
Proof.
  intros k m stos args m1 stos1 r R. exists stos1. unfold compute. rewrite R. split; auto.
  intros h s E. eapply run_same; eauto.
Qed.
Print Assumptions C80_compute.

(** The expected "a kernel can be called for every result format a storage accepts" is
    false: with a singleton level in a result, no function makes the call succeed. *)
Theorem C80_singleton_refuted : forall k call f m stos args h s,
  replacing k call f -> 0 < n_results k -> hd_error args = Some h ->
  nth_error stos h = Some s -> In KSingleton (k_levels s) ->
  forall x, call m stos args <> Done x.
Proof.
  intros k call f m stos args h s C N A E I x.
  assert (EQ : call m stos args = run_and_unpack f (n_results k) m stos args).
  { destruct C as [[-> ->]|[-> ->]]; reflexivity. }
  rewrite EQ. unfold run_and_unpack. destruct (run f m stos args) as [[[m1 stos1] r]|] eqn:R; [|discriminate].
  destruct (length args <? n_results k); [discriminate|].
  destruct args as [|h' args]; [discriminate|]. inversion A; subst h'.
  destruct (n_results k) as [|n]; [lia|]. simpl.
  destruct (run_same _ _ _ _ _ _ _ _ _ R E) as (s1 & E1 & SL & _ & _). rewrite E1. unfold unpack_storage.
  destruct (unpack_levels m1 (k_levels s1) (r_indices (k_raw s1)) 1) as [y| |] eqn:U; try discriminate.
  exfalso. eapply unpack_singleton; [|exact U]. rewrite <- SL. auto.
Qed.
Print Assumptions C80_singleton_refuted.

(** The expected "a new storage can be passed as a result" is false: if it has a dense level,
    every call of every kernel is undefined, as its index has no arrays. *)
Theorem C80_new_refuted : forall k m stos args h ls r,
  In h args -> nth_error stos h = Some (new_storage ls r) -> In KDense ls ->
  evaluate (Some k) m stos args = Undefined /\ assemble (Some k) m stos args = Undefined /\
  compute (Some k) m stos args = Undefined.
Proof.
  intros k m stos args h ls r I E D.
  assert (P : pack_arguments stos args = None).
  { eapply pack_arguments_new; eauto. repeat split. }
  unfold evaluate, assemble, compute, run_and_unpack, run. rewrite P. auto.
Qed.
Print Assumptions C80_new_refuted.

(** Concrete kernels.  The result (handle 0) is a matrix of 2 rows with compressed rows, the
    operand (handle 1) a dense vector of size 2. *)
Definition old_memory : memory :=
  [Some [2%Z]; Some [0%Z; 1%Z; 1%Z]; Some [5%Z]; Some [7%Z]; Some [2%Z]; Some [3%Z; 4%Z]].
Definition result0 : sto :=
  Sto [KDense; KSparse] [[Arr (Some 0) 1 true]; [Arr (Some 1) 3 true; Arr (Some 2) 1 true]]
      (Arr (Some 3) 1 true) (Raw [(None, None); (None, None)] None).
Definition operand1 : sto :=
  Sto [KDense] [[Arr (Some 4) 1 true]] (Arr (Some 5) 2 true) (Raw [(None, None)] None).
(** New positions, coordinates and values. *)
Definition example_code (result : Z) : code := fun args m rs =>
  match rs with
  | Raw [d; _] _ :: rs =>
      (m ++ [Some [0%Z; 1%Z; 2%Z]; Some [0%Z; 1%Z; 99%Z]; Some [30%Z; 40%Z; 99%Z]],
       Raw [d; (Some (length m), Some (length m + 1))] (Some (length m + 2)) :: rs, result)
  | _ => (m, rs, 1%Z)
  end.
(** Only new positions, and a failure. *)
Definition failing_code : code := fun args m rs =>
  match rs with
  | Raw [d; _] v :: rs =>
      (m ++ [Some [0%Z; 0%Z; 0%Z]; Some []; Some []],
       Raw [d; (Some (length m), Some (length m + 1))] (Some (length m + 2)) :: rs, 1%Z)
  | _ => (m, rs, 1%Z)
  end.
(** A function that works in place, on the values that are there. *)
Definition in_place : code := fun args m rs => (m, rs, 0%Z).
Definition example : kernel := Kernel 1 (example_code 0) (example_code 0) in_place.

(** The hypotheses of C80_arguments and C80_results are met, and the result is read back. *)
Example C80_arguments_example : forall h, In h [0; 1] ->
  exists s, nth_error [result0; operand1] h = Some s /\ has_levels s /\
    exists cs vs, reads old_memory s cs vs /\ sized cs 1 (length vs).
Proof.
  intros h [<-|[<-|[]]].
  - exists result0. repeat split. exists [CDense 2; CSparse [0%Z; 1%Z; 1%Z] [5%Z]], [7%Z]. repeat split.
  - exists operand1. repeat split. exists [CDense 2], [3%Z; 4%Z]. repeat split.
Qed.
Example C80_results_example : exists m1 stos1,
  run (f_evaluate example) old_memory [result0; operand1] [0; 1] = Some (m1, stos1, 0%Z) /\
  (forall h, In h [0] -> exists s cs vs,
     nth_error stos1 h = Some s /\ stored m1 (k_levels s) (k_raw s) cs vs) /\
  new_arrays m1 stos1 [0].
Proof.
  eexists. eexists. split; [vm_compute; reflexivity|]. split.
  - intros h [<-|[]]. eexists. exists [CDense 2; CSparse [0%Z; 1%Z; 2%Z] [0%Z; 1%Z]], [30%Z; 40%Z].
    split; [reflexivity|]. split; [|exists [99%Z]; reflexivity].
    eapply stored_dense with (rest := []); [reflexivity|].
    eapply stored_sparse with (more1 := []) (more2 := [99%Z]); try reflexivity. constructor.
  - intros h s [<-|[]] E. inversion E; subst s. split; [|split].
    + intros p I. vm_compute in I. simpl. destruct I as [<-|[<-|[<-|[<-|[]]]]]; lia.
    + intros p I J. vm_compute in I, J.
      destruct J as [<-|[<-|[<-|[<-|[]]]]]; destruct I as [I|[I|[I|[]]]]; discriminate.
    + intros p h' s' _ [<-|[]] N. contradiction.
Qed.
Example C80_result_read : exists m2 s2 stos2,
  evaluate (Some example) old_memory [result0; operand1] [0; 1] = Done (m2, s2 :: stos2, true) /\
  reads m2 s2 [CDense 2; CSparse [0%Z; 1%Z; 2%Z] [0%Z; 1%Z]] [30%Z; 40%Z].
Proof. eexists. eexists. eexists. split; [vm_compute; reflexivity|]. repeat split. Qed.
(** Without new arrays the values are freed by the call. *)
Example C80_in_place : exists m2 s2 stos2,
  evaluate (Some (Kernel 1 in_place in_place in_place)) old_memory [result0; operand1] [0; 1] =
    Done (m2, s2 :: stos2, true) /\
  array_contents m2 (k_values s2) = None.
Proof. eexists. eexists. eexists. split; [vm_compute; reflexivity|]. reflexivity. Qed.
Example C80_singleton_example :
  In KSingleton (k_levels (Sto [KSparse; KSingleton] [[]; []] (Arr None 0 false) (Raw [(None, None); (None, None)] None))).
Proof. simpl. auto. Qed.

(** The expected "a call that returns false leaves the results as they were" is false: the
    old result is gone. *)
Theorem C80_failure_refuted : exists k m s0 stos args m2 s2 stos2,
  reads m s0 [CDense 2; CSparse [0%Z; 1%Z; 1%Z] [5%Z]] [7%Z] /\
  evaluate (Some k) m (s0 :: stos) args = Done (m2, s2 :: stos2, false) /\
  reads m2 s2 [CDense 2; CSparse [0%Z; 0%Z; 0%Z] []] [] /\
  ~ reads m2 s0 [CDense 2; CSparse [0%Z; 1%Z; 1%Z] [5%Z]] [7%Z].
Proof.
  exists (Kernel 1 failing_code failing_code in_place), old_memory, result0, [operand1], [0; 1].
  eexists. eexists. eexists. split; [repeat split|]. split; [vm_compute; reflexivity|]. split; [repeat split|].
  intros [_ V]. vm_compute in V. discriminate.
Qed.
Print Assumptions C80_failure_refuted.
