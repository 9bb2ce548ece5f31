(** Proofs about the automatic transformations (C26, C27, C36). *)
From Coq Require Import List Arith Lia Bool Ring_theory Ring Permutation.
Import ListNotations.
From Verif Require Import IndexExpr Eval Notation NotationSpec NotationProofs NotationRun NotationConv NotationConc Transform.
Local Open Scope nat_scope.

Section P.
Context {V : Type}.
Variable R : ring_ops V.
Hypothesis RT : ring_theory (r0 R) (r1 R) (radd R) (rmul R) (rsub R) (ropp R) eq.
Variable fn : nat -> V -> V.
Variable dv : V -> V -> V.
Variable dim : ivar -> nat.
Add Ring Rr5 : RT.

Notation "0r" := (r0 R). Notation "a +r b" := (radd R a b) (at level 50, left associativity).
Notation ev := (neval R fn dv dim).
Notation run := (run R fn dv dim).
Notation ups := (ups R fn dv dim).
Notation stmt := (nstmt V).
Notation store := (@store V).
Notation sum := (sum R).

(** *** SpMM *)
Lemma spmm_same : forall fmt w s, optimizeSpMM fmt w s = s \/
  exists a1 a2 a3 i k j A B C op,
    s = NForall a1 i (NForall a2 k (NForall a3 j (NAssign A [i; j] op (NMul (NAcc B [i; k]) (NAcc C [k; j]))))) /\
    optimizeSpMM fmt w s = NForall no_annot i
             (NWhere (NForall no_annot j (NAssign A [i; j] None (NAcc w [j])))
                     (NForall no_annot k (NForall no_annot j
                        (NAssign w [j] (Some RSum) (NMul (NAcc B [i; k]) (NAcc C [k; j])))))) :> stmt.
Proof.
  intros fmt w s. unfold optimizeSpMM.
  destruct s as [|a1 i s|]; auto. destruct s as [|a2 k s|]; auto. destruct s as [|a3 j s|]; auto.
  destruct s as [A va op e| |]; auto. destruct e as [| | | | | |b c| |]; auto. destruct b as [|B vb| | | | | | |]; auto. destruct c as [|C vc| | | | | | |]; auto.
  match goal with |- context [if ?c then _ else _] => destruct c eqn:E end; auto. right.
  rewrite !andb_true_iff in E. destruct E as [[[[[[[[[[[E1 E2] E3] _] _] _] _] _] _] _] _] _].
  apply list_eqb_eq in E1, E2, E3. subst. exists a1, a2, a3, i, k, j, A, B, C, op. auto.
Qed.

Lemma spmm_ok : forall fmt w s r T, op_of s = Some RSum -> ~ In (res s) (rhs_reads s) -> no_shadow [] s ->
  w <> res s -> ~ In w (rhs_reads s) -> (forall x, T (res s) x = 0r) ->
  eqT (run (optimizeSpMM fmt w s) r T) (run s r T).
Proof.
  intros fmt w s r T OP NR NS W1 W2 Z. destruct (spmm_same fmt w s) as [->|(a1&a2&a3&i&k&j&A&B&C&op&E&->)]; [apply eqT_refl|].
  subst s. cbn in OP, NR, NS, W1, W2, Z. subst op. destruct NS as (_ & Nk & Nj & _).
  assert (Dik : i <> k) by (intro; apply Nk; auto). assert (Dij : i <> j) by (intro; apply Nj; auto). assert (Dkj : k <> j) by (intro; apply Nj; auto).
  set (asg := NAssign A [i; j] (Some RSum) (NMul (NAcc B [i; k]) (NAcc C [k; j]))).
  eapply eqT_trans; [|apply (reorder_nest R RT fn dv dim [i;k;j] [i;j;k] asg)].
  2: apply perm_skip, perm_swap. 2: repeat constructor; cbn; intuition.
  2: { split; [|split]; cbn; auto. discriminate. }
  set (p := NForall no_annot k (NForall no_annot j (NAssign w [j] (Some RSum) (NMul (NAcc B [i; k]) (NAcc C [k; j]))))).
  set (c := NForall no_annot j (NAssign A [i; j] None (NAcc w [j])) : stmt).
  intros t x. destruct (Nat.eq_dec t A) as [->|Ne].
  2: { rewrite !frame by (cbn; auto). auto. }
  change (run (NForall no_annot i (NWhere c p)) r T (res (NForall no_annot i (NWhere c p))) x = run (foralls [i; j; k] asg) r T (res (foralls [i; j; k] asg)) x).
  rewrite !run_ups by (cbn; intuition). cbn [res foralls fold_right asg c]. rewrite Z.
  rewrite (apply_sum R RT) with (us := ups (NForall no_annot i (NForall no_annot j (NForall no_annot k asg))) r T x).
  2: { intros u I. apply (ups_op R fn dv dim) in I. auto. }
  destruct (list_eq_dec Nat.eq_dec x [nth 0 x 0; nth 1 x 0]) as [Ex|Ex].
  2: { assert (U : ups (foralls [i;j;k] asg) r T x = []).
       { destruct (ups (foralls [i;j;k] asg) r T x) as [|u l] eqn:U; auto. destruct (ups_hit R fn dv dim [i;j;k] A [i;j] (Some RSum) (NMul (NAcc B [i; k]) (NAcc C [k; j])) r T x u) as (r' & X & _).
         { unfold asg in U. rewrite U. left; auto. } subst x. cbn in Ex. congruence. }
       cbn [foralls fold_right] in U. rewrite U.
       cbn [NotationRun.ups c]. rewrite flat_map_nil. { cbn. ring. }
       intros a _. apply flat_map_nil. intros b _. destruct (list_eqb_spec x (map (ext (ext r i a) j b) [i; j])) as [E|]; auto. exfalso. rewrite E in Ex. cbn in Ex. congruence. }
  set (a0 := nth 0 x 0) in *. set (b0 := nth 1 x 0) in *.
  destruct (le_lt_dec (dim i) a0) as [Ha|Ha]; [|destruct (le_lt_dec (dim j) b0) as [Hb|Hb]].
  1,2: cbn [NotationRun.ups c asg];
       rewrite flat_map_nil; [rewrite flat_map_nil; [cbn; ring|]|];
       intros a Ia; apply flat_map_nil; intros b Ib; try (apply flat_map_nil; intros d Id);
       apply in_seq in Ia; apply in_seq in Ib; destruct (list_eqb_spec x (map (ext (ext r i a) j b) [i; j])) as [E|]; auto;
       try destruct (list_eqb_spec x (map (ext (ext (ext r i a) j b) k d) [i; j])) as [E|]; auto;
       exfalso; rewrite Ex in E; cbn [map] in E; unfold ext in E; rewrite ?Nat.eqb_refl in E;
       repeat match type of E with context [Nat.eqb ?u ?v] => destruct (Nat.eqb_spec u v); try congruence end; injection E as E1 E2; lia.
  (* in range *)
  cbn [NotationRun.ups c asg].
  rewrite (flat_map_single (dim i) a0); auto.
  2: { intros a Na. apply flat_map_nil. intros b _. destruct (list_eqb_spec x (map (ext (ext r i a) j b) [i; j])) as [E|]; auto. exfalso.
       rewrite Ex in E. cbn [map] in E. injection E as E _. rewrite ext_other, ext_same in E by auto. congruence. }
  rewrite (flat_map_single (dim j) b0); auto.
  2: { intros b Nb. destruct (list_eqb_spec x (map (ext (ext r i a0) j b) [i; j])) as [E|]; auto. exfalso.
       rewrite Ex in E. cbn [map] in E. injection E as _ E. rewrite ext_same in E by auto. congruence. }
  rewrite (flat_map_single (dim i) a0); auto.
  2: { intros a Na. apply flat_map_nil. intros b _. apply flat_map_nil. intros d _. destruct (list_eqb_spec x (map (ext (ext (ext r i a) j b) k d) [i; j])) as [E|]; auto. exfalso.
       rewrite Ex in E. cbn [map] in E. injection E as E _. rewrite !ext_other, ext_same in E by auto. congruence. }
  rewrite (flat_map_single (dim j) b0); auto.
  2: { intros b Nb. apply flat_map_nil. intros d _. destruct (list_eqb_spec x (map (ext (ext (ext r i a0) j b) k d) [i; j])) as [E|]; auto. exfalso.
       rewrite Ex in E. cbn [map] in E. injection E as _ E. rewrite ext_other, ext_same in E by auto. congruence. }
  replace (list_eqb x (map (ext (ext r i a0) j b0) [i; j])) with true.
  2: { symmetry. apply list_eqb_eq. rewrite Ex. cbn [map]. rewrite ext_other, !ext_same by auto. auto. }
  cbn [NotationSpec.neval map].
  change (apply R 0r [(None : option redop, run p (ext r i a0) (clear R w T) (res p) [ext (ext r i a0) j b0 j])] =
          0r +r sumv R (flat_map (fun c0 => if list_eqb x (map (ext (ext (ext r i a0) j b0) k c0) [i; j]) then [(Some RSum, ev T (ext (ext (ext r i a0) j b0) k c0) (NMul (NAcc B [i; k]) (NAcc C [k; j])))] else []) (seq 0 (dim k)))).
  cbn [apply fold_left apply1 fst snd].
  rewrite run_ups by (cbn; intuition). rewrite ext_same. cbn [res p].
  rewrite (apply_sum R RT).
  2: { intros u I. apply (ups_op R fn dv dim) in I. auto. }
  rewrite (sumv_flat R RT). unfold p. cbn [NotationRun.ups]. rewrite (sumv_flat R RT).
  assert (CW : clear R w T w [b0] = 0r) by (unfold clear, set_tensor; rewrite Nat.eqb_refl; auto). rewrite CW. f_equal.
  assert (G : forall l, fold_right (fun c1 a => sumv R (flat_map (fun c0 => if list_eqb [b0] (map (ext (ext (ext r i a0) k c1) j c0) [j]) then [(Some RSum, ev (clear R w T) (ext (ext (ext r i a0) k c1) j c0) (NMul (NAcc B [i; k]) (NAcc C [k; j])))] else []) (seq 0 (dim j))) +r a) 0r l =
     fold_right (fun c1 a => sumv R (if list_eqb x (map (ext (ext (ext r i a0) j b0) k c1) [i; j]) then [(Some RSum, ev T (ext (ext (ext r i a0) j b0) k c1) (NMul (NAcc B [i; k]) (NAcc C [k; j])))] else []) +r a) 0r l).
  { induction l as [|d l IH]; auto. cbn [fold_right]. rewrite IH. f_equal. rewrite (flat_map_single (dim j) b0); auto.
    2: { intros b Nb. cbn [map]. rewrite ext_same. cbn. destruct (Nat.eqb_spec b0 b); cbn; congruence. }
    replace (list_eqb [b0] (map (ext (ext (ext r i a0) k d) j b0) [j])) with true by (symmetry; apply list_eqb_eq; cbn [map]; rewrite ext_same; auto).
    replace (list_eqb x (map (ext (ext (ext r i a0) j b0) k d) [i; j])) with true.
    2: { symmetry. apply list_eqb_eq. rewrite Ex. cbn [map]. rewrite (ext_other _ k), (ext_other _ j), ext_same, (ext_other _ k), ext_same by auto. auto. }
    f_equal. f_equal. f_equal. apply neval_ext.
    - intros t' y It. unfold clear, set_tensor. destruct (Nat.eqb_spec t' w) as [->|]; auto. exfalso. apply W2. cbn in It. auto.
    - intros v _. unfold ext. destruct (Nat.eqb_spec v j), (Nat.eqb_spec v k); congruence. }
  apply G.

Qed.
End P.
