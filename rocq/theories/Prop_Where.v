(** C18: temporaries do not change the result. *)
From Coq Require Import List Arith Lia Bool Ring_theory ZArith.
Import ListNotations.
From Verif Require Import IndexExpr Eval Notation NotationSpec NotationProofs NotationRun WhereLower WhereSpec WhereProofs.
Local Open Scope nat_scope.

Definition Zops : ring_ops Z := mkOps Z 0%Z 1%Z Z.add Z.mul Z.sub Z.opp.

(** The code for a statement with any nesting of loops and temporaries runs
    without leaving an array, and computes what the statement means (there, a
    temporary is zero whenever its producer starts).  Only the arrays of [D]
    have known contents: those of the temporaries are merely large enough, and
    keep whatever earlier iterations leave in them. *)
Theorem C18_lowering : forall (V : Type) (R : ring_ops V) fn dv dim shp (s : nstmt V) D B r m T,
  defined D s -> fits dim shp B s -> (forall v, In v B -> r v < dim v) ->
  holds shp D m T ->
  (forall t, In t (temps s) -> length (m t) = fold_right Nat.mul 1 (shp t)) ->
  exists m', wexec R fn dv shp (lower dim s) r m = Some m' /\ holds shp D m' (run R fn dv dim s r T).
Proof.
  intros V R fn dv dim shp s D B r m T H1 H2 H3 H4 H5.
  destruct (lower_ok R fn dv dim shp s D B r m T H1 H2 H3 H4 H5) as (m' & A & C & _). eauto.
Qed.
Print Assumptions C18_lowering.

(** The statement with a temporary means the same as the statement with the
    sub-expression computed in place, in any outer loops: the producer is a loop
    nest over [L] that assigns or adds [e] to [w(ws)]; where the consumer uses
    [w(us)], the other one sums [e], with [us] for [ws], over the variables of
    [L] that do not index [w]. *)
Theorem C18_in_place : forall (V : Type) (R : ring_ops V) fn dv dim, is_ring R ->
  forall Lo w ws L op (e : nexpr V) (c p : nstmt V) r T,
  nest_of L p (NAssign w ws op e) -> NoDup L -> NoDup ws -> incl ws L -> red_vars e = [] ->
  (op = Some RSum \/ (op = None /\ incl L ws)) ->
  ~ In w (reads e) -> ~ In w (res c :: temps c) -> (forall t, In t (reads e) -> ~ In t (res c :: temps c)) ->
  let summed_over := filter (fun i => negb (mem i ws)) L in
  let outer := filter (fun i => negb (mem i L)) (vars e) in
  uses w ws summed_over dim outer Lo c ->
  forall t x, run R fn dv dim (foralls Lo (NWhere c p)) r T t x =
              run R fn dv dim (foralls Lo (stmt_in_place w ws summed_over e c)) r T t x.
Proof.
  intros V R fn dv dim RT Lo w ws L op e c p r T H1 H2 H3 H4 H5 H6 H7 H8 H9 so ou U t x.
  apply (where_in_loops R RT fn dv dim (fun _ => []) Lo w ws L op e c p []); auto.
  - rewrite app_nil_r. exact U.
  - intros v [].
Qed.
Print Assumptions C18_in_place.

(** Together: the code with a temporary computes the statement without. *)
Theorem C18_code_in_place : forall (V : Type) (R : ring_ops V) fn dv dim shp, is_ring R ->
  forall Lo w ws L op (e : nexpr V) (c p : nstmt V) D r m T,
  nest_of L p (NAssign w ws op e) -> NoDup L -> NoDup ws -> incl ws L -> red_vars e = [] ->
  (op = Some RSum \/ (op = None /\ incl L ws)) ->
  ~ In w (reads e) -> ~ In w (res c :: temps c) -> (forall t, In t (reads e) -> ~ In t (res c :: temps c)) ->
  let summed_over := filter (fun i => negb (mem i ws)) L in
  let outer := filter (fun i => negb (mem i L)) (vars e) in
  uses w ws summed_over dim outer Lo c ->
  let s := foralls Lo (NWhere c p) in
  defined D s -> fits dim shp [] s -> holds shp D m T ->
  (forall t, In t (temps s) -> length (m t) = fold_right Nat.mul 1 (shp t)) ->
  exists m', wexec R fn dv shp (lower dim s) r m = Some m' /\
    holds shp D m' (run R fn dv dim (foralls Lo (stmt_in_place w ws summed_over e c)) r T).
Proof.
  intros V R fn dv dim shp RT Lo w ws L op e c p D r m T H1 H2 H3 H4 H5 H6 H7 H8 H9 so ou U s DF FT HO TL.
  destruct (C18_lowering V R fn dv dim shp s D [] r m T DF FT (fun v f => match f with end) HO TL) as (m' & E & H).
  exists m'. split; auto. eapply holds_ext; [|exact H]. intros t x _. apply (C18_in_place V R fn dv dim RT Lo w ws L op e c p); auto.
Qed.
Print Assumptions C18_code_in_place.

(** *** The hypotheses are met *)
(** forall i (where (forall j  A(i,j) = w(j) * D(j),  forall k, j  w(j) += B(i,k) * C(k,j))):
    a row of a matrix product, scaled. *)
Definition ex_dim (v : ivar) : nat := match v with 0 => 2 | 1 => 3 | _ => 2 end.
Definition ex_shp (t : tensor) : list nat :=
  match t with 0 => [2; 3] | 1 => [2; 2] | 2 => [2; 3] | _ => [3] end.
Definition ex_c : nstmt Z := NForall no_annot 1 (NAssign 0 [0; 1] None (NMul (NAcc 9 [1]) (NAcc 3 [1]))).
Definition ex_e : nexpr Z := NMul (NAcc 1 [0; 2]) (NAcc 2 [2; 1]).
Definition ex_p : nstmt Z := foralls [2; 1] (NAssign 9 [1] (Some RSum) ex_e).
Definition ex_s : nstmt Z := foralls [0] (NWhere ex_c ex_p).
Example C18_example_shape : nest_of [2; 1] ex_p (NAssign 9 [1] (Some RSum) ex_e) /\
  uses 9 [1] (filter (fun i => negb (mem i [1])) [2; 1]) ex_dim (filter (fun i => negb (mem i [2; 1])) (vars ex_e)) [0] ex_c.
Proof.
  split; [repeat constructor|]. cbn. split; [intuition discriminate|]. split; [|discriminate].
  intros _. split; auto. split; [intros x [<-|[]]; cbn; auto|intros u [<-|[]]; intuition discriminate].
Qed.
Example C18_example_defined : defined [0; 1; 2; 3] ex_s /\ fits ex_dim ex_shp [] ex_s.
Proof.
  split.
  - cbn. repeat split; try (intuition discriminate); intros x; cbn; intuition.
  - cbn. repeat split; intros x; cbn; intuition.
Qed.
(** The memory: the temporary starts with 100, 200, 300. *)
Definition ex_m (t : tensor) : list Z :=
  match t with
  | 0 => [7; 7; 7; 7; 7; 7]%Z | 1 => [1; 2; 0; 3]%Z | 2 => [1; 0; 2; 0; 5; 0]%Z | 3 => [1; 1; 10]%Z | 9 => [100; 200; 300]%Z | _ => []
  end.
Definition ex_T : @store Z := fun t x => match element (ex_shp t) x (ex_m t) with Some v => v | None => 0%Z end.
Example C18_example_holds : holds ex_shp [0; 1; 2; 3] ex_m ex_T.
Proof.
  intros t I. split.
  - cbn in I. destruct I as [<-|[<-|[<-|[<-|[]]]]]; reflexivity.
  - intros xs X. unfold ex_T. rewrite element_loc; auto; [|cbn in I; destruct I as [<-|[<-|[<-|[<-|[]]]]]; reflexivity].
    destruct (nth_error (ex_m t) (loc (ex_shp t) xs)) eqn:E; auto. apply nth_error_None in E. pose proof (loc_bound _ _ X).
    cbn in I; destruct I as [<-|[<-|[<-|[<-|[]]]]]; cbn in *; lia.
Qed.
Example C18_example_runs : option_map (fun m => m 0) (wexec Zops (fun _ v => v) Z.div ex_shp (lower ex_dim ex_s) (fun _ => 0) ex_m) =
  Some [1; 10; 20; 0; 15; 0]%Z.
Proof. reflexivity. Qed.
(** Without the initialisation the second row would see what the first left. *)
Fixpoint no_init (c : wcode Z) : wcode Z :=
  match c with WFor i n b => WFor i n (no_init b) | WSeq (WZero _ _) b => no_init b | WSeq a b => WSeq (no_init a) (no_init b) | c => c end.
Example C18_initialisation_needed : option_map (fun m => m 0) (wexec Zops (fun _ v => v) Z.div ex_shp (no_init (lower ex_dim ex_s)) (fun _ => 0) ex_m) =
  Some [101; 210; 3020; 101; 225; 3020]%Z.
Proof. reflexivity. Qed.
