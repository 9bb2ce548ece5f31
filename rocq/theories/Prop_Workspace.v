(** C11: workspaces with an index list accumulate like a dense array. *)
From Coq Require Import List Arith Lia Bool Permutation Sorted Ring_theory ZArith.
Import ListNotations.
From Verif Require Import Outcome IndexExpr Eval Notation NotationSpec NotationProofs WhereLower WhereProofs Workspace WorkspaceSpec WorkspaceProofs.
Local Open Scope nat_scope.

Definition Zops : ring_ops Z := mkOps Z 0%Z 1%Z Z.add Z.mul Z.sub Z.opp.

(** A workspace of [n] positions, used any number of times ([uss]: the updates
    of each use).  Its arrays of values and of positions have arbitrary contents
    when they are allocated.  No access is out of bounds; every use shows its
    consumer each position it updated once, with the total of the values stored
    there in this use; and afterwards all guards are clear. *)
Theorem C11_workspace : forall (V : Type) (R : ring_ops V), is_ring R ->
  forall n comp op srt uss vals lst,
  (forall f, srt = Some f -> sorts f) ->
  (comp = true -> length vals = n) -> length lst = n ->
  (forall us u, In us uss -> In u us -> fst u < n) ->
  exists outs w',
    uses R comp op srt uss (allocated n vals lst) = Some (outs, w') /\
    Forall2 (correct R comp (match srt with None => false | _ => true end) op) uss outs /\
    w_set w' = repeat false n.
Proof.
  intros V R RT n comp op srt uss vals lst HS LV LL LT.
  destruct (uses_ok R RT n comp op srt HS uss (allocated n vals lst)) as (outs & w' & E & F & (S1 & S2 & S3) & C); auto.
  - split; [split; [|split]; auto; cbn; apply repeat_length|]. intros i I. cbn. apply nth_error_repeat. auto.
  - exists outs, w'. split; auto. split; auto. apply nth_error_ext_eq; [rewrite repeat_length; auto|].
    intros i I. rewrite C by lia. rewrite nth_error_repeat by lia. auto.
Qed.
Print Assumptions C11_workspace.

(** *** The hypotheses are met *)
Definition ins (x : nat) := fix go (l : list nat) := match l with [] => [x] | y :: t => if x <=? y then x :: l else y :: go t end.
Definition isort (l : list nat) : list nat := fold_right ins [] l.
Lemma isort_sorts : sorts isort.
Proof.
  assert (P : forall x l, Permutation (ins x l) (x :: l)).
  { induction l as [|y t IH]; cbn; auto. destruct (x <=? y); auto. rewrite IH. constructor. }
  assert (S : forall x l, StronglySorted le l -> StronglySorted le (ins x l)).
  { induction 1 as [|y t S IH F]; cbn. { repeat constructor. } destruct (Nat.leb_spec x y).
    - constructor; [constructor; auto|]. constructor; auto. eapply Forall_impl; [|exact F]. cbn; intros; lia.
    - constructor; auto. rewrite Forall_forall in *. intros z Q. apply (Permutation_in _ (P x t)) in Q. destruct Q as [<-|Q]; [lia|auto]. }
  intros l. induction l as [|x l [IH1 IH2]]; cbn. { split; constructor. }
  split; [rewrite P; constructor; auto|auto].
Qed.
(** Two uses of a workspace of five positions. *)
Example C11_example : option_map fst
  (uses Zops true (Some RSum) (Some isort) [[(3, 10%Z); (1, 4%Z); (3, 5%Z)]; [(4, 1%Z); (3, 2%Z); (0, 7%Z); (4, 1%Z)]]
     (allocated 5 [9; 9; 9; 9; 9]%Z [77; 77; 77; 77; 77])) =
  Some [[(1, Some 4%Z); (3, Some 15%Z)]; [(0, Some 7%Z); (3, Some 2%Z); (4, Some 2%Z)]].
Proof. reflexivity. Qed.
