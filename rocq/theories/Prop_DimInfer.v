(** C56: the dimensions the parser gives to tensors. *)
From Coq Require Import String List ZArith Bool Lia.
From Verif Require Import Parser SchedStr DimInfer DimInferSpec DimInferProofs.
Import ListNotations.
Local Open Scope nat_scope.

(** If what is given agrees, parsing succeeds: every index variable has the one extent that
    is given for it or for a mode of an operand, or else the default, every mode it indexes
    has this dimension, every name stands for one tensor, the one that can be asked for by
    name, and loaded tensors are left as they are. *)
Theorem C56_infers : forall g a, proper g a -> one_way g a -> result_agrees g a -> consistent g a ->
  exists r ext, infer g a = DOk r /\ extent g a ext /\
  shape_of (i_lhs r) = (lhs_name a, lhs_vars a) /\ map shape_of (i_rhs r) = operands (rhs a) /\
  (forall x, In x (i_lhs r :: i_rhs r) -> t_dims (a_tensor x) = map ext (a_vars x) /\ find (a_name x) (i_tensors r) = Some (a_tensor x)) /\
  (forall n t, find n (loaded g) = Some t -> find n (i_tensors r) = Some t).
Proof. intros. apply infer_consistent; assumption. Qed.
Print Assumptions C56_infers.

(** If it does not agree, it is refused. *)
Theorem C56_refuses : forall g a, proper g a -> one_way g a -> ~ consistent g a -> infer g a = DError.
Proof. intros. apply infer_inconsistent; assumption. Qed.
Print Assumptions C56_refuses.

(** Whatever is given and written, where parsing succeeds: the accesses are those written,
    of the order of their tensors, operands have the dimensions given for them, and loaded
    tensors are used as operands and, but for the result, left as they are. *)
Theorem C56_respects : forall g a r, infer g a = DOk r ->
  shape_of (i_lhs r) = (lhs_name a, lhs_vars a) /\ map shape_of (i_rhs r) = operands (rhs a) /\
  (forall x, In x (i_lhs r :: i_rhs r) -> length (t_dims (a_tensor x)) = length (a_vars x)) /\
  (forall x ds, In x (i_rhs r) -> given_dims g (a_name x) = Some ds -> t_dims (a_tensor x) = firstn (length (a_vars x)) ds) /\
  (forall n t, find n (loaded g) = Some t ->
     (n <> lhs_name a -> find n (i_tensors r) = Some t) /\ (forall x, In x (i_rhs r) -> a_name x = n -> a_tensor x = t)).
Proof. exact infer_respects. Qed.
Print Assumptions C56_respects.

(** In a parsed assignment with = no variable indexes modes of different dimensions. *)
Theorem C56_agrees : forall g a r, infer g a = DOk r -> accumulate a = false ->
  forall x y v d d', In x (i_lhs r :: i_rhs r) -> In y (i_lhs r :: i_rhs r) -> indexed x v d -> indexed y v d' -> d = d'.
Proof. exact infer_agrees. Qed.
Print Assumptions C56_agrees.

(** *** Examples and findings *)
Definition options (l : list (string * list Z)) : list (text * list Z) := map (fun p => (txt (fst p), snd p)) l.
Definition assignment_of (s : string) : assignment :=
  match parse (txt s) with POk a => a | _ => Assignment [] [] false (IInt 0) end.
(** The results that are seen: names, dimensions and variables. *)
Definition seen (r : dresult inferred) : option (list (text * list Z * list text)) :=
  match r with DOk r => Some (map (fun x => (a_name x, t_dims (a_tensor x), a_vars x)) (i_lhs r :: i_rhs r)) | _ => None end.

(** Matrix times vector, with a loaded matrix, the extent of k given, and a default. *)
Definition ex_given : given :=
  Given (options [("k", [9]); ("x", [4])]%string%Z) [(txt "A", Tensor 0 [3; 4]%Z)] 42%Z.
Definition ex_written : assignment := assignment_of "y(i,k,l) = A(i,j) * x(j) * B(k,l,i) + A(i,j)".
Example C56_example :
  parse (txt "y(i,k,l) = A(i,j) * x(j) * B(k,l,i) + A(i,j)") = POk ex_written /\
  seen (infer ex_given ex_written) =
  Some [(txt "y", [3; 9; 42]%Z, map txt ["i"; "k"; "l"]); (txt "A", [3; 4]%Z, map txt ["i"; "j"]); (txt "x", [4]%Z, map txt ["j"]);
        (txt "B", [9; 42; 3]%Z, map txt ["k"; "l"; "i"]); (txt "A", [3; 4]%Z, map txt ["i"; "j"])]%string /\
  proper ex_given ex_written /\ one_way ex_given ex_written /\ result_agrees ex_given ex_written /\ consistent ex_given ex_written.
Proof.
  split; [vm_compute; reflexivity|]. split; [vm_compute; reflexivity|].
  assert (AC : accesses ex_written = map (fun p => (txt (fst p), map txt (snd p)))
    [("y", ["i"; "k"; "l"]); ("A", ["i"; "j"]); ("x", ["j"]); ("B", ["k"; "l"; "i"]); ("A", ["i"; "j"])]%string) by (vm_compute; reflexivity).
  assert (OP : operands (rhs ex_written) = map (fun p => (txt (fst p), map txt (snd p)))
    [("A", ["i"; "j"]); ("x", ["j"]); ("B", ["k"; "l"; "i"]); ("A", ["i"; "j"])]%string) by (vm_compute; reflexivity).
  split; [split|split; [|split]].
  - intros v _. unfold ex_given. cbn [tensorDimensions options map fst snd find].
    destruct (text_eqb v _); [discriminate|]. destruct (text_eqb v _); discriminate.
  - intros n vs ds I G. rewrite AC in I. cbn [map fst snd] in I.
    repeat (destruct I as [I|I]; [injection I as <- <-; vm_compute in G; first [discriminate G|injection G as <-; reflexivity]|]). destruct I.
  - intros n vs vs' G I J. rewrite AC in I, J. cbn [map fst snd] in I, J.
    repeat (destruct I as [I|I]; [injection I as <- <-;
      repeat (destruct J as [J|J]; [first [discriminate J|injection J as J; subst; first [reflexivity|vm_compute in G; discriminate G]]|]); destruct J|]). destruct I.
  - intros ds m v d G. vm_compute in G. discriminate G.
  - assert (K : forall v d, known ex_given ex_written v d -> In (v, d) [(txt "k", 9%Z); (txt "x", 4%Z); (txt "i", 3%Z); (txt "j", 4%Z)]).
    { intros v d [_ [r G]|n vs ds m I G V D].
      - unfold ex_given in G. cbn [tensorDimensions options map fst snd find] in G.
        destruct (text_eqb_spec v (txt "k")) as [->|]; [injection G as <- <-; left; reflexivity|].
        destruct (text_eqb_spec v (txt "x")) as [->|]; [injection G as <- <-; right; left; reflexivity|discriminate].
      - rewrite OP in I. cbn [map fst snd] in I.
        repeat (destruct I as [I|I]; [injection I as <- <-; vm_compute in G; first [discriminate G|injection G as <-];
          repeat (destruct m as [|m]; [injection V as <-; injection D as <-; cbn; tauto|cbn in V; try (destruct m; discriminate V)])|]). destruct I. }
    intros v d d' X Y. apply K in X, Y. cbn [In] in X, Y.
    repeat (destruct X as [X|X]; [injection X as <- <-;
      repeat (destruct Y as [Y|Y]; [first [discriminate Y|injection Y as Y; subst; reflexivity]|]); destruct Y|]). destruct X.
Qed.
(** What is given does not agree. *)
Example C56_refused_example : infer (Given (options [("A", [3; 4]); ("x", [5])]%string%Z) [] 42%Z) (assignment_of "y(i) = A(i,j) * x(j)") = DError.
Proof. vm_compute. reflexivity. Qed.

(** Dimensions given for the result are overridden without notice: y has been given 5. *)
Theorem C56_result_overridden_refuted : exists g a r x,
  parse (txt "y(i) = x(i)") = POk a /\ consistent g a /\ given_dims g (lhs_name a) = Some [5%Z] /\
  infer g a = DOk r /\ i_lhs r = x /\ t_dims (a_tensor x) = [7%Z].
Proof.
  exists (Given (options [("y", [5]); ("x", [7])]%string%Z) [] 42%Z), (assignment_of "y(i) = x(i)"). do 2 eexists.
  split; [vm_compute; reflexivity|]. split; [|split; [reflexivity|split; [vm_compute; reflexivity|split; reflexivity]]].
  assert (K : forall v d, known (Given (options [("y", [5]); ("x", [7])]%string%Z) [] 42%Z) (assignment_of "y(i) = x(i)") v d -> d = 7%Z /\ v = txt "i").
  { intros v d [U [r G]|n vs ds m I G V D].
    - destruct U as (n & vs & I & J). vm_compute in I. destruct I as [I|[I|[]]]; injection I as <- <-; destruct J as [<-|[]]; vm_compute in G; discriminate G.
    - vm_compute in I. destruct I as [I|[]]. injection I as <- <-. vm_compute in G. injection G as <-.
      destruct m as [|[|m]]; try discriminate. injection V as <-. injection D as <-. split; reflexivity. }
  intros v d d' X Y. apply K in X, Y. destruct X, Y. congruence.
Qed.
Print Assumptions C56_result_overridden_refuted.
(** Nor are they a source for operands of open dimensions: with y:5 alone, y(i) = x(i) is
    refused, although giving x the dimension 5 too would do. *)
Theorem C56_result_no_source_refuted : exists a, parse (txt "y(i) = x(i)") = POk a /\
  infer (Given (options [("y", [5])]%string%Z) [] 42%Z) a = DError /\
  exists r, infer (Given (options [("y", [5]); ("x", [5])]%string%Z) [] 42%Z) a = DOk r.
Proof. exists (assignment_of "y(i) = x(i)"). repeat split; try (vm_compute; reflexivity). eexists. vm_compute. reflexivity. Qed.
Print Assumptions C56_result_no_source_refuted.
(** A tensor of open dimensions that is indexed in two ways becomes two tensors of one name,
    of different dimensions, of which only one can be asked for and given values. *)
Theorem C56_one_tensor_refuted : exists g a r x y,
  parse (txt "s = A(i) * b(i) * A(j)") = POk a /\ infer g a = DOk r /\
  In x (i_rhs r) /\ In y (i_rhs r) /\ a_name x = a_name y /\
  t_dims (a_tensor x) = [7%Z] /\ t_dims (a_tensor y) = [42%Z] /\
  find (a_name x) (i_tensors r) = Some (a_tensor x) /\ ~ In (a_tensor y) (map snd (i_tensors r)).
Proof.
  exists (Given (options [("b", [7])]%string%Z) [] 42%Z), (assignment_of "s = A(i) * b(i) * A(j)"). do 3 eexists.
  split; [vm_compute; reflexivity|]. split; [vm_compute; reflexivity|]. cbn [i_rhs].
  split; [left; reflexivity|]. split; [right; right; left; reflexivity|]. repeat (split; [vm_compute; reflexivity|]).
  vm_compute. intros [E|[E|[E|[]]]]; discriminate E.
Qed.
Print Assumptions C56_one_tensor_refuted.
(** Fewer dimensions than the tensor has modes: a read past the end of the list. *)
Theorem C56_short_list_refuted : exists a, parse (txt "y(i) = A(i,j) * x(j)") = POk a /\
  infer (Given (options [("A", [3])]%string%Z) [] 42%Z) a = DUndefined.
Proof. exists (assignment_of "y(i) = A(i,j) * x(j)"). split; vm_compute; reflexivity. Qed.
Print Assumptions C56_short_list_refuted.
(** With += nothing is checked: y has 5 rows, the loop over i makes 42. *)
Theorem C56_accumulate_refuted : exists g a r y A i,
  parse (txt "y(i) += A(i,j) * x(j)") = POk a /\ infer g a = DOk r /\ i_lhs r = y /\ In A (i_rhs r) /\
  indexed y i 5%Z /\ indexed A i 42%Z.
Proof.
  exists (Given (options [("y", [5])]%string%Z) [] 42%Z), (assignment_of "y(i) += A(i,j) * x(j)"). do 3 eexists. exists (txt "i").
  split; [vm_compute; reflexivity|]. split; [vm_compute; reflexivity|]. split; [reflexivity|]. split; [left; reflexivity|].
  split; exists 0; split; vm_compute; reflexivity.
Qed.
Print Assumptions C56_accumulate_refuted.
