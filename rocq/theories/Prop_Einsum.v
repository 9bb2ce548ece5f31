(** C47: einsum strings. *)
From Coq Require Import String List Sorted ZArith Lia Bool Ascii.
From Verif Require Import Parser Einsum EinsumSpec EinsumProofs EinsumDots.
Import ListNotations.
Local Open Scope nat_scope.

(** "ij,jk->ik": the operands and the result have the letters written, and the dimensions
    of the result are those of the letters' first modes.  Blanks do not matter. *)
Theorem C47_explicit : forall s inputs out tensors format,
  without_spaces s = commas inputs ++ arrow ++ out -> commas inputs <> [] ->
  letters (concat inputs) -> letters out -> incl out (concat inputs) -> fits inputs tensors ->
  format = 0 \/ format = length out ->
  exists e, parse_einsum s tensors format = EOk e /\ means e inputs tensors out.
Proof.
  intros s inputs out tensors format E N L Lo I F Fm. apply parse_explicit; auto.
  intros ->. symmetry in E. apply app_eq_nil in E. destruct E as [_ E]. discriminate E.
Qed.
Print Assumptions C47_explicit.

(** "ij,jk": the result has the letters that occur exactly once, in alphabetical order
    (capitals first); the others are summed over. *)
Theorem C47_implicit : forall s inputs out tensors format,
  s <> [] -> without_spaces s = commas inputs -> inputs <> [] ->
  letters (concat inputs) -> once inputs out -> fits inputs tensors ->
  format = 0 \/ format = length out ->
  exists e, parse_einsum s tensors format = EOk e /\ means e inputs tensors out.
Proof. intros s inputs out tensors format Ns E N L O F Fm. apply parse_implicit; auto. Qed.
Print Assumptions C47_implicit.
(** There is exactly one such list of letters. *)
Theorem C47_once : forall inputs, letters (concat inputs) -> exists out, once inputs out /\ forall out', once inputs out' -> out' = out.
Proof.
  intros inputs L. exists (find_unique_indices (commas inputs)). pose proof (unique_commas inputs L) as H. split; auto.
  intros out' H'. eapply once_unique; eauto.
Qed.
Print Assumptions C47_once.

(** Ellipses stand for the modes without letters; they are aligned to the right: all of
    them are given the last ones of one list of names. *)
Theorem C47_ellipsis_explicit : forall s ops out tensors format,
  without_spaces s = commas (map op_text ops) ++ arrow ++ op_text out ->
  Forall (fun o => letters (op_letters o)) ops -> letters (op_letters out) -> Forall2 op_fits ops tensors ->
  existsb op_dotted (out :: ops) = true ->
  longest ops tensors <= length (unused_letters (concat (map op_letters (ops ++ [out])))) ->
  exists names, length names = longest ops tensors /\ fresh names (concat (map op_letters (ops ++ [out]))) /\
    (commas (expanded names ops tensors) <> [] ->
     (expand names out (longest ops tensors) = [] -> op_text out = []) ->
     incl (expand names out (longest ops tensors)) (concat (expanded names ops tensors)) ->
     format = 0 \/ format = length (expand names out (longest ops tensors)) ->
     exists e, parse_einsum s tensors format = EOk e /\
       means e (expanded names ops tensors) tensors (expand names out (longest ops tensors))).
Proof.
  intros s ops out tensors format E O Oo F D B. apply parse_dots_explicit; auto.
  intros ->. symmetry in E. apply app_eq_nil in E. destruct E as [_ E]. discriminate E.
Qed.
Print Assumptions C47_ellipsis_explicit.
(** Without an output the result has the modes of the ellipses, and then the letters that
    occur exactly once. *)
Theorem C47_ellipsis_implicit : forall s ops tensors format out,
  without_spaces s = commas (map op_text ops) ->
  Forall (fun o => letters (op_letters o)) ops -> Forall2 op_fits ops tensors ->
  existsb op_dotted ops = true ->
  longest ops tensors <= length (unused_letters (concat (map op_letters ops))) ->
  once (map op_letters ops) out ->
  exists names, length names = longest ops tensors /\ fresh names (concat (map op_letters ops)) /\
    (commas (expanded names ops tensors) <> [] ->
     format = 0 \/ format = length (names ++ out) ->
     exists e, parse_einsum s tensors format = EOk e /\ means e (expanded names ops tensors) tensors (names ++ out)).
Proof.
  intros s ops tensors format out E O F D B Oc. apply parse_dots_implicit; auto.
  intros ->. symmetry in E. pose proof (dotted_ops ops D) as I. rewrite E in I. destruct I.
Qed.
Print Assumptions C47_ellipsis_implicit.

(** Whatever the string, an accepted one gives each operand one index per mode, and the
    result only indices of operands, with a dimension of one of their modes. *)
Theorem C47_accepted : forall s tensors format e, parse_einsum s tensors format = EOk e ->
  Forall2 (fun s dims => length s = length dims) (e_inputs e) tensors /\
  Forall2 (fun c d => In (c, d) (modes (e_inputs e) tensors)) (e_output e) (e_shape e).
Proof. exact parse_accepts. Qed.
Print Assumptions C47_accepted.
(** An accepted string has no arrow, or one, or ends in a dash and has one '>' (a defect, see
    below). *)
Theorem C47_arrows : forall s tensors format e, parse_einsum s tensors format = EOk e ->
  plain (without_spaces s) \/
  (exists a b, without_spaces s = a ++ arrow ++ b /\ plain a /\ plain b) \/
  (exists a b, without_spaces s = a ++ ">"%char :: b ++ ["-"%char] /\ plain a /\ plain b).
Proof. exact parse_arrows. Qed.
Print Assumptions C47_arrows.
(** So the result's dimensions are right when the operands' dimensions agree. *)
Theorem C47_dimensions : forall e inputs tensors out, means e inputs tensors out ->
  (forall c d d', In (c, d) (modes inputs tensors) -> In (c, d') (modes inputs tensors) -> d = d') ->
  Forall2 (fun c d => forall d', In (c, d') (modes inputs tensors) -> d' = d) out (e_shape e).
Proof.
  intros e inputs tensors out (_ & _ & F) H. induction F; constructor; auto. eapply first_dimension_consistent; eauto.
Qed.
Print Assumptions C47_dimensions.

(** *** Examples *)
Definition str := list_ascii_of_string.
Definition ex_inputs : list text := map str ["ij"; "jk"; "kk"]%string.
Definition ex_tensors : list (list nat) := [[2; 3]; [3; 4]; [4; 4]].
Example C47_example :
  (without_spaces (str "ij, jk,kk -> ji") = commas ex_inputs ++ arrow ++ str "ji" /\ commas ex_inputs <> [] /\
   letters (concat ex_inputs) /\ letters (str "ji") /\ incl (str "ji") (concat ex_inputs) /\ fits ex_inputs ex_tensors) /\
  parse_einsum (str "ij, jk,kk -> ji") ex_tensors 2 = EOk (Einsum ex_inputs (str "ji") [3; 2]).
Proof.
  split; [|vm_compute; reflexivity]. split; [reflexivity|]. split; [discriminate|].
  split; [repeat constructor|]. split; [repeat constructor|]. split; [intros c; cbn; intuition|]. repeat constructor; cbn; lia.
Qed.
Example C47_implicit_example :
  once (map str ["ba"; "ca"]%string) (str "bc") /\
  parse_einsum (str "ba,ca") [[2; 3]; [4; 3]] 0 = EOk (Einsum (map str ["ba"; "ca"]%string) (str "bc") [2; 4]).
Proof.
  split; [|vm_compute; reflexivity]. split.
  - repeat constructor; vm_compute; lia.
  - intros c. destruct c as [[] [] [] [] [] [] [] []]; vm_compute; intuition (try discriminate; try lia).
Qed.
Definition ex_ops : list operand := [(str "i", Some (str "j")); ([], Some (str "j")); (str "k", None)].
Definition ex_dims : list (list nat) := [[2; 7; 8; 3]; [8; 3]; [5]].
Example C47_ellipsis_example :
  (Forall (fun o => letters (op_letters o)) ex_ops /\ Forall2 op_fits ex_ops ex_dims /\ existsb op_dotted ex_ops = true /\
   longest ex_ops ex_dims <= length (unused_letters (concat (map op_letters ex_ops)))) /\
  parse_einsum (str "i...j,...j,k") ex_dims 0 =
    EOk (Einsum (map str ["iYZj"; "Zj"; "k"]%string) (str "YZik") [7; 8; 2; 5]) /\
  parse_einsum (str "i...j,...j,k->k...j") ex_dims 0 =
    EOk (Einsum (map str ["iYZj"; "Zj"; "k"]%string) (str "kYZj") [5; 7; 8; 3]).
Proof.
  split; [|vm_compute; auto]. split; [repeat constructor|]. split; [repeat constructor; cbn; lia|]. split; [reflexivity|].
  vm_compute. lia.
Qed.

(** *** Findings *)
(** The dimensions of modes with the same letter are not compared (the maps are asked for
    the position instead of the letter). *)
Theorem C47_dimension_check_refuted :
  parse_einsum (str "ij,jk->ik") [[2; 3]; [4; 5]] 0 = EOk (Einsum (map str ["ij"; "jk"]%string) (str "ik") [2; 5]) /\
  parse_einsum (str "ii->i") [[2; 3]] 0 = EOk (Einsum [str "ii"] (str "i") [2]).
Proof. vm_compute. auto. Qed.
Print Assumptions C47_dimension_check_refuted.
(** For the same reason a tensor with more than 65 modes can fail: position 65 is the
    letter A. *)
Theorem C47_many_modes_refuted :
  parse_einsum (str "ij" ++ repeat "A"%char 63 ++ str "k") [repeat 2 66] 0 = EOutOfRange.
Proof. vm_compute. reflexivity. Qed.
Print Assumptions C47_many_modes_refuted.
(** Ellipses that stand for no modes: accessing the first piece of a split that has none,
    and an output that is rejected because it is not replaced. *)
Theorem C47_empty_ellipsis_refuted :
  parse_einsum (str "...") [[]] 0 = EUndefined /\
  parse_einsum (str "->") [[]] 0 = EUndefined /\
  parse_einsum (str "i...->...") [[3]] 0 = EError /\
  parse_einsum (str "i->") [[3]] 0 = EOk (Einsum [str "i"] [] []).
Proof. vm_compute. auto. Qed.
Print Assumptions C47_empty_ellipsis_refuted.
(** An output without operands is taken for the operands. *)
Theorem C47_empty_input_refuted :
  parse_einsum (str "->ij") [[2; 3]] 0 = EOk (Einsum [str "ij"] [] []).
Proof. vm_compute. reflexivity. Qed.
Print Assumptions C47_empty_input_refuted.
(** A comma in the output throws an exception of the library, and a dash at the end with
    a '>' somewhere before it is a pair of indices. *)
Theorem C47_malformed_refuted :
  parse_einsum (str "ij,jk->i,k") [[2; 3]; [3; 5]] 0 = EOutOfRange /\
  parse_einsum (str "i->i,j") [[2]] 0 = EError /\
  parse_einsum (str ">i-") [[2; 3; 4]] 0 = EOk (Einsum [str ">i-"] (str "->i") [4; 2; 3]).
Proof. vm_compute. auto. Qed.
Print Assumptions C47_malformed_refuted.
(** More modes than unused letters: the names begin before the text. *)
Theorem C47_names_refuted : parse_einsum (str "...->...") [repeat 1 53] 0 = EUndefined.
Proof. vm_compute. reflexivity. Qed.
Print Assumptions C47_names_refuted.
(** A letter can be repeated in the output. *)
Theorem C47_repeated_output_refuted : parse_einsum (str "ij->ii") [[2; 3]] 0 = EOk (Einsum [str "ij"] (str "ii") [2; 2]).
Proof. vm_compute. reflexivity. Qed.
Print Assumptions C47_repeated_output_refuted.
