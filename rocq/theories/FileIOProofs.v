(** Lemmas for C44. *)
From Coq Require Import List ZArith Lia Bool Ascii.
From Verif Require Import Parser ParserSpec ParserLex FileIO FileIOSpec.
Import ListNotations.
Local Open Scope nat_scope.

(** ** Lines *)
Lemma lines_from_app l s : one_line l -> forall p, lines_from p (l ++ newline :: s) = (p ++ l) :: lines s.
Proof.
  induction l as [|c l IH]; intros H p; cbn [app lines_from].
  - rewrite Ascii.eqb_refl, app_nil_r. reflexivity.
  - destruct (Ascii.eqb c newline) eqn:E; [apply Ascii.eqb_eq in E; destruct H; left; auto|].
    rewrite IH by (intros X; apply H; right; auto). rewrite <- app_assoc. reflexivity.
Qed.
Lemma lines_app l s : one_line l -> lines (l ++ newline :: s) = l :: lines s.
Proof. intros H. unfold lines at 1. rewrite lines_from_app by auto. reflexivity. Qed.
Lemma lines_concat ls : Forall one_line ls -> lines (concat (map (fun l => l ++ [newline]) ls)) = ls.
Proof.
  induction 1 as [|l ls H F IH]; auto. cbn [map concat]. rewrite <- app_assoc. cbn [app]. rewrite lines_app by auto. rewrite IH. reflexivity.
Qed.
Lemma one_line_app a b : one_line (a ++ b) <-> one_line a /\ one_line b.
Proof. unfold one_line. rewrite in_app_iff. tauto. Qed.
Lemma newline_space : is_space newline = true. Proof. reflexivity. Qed.
Lemma blank_space : is_space blank = true. Proof. reflexivity. Qed.
Lemma word_one_line s : forallb (fun c => negb (is_space c)) s = true -> one_line s.
Proof. intros H I. rewrite forallb_forall in H. specialize (H _ I). rewrite newline_space in H. discriminate. Qed.

(** ** Numbers *)
Lemma number_word s : number s -> word s.
Proof.
  intros [N D]. split; auto. rewrite forallb_forall in *. intros c Hc. rewrite digit_not_space; auto.
Qed.
Lemma print_word z : (0 <= z)%Z -> word (print_Z z).
Proof. intros H. apply number_word. apply print_nonneg. exact H. Qed.
Lemma drop_app sp s : forallb is_space sp = true -> drop_spaces (sp ++ s) = drop_spaces s.
Proof. induction sp as [|c sp IH]; cbn; auto. intros H. apply andb_true_iff in H. destruct H as [-> H]. auto. Qed.
Lemma drop_spaces_all sp : forallb is_space sp = true -> drop_spaces sp = [].
Proof. intros H. rewrite <- (app_nil_r sp), drop_app by auto. reflexivity. Qed.
Lemma span_app p a r : forallb p a = true -> match r with c :: _ => p c = false | [] => True end -> span p (a ++ r) = (a, r).
Proof.
  induction a as [|c a IH]; cbn; intros H R.
  - destruct r; cbn; auto. rewrite R. reflexivity.
  - apply andb_true_iff in H. destruct H as [-> H]. rewrite IH by auto. reflexivity.
Qed.
Definition no_digit (r : text) : Prop := match r with c :: _ => is_digit c = false | [] => True end.
Lemma prefix_number sp ds r : forallb is_space sp = true -> number ds -> no_digit r ->
  number_prefix (sp ++ ds ++ r) = Some (false, ds, r).
Proof.
  intros S [N D] R. unfold number_prefix. rewrite drop_app by auto. destruct ds as [|c ds]; [congruence|].
  pose proof D as D'. cbn in D. apply andb_true_iff in D. destruct D as [Dc D].
  cbn [app drop_spaces]. rewrite digit_not_space by auto.
  assert (E1 : Ascii.eqb c "-" = false) by (apply Ascii.eqb_neq; intros ->; discriminate).
  assert (E2 : Ascii.eqb c "+" = false) by (apply Ascii.eqb_neq; intros ->; discriminate).
  rewrite E1, E2. change (c :: ds ++ r) with ((c :: ds) ++ r). rewrite span_app by auto. reflexivity.
Qed.
Lemma strtol_print sp z r : forallb is_space sp = true -> (0 <= z < 2 ^ 63)%Z -> no_digit r ->
  strtol (sp ++ print_Z z ++ r) = (z, r).
Proof.
  intros S Z0 R. destruct (print_nonneg z) as [N D]; [lia|]. unfold strtol. rewrite prefix_number by auto. rewrite D. f_equal. lia.
Qed.
Lemma strtoul_print sp z r : forallb is_space sp = true -> (0 <= z < 2 ^ 64)%Z -> no_digit r ->
  strtoul (sp ++ print_Z z ++ r) = (z, r).
Proof.
  intros S Z0 R. destruct (print_nonneg z) as [N D]; [lia|]. unfold strtoul. rewrite prefix_number by auto. rewrite D. f_equal. lia.
Qed.
Lemma strtoul_spaces sp : forallb is_space sp = true -> fst (strtoul sp) = 0%Z.
Proof. intros S. unfold strtoul, number_prefix. rewrite drop_spaces_all by auto. reflexivity. Qed.
Lemma to_int_id z : (0 <= z <= int_max)%Z -> to_int z = z.
Proof. unfold to_int, int_max. intros H. rewrite Z.mod_small by lia. lia. Qed.

Section Values.
Context {V : Type} (show : V -> text) (scan : text -> V).
Notation survives := (survives show scan).
Notation write_line := (write_line V show).

(** ** Lines of components *)
Definition coordinates (xs : list Z) : text := concat (map (fun x => print_Z (x + 1) ++ [blank]) xs).
Definition body (c : component V) : text := coordinates (fst c) ++ show (snd c).
Lemma write_line_spec c : component_line show c = write_line c.
Proof.
  unfold component_line, FileIO.write_line. destruct c as [xs v]. cbn [fst snd]. rewrite app_assoc. f_equal.
  induction xs as [|x xs IH]; [reflexivity|]. cbn [map concat app]. rewrite <- app_assoc, <- app_assoc, <- IH.
  cbn [join]. destruct (map (fun x => print_Z (x + 1)) xs ++ [show v]) eqn:E; [|reflexivity].
  apply app_eq_nil in E. destruct E; discriminate.
Qed.
Lemma write_lines_spec cs : concat (map (component_line show) cs) = concat (map write_line cs).
Proof. f_equal. apply map_ext. apply write_line_spec. Qed.
Lemma write_body c : write_line c = body c ++ [newline].
Proof. unfold FileIO.write_line, body, coordinates. rewrite <- app_assoc. reflexivity. Qed.
Lemma coordinates_cons x xs : coordinates (x :: xs) = print_Z (x + 1) ++ blank :: coordinates xs.
Proof. unfold coordinates. cbn [map concat]. rewrite <- app_assoc. reflexivity. Qed.
Lemma coordinates_one_line xs : Forall (fun x => 0 <= x < int_max)%Z xs -> one_line (coordinates xs).
Proof.
  induction 1 as [|x xs H F IH]; [intros []|]. rewrite coordinates_cons. apply one_line_app. split.
  - apply word_one_line. apply print_word. lia.
  - intros [E|E]; [discriminate|]. exact (IH E).
Qed.
Definition ok_component (order : nat) (c : component V) : Prop :=
  length (fst c) = order /\ Forall (fun x => 0 <= x < int_max)%Z (fst c) /\ survives (snd c).
Lemma ok_components order cs : valid order cs -> Forall survives (map snd cs) -> Forall (ok_component order) cs.
Proof.
  intros H S. rewrite Forall_forall in *. unfold valid in H. rewrite Forall_forall in H. intros c Hc. destruct (H c Hc). repeat split; auto; apply S; apply in_map; auto.
Qed.
Lemma body_one_line order c : ok_component order c -> one_line (body c).
Proof.
  intros (_ & H & (W & _)). unfold body. apply one_line_app. split; [apply coordinates_one_line; auto|]. apply word_one_line. apply W.
Qed.
Lemma lines_components order cs : Forall (ok_component order) cs -> lines (concat (map write_line cs)) = map body cs.
Proof.
  intros F. rewrite <- (lines_concat (map body cs)).
  - rewrite map_map. do 2 f_equal. apply map_ext. intros c. apply write_body.
  - apply Forall_forall. intros l H. apply in_map_iff in H. destruct H as (c & <- & H). rewrite Forall_forall in F. apply (body_one_line order). auto.
Qed.

(** *** The number of pieces *)
Lemma split_word p s r : (p <> [] \/ s <> []) -> forallb (fun c => negb (is_space c)) s = true ->
  split_blanks p (s ++ blank :: r) = (p ++ s) :: split_blanks [] r.
Proof.
  revert p. induction s as [|c s IH]; intros p N H; cbn [app split_blanks].
  - rewrite app_nil_r. rewrite Ascii.eqb_refl. destruct p; [destruct N; congruence|reflexivity].
  - cbn in H. apply andb_true_iff in H. destruct H as [Hc H]. destruct (Ascii.eqb c blank) eqn:E; [apply Ascii.eqb_eq in E; subst; discriminate|].
    rewrite IH; auto; [rewrite <- app_assoc; reflexivity|]. left. destruct p; discriminate.
Qed.
Lemma split_last p s : (p <> [] \/ s <> []) -> forallb (fun c => negb (is_space c)) s = true -> split_blanks p s = [p ++ s].
Proof.
  revert p. induction s as [|c s IH]; intros p N H; cbn [split_blanks].
  - rewrite app_nil_r. destruct p; [destruct N; congruence|reflexivity].
  - cbn in H. apply andb_true_iff in H. destruct H as [Hc H]. destruct (Ascii.eqb c blank) eqn:E; [apply Ascii.eqb_eq in E; subst; discriminate|].
    rewrite IH; auto; [rewrite <- app_assoc; reflexivity|]. left. destruct p; discriminate.
Qed.
Lemma split_body xs v : Forall (fun x => 0 <= x < int_max)%Z xs -> survives v ->
  split_blanks [] (coordinates xs ++ show v) = map (fun x => print_Z (x + 1)) xs ++ [show v].
Proof.
  intros H (W & _). induction H as [|x xs Hx F IH].
  - cbn. apply split_last; [right; apply W|apply W].
  - rewrite coordinates_cons, <- app_assoc. cbn [app]. assert (P : word (print_Z (x + 1))) by (apply print_word; lia).
    rewrite split_word by (try (right; apply P); apply P). cbn [app map]. rewrite IH. reflexivity.
Qed.

(** *** Reading coordinates *)
Lemma coordinates_start xs v r : Forall (fun x => 0 <= x < int_max)%Z xs -> no_digit (blank :: coordinates xs ++ show v ++ r).
Proof. reflexivity. Qed.
Lemma read_coordinates_ok xs v dims sp : Forall (fun x => 0 <= x < int_max)%Z xs -> length xs = length dims -> forallb is_space sp = true ->
  exists sp', forallb is_space sp' = true /\
  read_coordinates (sp ++ coordinates xs ++ show v) dims =
    FOk (xs, map (fun p => Z.max (fst p) (snd p + 1)) (combine dims xs), sp' ++ show v).
Proof.
  intros H. revert dims sp. induction H as [|x xs Hx F IH]; intros [|d ds] sp L S; try discriminate.
  - exists sp. auto.
  - rewrite coordinates_cons, <- app_assoc. cbn [read_coordinates app].
    rewrite strtol_print by (auto; unfold int_max in Hx; try reflexivity; lia).
    destruct (IH ds [blank]) as (sp' & S' & E); auto. exists sp'. split; auto. cbn [app] in E. rewrite E.
    assert (C : (int_max <? x + 1)%Z = false) by (apply Z.ltb_ge; lia). rewrite C. cbn [fbind combine map fst snd].
    rewrite to_int_id by lia. replace (x + 1 - 1)%Z with x by lia. reflexivity.
Qed.
Lemma read_entry_ok xs v sp : Forall (fun x => 0 <= x < int_max)%Z xs -> forallb is_space sp = true ->
  exists sp', forallb is_space sp' = true /\
  read_entry (length xs) (sp ++ coordinates xs ++ show v) = FOk (xs, sp' ++ show v).
Proof.
  intros H. revert sp. induction H as [|x xs Hx F IH]; intros sp S.
  - exists sp. auto.
  - rewrite coordinates_cons, <- app_assoc. cbn [length read_entry app].
    rewrite strtol_print by (auto; unfold int_max in Hx; try reflexivity; lia).
    destruct (IH [blank]) as (sp' & S' & E); auto. exists sp'. split; auto. cbn [app] in E. rewrite E.
    assert (C : (int_max <? x + 1)%Z = false) by (apply Z.ltb_ge; lia). rewrite C. cbn [fbind].
    rewrite to_int_id by lia. replace (x + 1 - 1)%Z with x by lia. reflexivity.
Qed.

(** ** FROSTT *)
Definition extend (dims : list Z) (c : component V) : list Z := map (fun p => Z.max (fst p) (snd p + 1)) (combine dims (fst c)).
Lemma extend_length dims c : length (fst c) = length dims -> length (extend dims c) = length dims.
Proof. intros H. unfold extend. rewrite map_length, combine_length. lia. Qed.
Lemma read_lines_ok cs : forall dims, Forall (ok_component (length dims)) cs ->
  read_lines V scan (map body cs) dims = FOk (cs, fold_left extend cs dims).
Proof.
  induction cs as [|c cs IH]; intros dims F; auto. inversion_clear F as [|? ? (L & H & W) F'].
  cbn [map read_lines]. destruct (read_coordinates_ok (fst c) (snd c) dims []) as (sp & S & E); auto.
  cbn [app] in E. unfold body at 1. rewrite E. cbn [fbind]. fold (extend dims c).
  rewrite IH by (rewrite extend_length; auto). cbn [fbind fold_left]. destruct c as [xc vc]. cbn [fst snd] in *.
  rewrite (proj2 W) by auto. reflexivity.
Qed.
Lemma nth_extend dims (c : component V) k : length (fst c) = length dims -> k < length dims ->
  nth k (extend dims c) 0%Z = Z.max (nth k dims 0%Z) (nth k (fst c) 0%Z + 1)%Z.
Proof.
  intros L K. unfold extend. revert k dims L K. induction (fst c) as [|x xs IH]; intros k [|d ds] L K; cbn in *; try lia; try discriminate.
  destruct k; auto. apply IH; lia.
Qed.
Lemma fold_extend cs : forall dims, Forall (fun c => length (fst c) = length dims) cs ->
  length (fold_left extend cs dims) = length dims /\
  forall k, k < length dims ->
    (nth k dims 0 <= nth k (fold_left extend cs dims) 0)%Z /\
    (forall c, In c cs -> (nth k (fst c) 0 < nth k (fold_left extend cs dims) 0)%Z) /\
    (nth k (fold_left extend cs dims) 0 = nth k dims 0 \/ exists c, In c cs /\ nth k (fst c) 0 = nth k (fold_left extend cs dims) 0 - 1)%Z.
Proof.
  induction cs as [|c cs IH]; intros dims F.
  - cbn. split; auto. intros k K. split; [lia|]. split; [intros ? []|auto].
  - inversion_clear F as [|? ? L F']. cbn [fold_left]. destruct (IH (extend dims c)) as [L2 H].
    { rewrite extend_length; auto. }
    rewrite extend_length in L2, H by auto. split; auto. intros k K. destruct (H k K) as (H1 & H2 & H3). rewrite nth_extend in H1, H3 by auto.
    split; [lia|]. split.
    + intros c' [<-|Hc]; auto. lia.
    + destruct H3 as [H3|(c' & Hc & E)]; [|right; exists c'; split; [right|]; auto].
      destruct (Z.max_spec (nth k dims 0%Z) (nth k (fst c) 0%Z + 1)%Z) as [[_ M]|[_ M]]; rewrite M in H3.
      * right. exists c. split; [left; auto|]. lia.
      * left. auto.
Qed.
Lemma tns_ok order cs : cs <> [] -> valid order cs -> Forall survives (map snd cs) ->
  exists dims, read_tns V scan (write_tns V show cs) = FOk (Some (dims, cs)) /\ length dims = order /\ within dims cs /\ last_slices dims cs.
Proof.
  intros N H S. pose proof (ok_components _ _ H S) as F. unfold read_tns, write_tns. rewrite (lines_components order) by auto.
  destruct cs as [|c cs]; [congruence|]. cbn [map]. inversion F as [|? ? (L & B & W) F']; subst. unfold body at 1. rewrite split_body by auto.
  set (rest := map (fun x => print_Z (x + 1)) (fst c) ++ [show (snd c)]).
  assert (E : exists t toks, rest = t :: toks /\ length toks = length (fst c)).
  { unfold rest. clear. destruct (fst c) as [|x xs]; cbn; [exists (show (snd c)), []; auto|]. exists (print_Z (x + 1)), (map (fun x => print_Z (x + 1)) xs ++ [show (snd c)]).
    split; auto. rewrite app_length, map_length. cbn. lia. }
  destruct E as (t & toks & -> & Lt).
  set (d0 := map (fun _ => 0%Z) toks). assert (L0 : length d0 = length (fst c)) by (unfold d0; rewrite map_length; auto).
  change (body c :: map body cs) with (map body (c :: cs)). rewrite read_lines_ok by (rewrite L0; auto). cbn [fbind].
  exists (fold_left extend (c :: cs) d0). split; auto.
  destruct (fold_extend (c :: cs) d0) as [L1 H1].
  { rewrite L0. unfold valid in H. rewrite Forall_forall in *. intros c' Hc. apply H. auto. }
  split; [lia|]. rewrite L0 in H1. split.
  - intros k K c' Hc. apply H1; auto. lia.
  - intros k K. destruct (H1 k) as (_ & H2 & H3); [lia|]. destruct H3 as [H3|H3]; auto.
    exfalso. specialize (H2 c (or_introl eq_refl)). rewrite H3 in H2.
    assert (Z0 : nth k d0 0%Z = 0%Z). { unfold d0. clear. revert k. induction toks; intros [|k]; cbn; auto. }
    rewrite Z0 in H2. assert (0 <= nth k (fst c) 0)%Z; [|lia]. rewrite Forall_forall in B.
    destruct (nth_in_or_default k (fst c) 0%Z) as [I|I]; [apply B in I; lia|lia].
Qed.
Lemma dims_tight (dims dims' : list Z) (cs : list (component V)) : length dims = length dims' ->
  within dims cs -> last_slices dims cs -> within dims' cs -> (dims = dims' <-> last_slices dims' cs).
Proof.
  intros L W1 S1 W2. split; [intros <-; auto|]. intros S2. apply (nth_ext _ _ 0%Z 0%Z L). intros k K.
  destruct (S1 k K) as (c & Hc & E). destruct (S2 k) as (c' & Hc' & E'); [lia|].
  pose proof (W1 k K c' Hc'). pose proof (W2 k ltac:(lia) c Hc). lia.
Qed.
End Values.
