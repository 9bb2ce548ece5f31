(** Lemmas for C44: MatrixMarket and Rutherford-Boeing files. *)
From Coq Require Import List ZArith Lia Bool Ascii.
From Verif Require Import Parser ParserSpec ParserLex FileIO FileIOSpec FileIOProofs.
Import ListNotations.
Local Open Scope nat_scope.

(** ** Words *)
Lemma words_from_word p s r c : (p <> [] \/ s <> []) -> forallb (fun c => negb (is_space c)) s = true -> is_space c = true ->
  words_from p (s ++ c :: r) = (p ++ s) :: words_from [] r.
Proof.
  intros N H Hc. revert p N. induction s as [|d s IH]; intros p N; cbn [app words_from].
  - rewrite app_nil_r, Hc. destruct p; [destruct N; congruence|reflexivity].
  - cbn in H. apply andb_true_iff in H. destruct H as [Hd H]. apply negb_true_iff in Hd. rewrite Hd.
    rewrite IH; auto; [rewrite <- app_assoc; reflexivity|]. left. destruct p; discriminate.
Qed.
Lemma words_from_last p s : (p <> [] \/ s <> []) -> forallb (fun c => negb (is_space c)) s = true -> words_from p s = [p ++ s].
Proof.
  intros N H. revert p N. induction s as [|d s IH]; intros p N; cbn [words_from].
  - rewrite app_nil_r. destruct p; [destruct N; congruence|reflexivity].
  - cbn in H. apply andb_true_iff in H. destruct H as [Hd H]. apply negb_true_iff in Hd. rewrite Hd.
    rewrite IH; auto; [rewrite <- app_assoc; reflexivity|]. left. destruct p; discriminate.
Qed.
Lemma words_space sp s : forallb is_space sp = true -> words (sp ++ s) = words s.
Proof.
  unfold words. induction sp as [|c sp IH]; auto. cbn. intros H. apply andb_true_iff in H. destruct H as [-> H]. auto.
Qed.
Lemma words_word s r c : word s -> is_space c = true -> words (s ++ c :: r) = s :: words r.
Proof. intros [N H] Hc. unfold words. rewrite words_from_word by auto. reflexivity. Qed.
Lemma words_single s : word s -> words s = [s].
Proof. intros [N H]. unfold words. rewrite words_from_last by auto. reflexivity. Qed.
(** The first word of a text starts with its first character that is not a space. *)
Lemma words_first c r : is_space c = false -> exists t ws, words (c :: r) = (c :: t) :: ws.
Proof.
  intros Hc. unfold words. cbn [words_from]. rewrite Hc. cbn [app].
  assert (X : forall s p, p <> [] -> exists t ws, words_from p s = (p ++ t) :: ws).
  { clear. induction s as [|d s IH]; intros p N; cbn [words_from].
    - exists [], []. rewrite app_nil_r. destruct p; [congruence|reflexivity].
    - destruct (is_space d); [destruct p; [congruence|]; exists []; eexists; rewrite app_nil_r; reflexivity|].
      destruct (IH (p ++ [d])) as (t & ws & ->); [destruct p; discriminate|]. rewrite <- app_assoc. exists (d :: t), ws. reflexivity. }
  destruct (X r [c]) as (t & ws & ->); [discriminate|]. exists t, ws. reflexivity.
Qed.

(** ** Lines of numbers *)
Lemma numbers_cons z zs : zs <> [] -> numbers (z :: zs) = print_Z z ++ blank :: numbers zs.
Proof. intros N. unfold numbers. destruct zs; [congruence|]. reflexivity. Qed.
Lemma numbers_one_line zs : Forall (fun z => 0 <= z)%Z zs -> one_line (numbers zs).
Proof.
  induction zs as [|z zs IH]; intros F; [intros []|]. inversion_clear F as [|? ? H F']. destruct zs as [|z' zs].
  - apply word_one_line. apply print_word. auto.
  - rewrite numbers_cons by discriminate. apply one_line_app. split; [apply word_one_line, print_word; auto|].
    intros [E|E]; [discriminate|]. exact (IH F' E).
Qed.
Lemma read_dimensions_ok zs : Forall (fun z => 0 < z <= int_max)%Z zs -> forall sp tail n, forallb is_space sp = true -> forallb is_space tail = true ->
  length (sp ++ numbers zs ++ tail) <= n -> read_dimensions n (sp ++ numbers zs ++ tail) = FOk zs.
Proof.
  induction 1 as [|z zs Hz F IH]; intros sp tail n S T L.
  - cbn. assert (E : read_dimensions n (sp ++ tail) = FOk []).
    { destruct n; auto. cbn [read_dimensions]. pose proof (strtoul_spaces (sp ++ tail)) as E. rewrite forallb_app, S, T in E. specialize (E eq_refl).
      destruct (strtoul (sp ++ tail)) as [d r]. cbn in E. subst d. reflexivity. }
    exact E.
  - destruct (print_word z ltac:(lia)) as [Np _].
    assert (Hs : exists tl, numbers (z :: zs) ++ tail = print_Z z ++ tl /\ no_digit tl /\
                  (forall n, length tl <= n -> read_dimensions n tl = FOk zs)).
    { destruct zs as [|z' zs].
      - exists tail. split; [reflexivity|]. split.
        + destruct tail as [|c tl]; [exact I|]. cbn in T. apply andb_true_iff in T. destruct T as [T _].
          cbn. destruct (is_digit c) eqn:D; auto. rewrite digit_not_space in T by auto. discriminate.
        + intros m Lm. exact (IH [] tail m eq_refl T Lm).
      - exists (blank :: numbers (z' :: zs) ++ tail). split; [rewrite numbers_cons by discriminate; rewrite <- app_assoc; reflexivity|].
        split; [reflexivity|]. intros m Lm. exact (IH [blank] tail m eq_refl T Lm). }
    destruct Hs as (tl & E & D & R). rewrite E in *. rewrite !app_length in L. assert (0 < length (print_Z z)) by (destruct (print_Z z); [congruence|cbn; lia]).
    destruct n; [lia|]. cbn [read_dimensions]. unfold int_max in *. rewrite strtoul_print by (auto; lia).
    destruct (Z.eqb_spec z 0); [lia|]. destruct (Z.ltb_spec (2 ^ 31 - 1) z); [lia|]. rewrite R by lia. reflexivity.
Qed.
Lemma numbers_snoc dims nnz : dims <> [] -> numbers dims ++ [blank] ++ print_Z nnz = numbers (dims ++ [nnz]).
Proof.
  induction dims as [|d ds IH]; [congruence|]. intros _. destruct ds as [|d' ds].
  - reflexivity.
  - rewrite (numbers_cons d (d' :: ds)) by discriminate. rewrite <- app_assoc. cbn [app]. rewrite (numbers_cons d (d' :: ds ++ [nnz])) by discriminate.
    f_equal. f_equal. change (d' :: ds ++ [nnz]) with ((d' :: ds) ++ [nnz]). rewrite <- IH by discriminate. reflexivity.
Qed.

(** ** Comments *)
Lemma skip_comment token l rest l' : comment l -> exists token', skip_comments token l (l' :: rest) = skip_comments token' l' rest.
Proof.
  intros (sp & r & -> & S & _). cbn [skip_comments]. rewrite words_space by auto.
  destruct (words_first "%"%char r) as (t & ws & ->); [reflexivity|]. cbn [Ascii.eqb Bool.eqb]. eauto.
Qed.
Lemma skip_all token comments l rest : Forall comment comments -> exists token',
  match comments ++ l :: rest with [] => skip_comments [] [] [] | l' :: ls => skip_comments token l' ls end = skip_comments token' l rest.
Proof.
  intros F. revert token. induction F as [|c cs H F IH]; intros token; [eexists; reflexivity|]. cbn [app].
  destruct cs as [|c' cs].
  - cbn [app]. apply skip_comment. auto.
  - cbn [app] in *. destruct (skip_comment token c (cs ++ l :: rest) c' H) as (t & ->). apply IH.
Qed.
Lemma skip_stop_ token c r rest : is_space c = false -> c <> "%"%char -> skip_comments token (c :: r) rest = (c :: r, rest).
Proof.
  intros S N. destruct (words_first c r S) as (t & ws & E). destruct rest; cbn [skip_comments]; rewrite E.
  all: destruct (Ascii.eqb c "%") eqn:X; [apply Ascii.eqb_eq in X; congruence|reflexivity].
Qed.
Lemma digit_start z r : (0 <= z)%Z -> exists c t, print_Z z ++ r = c :: t /\ is_space c = false /\ c <> "%"%char.
Proof.
  intros H. destruct (print_nonneg z H) as [[N D] _]. destruct (print_Z z) as [|c t]; [congruence|]. cbn in D. apply andb_true_iff in D. destruct D as [D _].
  exists c, (t ++ r). repeat split; auto using digit_not_space. intros ->. discriminate.
Qed.
Lemma numbers_start zs r : zs <> [] -> Forall (fun z => 0 <= z)%Z zs -> exists c t, numbers zs ++ r = c :: t /\ is_space c = false /\ c <> "%"%char.
Proof.
  intros N F. destruct F as [|z zs H F]; [congruence|]. destruct zs as [|z' zs].
  - apply digit_start. auto.
  - rewrite numbers_cons by discriminate. rewrite <- app_assoc. apply digit_start. auto.
Qed.
Lemma skip_ok comments zs tail rest : Forall comment comments -> zs <> [] -> Forall (fun z => 0 <= z)%Z zs ->
  match comments ++ (numbers zs ++ tail) :: rest with [] => skip_comments [] [] [] | l :: ls => skip_comments [] l ls end = (numbers zs ++ tail, rest).
Proof.
  intros C N F. destruct (skip_all [] comments (numbers zs ++ tail) rest C) as (t & E).
  etransitivity; [exact E|]. destruct (numbers_start zs tail N F) as (c & r & -> & S & P). apply skip_stop_; auto.
Qed.

Section Values.
Context {V : Type} (show : V -> text) (scan : text -> V).
Notation survives := (survives show scan).

Lemma read_entries_ok order cs : Forall (ok_component show scan order) cs -> read_entries V scan order (map (body show) cs) = FOk cs.
Proof.
  induction 1 as [|c cs (L & H & W) F IH]; auto. cbn [map read_entries]. destruct (read_entry_ok show (fst c) (snd c) []) as (sp & S & E); auto.
  cbn [app] in E. unfold body at 1. rewrite L in E. rewrite E. cbn [fbind]. rewrite IH. cbn [fbind]. destruct c as [x v]. cbn [fst snd] in *. rewrite (proj2 W) by auto. reflexivity.
Qed.
(** The text of a coordinate file. *)
Lemma lines_comments cs s : Forall one_line cs -> lines (concat (map (fun l => l ++ [newline]) cs) ++ s) = cs ++ lines s.
Proof.
  induction 1 as [|l ls H F IH]; auto. cbn [map concat]. rewrite <- !app_assoc. cbn [app]. rewrite lines_app by auto. rewrite IH. reflexivity.
Qed.
Lemma header_line order formats symmetry : one_line formats -> one_line symmetry -> one_line (header order formats symmetry).
Proof.
  intros F S. unfold header. cbn [join]. repeat (apply one_line_app; split); auto; try (intros X; cbn in X; intuition discriminate).
  destruct (order =? 2); intros X; cbn in X; intuition discriminate.
Qed.
Lemma comment_line l : comment l -> one_line l.
Proof. intros (sp & r & _ & _ & N). exact N. Qed.
Lemma mtx_coordinate (symm : bool) comments dims cs :
  dims <> [] -> Forall (fun d => 0 < d <= int_max)%Z dims -> cs <> [] -> (Z.of_nat (length cs) <= int_max)%Z ->
  (symm = true -> length dims = 2) ->
  Forall comment comments -> valid (length dims) cs -> Forall survives (map snd cs) ->
  read_mtx V scan (coordinate_file show (if symm then symmetric_word else general_word) comments dims cs) = FOk (Some (dims, flat_map (mirror V symm) cs)).
Proof.
  intros N D Nc Lc Sy C H S. pose proof (ok_components _ _ _ _ H S) as F. unfold read_mtx, coordinate_file. rewrite write_lines_spec.
  set (zs := dims ++ [Z.of_nat (length cs)]).
  assert (Fz : Forall (fun z => 0 < z <= int_max)%Z zs).
  { apply Forall_app. split; auto. constructor; auto. destruct cs; [congruence|]. cbn [length] in *. lia. }
  assert (Nz : zs <> []) by (unfold zs; destruct dims; discriminate).
  assert (F0 : Forall (fun z => 0 <= z)%Z zs) by (revert Fz; apply Forall_impl; intros; lia).
  cbn [app]. rewrite lines_app.
  2:{ apply header_line; [|destruct symm]; intros X; cbn in X; intuition discriminate. }
  rewrite lines_comments by (revert C; apply Forall_impl; apply comment_line).
  cbn [app]. rewrite lines_app by (apply numbers_one_line; auto). rewrite (lines_components show scan (length dims)) by auto.
  assert (W : words (header (length dims) coordinate_word (if symm then symmetric_word else general_word)) =
              [header_word; if length dims =? 2 then matrix_word else tensor_word; coordinate_word; real_word; if symm then symmetric_word else general_word]).
  { unfold header. destruct (length dims =? 2); destruct symm; reflexivity. }
  rewrite W. cbn [nth].
  assert (X0 : (let? t := read_sparse V scan (comments ++ numbers zs :: map (body show) cs) symm in FOk (Some t)) = FOk (Some (dims, flat_map (mirror V symm) cs))).
  {     unfold read_sparse. pose proof (skip_ok comments zs [] (map (body show) cs) C Nz F0) as Sk. rewrite !app_nil_r in Sk.
    replace (match comments ++ numbers zs :: map (body show) cs with [] => skip_comments [] [] [] | l :: ls => skip_comments [] l ls end) with (numbers zs, map (body show) cs).
    pose proof (read_dimensions_ok zs Fz [] [] (length (numbers zs)) eq_refl eq_refl) as Rd. cbn [app] in Rd. rewrite app_nil_r in Rd. rewrite Rd by auto.
    cbn [fbind]. unfold zs. rewrite rev_app_distr. cbn [rev app]. rewrite rev_involutive.
    replace (symm && negb (length dims =? 2)) with false by (destruct symm; auto; rewrite Sy by auto; reflexivity).
    rewrite read_entries_ok by auto. cbn [fbind]. rewrite Z.ltb_irrefl, Nat2Z.id, firstn_all. reflexivity. }
  destruct (length dims =? 2); destruct symm; cbn -[read_sparse numbers]; exact X0.
Qed.
Lemma write_sparse_file dims cs : dims <> [] ->
  write_sparse V show dims (Z.of_nat (length cs)) cs = coordinate_file show general_word [["%"%char]] dims cs.
Proof.
  intros N. unfold write_sparse, coordinate_file. rewrite write_lines_spec. do 2 f_equal. cbn [map concat app].
  do 2 f_equal. rewrite <- numbers_snoc by auto. unfold numbers. rewrite <- !app_assoc. reflexivity.
Qed.
Lemma mirror_false cs : flat_map (mirror V false) cs = cs.
Proof. induction cs; cbn; auto. f_equal. auto. Qed.
Lemma mirror_true cs : Forall (fun c => length (fst c) = 2) cs -> flat_map (mirror V true) cs = symmetric_of cs.
Proof.
  unfold symmetric_of. induction 1 as [|[x v] cs L F IH]; auto. cbn [flat_map]. rewrite IH. f_equal.
  cbn in L. destruct x as [|i [|j [|? ?]]]; try discriminate. unfold mirror. cbn. destruct (i =? j)%Z; reflexivity.
Qed.

(** ** Arrays *)
Lemma fold_mul zs : forall a, fold_left Z.mul zs a = (a * fold_left Z.mul zs 1)%Z.
Proof. induction zs as [|z zs IH]; intros a; cbn [fold_left]; [lia|]. rewrite (IH (a * z)%Z), (IH (1 * z)%Z). lia. Qed.
Lemma product_pos zs : Forall (fun z => 0 < z)%Z zs -> (0 < fold_left Z.mul zs 1)%Z.
Proof. induction 1 as [|z zs H F IH]; cbn [fold_left]; [lia|]. rewrite fold_mul. lia. Qed.
Lemma unrank_rank dims : Forall (fun d => 0 < d)%Z dims -> dims <> [] -> forall n, (0 <= n < fold_left Z.mul dims 1)%Z ->
  length (unrank dims n) = length dims /\ column_major dims (unrank dims n) = n /\
  forall k, k < length dims -> (0 <= nth k (unrank dims n) 0 < nth k dims 0)%Z.
Proof.
  induction 1 as [|d ds Hd F IH]; [congruence|]. intros _ n Hn. destruct ds as [|d' ds].
  - change (fold_left Z.mul [d] 1%Z) with (1 * d)%Z in Hn. cbn [unrank length]. split; auto.
    split; [cbn [column_major]; lia|]. intros [|k] K; [cbn [nth]; lia|lia].
  - change (unrank (d :: d' :: ds) n) with ((n mod d)%Z :: unrank (d' :: ds) (n / d)).
    change (fold_left Z.mul (d :: d' :: ds) 1%Z) with (fold_left Z.mul (d' :: ds) (1 * d)%Z) in Hn. rewrite fold_mul in Hn.
    assert (P : (0 < fold_left Z.mul (d' :: ds) 1)%Z) by (apply product_pos; auto).
    assert (Hq : (0 <= n / d < fold_left Z.mul (d' :: ds) 1)%Z) by (split; [apply Z.div_pos; lia|apply Z.div_lt_upper_bound; lia]).
    destruct (IH ltac:(discriminate) (n / d)%Z Hq) as (L & C & B). split; [cbn [length]; rewrite L; reflexivity|].
    split.
    + change (column_major (d :: d' :: ds) ((n mod d)%Z :: unrank (d' :: ds) (n / d))) with (n mod d + d * column_major (d' :: ds) (unrank (d' :: ds) (n / d)))%Z.
      rewrite C. pose proof (Z.div_mod n d). lia.
    + intros [|k] K; [cbn [nth]; pose proof (Z.mod_pos_bound n d); lia|]. cbn [nth]. apply B. cbn [length] in *. lia.
Qed.
Lemma survives_map vs : Forall survives vs -> map scan (map show vs) = vs.
Proof. induction 1 as [|v vs (W & R) F IH]; auto. cbn. f_equal; auto. apply (R []). reflexivity. Qed.
Lemma mtx_array (symm : bool) comments dims values :
  dims <> [] -> Forall (fun d => 0 < d <= int_max)%Z dims -> Z.of_nat (length values) = fold_left Z.mul dims 1%Z -> (Z.of_nat (length values) <= int_max)%Z ->
  (symm = true -> length dims = 2) ->
  Forall comment comments -> Forall survives values ->
  read_mtx V scan (array_file show (if symm then symmetric_word else general_word) comments dims values) =
    FOk (Some (dims, flat_map (mirror V symm) (combine (map (fun n => unrank dims (Z.of_nat n)) (seq 0 (length values))) values))).
Proof.
  intros N D Lv Bv Sy C S. unfold read_mtx, array_file.
  assert (F0 : Forall (fun z => 0 <= z)%Z dims) by (revert D; apply Forall_impl; intros; lia).
  cbn [app]. rewrite lines_app.
  2:{ apply header_line; [|destruct symm]; intros X; cbn in X; intuition discriminate. }
  rewrite lines_comments by (revert C; apply Forall_impl; apply comment_line).
  assert (El : lines (numbers dims ++ blank :: newline :: concat (map (fun v => show v ++ [newline]) values)) = (numbers dims ++ [blank]) :: map show values).
  { change (numbers dims ++ blank :: newline :: concat (map (fun v => show v ++ [newline]) values)) with
      (numbers dims ++ [blank] ++ newline :: concat (map (fun v => show v ++ [newline]) values)).
    rewrite app_assoc, lines_app.
    - f_equal. rewrite <- (lines_concat (map show values)); [rewrite map_map; reflexivity|].
      apply Forall_forall. intros l Hl. apply in_map_iff in Hl. destruct Hl as (v & <- & Hv). rewrite Forall_forall in S. apply word_one_line. apply S. exact Hv.
    - apply one_line_app. split; [apply numbers_one_line; auto|]. intros [X|[]]; discriminate. }
  rewrite El.
  assert (W : words (header (length dims) array_word (if symm then symmetric_word else general_word)) =
              [header_word; if length dims =? 2 then matrix_word else tensor_word; array_word; real_word; if symm then symmetric_word else general_word]).
  { unfold header. destruct (length dims =? 2); destruct symm; reflexivity. }
  rewrite W. cbn [nth].
  assert (X : read_dense V scan (comments ++ (numbers dims ++ [blank]) :: map show values) symm =
    FOk (dims, flat_map (mirror V symm) (combine (map (fun n => unrank dims (Z.of_nat n)) (seq 0 (length values))) values))).
  { unfold read_dense. pose proof (skip_ok comments dims [blank] (map show values) C N F0) as Sk.
    replace (match comments ++ (numbers dims ++ [blank]) :: map show values with [] => skip_comments [] [] [] | l :: ls => skip_comments [] l ls end) with (numbers dims ++ [blank], map show values).
    pose proof (read_dimensions_ok dims D [] [blank] (length (numbers dims ++ [blank])) eq_refl eq_refl (le_n _)) as Rd. cbn [app] in Rd. rewrite Rd.
    cbn [fbind]. replace (symm && negb (length dims =? 2)) with false by (destruct symm; auto; rewrite Sy by auto; reflexivity).
    rewrite survives_map by auto. rewrite <- Lv, Z.ltb_irrefl, orb_false_r, Nat2Z.id.
    assert (E : (int_max <? Z.of_nat (length values))%Z = false) by (apply Z.ltb_ge; auto). rewrite E. destruct dims; [congruence|]. reflexivity. }
  match type of X with ?l = FOk ?r => assert (X' : (let? t := l in FOk (Some t)) = FOk (Some r)) by (rewrite X; reflexivity) end.
  destruct (length dims =? 2); destruct symm; cbn -[read_dense numbers unrank seq combine]; exact X'.
Qed.
Lemma write_dense_file dims values : write_dense V show dims values = array_file show general_word [["%"%char]] dims values.
Proof. reflexivity. Qed.
End Values.
(** Integers written by << and read by a number scanner survive. *)
Definition scan_Z (s : text) : Z :=
  match number_prefix s with Some (negative, ds, _) => if negative then (- decimal ds)%Z else decimal ds | None => 0%Z end.
Lemma drop_spaces_app sp s : forallb is_space sp = true -> drop_spaces (sp ++ s) = drop_spaces s.
Proof. induction sp as [|c sp IH]; intros H; auto. cbn in *. apply andb_true_iff in H. destruct H as [-> H]. auto. Qed.
Lemma survives_Z z : survives print_Z scan_Z z.
Proof.
  split.
  - destruct (Z.ltb_spec z 0) as [N|N]; [|apply print_word; auto].
    destruct (print_word (- z)) as [A B]; [lia|]. unfold print_Z in *. destruct (Z.ltb_spec z 0); [|lia]. destruct (Z.ltb_spec (- z) 0); [lia|].
    split; [discriminate|]. cbn [forallb]. rewrite B. reflexivity.
  - intros sp S. unfold scan_Z. destruct (Z.ltb_spec z 0) as [N|N].
    + destruct (print_nonneg (- z)) as [M D]; [lia|].
      assert (E : print_Z z = "-"%char :: print_Z (- z)).
      { unfold print_Z. destruct (Z.ltb_spec z 0); [|lia]. destruct (Z.ltb_spec (- z) 0); [lia|]. reflexivity. }
      pose proof (prefix_number [] (print_Z (- z)) [] eq_refl M I) as P. cbn [app] in P. rewrite app_nil_r in P.
      rewrite E. unfold number_prefix in *. rewrite drop_spaces_app by auto. cbn [drop_spaces]. change (is_space "-") with false. cbn iota. rewrite Ascii.eqb_refl.
      assert (Q : drop_spaces (print_Z (- z)) = print_Z (- z)).
      { destruct (print_word (- z)) as [_ W]; [lia|]. destruct (print_Z (- z)) as [|c r]; auto. cbn in W |- *. apply andb_true_iff in W. destruct W as [W _]. destruct (is_space c); [discriminate|reflexivity]. }
      rewrite Q in P. destruct (print_Z (- z)) as [|c r]; [discriminate P|].
      destruct (Ascii.eqb c "-") eqn:E1; [exfalso; destruct (span is_digit r) as [[|] ]; discriminate P|].
      destruct (Ascii.eqb c "+") eqn:E2.
      * exfalso. apply Ascii.eqb_eq in E2. subst c. destruct M as [_ M]. discriminate M.
      * destruct (span is_digit (c :: r)) as [[|a l] b]; inversion P; subst. lia.
    + destruct (print_nonneg z) as [M D]; [lia|]. pose proof (prefix_number sp (print_Z z) [] S M I) as P. rewrite app_nil_r in P. rewrite P. exact D.
Qed.
