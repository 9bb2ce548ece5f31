(** Lemmas for C44: Rutherford-Boeing files. *)
From Coq Require Import List ZArith Lia Bool Ascii.
From Verif Require Import Parser ParserSpec ParserLex FileIO FileIOSpec FileIOProofs FileIOMore.
Import ListNotations.
Local Open Scope nat_scope.

Lemma lines_from_step l s : one_line l -> forall p, lines_from p (l ++ s) = lines_from (p ++ l) s.
Proof.
  induction l as [|c l IH]; intros H p; [rewrite app_nil_r; reflexivity|]. cbn [app lines_from].
  destruct (Ascii.eqb c newline) eqn:E; [apply Ascii.eqb_eq in E; destruct H; left; auto|].
  rewrite IH by (intros X; apply H; right; auto). rewrite <- app_assoc. reflexivity.
Qed.
Definition spaced_words (qs : list text) : text := concat (map (fun x => x ++ [blank]) qs).
Lemma spaced_cons x qs : spaced_words (x :: qs) = x ++ blank :: spaced_words qs.
Proof. unfold spaced_words. cbn [map concat]. rewrite <- app_assoc. reflexivity. Qed.
Lemma words_spaced qs : Forall word qs -> words (spaced_words qs) = qs.
Proof. induction 1 as [|x qs W F IH]; auto. rewrite spaced_cons, words_word by auto. rewrite IH. reflexivity. Qed.
Lemma spaced_snoc qs x : spaced_words (qs ++ [x]) = spaced_words qs ++ x ++ [blank].
Proof. unfold spaced_words. rewrite map_app, concat_app. cbn. rewrite app_nil_r. reflexivity. Qed.
Lemma succ_mod j k : 0 < k -> S j mod k = if j mod k + 1 =? k then 0 else j mod k + 1.
Proof.
  intros K. pose proof (Nat.div_mod j k ltac:(lia)) as D. pose proof (Nat.mod_upper_bound j k ltac:(lia)) as B.
  destruct (Nat.eqb_spec (j mod k + 1) k) as [E|E].
  - replace (S j) with (0 + (j / k + 1) * k) by nia. rewrite Nat.mod_add by lia. apply Nat.mod_small. lia.
  - replace (S j) with ((j mod k + 1) + (j / k) * k) by nia. rewrite Nat.mod_add by lia. apply Nat.mod_small. lia.
Qed.
Lemma cards_add n k : 0 < k -> cards (k + n) k = S (cards n k).
Proof.
  intros K. unfold cards. replace (k + n) with (n + 1 * k) by lia. rewrite Nat.div_add, Nat.mod_add by lia. lia.
Qed.
Lemma cards_small n k : 0 < n < k -> cards n k = 1.
Proof.
  intros H. unfold cards. rewrite Nat.div_small, Nat.mod_small by lia. destruct (Nat.eqb_spec n 0); [lia|reflexivity].
Qed.
Lemma cards_zero k : 0 < k -> cards 0 k = 0.
Proof. intros K. unfold cards. rewrite Nat.div_0_l, Nat.mod_0_l by lia. reflexivity. Qed.
Lemma word_blank_line x : word x -> one_line (x ++ [blank]).
Proof. intros [_ W]. apply one_line_app. split; [apply word_one_line; auto|]. intros [X|[]]; discriminate. Qed.
Lemma lines_words k ws : 0 < k -> Forall word ws -> forall i qs tail, Forall word qs -> 0 < i -> (i - 1) mod k = length qs ->
  exists ls, lines_from (spaced_words qs) (write_words k i ws ++ tail) = ls ++ lines tail /\
    length ls = cards (length qs + length ws) k /\ flat_map words ls = qs ++ ws.
Proof.
  intros K F. induction F as [|x ws W F IH]; intros i qs tail Q I M; cbn [write_words].
  - rewrite M. destruct (Nat.eqb_spec (length qs) 0) as [E|E].
    + destruct qs; [|discriminate]. exists []. cbn [app length Nat.add flat_map]. rewrite cards_zero by auto. auto.
    + exists [spaced_words qs]. split; [cbn [app lines_from]; rewrite Ascii.eqb_refl; reflexivity|].
      split; [rewrite Nat.add_0_r, cards_small; [reflexivity|]; pose proof (Nat.mod_upper_bound (i - 1) k ltac:(lia)); lia|].
      cbn [flat_map]. rewrite words_spaced by auto. rewrite !app_nil_r. reflexivity.
  - assert (Mi : i mod k = if length qs + 1 =? k then 0 else length qs + 1).
    { rewrite <- M. replace i with (S (i - 1)) at 1 by lia. apply succ_mod. auto. }
    destruct (Nat.eqb_spec (length qs + 1) k) as [E|E].
    + rewrite Mi. cbn [Nat.eqb]. destruct (IH (S i) [] tail) as (ls & E1 & E2 & E3); auto; [cbn; rewrite Nat.sub_0_r, Mi; reflexivity|].
      exists ((spaced_words qs ++ x ++ [blank]) :: ls).
      split; [|split].
      * replace ((x ++ [blank] ++ [newline] ++ write_words k (S i) ws) ++ tail) with ((x ++ [blank]) ++ newline :: (write_words k (S i) ws ++ tail)) by (rewrite <- !app_assoc; reflexivity).
        rewrite lines_from_app by (apply word_blank_line; auto). cbn [app]. f_equal. exact E1.
      * cbn [length]. rewrite E2. cbn [length Nat.add]. replace (length qs + S (length ws)) with (k + length ws) by lia. rewrite cards_add by auto. reflexivity.
      * cbn [flat_map]. rewrite <- spaced_snoc, words_spaced by (apply Forall_app; auto). rewrite E3, <- app_assoc. reflexivity.
    + assert (X : (length qs + 1 =? 0) = false) by (apply Nat.eqb_neq; lia). rewrite Mi, X. cbn [app].
      destruct (IH (S i) (qs ++ [x]) tail) as (ls & E1 & E2 & E3); auto; [apply Forall_app; auto|cbn [Nat.sub]; rewrite Nat.sub_0_r, app_length; exact Mi|].
      exists ls. split; [|split].
      * rewrite <- E1, spaced_snoc. replace ((x ++ blank :: write_words k (S i) ws) ++ tail) with ((x ++ [blank]) ++ write_words k (S i) ws ++ tail) by (rewrite <- !app_assoc; reflexivity).
        apply lines_from_step. apply word_blank_line. auto.
      * rewrite E2, app_length. cbn [length]. f_equal. lia.
      * rewrite E3, <- app_assoc. reflexivity.
Qed.
Lemma collect_ok_ {A} (f : text -> fresult A) ws xs : Forall2 (fun s x => f s = FOk x) ws xs -> collect_ (map f ws) = FOk xs.
Proof. induction 1 as [|s x ws xs E F IH]; auto. cbn [map collect_]. rewrite E. cbn [fbind]. rewrite IH. reflexivity. Qed.
Lemma read_words_ok {A} (f : text -> fresult A) ls ws xs size rest : Forall2 (fun s x => f s = FOk x) ws xs -> flat_map words ls = ws ->
  (Z.of_nat (length xs) <= size)%Z -> read_words f size (Z.of_nat (length ls)) (ls ++ rest) = FOk (xs, rest).
Proof.
  intros F E L. unfold read_words. rewrite Nat2Z.id, firstn_app, skipn_app, Nat.sub_diag, firstn_all, skipn_all. cbn [firstn skipn app]. rewrite app_nil_r, E.
  rewrite (collect_ok_ f ws xs F). cbn [fbind]. destruct (Z.ltb_spec size (Z.of_nat (length xs))); [lia|reflexivity].
Qed.
Lemma stoi_print z : (0 <= z <= int_max)%Z -> stoi (print_Z z) = FOk z.
Proof.
  intros H. unfold stoi. destruct (print_nonneg z) as [N D]; [lia|]. pose proof (prefix_number [] (print_Z z) [] eq_refl N I) as E. cbn [app] in E. rewrite app_nil_r in E. rewrite E.
  rewrite D. destruct (Z.ltb_spec int_max z); [lia|]. destruct (Z.ltb_spec z (- 2 ^ 31)); [lia|reflexivity].
Qed.
Lemma read_index x : (0 <= x < int_max)%Z -> (let? z := stoi (print_Z (x + 1)) in FOk (z - 1)%Z) = FOk x.
Proof. intros H. rewrite stoi_print by lia. cbn [fbind]. f_equal. lia. Qed.
Lemma read_ints_ok zs : Forall (fun z => 0 <= z <= int_max)%Z zs -> forall sp, forallb is_space sp = true -> read_ints (length zs) (sp ++ numbers zs) = FOk zs.
Proof.
  induction 1 as [|z zs H F IH]; intros sp S; auto. cbn [length read_ints].
  destruct (print_nonneg z) as [N D]; [lia|].
  assert (X : exists tl, numbers (z :: zs) = print_Z z ++ tl /\ no_digit tl /\ read_ints (length zs) tl = FOk zs).
  { destruct zs as [|z' zs]; [exists []; split; [unfold numbers; cbn; rewrite app_nil_r; reflexivity|split; [exact I|reflexivity]]|].
    exists (blank :: numbers (z' :: zs)). split; [apply numbers_cons; discriminate|]. split; [reflexivity|]. apply (IH [blank]). reflexivity. }
  destruct X as (tl & E & Dt & R). rewrite E, prefix_number by auto. rewrite D.
  destruct (Z.ltb_spec int_max z); [lia|]. destruct (Z.ltb_spec z (- 2 ^ 31)); [lia|]. cbn [orb]. rewrite R. reflexivity.
Qed.

Section Values.
Context {V : Type} (show : V -> text) (scan : text -> V).
Lemma Forall2_map {A B} (f : A -> B) (R : B -> A -> Prop) l : Forall (fun a => R (f a) a) l -> Forall2 R (map f l) l.
Proof. induction 1; cbn; constructor; auto. Qed.
Lemma cards_bound n k : 0 < k -> cards n k <= n + 1.
Proof.
  intros K. unfold cards. assert (n / k <= n) by (apply Nat.div_le_upper_bound; nia). destruct (n mod k =? 0); lia.
Qed.
Lemma rb_ok title key ptrfmt indfmt valfmt m : one_line title -> one_line key -> one_line ptrfmt -> one_line indfmt -> one_line valfmt ->
  ok_csc show scan m -> read_rb V scan (write_rb V show title key ptrfmt indfmt valfmt m) = FOk m.
Proof.
  intros H1 H2 H3 H4 H5 (R & C & Lp & Li & Ln & B & Fp & Fi & Fv).
  set (p := cards (length (colptr V m)) 16). set (i := cards (length (rowidx V m)) 16). set (v := cards (length (vals V m)) 10).
  set (zs2 := [Z.of_nat (p + i + v); Z.of_nat p; Z.of_nat i; Z.of_nat v; Z.of_nat 0]).
  set (zs3 := [rows V m; cols V m; Z.of_nat (length (vals V m)); Z.of_nat 0]).
  assert (Bp : p <= length (colptr V m) + 1) by (apply cards_bound; lia).
  assert (Bi : i <= length (vals V m) + 1) by (unfold i; rewrite Li; apply cards_bound; lia).
  assert (Bv : v <= length (vals V m) + 1) by (apply cards_bound; lia).
  assert (F2 : Forall (fun z => 0 <= z <= int_max)%Z zs2) by (unfold zs2, int_max in *; repeat constructor; lia).
  assert (F3 : Forall (fun z => 0 <= z <= int_max)%Z zs3) by (unfold zs3, int_max in *; repeat constructor; lia).
  assert (G : forall zs, Forall (fun z => 0 <= z <= int_max)%Z zs -> one_line (numbers zs)).
  { intros zs Fz. apply numbers_one_line. revert Fz. apply Forall_impl. intros; lia. }
  assert (E : write_rb V show title key ptrfmt indfmt valfmt m =
    (title ++ [blank] ++ key) ++ newline :: numbers zs2 ++ newline :: (rua ++ blank :: numbers zs3) ++ newline ::
    (join [blank] [ptrfmt; indfmt; valfmt; []]) ++ newline ::
    (write_words 16 1 (map (fun x => print_Z (x + 1)) (colptr V m)) ++
     write_words 16 1 (map (fun x => print_Z (x + 1)) (rowidx V m)) ++
     write_words 10 1 (map show (vals V m)))).
  { unfold write_rb. rewrite <- !app_assoc. reflexivity. }
  rewrite E. clear E. unfold read_rb.
  rewrite lines_app by (apply one_line_app; split; auto; apply one_line_app; split; auto; intros [X|[]]; discriminate).
  rewrite lines_app by auto. rewrite lines_app.
  2:{ intros X. cbn in X. destruct X as [X|[X|[X|[X|X]]]]; try discriminate. exact (G _ F3 X). }
  rewrite lines_app.
  2:{ cbn [join]. repeat (apply one_line_app; split); auto; intros X; cbn in X; intuition discriminate. }
  set (pws := map (fun x => print_Z (x + 1)) (colptr V m)). set (iws := map (fun x => print_Z (x + 1)) (rowidx V m)). set (vws := map show (vals V m)).
  assert (Wn : forall l, Forall (fun x => 0 <= x < int_max)%Z l -> Forall word (map (fun x => print_Z (x + 1)) l)).
  { intros l Fl. apply Forall_forall. intros s Hs. apply in_map_iff in Hs. destruct Hs as (x & <- & Hx). rewrite Forall_forall in Fl. apply print_word. specialize (Fl x Hx). lia. }
  assert (Wv : Forall word vws).
  { apply Forall_forall. intros s Hs. apply in_map_iff in Hs. destruct Hs as (x & <- & Hx). rewrite Forall_forall in Fv. apply (Fv x Hx). }
  destruct (lines_words 16 pws ltac:(lia) (Wn _ Fp) 1 [] (write_words 16 1 iws ++ write_words 10 1 vws)) as (lp & P1 & P2 & P3); auto.
  destruct (lines_words 16 iws ltac:(lia) (Wn _ Fi) 1 [] (write_words 10 1 vws)) as (li & I1 & I2 & I3); auto.
  destruct (lines_words 10 vws ltac:(lia) Wv 1 [] []) as (lv & V1 & V2 & V3); auto.
  cbn [length Nat.add app] in P2, P3, I2, I3, V2, V3. unfold pws in P2 at 1. unfold iws in I2 at 1. unfold vws in V2 at 1. rewrite map_length in P2, I2, V2. fold p in P2. fold i in I2. fold v in V2.
  rewrite app_nil_r in V1. change (lines []) with (@nil text) in V1. rewrite app_nil_r in V1.
  change (spaced_words []) with (@nil ascii) in P1, I1, V1.
  fold (lines (write_words 16 1 pws ++ write_words 16 1 iws ++ write_words 10 1 vws)) in P1.
  fold (lines (write_words 16 1 iws ++ write_words 10 1 vws)) in I1. fold (lines (write_words 10 1 vws)) in V1.
  rewrite P1, I1, V1.
  pose proof (read_ints_ok zs2 F2 [] eq_refl) as R2. cbn [app] in R2. change (length zs2) with 5 in R2. rewrite R2. cbn [fbind].
  assert (Wh : words (rua ++ blank :: numbers zs3) = rua :: words (numbers zs3)) by (apply words_word; [split; [discriminate|reflexivity]|reflexivity]).
  rewrite Wh. cbn [rua]. change (upper "R" "r" "R" && upper "U" "u" "U" && upper "A" "a" "A") with true. cbn iota.
  pose proof (read_ints_ok zs3 F3 [blank] eq_refl) as R3. change (length zs3) with 4 in R3.
  change (skipn 3 (drop_spaces (rua ++ blank :: numbers zs3))) with ([blank] ++ numbers zs3). rewrite R3. cbn [fbind].
  unfold zs2, zs3. cbn [nth]. change (0 <? Z.of_nat 0)%Z with false. cbn iota.
  assert (Xp : forall l, Forall (fun x => 0 <= x < int_max)%Z l -> Forall2 (fun s x => (let? z := stoi s in FOk (z - 1)%Z) = FOk x) (map (fun x => print_Z (x + 1)) l) l).
  { intros l Fl. apply Forall2_map. revert Fl. apply Forall_impl. intros x Hx. apply read_index. exact Hx. }
  rewrite <- P2. rewrite (read_words_ok _ lp pws (colptr V m)) by (auto; try lia; apply Xp; auto). cbn [fbind].
  rewrite <- I2. rewrite (read_words_ok _ li iws (rowidx V m)) by (auto; try lia; apply Xp; auto). cbn [fbind].
  pose proof (read_words_ok (fun s => FOk (scan s)) lv vws (vals V m) (Z.of_nat (length (vals V m))) []) as Rv. rewrite app_nil_r in Rv. rewrite V2 in Rv. rewrite Rv; auto; try lia.
  - cbn [fbind]. rewrite Ln, Lp, Li, !Z.eqb_refl. cbn [andb]. destruct m; reflexivity.
  - apply Forall2_map. revert Fv. apply Forall_impl. intros x (_ & S). f_equal. apply (S []). reflexivity.
Qed.
End Values.
