(** C44: writing a tensor to a file and reading it back.  The values are of any type, with
    any texts; [survives] says that the text of a value is read as the value. *)
From Coq Require Import String List ZArith Lia Bool Ascii.
From Verif Require Import Parser ParserSpec ParserLex FileIO FileIOSpec FileIOProofs FileIOMore FileIORB.
Import ListNotations.
Local Open Scope nat_scope.
Definition txt (s : string) : text := list_ascii_of_string s.

(** FROSTT (.tns): the components that were written are read, in their order; every
    dimension is the least that all coordinates are below. *)
Theorem C44_tns : forall V (show : V -> text) scan order cs,
  cs <> [] -> valid order cs -> Forall (survives show scan) (map snd cs) ->
  exists dims, read_tns V scan (write_tns V show cs) = FOk (Some (dims, cs)) /\
    length dims = order /\ within dims cs /\ last_slices dims cs.
Proof. intros. apply tns_ok; auto. Qed.
Print Assumptions C44_tns.
(** The file has one line for each component. *)
Theorem C44_tns_format : forall V (show : V -> text) cs, write_tns V show cs = concat (map (component_line show) cs).
Proof. intros. symmetry. apply write_lines_spec. Qed.
Print Assumptions C44_tns_format.
(** So the dimensions of the tensor that was written are recovered exactly when its last
    slice in every mode has a component. *)
Theorem C44_tns_dimensions : forall V (show : V -> text) scan dims cs,
  cs <> [] -> valid (length dims) cs -> within dims cs -> Forall (survives show scan) (map snd cs) ->
  exists dims', read_tns V scan (write_tns V show cs) = FOk (Some (dims', cs)) /\ (dims' = dims <-> last_slices dims cs).
Proof.
  intros V show scan dims cs N Va W S. destruct (tns_ok show scan (length dims) cs N Va S) as (d & E & L & Wd & Ld).
  exists d. split; auto. apply dims_tight; auto.
Qed.
Print Assumptions C44_tns_dimensions.

(** MatrixMarket coordinate files: the components and the dimensions that were written. *)
Theorem C44_mtx : forall V (show : V -> text) scan dims cs,
  dims <> [] -> Forall (fun d => 0 < d <= int_max)%Z dims -> cs <> [] -> (Z.of_nat (length cs) <= int_max)%Z ->
  valid (length dims) cs -> Forall (survives show scan) (map snd cs) ->
  read_mtx V scan (write_sparse V show dims (Z.of_nat (length cs)) cs) = FOk (Some (dims, cs)).
Proof.
  intros V show scan dims cs N D Nc B Va S. rewrite write_sparse_file by auto.
  rewrite (mtx_coordinate show scan false [["%"%char]]) by (auto; try discriminate; repeat constructor; exists [], []; cbn; intuition discriminate).
  rewrite mirror_false. reflexivity.
Qed.
Print Assumptions C44_mtx.
(** Any comment lines may follow the header; in a symmetric file a component off the
    diagonal also stands for the one across it. *)
Theorem C44_mtx_file : forall V (show : V -> text) scan (symmetric : bool) comments dims cs,
  dims <> [] -> Forall (fun d => 0 < d <= int_max)%Z dims -> cs <> [] -> (Z.of_nat (length cs) <= int_max)%Z ->
  (symmetric = true -> length dims = 2) -> Forall comment comments ->
  valid (length dims) cs -> Forall (survives show scan) (map snd cs) ->
  read_mtx V scan (coordinate_file show (txt (if symmetric then "symmetric" else "general")) comments dims cs) =
    FOk (Some (dims, if symmetric then symmetric_of cs else cs)).
Proof.
  intros V show scan s comments dims cs N D Nc B Sy C Va S.
  replace (txt (if s then "symmetric" else "general")) with (if s then symmetric_word else general_word) by (destruct s; reflexivity).
  rewrite mtx_coordinate by auto. destruct s; [|rewrite mirror_false; reflexivity].
  rewrite mirror_true; [reflexivity|]. revert Va. apply Forall_impl. intros c [L _]. rewrite L. apply Sy. reflexivity.
Qed.
Print Assumptions C44_mtx_file.
(** MatrixMarket array files: the values are those of the components in the order in which
    the first coordinate varies fastest. *)
Theorem C44_array : forall V (show : V -> text) scan comments dims values,
  dims <> [] -> Forall (fun d => 0 < d <= int_max)%Z dims ->
  Z.of_nat (length values) = fold_left Z.mul dims 1%Z -> (Z.of_nat (length values) <= int_max)%Z ->
  Forall comment comments -> Forall (survives show scan) values ->
  exists cs, read_mtx V scan (array_file show (txt "general") comments dims values) = FOk (Some (dims, cs)) /\
    map snd cs = values /\
    forall n c, nth_error cs n = Some c ->
      length (fst c) = length dims /\ column_major dims (fst c) = Z.of_nat n /\
      forall k, k < length dims -> (0 <= nth k (fst c) 0 < nth k dims 0)%Z.
Proof.
  intros V show scan comments dims values N D L B C S.
  pose proof (mtx_array show scan false comments dims values N D L B ltac:(discriminate) C S) as E. rewrite mirror_false in E.
  exists (combine (map (fun n => unrank dims (Z.of_nat n)) (seq 0 (length values))) values). split; [exact E|].
  assert (Len : length (map (fun n => unrank dims (Z.of_nat n)) (seq 0 (length values))) = length values) by (rewrite map_length, seq_length; reflexivity).
  split.
  - clear -Len. revert Len. generalize (map (fun n => unrank dims (Z.of_nat n)) (seq 0 (length values))). intros l. revert l.
    induction values as [|v vs IH]; intros [|x l] H; try discriminate; auto. cbn. rewrite IH; auto.
  - intros n [x v] Hn.
    assert (X : n < length values /\ x = unrank dims (Z.of_nat n)).
    { assert (Hc : n < length (combine (map (fun n => unrank dims (Z.of_nat n)) (seq 0 (length values))) values)) by (apply nth_error_Some; intros X0; pose proof (eq_trans (eq_sym X0) Hn) as X1; discriminate X1).
      rewrite combine_length, Len, Nat.min_id in Hc. split; auto.
      pose proof (eq_trans (eq_sym (combine_nth (map (fun n => unrank dims (Z.of_nat n)) (seq 0 (length values))) values n x v Len)) (nth_error_nth _ _ (x, v) Hn)) as Hm. inversion Hm as [[H1 H2]].
      rewrite (nth_indep _ x (unrank dims (Z.of_nat 0))) by (rewrite Len; auto).
      rewrite (map_nth (fun n => unrank dims (Z.of_nat n)) (seq 0 (length values)) 0), seq_nth by auto. reflexivity. }
    destruct X as [Hl ->]. cbn [fst]. apply unrank_rank; auto; [|lia].
    revert D. apply Forall_impl. intros; lia.
Qed.
Print Assumptions C44_array.

(** Rutherford-Boeing: the compressed sparse column arrays that were written are read, for
    any title, name and number formats. *)
Theorem C44_rb : forall V (show : V -> text) scan title key ptrfmt indfmt valfmt m,
  one_line title -> one_line key -> one_line ptrfmt -> one_line indfmt -> one_line valfmt -> ok_csc show scan m ->
  read_rb V scan (write_rb V show title key ptrfmt indfmt valfmt m) = FOk m.
Proof. intros. apply rb_ok; auto. Qed.
Print Assumptions C44_rb.

(** Every integer survives. *)
Theorem C44_integers : forall z, survives print_Z scan_Z z.
Proof. exact survives_Z. Qed.
Print Assumptions C44_integers.

(** *** Instances *)
Local Open Scope Z_scope.
Definition sample : list (component Z) := [([0; 2], 5); ([1; 0], -7); ([1; 2], 40)].
Example C44_sample_ok : sample <> [] /\ valid 2 sample /\ within [3; 3] sample /\ ~ last_slices [3; 3] sample /\ last_slices [2; 3] sample /\
  Forall (survives print_Z scan_Z) (map snd sample).
Proof.
  split; [discriminate|]. split; [unfold valid, sample, int_max; repeat constructor; lia|].
  split; [intros [|[|k]] K c Hc; cbn in K; try lia; cbn in Hc; intuition (subst; cbn; lia)|].
  split; [intros L; destruct (L 0%nat ltac:(cbn; lia)) as (c & Hc & E); cbn in Hc, E; intuition (subst; discriminate)|].
  split; [intros [|[|k]] K; cbn in K; try lia; [exists ([1; 0], -7)|exists ([0; 2], 5)]; cbn; auto|].
  repeat constructor; try apply survives_Z; intros; apply survives_Z; auto.
Qed.
Definition nl : text := [newline].
Example C44_tns_text : write_tns Z print_Z sample = txt "1 3 5" ++ nl ++ txt "2 1 -7" ++ nl ++ txt "2 3 40" ++ nl /\
  read_tns Z scan_Z (write_tns Z print_Z sample) = FOk (Some ([2; 3], sample)).
Proof. split; vm_compute; reflexivity. Qed.
Example C44_mtx_text : read_mtx Z scan_Z (txt "%%MatrixMarket matrix coordinate real symmetric" ++ nl ++ txt "% a comment" ++ nl ++
  txt "3 3 2" ++ nl ++ txt "2 1 10" ++ nl ++ txt "3 3 4" ++ nl) = FOk (Some ([3; 3], [([1; 0], 10); ([0; 1], 10); ([2; 2], 4)])).
Proof. vm_compute; reflexivity. Qed.
Definition csc_sample : csc Z := Csc Z 3 2 [0; 1; 3] [1; 0; 2] [5; 6; 7].
Example C44_rb_ok : ok_csc print_Z scan_Z csc_sample /\ one_line (txt "CSC Matrix written by taco").
Proof.
  split.
  - unfold ok_csc, csc_sample, int_max; cbn.
    repeat (split; [try lia; auto; repeat constructor; lia|]).
    repeat constructor; try apply survives_Z; intros; apply survives_Z; auto.
  - intros H. cbn in H. intuition discriminate.
Qed.

(** *** What is lost *)
(** A tensor without components is written to .tns as nothing, and read as a default
    tensor, whatever its dimensions. *)
Theorem C44_empty_refuted : forall V (show : V -> text) scan, read_tns V scan (write_tns V show []) = FOk None.
Proof. reflexivity. Qed.
Print Assumptions C44_empty_refuted.
(** Empty last slices are lost: a 3 by 3 matrix is read as a 2 by 3 matrix. *)
Theorem C44_slices_refuted : exists (dims : list Z) (cs : list (component Z)), within dims cs /\ valid 2 cs /\
  exists dims', read_tns Z scan_Z (write_tns Z print_Z cs) = FOk (Some (dims', cs)) /\ dims' <> dims.
Proof.
  exists [3; 3], sample. destruct C44_sample_ok as (_ & V & W & _). split; auto. split; auto.
  exists [2; 3]. split; [vm_compute; reflexivity|discriminate].
Qed.
Print Assumptions C44_slices_refuted.
(** A .tns file with tabs between the columns is read as a scalar, with the first coordinate
    for its value. *)
Theorem C44_tabs_refuted : let tab := [ascii_of_nat 9] in
  read_tns Z scan_Z (txt "1" ++ tab ++ txt "3" ++ tab ++ txt "5" ++ nl) = FOk (Some ([], [([], 1)])).
Proof. vm_compute; reflexivity. Qed.
Print Assumptions C44_tabs_refuted.
(** Coordinates start at 1 in files; smaller ones are not reported and give components at
    negative coordinates. *)
Theorem C44_negative_refuted :
  read_tns Z scan_Z (txt "2 3 5" ++ nl ++ txt "0 -4 6" ++ nl) = FOk (Some ([2; 3], [([1; 2], 5); ([-1; -5], 6)])).
Proof. vm_compute. reflexivity. Qed.
Print Assumptions C44_negative_refuted.
(** The documentation of the format (tensor.h 712-715) has comment lines that begin with #.  They
    are read as components: this file of a matrix is read as a tensor of order 3, with a
    component at negative coordinates. *)
Theorem C44_comment_refuted :
  read_tns Z scan_Z (txt "# a small matrix" ++ nl ++ txt "1 3 5" ++ nl) =
  FOk (Some ([1; 3; 5], [([-1; -1; -1], 0); ([0; 2; 4], 0)])).
Proof. vm_compute. reflexivity. Qed.
Print Assumptions C44_comment_refuted.

(** An mtx file without components: the number zero of components is dropped as the last
    dimension would be, and the matrix is not read. *)
Theorem C44_mtx_empty_refuted : read_mtx Z scan_Z (write_sparse Z print_Z [3; 4] 0 []) = FUndefined.
Proof. vm_compute. reflexivity. Qed.
Print Assumptions C44_mtx_empty_refuted.
(** A dense matrix is written row by row and read column by column. *)
Theorem C44_dense_refuted :
  read_mtx Z scan_Z (write_dense Z print_Z [2; 3] [11; 12; 13; 21; 22; 23]) =
  FOk (Some ([2; 3], [([0; 0], 11); ([1; 0], 12); ([0; 1], 13); ([1; 1], 21); ([0; 2], 22); ([1; 2], 23)])).
Proof. vm_compute; reflexivity. Qed.
Print Assumptions C44_dense_refuted.
(** A scalar written as an array cannot be read back. *)
Theorem C44_scalar_refuted : read_mtx Z scan_Z (write_dense Z print_Z [] [7]) = FUndefined.
Proof. vm_compute; reflexivity. Qed.
Print Assumptions C44_scalar_refuted.
(** The format's symmetric array files, which hold the lower triangle, are read past their
    end. *)
Theorem C44_triangle_refuted : read_mtx Z scan_Z (array_file print_Z (txt "symmetric") [] [2; 2] [1; 2; 3]) = FUndefined.
Proof. vm_compute; reflexivity. Qed.
Print Assumptions C44_triangle_refuted.
(** Values of type double are written with six digits: whatever reads the file, some value
    is not read as it was written. *)
Theorem C44_digits_refuted : forall scan : text -> Z, exists cs : list (component Z), Forall (fun c => (0 <= snd c < 2 ^ 53)%Z) cs /\ read_tns Z scan (write_tns Z show_g cs) <> FOk (Some ([1], cs)).
Proof.
  intros scan.
  assert (E : forall z, z = 1234567 \/ z = 1234568 ->
    read_tns Z scan (write_tns Z show_g [([0], z)]) = FOk (Some ([1], [([0], scan (txt " 1.23457e+06"))]))) by (intros z [-> | ->]; vm_compute; reflexivity).
  destruct (Z.eq_dec (scan (txt " 1.23457e+06")) 1234567) as [X|X]; [exists [([0], 1234568)]|exists [([0], 1234567)]]; (split; [repeat constructor; cbn [snd]; lia|]); rewrite E by lia; intros Y; inversion Y; congruence.
Qed.
Print Assumptions C44_digits_refuted.
Example C44_digits_example : List.map show_g [40; 999999; 1000000; 1234567; 9999996; 120000000] = map txt ["40"; "999999"; "1e+06"; "1.23457e+06"; "1e+07"; "1.2e+08"]%string.
Proof. vm_compute; reflexivity. Qed.
