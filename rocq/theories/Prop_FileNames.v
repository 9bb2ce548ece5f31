(** C75: reading and writing tensors by file name.  The values are of any type, with any
    texts, and the environment is any: the files, which of them may be written, the home
    directory, and whether internal assertions are compiled in. *)
From Coq Require Import String List ZArith Lia Bool Ascii.
From Verif Require Import Parser FileIO FileIOSpec FileIOProofs FileIOMore FileNames FileNamesSpec FileNamesProofs.
Import ListNotations.
Local Open Scope nat_scope.
Local Notation chars := list_ascii_of_string.

(** A tensor that the format of the file's suffix can hold (C44), written under a name, is
    read back under that name, in the file that the path stands for; it is named after the
    file, and no other file changes. *)
Theorem C75_round_trip : forall V (show : V -> text) scan show_rb title key ptrfmt indfmt valfmt asserts home fs stem s k p w t c name,
  suffix s k -> stands_for home (stem ++ s) p -> may_write fs p = true -> names (stem ++ s) name ->
  (k = Mtx -> List.length (dims V t) = 2) ->
  one_line title -> one_line key -> one_line ptrfmt -> one_line indfmt -> one_line valfmt ->
  gives_back show scan show_rb t k w c ->
  exists fs', write_named V show show_rb title key ptrfmt indfmt valfmt asserts home fs (stem ++ s) t = (fs', FOk tt) /\
    same_but p fs fs' /\ read_named V scan home fs' w (stem ++ s) = FOk (name, c).
Proof. intros. eapply round_trip; eauto. Qed.
Print Assumptions C75_round_trip.

(** Reading by name is reading a file of the type of the suffix, whatever the files hold. *)
Theorem C75_read : forall V scan home fs w stem s k name, suffix s k -> names (stem ++ s) name ->
  read_named V scan home fs w (stem ++ s) = (let? c := read_as V scan home fs k w (stem ++ s) in FOk (name, c)).
Proof. intros. unfold read_named. now rewrite (suffix_type stem s k), (names_ok _ name). Qed.
Print Assumptions C75_read.

(** Writing by name is writing a file of the type of the suffix; a tensor that is not a matrix
    is not written to a .mtx file when assertions are compiled in. *)
Theorem C75_write : forall V (show : V -> text) show_rb title key ptrfmt indfmt valfmt asserts home fs stem s k t, suffix s k ->
  write_named V show show_rb title key ptrfmt indfmt valfmt asserts home fs (stem ++ s) t =
    write_as V show show_rb title key ptrfmt indfmt valfmt asserts home fs k (stem ++ s) t \/
  (k = Mtx /\ asserts = true /\ List.length (dims V t) <> 2 /\
   write_named V show show_rb title key ptrfmt indfmt valfmt asserts home fs (stem ++ s) t = (fs, FThrow)).
Proof.
  intros V show show_rb title key ptrfmt indfmt valfmt asserts home fs stem s k t H. unfold write_named.
  rewrite (suffix_type stem s k H). destruct k; auto.
  destruct asserts; cbn [andb]; auto. destruct (Nat.eqb_spec (List.length (dims V t)) 2); cbn [negb]; auto.
Qed.
Print Assumptions C75_write.

(** Whatever the outcome, a file other than the one the path stands for stays as it was. *)
Theorem C75_other_files : forall V (show : V -> text) show_rb title key ptrfmt indfmt valfmt asserts home fs path t fs' r,
  write_named V show show_rb title key ptrfmt indfmt valfmt asserts home fs path t = (fs', r) ->
  same_files fs fs' \/ exists p, stands_for home path p /\ same_but p fs fs'.
Proof.
  intros until r. intros E. apply wnamed_frame in E as [->|E]; auto. left. split; auto.
Qed.
Print Assumptions C75_other_files.

(** A name with none of the suffixes, and that is not one of them without its dot, is an
    error, and no file changes. *)
Theorem C75_unknown : forall V (show : V -> text) scan show_rb title key ptrfmt indfmt valfmt asserts home fs path w t,
  ~ known path -> ~ known ("."%char :: path) ->
  write_named V show show_rb title key ptrfmt indfmt valfmt asserts home fs path t = (fs, FThrow) /\
  read_named V scan home fs w path = FThrow.
Proof.
  intros V show scan show_rb title key ptrfmt indfmt valfmt asserts home fs path w t N M.
  unfold write_named, read_named. destruct (type_of (extension path)) as [k|] eqn:T; auto. exfalso.
  apply type_known in T as [(stem & s & H & E)|(s & H & E)].
  - apply N. exists stem, s, k. auto.
  - apply M. exists [], s, k. rewrite E. auto.
Qed.
Print Assumptions C75_unknown.

(** A file that is not there is an error. *)
Theorem C75_missing : forall V scan home fs path p w, stands_for home path p -> holds fs p = None ->
  read_named V scan home fs w path = FThrow.
Proof.
  intros V scan home fs path p w S H. unfold read_named, read_as. rewrite (stands_sanitize _ _ _ S).
  destruct (type_of (extension path)) as [[]|]; destruct w; cbn [fbind]; try rewrite H; reflexivity.
Qed.
Print Assumptions C75_missing.

(** Refusals: a file that may not be written stays as it is; only CSC matrices are written to
    .rb files, and .rb files are only read into CSC matrices. *)
Theorem C75_refused : forall V (show : V -> text) scan show_rb title key ptrfmt indfmt valfmt asserts home fs stem s k p w t,
  suffix s k -> stands_for home (stem ++ s) p ->
  (may_write fs p = false ->
     write_named V show show_rb title key ptrfmt indfmt valfmt asserts home fs (stem ++ s) t = (fs, FThrow)) /\
  (k = Rb -> columns V t = None ->
     snd (write_named V show show_rb title key ptrfmt indfmt valfmt asserts home fs (stem ++ s) t) = FThrow) /\
  (k = Rb -> w <> TheFormat true -> forall r, read_named V scan home fs w (stem ++ s) <> FOk r).
Proof.
  intros V show scan show_rb title key ptrfmt indfmt valfmt asserts home fs stem s k p w t H S.
  unfold write_named, read_named, write_as, write_open, read_as. rewrite (suffix_type stem s k H), (stands_sanitize _ _ _ S). split; [|split].
  - intros ->. destruct k; auto; destruct (asserts && _); auto.
  - intros -> C. destruct (asserts && _); auto. destruct (may_write fs p); auto. cbn. now rewrite C.
  - intros -> N r. destruct w as [|[|]]; [discriminate|congruence|]. cbn. destruct (holds fs p) as [x|]; [|discriminate].
    cbn. destruct (read_rb V scan x); discriminate.
Qed.
Print Assumptions C75_refused.

(** The tensor's name is a C identifier when the file's base name is made of letters, digits,
    underscores and dashes, and begins with a letter or an underscore. *)
Theorem C75_identifier : forall path base name c r,
  base_name path base -> underscores base name -> base = c :: r -> letter c ->
  Forall (fun x => letter x \/ digit x \/ x = "-"%char) r -> tensor_name path = name /\ identifier name.
Proof.
  intros path base name c r B U E L F. split; [apply names_ok; exists base; auto|]. subst base.
  inversion U as [|a b l m H1 H2]; subst. exists b, m. split; auto. split.
  - destruct H1 as [[-> ->]|[_ ->]]; auto. apply In_nth_error in L. cbn. tauto.
  - clear U B H1 L. revert m H2. induction F as [|x l Hx F IH]; intros m H2; inversion H2 as [|a2 b2 l2 m2 H3 H4]; subst; constructor; auto.
    destruct H3 as [[-> ->]|[N ->]]; [left; cbn; tauto|]. destruct Hx as [Hx|[Hx|Hx]]; auto. congruence.
Qed.
Print Assumptions C75_identifier.

(** *** Findings *)
(** A failed write destroys the file: a matrix that is not in CSC format cannot be written to
    a .rb file, but the file has been emptied when that is found out. *)
Theorem C75_failed_write_refuted : forall V (show : V -> text) show_rb title key ptrfmt indfmt valfmt asserts home fs stem p t old,
  stands_for home (stem ++ chars ".rb") p -> may_write fs p = true -> holds fs p = Some old ->
  List.length (dims V t) = 2 -> columns V t = None ->
  exists fs', write_named V show show_rb title key ptrfmt indfmt valfmt asserts home fs (stem ++ chars ".rb") t = (fs', FThrow) /\
    holds fs' p = Some [].
Proof.
  intros V show show_rb title key ptrfmt indfmt valfmt asserts home fs stem p t old S M H L C. exists (set_file fs p []).
  split; [|apply set_holds]. unfold write_named. rewrite (suffix_type stem _ _ suffix_rb). unfold write_as.
  rewrite L, andb_false_r. unfold write_open. rewrite (stands_sanitize _ _ _ S), M. cbn. now rewrite C.
Qed.
Print Assumptions C75_failed_write_refuted.

(** A file called "tns", without a dot, is taken for a .tns file. *)
Theorem C75_no_dot_refuted : ~ known (chars "tns") /\
  forall V (show : V -> text) show_rb title key ptrfmt indfmt valfmt asserts home fs t, may_write fs (chars "tns") = true ->
  snd (write_named V show show_rb title key ptrfmt indfmt valfmt asserts home fs (chars "tns") t) = FOk tt.
Proof.
  split.
  - intros (stem & s & k & H & E). assert (List.length (chars "tns") = List.length stem + List.length s) by (rewrite E, app_length; auto).
    destruct H; cbn in *; try lia; destruct stem as [|? [|]]; cbn in *; congruence || lia.
  - intros. unfold write_named. cbn. unfold write_open. cbn. cbn in H. rewrite H. reflexivity.
Qed.
Print Assumptions C75_no_dot_refuted.

(** Files in different directories, or whose names differ in dashes or after the first dot,
    give tensors of one name; two such tensors in one expression do not compile (C69). *)
Theorem C75_same_name_refuted : forall name,
  In name (map tensor_name (map chars ["a/m.tns"; "b/m.tns"; "m.rows.tns"; "m.cols.mtx"]%string)) -> name = chars "m".
Proof. cbn. intros name H. intuition (subst; reflexivity). Qed.
Print Assumptions C75_same_name_refuted.

(** Names that are not identifiers *)
Theorem C75_not_identifier_refuted : Forall (fun path => known path /\ ~ identifier (tensor_name path))
  (map chars ["2d.tns"; ".tns"; "my data.tns"; "x+y.mtx"]%string).
Proof.
  repeat constructor.
  - exists (chars "2d"), (chars ".tns"), Tns. split; [constructor|reflexivity].
  - intros (c & r & E & L & _). cbn in E. injection E as <- <-. cbn in L. intuition discriminate.
  - exists [], (chars ".tns"), Tns. split; [constructor|reflexivity].
  - intros (c & r & E & _). discriminate.
  - exists (chars "my data"), (chars ".tns"), Tns. split; [constructor|reflexivity].
  - intros (c & r & E & _ & F). cbn in E. injection E as <- <-. apply Forall_inv_tail, Forall_inv in F. unfold letter, digit in F. cbn in F. intuition discriminate.
  - exists (chars "x+y"), (chars ".mtx"), Mtx. split; [constructor|reflexivity].
  - intros (c & r & E & _ & F). cbn in E. injection E as <- <-. apply Forall_inv in F. unfold letter, digit in F. cbn in F. intuition discriminate.
Qed.
Print Assumptions C75_not_identifier_refuted.

(** A path that begins with a tilde is undefined behaviour when HOME is not set. *)
Theorem C75_home_refuted : forall V scan fs w stem, read_named V scan None fs w (("~"%char :: stem) ++ chars ".tns") = FUndefined.
Proof.
  intros. unfold read_named. rewrite (suffix_type _ _ _ suffix_tns). destruct w; reflexivity.
Qed.
Print Assumptions C75_home_refuted.
(** ~name is not the home directory of another user but a path that begins like one's own. *)
Theorem C75_user_refuted : sanitize (Some (chars "/home/ann")) (chars "~bob/x.tns") = FOk (chars "/home/annbob/x.tns").
Proof. reflexivity. Qed.
Print Assumptions C75_user_refuted.

(** *** Instances *)
Local Open Scope Z_scope.
Definition example_files : files := Files (fun _ => None) (fun p => negb (text_eqb p (chars "/etc/x.tns"))).
Definition example_path : text := chars "~/data/my-matrix.v2".
Definition example_source : source Z :=
  Source Z [2; 3] [([0; 2], 5); ([1; 0], -7); ([1; 2], 40)] 3 false
    (Some (Csc Z 2 3 [0; 1; 1; 3] [1; 0; 1] [-7; 5; 40])).
Example C75_stands : stands_for (Some (chars "/home/ann")) (example_path ++ chars ".tns") (chars "/home/ann/data/my-matrix.v2.tns").
Proof. right. exists (chars "/home/ann"), (chars "/data/my-matrix.v2.tns"). auto. Qed.
Example C75_names : names (example_path ++ chars ".tns") (chars "my_matrix").
Proof.
  exists (chars "my-matrix"). split.
  - exists (chars "~/data/"), (chars "v2.tns"). split; [reflexivity|]. split; [right; exists (chars "~/data"); reflexivity|].
    repeat split; cbn; intuition discriminate.
  - repeat (constructor; [first [left; split; reflexivity|right; split; [discriminate|reflexivity]]|]). constructor.
Qed.
Example C75_back : forall k w, k = Tns \/ k = Mtx ->
  gives_back print_Z scan_Z print_Z example_source k w (Components Z [2; 3] (comps Z example_source)).
Proof.
  assert (S : Forall (survives print_Z scan_Z) (map snd (comps Z example_source))) by (repeat constructor; try apply survives_Z; intros; apply survives_Z; auto).
  assert (Va : valid 2 (comps Z example_source)) by (unfold valid, int_max; repeat constructor; cbn; lia).
  intros k w [-> | ->].
  - apply back_tns; auto; [discriminate| |].
    + intros [|[|k]] K c Hc; cbn in K; try lia; cbn in Hc; intuition (subst; cbn; lia).
    + intros [|[|k]] K; cbn in K; try lia; [exists ([1; 0], -7)|exists ([0; 2], 5)]; cbn; auto.
  - apply (back_mtx print_Z scan_Z print_Z example_source); auto; try discriminate; unfold int_max; repeat constructor; cbn; lia.
Qed.
Example C75_back_rb : gives_back print_Z scan_Z print_Z example_source Rb (TheFormat true) (Columns Z (Csc Z 2 3 [0; 1; 1; 3] [1; 0; 1] [-7; 5; 40])).
Proof.
  apply back_rb; [reflexivity| |reflexivity]. unfold ok_csc, int_max. cbn [rows cols colptr rowidx vals].
  repeat split; try lia; try reflexivity; try (repeat constructor; lia); try (vm_compute; discriminate).
  repeat constructor; try apply survives_Z; intros; apply survives_Z; auto.
Qed.
(** Run *)
Example C75_run : let (fs, r) := write_named Z print_Z print_Z [] [] [] [] [] true (Some (chars "/home/ann")) example_files (example_path ++ chars ".mtx") example_source in
  r = FOk tt /\ read_named Z scan_Z None fs AllModes (chars "/home/ann/data/my-matrix.v2.mtx") = FOk (chars "my_matrix", Components Z [2; 3] (comps Z example_source)).
Proof. vm_compute. split; reflexivity. Qed.
Example C75_unknown_instance : ~ known (chars "x.txt") /\ ~ known (chars ".x.txt").
Proof.
  assert (N : forall s k, suffix s k -> List.last s "a"%char <> "t"%char) by (intros s k []; cbn; discriminate).
  assert (N2 : forall s k, suffix s k -> s <> []) by (intros s k []; discriminate).
  assert (M : forall p, List.last p "a"%char = "t"%char -> ~ known p).
  { intros p L (stem & s & k & H & ->). apply (N s k H). destruct (exists_last (N2 s k H)) as (s' & x & E). subst s.
    rewrite app_assoc, last_last in L. rewrite last_last. auto. }
  split; apply M; reflexivity.
Qed.
