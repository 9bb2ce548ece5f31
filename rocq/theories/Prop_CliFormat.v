(** C72: the options -f and -d of the command line tool mean what its usage
    message says. *)
From Coq Require Import String.
From Coq Require Import List ZArith Bool Ascii Lia Sorting.Permutation.
Import ListNotations.
From Verif Require Import Parser FileIO Formats CliFormat CliFormatSpec CliFormatProofs.
Local Open Scope nat_scope.

Definition T (s : string) : text := list_ascii_of_string s.

(** name:letters gives every mode the format of its letter, stored in order. *)
Theorem C72_letters : forall name ls ms, cli_name name -> Forall2 letter ls ms -> ms <> [] ->
  format_option (colons [name; ls]) =
  Ok (name, {| cli_packs := map (fun m => [m]) ms;
               cli_ordering := map Z.of_nat (seq 0 (length ms)) |}).
Proof. exact format_two. Qed.
Print Assumptions C72_letters.

(** name:letters:modes also fixes the order of storage; a list of modes of
    another length is refused. *)
Theorem C72_ordering : forall name ls ms o, cli_name name -> Forall2 letter ls ms -> ms <> [] ->
  ints o -> o <> [] ->
  (length o = length ms ->
   format_option (colons [name; ls; commas o]) =
   Ok (name, {| cli_packs := map (fun m => [m]) ms; cli_ordering := o |})) /\
  (length o <> length ms -> format_option (colons [name; ls; commas o]) = Refused).
Proof.
  intros name ls ms o Hn Hl Hm I N.
  split; intros E; (etransitivity; [exact (format_three name ls ms Hn Hl Hm o I N)|]).
  - now rewrite E, Nat.eqb_refl.
  - destruct (length ms =? length o) eqn:K; [|reflexivity]. apply Nat.eqb_eq in K. congruence.
Qed.
Print Assumptions C72_ordering.

(** name:letters:modes:ends groups the modes into packs that end where the list
    of ends says. *)
Theorem C72_groups : forall name ls groups o, cli_name name ->
  Forall2 letter ls (concat groups) -> groups <> [] -> Forall (fun g => g <> []) groups ->
  ints o -> length o = length ls -> (Z.of_nat (length ls) <= int_max)%Z ->
  format_option (colons [name; ls; commas o; commas (ends 0 groups)]) =
  Ok (name, {| cli_packs := groups; cli_ordering := o |}).
Proof.
  intros name ls groups o Hn Hl Hg F I L B.
  assert (Ls : length ls = length (concat groups)) by (clear - Hl; induction Hl; cbn; congruence).
  destruct groups as [|g gs]; [congruence|]. inversion F as [|? ? Ng Fs]; subst.
  assert (Hm : concat (g :: gs) <> []) by (cbn; destruct g; [congruence|discriminate]).
  assert (No : o <> []).
  { intros ->. cbn [length] in L. rewrite Ls in L. cbn in L. destruct g; [congruence|discriminate]. }
  assert (Ib : ints (ends 0 (g :: gs))) by (apply ends_ints; cbn [plus]; now rewrite <- Ls).
  etransitivity; [apply (format_four name ls _ Hn Hl Hm o _ I No Ib); discriminate|].
  pose proof (group_ends gs g [] 0 [] Fs) as G. cbn [app length plus] in G. cbn [concat]. rewrite G.
  cbn [concat] in Ls. rewrite <- Ls, L, Nat.eqb_refl. reflexivity.
Qed.
Print Assumptions C72_groups.
Example C72_groups_example :
  T "B:dsc:2,0,1:1,3" =
    colons [T "B"; T "dsc"; commas [2; 0; 1]%Z;
            commas (ends 0 [[Dense]; [Compressed; copy Singleton [(Unique, false)]]])] /\
  Forall2 letter (T "dsc") (concat [[Dense]; [Compressed; copy Singleton [(Unique, false)]]]) /\
  format_option (T "B:dsc:2,0,1:1,3") =
    Ok (T "B", {| cli_packs := [[Dense]; [Compressed; copy Singleton [(Unique, false)]]];
                  cli_ordering := [2; 0; 1]%Z |}).
Proof. split; [reflexivity|]. split; [repeat constructor|vm_compute; reflexivity]. Qed.

(** Whatever is accepted was written so: the text names the tensor, then gives
    one letter for each mode in order, and there are as many modes in the order of
    storage. *)
Theorem C72_accepted : forall v name f, format_option v = Ok (name, f) ->
  exists k j ls r,
    v = repeat ":"%char k ++ name ++ ":"%char :: repeat ":"%char j ++ ls ++ r /\
    ~ In ":"%char name /\ name <> [] /\ ls <> [] /\
    (r = [] \/ exists r', r = ":"%char :: r') /\
    Forall2 letter ls (concat (cli_packs f)) /\ length (cli_ordering f) = length ls.
Proof.
  intros v name f E. destruct (format_sound v name f E) as (k & j & ls & r & V & [N C] & [Nl Cl] & R & F & L).
  exists k, j, ls, r. repeat split; assumption.
Qed.
Print Assumptions C72_accepted.

(** Unknown letters and wrong numbers of parts end the program with its error
    codes, whatever else the descriptor says. *)
Theorem C72_errors : forall (name ls : text) (rest : list text), Forall (fun p => p <> [] /\ ~ In ":"%char p) (name :: ls :: rest) ->
  (length rest <= 2 -> (exists c, In c ls /\ forall m, ~ letter c m) ->
   format_option (colons (name :: ls :: rest)) = Report 3) /\
  (2 < length rest -> format_option (colons (name :: ls :: rest)) = Report 4) /\
  format_option (colons [name]) = Report 4.
Proof.
  intros name ls rest F. unfold format_option, colons.
  split; [|split].
  - intros L (c & I & W). rewrite split_join by exact F.
    destruct (Nat.ltb_spec 2 (length rest)) as [H|_]; [lia|].
    assert (E : modes_of ls = None) by exact (wrong_letter ls c I W). now rewrite E.
  - intros L. rewrite split_join by exact F.
    destruct (Nat.ltb_spec 2 (length rest)) as [_|H]; [reflexivity|lia].
  - rewrite split_join; [reflexivity|]. inversion F; subst. now repeat constructor.
Qed.
Print Assumptions C72_errors.

(** -d=name:sizes *)
Theorem C72_dimensions : forall name ds, cli_name name -> ints ds -> ds <> [] ->
  dimension_option (colons [name; commas ds]) = Ok (name, ds).
Proof.
  intros name ds N I E. unfold dimension_option, colons. rewrite split_join.
  - now rewrite numbers_commas.
  - constructor; [now apply name_clean|]. constructor; [now apply commas_clean|constructor].
Qed.
Print Assumptions C72_dimensions.

(** On a whole command line every tensor gets the format, and every tensor and
    variable the sizes, of the first option that names it: later options for the
    same name are read but do not count. *)
Theorem C72_first : forall before after v st0 st,
  command_line before = Ok st0 -> v <> [] -> ~ In "="%char v ->
  (forall name f, format_option v = Ok (name, f) -> find name (formats st0) = None ->
   command_line (before ++ option_f v :: after) = Ok st -> find name (formats st) = Some f) /\
  (forall name ds, dimension_option v = Ok (name, ds) -> find name (dimensions st0) = None ->
   command_line (before ++ option_d v :: after) = Ok st -> find name (dimensions st) = Some ds) /\
  (forall name f, find name (formats st0) = Some f ->
   command_line (before ++ after) = Ok st -> find name (formats st) = Some f) /\
  (forall name ds, find name (dimensions st0) = Some ds ->
   command_line (before ++ after) = Ok st -> find name (dimensions st) = Some ds).
Proof.
  intros before after v st0 st B N C. unfold command_line in *. rewrite !arguments_app, B.
  split; [|split; [|split]].
  - intros name f E H. cbn [arguments]. rewrite (argument_f st0 v (name, f) (conj N C) E).
    intros A. apply arguments_keep in A. destruct A as [A _]. apply A. cbn. now apply insert_new.
  - intros name ds E H. cbn [arguments]. rewrite (argument_d st0 v (name, ds) (conj N C) E).
    intros A. apply arguments_keep in A. destruct A as [_ A]. apply A. cbn. now apply insert_new.
  - intros name f H A. apply arguments_keep in A. now apply A.
  - intros name ds H A. apply arguments_keep in A. now apply A.
Qed.
Print Assumptions C72_first.
Example C72_first_example :
  match command_line [T "-f=A:ds"; T "a(i) = A(i,j) * x(j)"; T "--d=i:10"; T "-f=A:dd"] with
  | Ok st => find (T "A") (formats st) = Some {| cli_packs := [[Dense]; [Compressed]]; cli_ordering := [0; 1]%Z |} /\
             find (T "i") (dimensions st) = Some [10%Z]
  | _ => False
  end.
Proof. vm_compute. auto. Qed.

(** Finding: if only the boundaries between packs are listed and the last pack
    has two modes or more, the program reads behind the end of that list. *)
Theorem C72_bounds_refuted : forall name ls groups last o, cli_name name ->
  Forall2 letter ls (concat (groups ++ [last])) -> groups <> [] ->
  Forall (fun g => g <> []) groups -> 2 <= length last ->
  ints o -> length o = length ls -> (Z.of_nat (length ls) <= int_max)%Z ->
  format_option (colons [name; ls; commas o; commas (ends 0 groups)]) = Undefined.
Proof.
  intros name ls groups last o Hn Hl Hg F Hlast I L B.
  assert (Ls : length ls = length (concat (groups ++ [last]))) by (clear - Hl; induction Hl; cbn; congruence).
  destruct groups as [|g gs]; [congruence|]. inversion F as [|? ? Ng Fs]; subst.
  assert (Hm : concat ((g :: gs) ++ [last]) <> []) by (cbn; destruct g; [congruence|discriminate]).
  assert (No : o <> []).
  { intros ->. cbn [length] in L. rewrite Ls in L. cbn in L. destruct g; [congruence|discriminate]. }
  assert (Ib : ints (ends 0 (g :: gs))).
  { apply ends_ints. cbn [plus]. rewrite concat_app, app_length in Ls. lia. }
  etransitivity; [apply (format_four name ls _ Hn Hl Hm o _ I No Ib); discriminate|].
  pose proof (group_inner gs last g [] 0 [] Fs Hlast) as G. cbn [app length plus] in G.
  cbn [concat app]. now rewrite G.
Qed.
Print Assumptions C72_bounds_refuted.
Example C72_bounds_refuted_example : format_option (T "B:dss:0,1,2:1") = Undefined.
Proof. vm_compute. reflexivity. Qed.

(** Finding: no descriptor gives a scalar its format.  Empty parts are dropped,
    so a descriptor without letters is refused, or its modes are read as
    letters. *)
Theorem C72_scalar_refuted :
  (forall v name f, format_option v = Ok (name, f) -> concat (cli_packs f) <> []) /\
  format_option (T "a:") = Report 4 /\ format_option (T "a::0") = Report 3.
Proof.
  split; [|split; vm_compute; reflexivity].
  intros v name f E. destruct (format_sound v name f E) as (k & j & ls & r & V & _ & [N _] & _ & F & _).
  intros C. rewrite C in F. inversion F. congruence.
Qed.
Print Assumptions C72_scalar_refuted.

(** Finding: the order of modes need not be a permutation. *)
Theorem C72_permutation_refuted : exists v name f, format_option v = Ok (name, f) /\
  ~ Permutation (cli_ordering f) (map Z.of_nat (seq 0 (length (cli_ordering f)))).
Proof.
  exists (T "A:ds:0,0"), (T "A"), {| cli_packs := [[Dense]; [Compressed]]; cli_ordering := [0; 0]%Z |}.
  split; [vm_compute; reflexivity|]. cbn. intros P.
  assert (I : In 1%Z [0; 0]%Z) by (apply (Permutation_in _ (Permutation_sym P)); cbn; auto).
  cbn in I. destruct I as [I|[I|[]]]; discriminate.
Qed.
Print Assumptions C72_permutation_refuted.

(** Finding: what follows a number is ignored, a size without a colon is
    undefined behaviour, and so is an empty argument. *)
Theorem C72_sizes_refuted :
  dimension_option (T "i:1e3") = Ok (T "i", [1%Z]) /\
  (forall name, cli_name name -> dimension_option name = Undefined) /\
  command_line [T ""] = Undefined.
Proof.
  split; [vm_compute; reflexivity|]. split; [|reflexivity].
  intros name N. unfold dimension_option. now rewrite (split_one ":" name (name_clean name N)).
Qed.
Print Assumptions C72_sizes_refuted.
