(** Formats: /repo/src/format.cpp, the constructors and copy functions of
    /repo/src/lower/mode_format_dense.cpp, mode_format_compressed.cpp and
    mode_format_singleton.cpp, equality of mode formats
    (/repo/src/lower/mode_format_impl.cpp), and the cache of helper functions of
    /repo/src/tensor.cpp (getHelperFunctions). *)
From Coq Require Import List Arith Bool.
Import ListNotations.

(** ** Mode formats *)
(** The class of a mode format (typeid) and its name. *)
Inductive kind := DenseK | CompressedK | SingletonK.
Definition kind_eqb (a b : kind) : bool :=
  match a, b with
  | DenseK, DenseK | CompressedK, CompressedK | SingletonK, SingletonK => true
  | _, _ => false
  end.
(** mode_format_impl.h 242-250.  The capabilities (251-259) depend on the class
    only, and allocSize is always the default. *)
Record impl := {
  class : kind;
  full : bool; ordered : bool; unique : bool; branchless : bool;
  compact : bool; zeroless : bool; padded : bool
}.
(** mode_format_dense.cpp 11-15 *)
Definition make_dense (o u z : bool) : impl :=
  {| class := DenseK; full := true; ordered := o; unique := u; branchless := false;
     compact := true; zeroless := z; padded := true |}.
(** mode_format_compressed.cpp 16-23 *)
Definition make_compressed (f o u z : bool) : impl :=
  {| class := CompressedK; full := f; ordered := o; unique := u; branchless := false;
     compact := true; zeroless := z; padded := false |}.
(** mode_format_singleton.cpp 16-23 *)
Definition make_singleton (f o u z p : bool) : impl :=
  {| class := SingletonK; full := f; ordered := o; unique := u; branchless := true;
     compact := true; zeroless := z; padded := p |}.
(** The default constructors (mode_format_dense.cpp 8-9,
    mode_format_compressed.cpp 12-14, mode_format_singleton.cpp 12-14) and the
    predefined formats (format.cpp 373-398). *)
Definition Dense : impl := make_dense true true false.
Definition Compressed : impl := make_compressed false true true false.
Definition Singleton : impl := make_singleton false true true false false.

(** format.h 99-103: FULL, NOT_FULL and so on are [(Full, true)],
    [(Full, false)] and so on. *)
Inductive attribute := Full | Ordered | Unique | Branchless | Compact | Zeroless | Padded.
Definition property := (attribute * bool)%type.

(** The loops of the three copy functions over the requested properties. *)
Definition set_dense (s : bool * bool * bool) (p : property) : bool * bool * bool :=
  let '(o, u, z) := s in
  match p with
  | (Ordered, b) => (b, u, z)
  | (Unique, b) => (o, b, z)
  | (Zeroless, b) => (o, u, b)
  | _ => s
  end.
Definition set_compressed (s : bool * bool * bool * bool) (p : property) :=
  let '(f, o, u, z) := s in
  match p with
  | (Full, b) => (b, o, u, z)
  | (Ordered, b) => (f, b, u, z)
  | (Unique, b) => (f, o, b, z)
  | (Zeroless, b) => (f, o, u, b)
  | _ => s
  end.
Definition set_singleton (s : bool * bool * bool * bool * bool) (p : property) :=
  let '(f, o, u, z, pd) := s in
  match p with
  | (Full, b) => (b, o, u, z, pd)
  | (Ordered, b) => (f, b, u, z, pd)
  | (Unique, b) => (f, o, b, z, pd)
  | (Zeroless, b) => (f, o, u, b, pd)
  | (Padded, b) => (f, o, u, z, b)
  | _ => s
  end.
(** copy: mode_format_dense.cpp 17-47, mode_format_compressed.cpp 25-62,
    mode_format_singleton.cpp 25-72. *)
Definition copy (m : impl) (ps : list property) : impl :=
  match class m with
  | DenseK =>
      let '(o, u, z) := fold_left set_dense ps (ordered m, unique m, zeroless m) in
      make_dense o u z
  | CompressedK =>
      let '(f, o, u, z) := fold_left set_compressed ps (full m, ordered m, unique m, zeroless m) in
      make_compressed f o u z
  | SingletonK =>
      let '(f, o, u, z, p) :=
        fold_left set_singleton ps (full m, ordered m, unique m, zeroless m, padded m) in
      make_singleton f o u z p
  end.

(** A ModeFormat is a pointer, null if undefined (format.cpp 132-139). *)
Definition mode_format := option impl.
(** ModeFormat::operator(), format.cpp 141-148 *)
Definition variant (m : mode_format) (ps : list property) : mode_format :=
  match m with Some i => Some (copy i ps) | None => None end.
(** isFull ... isPadded, format.cpp 235-268.  [None]: an internal error. *)
Definition is (m : mode_format) (a : attribute) : option bool :=
  match m with
  | None => None
  | Some i => Some match a with
                   | Full => full i | Ordered => ordered i | Unique => unique i
                   | Branchless => branchless i | Compact => compact i
                   | Zeroless => zeroless i | Padded => padded i
                   end
  end.
(** hasProperties, format.cpp 154-233 *)
Fixpoint has_properties (m : mode_format) (ps : list property) : option bool :=
  match ps with
  | [] => Some true
  | (a, b) :: ps' =>
      match is m a with
      | None => None
      | Some x => if Bool.eqb x b then has_properties m ps' else Some false
      end
  end.

(** ModeFormatImpl::equals and operator==, mode_format_impl.cpp 294-305;
    operator== of ModeFormat, format.cpp 320-322. *)
Definition impl_eqb (a b : impl) : bool :=
  kind_eqb (class a) (class b) &&
  (Bool.eqb (full a) (full b) && Bool.eqb (ordered a) (ordered b) &&
   Bool.eqb (unique a) (unique b) && Bool.eqb (branchless a) (branchless b) &&
   Bool.eqb (compact a) (compact b) && Bool.eqb (zeroless a) (zeroless b)).
Definition mode_format_eqb (a b : mode_format) : bool :=
  match a, b with Some x, Some y => impl_eqb x y | _, _ => false end.

(** ** Formats *)
(** Types of index arrays (type.h 20-40); only their identity matters here. *)
Definition index_type := nat.
Definition Int32 : index_type := 0.
(** A pack is a list of modes that share their storage. *)
Record format := {
  packs : list (list impl);
  ordering : list nat;
  level_types : list (list index_type)
}.
(** getModeFormats and getOrder, format.cpp 55-67 *)
Definition mode_formats (f : format) : list impl := concat (packs f).
Definition order (f : format) : nat := length (mode_formats f).
(** ModeFormatPack, format.cpp 333-351: undefined mode formats are refused. *)
Fixpoint make_pack (ms : list mode_format) : option (list impl) :=
  match ms with
  | [] => Some []
  | None :: _ => None
  | Some i :: ms' => match make_pack ms' with Some l => Some (i :: l) | None => None end
  end.
Fixpoint make_packs (pss : list (list mode_format)) : option (list (list impl)) :=
  match pss with
  | [] => Some []
  | p :: pss' => match make_pack p, make_packs pss' with
                 | Some a, Some b => Some (a :: b)
                 | _, _ => None
                 end
  end.
(** The constructors of Format, format.cpp 25-53.  [o]: the given order of the
    modes.  The limit of INT_MAX modes is left out. *)
Definition make_format (pss : list (list mode_format)) (o : option (list nat)) : option format :=
  match make_packs pss with
  | None => None
  | Some ps =>
      let n := length (concat ps) in
      match o with
      | None => Some {| packs := ps; ordering := seq 0 n; level_types := [] |}
      | Some l => if n =? length l
                  then Some {| packs := ps; ordering := l; level_types := [] |}
                  else None
      end
  end.
(** setLevelArrayTypes, format.cpp 97-99, and getCoordinateTypePos, 81-86 *)
Definition set_level_types (f : format) (ts : list (list index_type)) : format :=
  {| packs := packs f; ordering := ordering f; level_types := ts |}.
Definition pos_type (f : format) (level : nat) : index_type :=
  if length (level_types f) <=? level then Int32 else hd Int32 (nth level (level_types f) []).

(** operator== of packs and formats, format.cpp 102-124 and 357-370. *)
Fixpoint list_eqb {A} (eqb : A -> A -> bool) (a b : list A) : bool :=
  match a, b with
  | [], [] => true
  | x :: a', y :: b' => eqb x y && list_eqb eqb a' b'
  | _, _ => false
  end.
Definition pack_eqb := list_eqb impl_eqb.
Definition format_eqb (f g : format) : bool :=
  (length (packs f) =? length (packs g)) && (length (ordering f) =? length (ordering g)) &&
  list_eqb Nat.eqb (ordering f) (ordering g) && list_eqb pack_eqb (packs f) (packs g).

(** COO, format.cpp 408-431.  [None]: an error. *)
Definition coo (n : nat) (is_unique is_ordered is_aos : bool) (o : list nat) : option format :=
  if n =? 0 then None
  else if negb (match o with [] => true | _ => length o =? n end) then None
  else if is_aos then None
  else
    let ord := (Ordered, is_ordered) in
    let first := copy Compressed [ord; (Unique, (n =? 1) && is_unique)] in
    let rest :=
      if 1 <? n
      then repeat [Some (copy Singleton [ord; (Unique, false)])] (n - 2) ++
           [[Some (copy Singleton [ord; (Unique, is_unique)])]]
      else [] in
    make_format ([Some first] :: rest) (match o with [] => None | _ => Some o end).
(** isDense, format.cpp 433-440 *)
Definition is_dense (f : format) : bool := forallb (fun m => impl_eqb m Dense) (mode_formats f).

(** ** The cache of helper functions: tensor.cpp 917-955, 1012-1020 *)
Section Cache.
  Variable module : Type.
  (** The code generated for a format, a component type and dimensions. *)
  Variable generate : format -> nat -> list nat -> module.
  Definition entry := (format * nat * list nat * module)%type.
  (** The newest entry that agrees. *)
  Fixpoint lookup (cache : list entry) (f : format) (t : nat) (ds : list nat) : option module :=
    match cache with
    | [] => None
    | (f', t', ds', m) :: c =>
        match lookup c f t ds with
        | Some m' => Some m'
        | None => if format_eqb f' f && (t' =? t) && list_eqb Nat.eqb ds' ds then Some m else None
        end
    end.
  Definition helpers (cache : list entry) (f : format) (t : nat) (ds : list nat)
    : module * list entry :=
    match lookup cache f t ds with
    | Some m => (m, cache)
    | None => let m := generate f t ds in (m, cache ++ [(f, t, ds, m)])
    end.
  (** The cache after a history of requests. *)
  Fixpoint serve (cache : list entry) (rs : list (format * nat * list nat)) : list entry :=
    match rs with
    | [] => cache
    | (f, t, ds) :: rs' => serve (snd (helpers cache f t ds)) rs'
    end.
End Cache.
