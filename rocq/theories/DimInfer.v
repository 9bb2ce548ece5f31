(** The dimensions that the parser of index expressions gives to tensors:
    /repo/src/parser/parser.cpp 68-176 and 287-354. *)
From Coq Require Import List ZArith Bool.
From Verif Require Import Parser.
Import ListNotations.
Local Open Scope nat_scope.

(** std::map with strings as keys; insert keeps an entry that is there. *)
Fixpoint find {A} (k : text) (m : list (text * A)) : option A :=
  match m with [] => None | (k', a) :: m => if text_eqb k k' then Some a else find k m end.
Definition insert {A} (k : text) (a : A) (m : list (text * A)) : list (text * A) :=
  match find k m with Some _ => m | None => m ++ [(k, a)] end.
(** map.at(k) = a, for a key that is there. *)
Fixpoint update {A} (k : text) (a : A) (m : list (text * A)) : list (text * A) :=
  match m with [] => [] | (k', b) :: m => if text_eqb k k' then (k', a) :: m else (k', b) :: update k a m end.

(** A tensor: its identity (two tensors of one name are different tensors), and its
    dimensions.  Component types and formats are not modelled: formats are taken to have
    the order of the accesses.  A loaded tensor is stored under its own name. *)
Record tensor := Tensor { t_id : nat; t_dims : list Z }.
Record access := Access { a_name : text; a_tensor : tensor; a_vars : list text }.

(** What the parser is given, parser.cpp 45-58: dimensions of tensors and of index
    variables by name, the tensors that were loaded, and a default. *)
Record given := Given { tensorDimensions : list (text * list Z); loaded : list (text * tensor); defaultDimension : Z }.

(** Parser::Content, 20-43. *)
Record content := Content {
  tensors : list (text * tensor);
  indexVarDimensions : list (text * Z);
  modesWithDefaults : list (nat * nat);
  next_id : nat }.

(** [DError]: a user error.  [DUndefined]: a read past the end of a vector. *)
Inductive dresult (A : Type) := DOk (a : A) | DError | DUndefined.
Arguments DOk {A}. Arguments DError {A}. Arguments DUndefined {A}.
Definition dbind {A B} (r : dresult A) (f : A -> dresult B) : dresult B :=
  match r with DOk a => f a | DError => DError | DUndefined => DUndefined end.
Notation "'do' x <- r ; k" := (dbind r (fun x => k)) (at level 200, x pattern, r at level 100, k at level 200, right associativity).

(** getIndexVar, 373-385: the first time a variable is seen, its dimension is looked up
    among the given ones (the insertion into the map makes later times the same). *)
Definition getIndexVar (g : given) (v : text) (dims : list (text * Z)) : dresult (list (text * Z)) :=
  match find v (tensorDimensions g) with
  | Some [] => DUndefined
  | Some (d :: _) => DOk (insert v d dims)
  | None => DOk dims
  end.
Fixpoint getIndexVars (g : given) (vs : list text) (dims : list (text * Z)) : dresult (list (text * Z)) :=
  match vs with [] => DOk dims | v :: vs => do dims <- getIndexVar g v dims; getIndexVars g vs dims end.
(** The loop 321-332: the dimension of each mode and whether it is the default. *)
Fixpoint mode_dimensions (g : given) (n : text) (dims : list (text * Z)) (i : nat) (vs : list text) : dresult (list (Z * bool)) :=
  match vs with
  | [] => DOk []
  | v :: vs =>
      do d <- match find n (tensorDimensions g) with
              | Some ds => match nth_error ds i with Some d => DOk (d, false) | None => DUndefined end
              | None => match find v dims with Some d => DOk (d, false) | None => DOk (defaultDimension g, true) end
              end;
      do ds <- mode_dimensions g n dims (S i) vs;
      DOk (d :: ds)
  end.
(** 339-343. *)
Fixpoint default_modes (id i : nat) (ds : list (Z * bool)) : list (nat * nat) :=
  match ds with [] => [] | (_, b) :: ds => (if b then [(id, i)] else []) ++ default_modes id (S i) ds end.
(** parseAccess, 277-348, after the syntax; tensor(varlist) is tensor.cpp 556-562. *)
Definition parse_tensor (g : given) (n : text) (vs : list text) (c : content) : dresult (access * content) :=
  do dims <- getIndexVars g vs (indexVarDimensions c);
  match find n (tensors c) with
  | Some t => if length vs =? length (t_dims t) then DOk (Access n t vs, Content (tensors c) dims (modesWithDefaults c) (next_id c)) else DError
  | None =>
      do ds <- mode_dimensions g n dims 0 vs;
      let t := Tensor (next_id c) (map fst ds) in
      DOk (Access n t vs, Content (insert n t (tensors c)) dims (modesWithDefaults c ++ default_modes (next_id c) 0 ds) (S (next_id c)))
  end.
Fixpoint parse_tensors (g : given) (accs : list (text * list text)) (c : content) : dresult (list access * content) :=
  match accs with
  | [] => DOk ([], c)
  | (n, vs) :: accs =>
      do (a, c) <- parse_tensor g n vs c;
      do (l, c) <- parse_tensors g accs c;
      DOk (a :: l, c)
  end.

(** The visitor that collects the dimensions of index variables, 85-109. *)
Fixpoint collect_modes (defaults : list (nat * nat)) (id i : nat) (modes : list (text * Z)) (dims : list (text * Z)) : dresult (list (text * Z)) :=
  match modes with
  | [] => DOk dims
  | (v, d) :: modes =>
      do dims <- if existsb (fun p => (fst p =? id) && (snd p =? i)) defaults then DOk dims
                 else match find v dims with
                      | Some d' => if (d' =? d)%Z then DOk dims else DError
                      | None => DOk (insert v d dims)
                      end;
      collect_modes defaults id (S i) modes dims
  end.
Definition collect_access (defaults : list (nat * nat)) (a : access) (dims : list (text * Z)) : dresult (list (text * Z)) :=
  collect_modes defaults (t_id (a_tensor a)) 0 (combine (a_vars a) (t_dims (a_tensor a))) dims.
Fixpoint collect (defaults : list (nat * nat)) (l : list access) (dims : list (text * Z)) : dresult (list (text * Z)) :=
  match l with [] => DOk dims | a :: l => do dims <- collect_access defaults a dims; collect defaults l dims end.

(** The rewriter, 112-158; its state are the tensors it made, and the next identity. *)
Fixpoint new_dims (dims : list (text * Z)) (modes : list (text * Z)) : list Z :=
  match modes with
  | [] => []
  | (v, d) :: modes => (match find v dims with Some d' => d' | None => d end) :: new_dims dims modes
  end.
Definition same_dims (a b : list Z) : bool := if list_eq_dec Z.eq_dec a b then true else false.
Definition rewrite_access (dims : list (text * Z)) (a : access) (made : list (text * tensor) * nat) : dresult (access * (list (text * tensor) * nat)) :=
  let '(ts, id) := made in
  if negb (length (a_vars a) =? length (t_dims (a_tensor a))) then DError                     (* 126-129 *)
  else
    let ds := new_dims dims (combine (a_vars a) (t_dims (a_tensor a))) in
    if same_dims ds (t_dims (a_tensor a)) then DOk (a, made)
    else match find (a_name a) ts with
         | Some t => if length (a_vars a) =? length (t_dims t) then DOk (Access (a_name a) t (a_vars a), made) else DError
         | None => let t := Tensor id ds in DOk (Access (a_name a) t (a_vars a), (insert (a_name a) t ts, S id))
         end.
Fixpoint rewrite_all (dims : list (text * Z)) (l : list access) (made : list (text * tensor) * nat) : dresult (list access * (list (text * tensor) * nat)) :=
  match l with
  | [] => DOk ([], made)
  | a :: l => do (a, made) <- rewrite_access dims a made; do (l, made) <- rewrite_all dims l made; DOk (a :: l, made)
  end.

(** The check of an assignment, index_notation.cpp 1142-1166 and error_checks.cpp 36-79,
    for dimensions that are numbers. *)
Fixpoint check_modes (modes : list (text * Z)) (dims : list (text * Z)) : bool * list (text * Z) :=
  match modes with
  | [] => (true, dims)
  | (v, d) :: modes =>
      match find v dims with
      | Some d' => if (d' =? d)%Z then check_modes modes dims else (false, snd (check_modes modes dims))
      | None => check_modes modes (insert v d dims)
      end
  end.
Definition modes_of (a : access) : list (text * Z) := combine (a_vars a) (t_dims (a_tensor a)).
Definition check (lhs : access) (rhs : list access) : bool := fst (check_modes (concat (map modes_of (lhs :: rhs))) []).

(** The operands of an index expression, in order. *)
Fixpoint operands (e : iexpr) : list (text * list text) :=
  match e with
  | IAccess n vs => [(n, vs)]
  | IInt _ | IUint _ | IFloat _ | IComplex _ => []
  | INeg a => operands a
  | IAdd a b | ISub a b | IMul a b | IDiv a b => operands a ++ operands b
  end.
(** What parse() leaves: the accesses of the assignment, and the tensors by name that
    getTensor and getTensors return. *)
Record inferred := Inferred { i_lhs : access; i_rhs : list access; i_tensors : list (text * tensor) }.
Definition max_id (l : list (text * tensor)) : nat := fold_right (fun p m => Nat.max (S (t_id (snd p))) m) 0 l.
(** parseAssign, 68-176; the syntax (C43) is parsed first here, which makes a difference
    only for which error is reported. *)
Definition infer (g : given) (a : assignment) : dresult inferred :=
  let c := Content (loaded g) [] [] (max_id (loaded g)) in
  do (l, c) <- parse_tensor g (lhs_name a) (lhs_vars a) c;
  do (rs, c) <- parse_tensors g (operands (rhs a)) c;
  do dims <- collect (modesWithDefaults c) rs (indexVarDimensions c);
  do (rs, made) <- rewrite_all dims rs ([], next_id c);
  do (l', made) <- rewrite_access dims l made;
  let ts := fold_left (fun ts p => update (fst p) (snd p) ts) (fst made) (tensors c) in       (* 165-167 *)
  match find (lhs_name a) ts with
  | None => DError                                                                            (* at() throws *)
  | Some t =>
      if negb (length (lhs_vars a) =? length (t_dims t)) then DError                          (* resultTensor(vars) *)
      else
        let l := Access (lhs_name a) t (lhs_vars a) in
        if accumulate a || check l rs then DOk (Inferred l rs ts) else DError                 (* 170-174: += is not checked *)
  end.
