(** What statements of index notation mean, and which parts of a statement a
    substitution concerns. *)
From Coq Require Import ZArith List Bool.
From Verif Require Import Replace.
Import ListNotations.
Local Open Scope Z_scope.

(** Values and operators, of any kind. *)
Record operators := Ops {
  value : Type;
  zero : value;
  of_int : Z -> value;
  unary : nat -> value -> value;
  binary : nat -> value -> value -> value;
  cast : nat -> value -> value;
  call : nat -> list value -> value;
  reduce : nat -> list value -> value;
  is_stored : value -> value
}.

Section Meaning.
Variable O : operators.
Definition env := var -> Z.
Definition store := tensor -> list Z -> value O.
Definition bind (s : env) (v : var) (x : Z) : env := fun w => if (w =? v)%nat then x else s w.

(** The coordinate of one mode. *)
Definition coordinate (m : modifier) (x : Z) : Z :=
  match m with
  | Plain => x
  | Window lo stride => lo + stride * x
  | IndexSet l => nth (Z.to_nat x) l 0
  end.
Fixpoint coordinates (ms : list modifier) (xs : list Z) : list Z :=
  match ms, xs with
  | m :: ms, x :: xs => coordinate m x :: coordinates ms xs
  | _, xs => xs
  end.
Definition place (s : env) (a : access) : list Z := coordinates (a_mods a) (map s (a_vars a)).

Definition range (n : nat) : list Z := map Z.of_nat (seq 0 n).
(** [dim]: how many values each variable takes. *)
Fixpoint eval (dim : var -> nat) (M : store) (s : env) (e : expr) : value O :=
  match e with
  | Read _ a => let x := M (a_tensor a) (place s a) in if a_structure a then is_stored O x else x
  | IVar _ v => of_int O (s v)
  | Lit _ z => of_int O z
  | Un _ o a => unary O o (eval dim M s a)
  | Bin _ o a b => binary O o (eval dim M s a) (eval dim M s b)
  | Cast _ t a => cast O t (eval dim M s a)
  | Call _ f args => call O f (map (eval dim M s) args)
  | Red _ o v a => reduce O o (map (fun x => eval dim M (bind s v x) a) (range (dim v)))
  end.

Fixpoint results (st : stmt) : list tensor :=
  match st with
  | Assign _ l _ _ => [a_tensor l]
  | Forall _ _ b | SuchThat _ b _ => results b
  | Where _ c _ => results c
  | Sequence _ a b | Multi _ a b | Assemble _ a b => results a ++ results b
  end.
Definition zeroed (ts : list tensor) (M : store) : store :=
  fun t p => if existsb (Nat.eqb t) ts then zero O else M t p.
Definition write (M : store) (t : tensor) (p : list Z) (x : value O) : store :=
  fun t' p' => if (t' =? t)%nat && (if list_eq_dec Z.eq_dec p' p then true else false) then x else M t' p'.

(** Split variables have the value their parts give them; where it is out of
    range nothing is done. *)
Fixpoint recovered (rels : list relation) (s : env) : env :=
  match rels with
  | [] => s
  | r :: rest => let s' := recovered rest s in
                 bind s' (r_parent r) (s' (r_outer r) * r_factor r + s' (r_inner r))
  end.
Definition in_range (dim : var -> nat) (rels : list relation) (s : env) : bool :=
  forallb (fun r => s (r_parent r) <? Z.of_nat (dim (r_parent r))) rels.
Definition loop (dim : nat) (f : Z -> store -> store) (M : store) : store :=
  fold_left (fun M x => f x M) (range dim) M.

Fixpoint exec (dim : var -> nat) (rels : list relation) (st : stmt) (s : env) (M : store) : store :=
  match st with
  | Assign _ l r o =>
      let s' := recovered rels s in
      if in_range dim rels s' then
        let x := eval dim M s' r in
        let p := place s' l in
        write M (a_tensor l) p (match o with None => x | Some o => binary O o (M (a_tensor l) p) x end)
      else M
  | Forall _ v b => loop (dim v) (fun x => exec dim rels b (bind s v x)) M
  | Where _ c p => exec dim rels c s (exec dim rels p s (zeroed (results p) M))
  | Sequence _ a b | Multi _ a b | Assemble _ a b => exec dim rels b s (exec dim rels a s M)
  | SuchThat _ b rs => exec dim (rels ++ rs) b s M
  end.
End Meaning.

(** The parts of a statement. *)
Fixpoint subexprs (e : expr) : list expr :=
  e :: match e with
       | Read _ _ | IVar _ _ | Lit _ _ => []
       | Un _ _ a | Cast _ _ a | Red _ _ _ a => subexprs a
       | Bin _ _ a b => subexprs a ++ subexprs b
       | Call _ _ args => flat_map subexprs args
       end.
Fixpoint substmts (s : stmt) : list stmt :=
  s :: match s with
       | Assign _ _ _ _ => []
       | Forall _ _ b | SuchThat _ b _ => substmts b
       | Where _ a b | Sequence _ a b | Assemble _ a b | Multi _ a b => substmts a ++ substmts b
       end.
Definition exprs (s : stmt) : list expr :=
  flat_map (fun s => match s with Assign _ _ r _ => subexprs r | _ => [] end) (substmts s).
Definition accesses (s : stmt) : list access :=
  flat_map (fun s => match s with Assign _ l _ _ => [l] | _ => [] end) (substmts s) ++
  flat_map (fun e => match e with Read _ a => [a] | _ => [] end) (exprs s).
Definition relations (s : stmt) : list relation :=
  flat_map (fun s => match s with SuchThat _ _ rs => rs | _ => [] end) (substmts s).
Definition reduced (s : stmt) : list var :=
  flat_map (fun e => match e with Red _ _ v _ => [v] | _ => [] end) (exprs s).
Definition related (s : stmt) : list var :=
  flat_map (fun r => [r_parent r; r_outer r; r_inner r]) (relations s).
Definition variables (s : stmt) : list var :=
  flat_map (fun s => match s with Forall _ v _ => [v] | _ => [] end) (substmts s) ++
  flat_map (fun e => match e with IVar _ v => [v] | _ => [] end) (exprs s) ++
  flat_map a_vars (accesses s) ++ reduced s ++ related s.
Definition tensors (s : stmt) : list tensor := map a_tensor (accesses s).
