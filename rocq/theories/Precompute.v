(** Hoisting a sub-expression into a workspace:
    /repo/src/index_notation/transformations.cpp 391-679 (Precompute::apply),
    index_notation.cpp 1857-1884 (IndexStmt::precompute) and 2131-2173
    (Assignment::getIndexSetRel).
    Simplifications: the statement carries no scheduling relations but those
    that make the workspace variables copies of the variables they stand for
    (so containsIndexVarScheduled, 490-505, is membership, and the underived
    ancestor of a workspace variable is the variable it stands for); the check
    that the expression occurs in the statement (394-400) is left out. *)
From Coq Require Import List Arith Lia Bool.
Import ListNotations.
From Verif Require Import Notation NotationSpec Transform.
Local Open Scope nat_scope.

(** getIndexSetRel, index_notation.cpp 2131-2173: how the variables of the
    right-hand side relate to those of the left-hand side. *)
Inductive set_rel := rel_none | rel_rcl | rel_lcr | rel_inter | rel_equal.
Definition getIndexSetRel (lv rv : list ivar) : set_rel :=
  let lseen := nodup Nat.eq_dec lv in
  let rseen := nodup Nat.eq_dec rv in
  let lnum := length lseen in
  let rnum := length rseen in
  let rcl_num := length (filter (fun v => mem v lseen) rseen) in
  let rel :=
    if rcl_num =? 0 then rel_none
    else if (rcl_num <? lnum) && (rcl_num =? rnum) then rel_lcr
    else if (rcl_num <? lnum) && (rcl_num <? rnum) then rel_inter
    else if (rcl_num =? lnum) && (rcl_num =? rnum) then rel_equal
    else if (rcl_num =? lnum) && (rcl_num <? rnum) then rel_rcl
    else rel_none in
  match rel with rel_none => if lnum =? 0 then rel_rcl else rel_none | _ => rel end.
(** The operator both assignments get, 438-448 and 461-471. *)
Definition rel_op (rel : set_rel) : option redop :=
  match rel with rel_rcl | rel_inter => Some RSum | rel_none | rel_lcr | rel_equal => None end.

Section Model.
Context {V : Type}.
Notation expr := (nexpr V).
Notation stmt := (nstmt V).

(** All variables of all accesses (match on AccessNode). *)
Fixpoint acc_vars (e : expr) : list ivar :=
  match e with
  | NLit _ => []
  | NAcc _ vs => vs
  | NNeg a | NFun _ a | NRed _ _ a => acc_vars a
  | NAdd a b | NSub a b | NMul a b | NDiv a b => acc_vars a ++ acc_vars b
  end.

(** replace(stmt, {{e, w}}), index_notation_rewriter.cpp 271-361: nodes that are
    (by address) the node [e] are replaced.  Nodes are named by their path from
    the root, last step first; [same] tells the paths at which the node [e]
    sits. *)
Fixpoint replace_at (same : list nat -> bool) (w : expr) (p : list nat) (x : expr) : expr :=
  if same p then w else
  match x with
  | NLit v => NLit v
  | NAcc t vs => NAcc t vs
  | NNeg a => NNeg (replace_at same w (0 :: p) a)
  | NFun f a => NFun f (replace_at same w (0 :: p) a)
  | NAdd a b => NAdd (replace_at same w (0 :: p) a) (replace_at same w (1 :: p) b)
  | NSub a b => NSub (replace_at same w (0 :: p) a) (replace_at same w (1 :: p) b)
  | NMul a b => NMul (replace_at same w (0 :: p) a) (replace_at same w (1 :: p) b)
  | NDiv a b => NDiv (replace_at same w (0 :: p) a) (replace_at same w (1 :: p) b)
  | NRed op i a => NRed op i (replace_at same w (0 :: p) a)
  end.
(** replacedStmt != s (535): something was replaced. *)
Fixpoint replaces (same : list nat -> bool) (p : list nat) (x : expr) : bool :=
  same p ||
  match x with
  | NLit _ | NAcc _ _ => false
  | NNeg a | NFun _ a | NRed _ _ a => replaces same (0 :: p) a
  | NAdd a b | NSub a b | NMul a b | NDiv a b => replaces same (0 :: p) a || replaces same (1 :: p) b
  end.

(** The map [substitutions], 525-532; replace(e, substitutions),
    index_notation_rewriter.cpp 363-421. *)
Fixpoint sub_var (ivs iws : list ivar) (v : ivar) : ivar :=
  match ivs, iws with
  | i :: ivs, w :: iws => if Nat.eqb v i then w else sub_var ivs iws v
  | _, _ => v
  end.
Fixpoint sub_vars (f : ivar -> ivar) (e : expr) : expr :=
  match e with
  | NLit v => NLit v
  | NAcc t vs => NAcc t (map f vs)
  | NNeg a => NNeg (sub_vars f a)
  | NFun g a => NFun g (sub_vars f a)
  | NAdd a b => NAdd (sub_vars f a) (sub_vars f b)
  | NSub a b => NSub (sub_vars f a) (sub_vars f b)
  | NMul a b => NMul (sub_vars f a) (sub_vars f b)
  | NDiv a b => NDiv (sub_vars f a) (sub_vars f b)
  | NRed op i a => NRed op i (sub_vars f a)
  end.

(** The assignment at the bottom of a nest without where statements, with the
    path of its right-hand side and the loops of the nest, outermost first. *)
Fixpoint contains_where (s : stmt) : bool :=
  match s with NAssign _ _ _ _ => false | NForall _ _ b => contains_where b | NWhere _ _ => true end.
Fixpoint nest_vars (s : stmt) : list ivar :=
  match s with NForall _ i b => i :: nest_vars b | _ => [] end.
Fixpoint bottom (p : list nat) (s : stmt) : option (list nat * tensor * list ivar * expr) :=
  match s with
  | NAssign t vs _ e => Some (0 :: p, t, vs, e)
  | NForall _ _ b => bottom (0 :: p) b
  | NWhere _ _ => None
  end.

(** Distribution of the loops, 549-569, innermost loop first: loops around the
    where statement, around the consumer, around the producer.  [cv], [pv]: the
    variables of the consumer's and the producer's assignment. *)
Fixpoint distribute (ivs iws cv pv : list ivar) (loops : list ivar) : list ivar * list ivar * list ivar :=
  match loops with
  | [] => ([], [], [])
  | i :: rest =>
      if mem i ivs then
        let '(o, c, p) := distribute ivs iws cv pv rest in (o, i :: c, sub_var ivs iws i :: p)
      else if mem i pv && mem i cv then (i :: rest, [], [])
      else
        let '(o, c, p) := distribute ivs iws cv pv rest in
        if mem i cv then (o, i :: c, p)
        else if mem i pv then (o, c, i :: p)
        else (o, c, p)
  end.
(** generateForalls, 476-483. *)
Definition generateForalls (s : stmt) (is : list ivar) : stmt := fold_left (fun s i => NForall no_annot i s) is s.

(** The rewriting of one nest, 520-577. *)
Definition rewrite_nest (same : list nat -> bool) (ws : tensor) (e : expr) (ivs iws : list ivar) (p : list nat) (s : stmt) : option stmt :=
  match bottom p s with
  | None => None
  | Some (q, t, vs, x) =>
      if replaces same q x then
        let x' := replace_at same (NAcc ws ivs) q x in
        let e' := sub_vars (sub_var ivs iws) e in
        let consumer := NAssign t vs (rel_op (getIndexSetRel vs (acc_vars x'))) x' in
        let producer := NAssign ws iws (rel_op (getIndexSetRel iws (acc_vars e'))) e' in
        let '(o, c, pr) := distribute ivs iws (vs ++ acc_vars x') (iws ++ acc_vars e') (rev (nest_vars s)) in
        Some (generateForalls (NWhere (generateForalls consumer c) (generateForalls producer pr)) o)
      else None
  end.
(** PrecomputeRewriter::visit(ForallNode), 507-580. *)
Fixpoint rewrite_stmt (same : list nat -> bool) (ws : tensor) (e : expr) (ivs iws : list ivar) (p : list nat) (s : stmt) : stmt :=
  match s with
  | NAssign _ _ _ _ => s
  | NForall an i b =>
      match (if contains_where s then None else rewrite_nest same ws e ivs iws p s) with
      | Some s' => s'
      | None => NForall an i (rewrite_stmt same ws e ivs iws (0 :: p) b)
      end
  | NWhere c q => NWhere (rewrite_stmt same ws e ivs iws (1 :: p) c) (rewrite_stmt same ws e ivs iws (2 :: p) q)
  end.

(** RedundantVisitor and RedundantRewriter, 583-664.  [ctx]: the enclosing loops,
    innermost first (ctx_stack; the counters of num_stack pop the loops of a
    branch of a where statement when it is left).  [anc]: the underived ancestor
    of a variable. *)
Definition redundant (anc : ivar -> ivar) (ctx : list ivar) (vs : list ivar) (e : expr) : bool :=
  let rel := getIndexSetRel vs (acc_vars e) in
  let has_sibling := existsb (fun v => existsb (fun w => Nat.eqb (anc v) (anc w) && negb (Nat.eqb w v)) ctx) (acc_vars e) in
  let has_outside :=
    match ctx with
    | [] => true
    | top :: _ => forallb (fun v => forallb (fun w => Nat.eqb w top || Nat.eqb v w) ctx) vs
    end in
  match rel with rel_equal => has_sibling | rel_none => has_outside | _ => false end.
Fixpoint rewrite_redundant (anc : ivar -> ivar) (ctx : list ivar) (s : stmt) : stmt :=
  match s with
  | NAssign t vs op e => if redundant anc ctx vs e then NAssign t vs (Some RSum) e else s
  | NForall an i b => NForall an i (rewrite_redundant anc (i :: ctx) b)
  | NWhere c p => NWhere (rewrite_redundant anc ctx c) (rewrite_redundant anc ctx p)
  end.

(** IndexStmt::precompute(e, ivs, iws, ws). *)
Definition precompute (same : list nat -> bool) (e : expr) (ivs iws : list ivar) (ws : tensor) (s : stmt) : stmt :=
  rewrite_redundant (sub_var iws ivs) [] (rewrite_stmt same ws e ivs iws [] s).
End Model.
