(** Automatic statement transformations of
    /repo/src/index_notation/transformations.cpp: topological loop reordering,
    scalar promotion, the workspace rewriting of sparse matrix products.
    Statements carry no SuchThat relations, so every index variable is
    underived: getUnderivedAncestors and getFullyDerivedDescendants give the
    variable itself, newlyRecoverableParents nothing. *)
From Coq Require Import List Arith Lia Bool.
Import ListNotations.
From Verif Require Import Notation NotationSpec.
Local Open Scope nat_scope.

Definition subset (a b : list ivar) : bool := forallb (fun v => mem v b) a.
Definition set_eqb (a b : list ivar) : bool := subset a b && subset b a.
Definition is_nil {A} (l : list A) : bool := match l with [] => true | _ => false end.

(** ** topologicallySort, 1653-1701 *)
(** A dependency [(dst, src)]: [src] is a member of deps[dst]. *)
Definition deps := list (ivar * ivar).
Definition has_dep (d : deps) (v : ivar) : bool := existsb (fun p => Nat.eqb (fst p) v) d.
Definition count_dep (d : deps) (v : ivar) : nat := length (filter (fun p => Nat.eqb (fst p) v) d).
(** 1662-1673: the first variable without hard dependencies that has the fewest
    soft ones ([best]: freeVar and minSoftDepsRemaining). *)
Fixpoint pick (hard soft : deps) (best : option (ivar * nat)) (orig : list ivar) : option ivar :=
  match orig with
  | [] => option_map fst best
  | v :: orig =>
      if has_dep hard v then pick hard soft best orig
      else match best with
           | None => pick hard soft (Some (v, count_dep soft v)) orig
           | Some (_, n) =>
               if count_dep soft v <? n then pick hard soft (Some (v, count_dep soft v)) orig
               else pick hard soft best orig
           end
  end.
Fixpoint remove_one (v : ivar) (l : list ivar) : list ivar :=
  match l with [] => [] | x :: l => if Nat.eqb x v then l else x :: remove_one v l end.
(** 1681-1695: erase(freeVar) removes every occurrence from a (multi)set. *)
Definition drop_src (v : ivar) (d : deps) : deps := filter (fun p => negb (Nat.eqb (snd p) v)) d.
(** The loop; [None]: no free variable, the assertion on cycles fails.  [n] is
    the number of variables left. *)
Fixpoint topo (n : nat) (hard soft : deps) (orig : list ivar) : option (list ivar) :=
  match n with
  | O => Some []
  | S n =>
      match pick hard soft None orig with
      | None => None
      | Some v => option_map (cons v) (topo n (drop_src v hard) (drop_src v soft) (remove_one v orig))
      end
  end.
Definition topologicallySort (hard soft : deps) (orig : list ivar) : option (list ivar) :=
  topo (length orig) hard soft orig.

(** *** Dependencies *)
(** A level of a tensor (known by name) is iterated or located by a loop's
    variable; [u_hard]: the level fixes the order (it is iterated, or it is a
    result level without insert). *)
Record use := { u_tensor : nat; u_level : nat; u_hard : bool }.
(** varOrderFromTensorLevels and depsFromVarOrders, 1609-1649: each tensor's
    entries are sorted by level; each entry depends on those before it, if one
    of the two is hard.  [srt] is std::sort with that comparison. *)
Definition entry := (ivar * (nat * bool))%type.
Fixpoint order_deps (l : list entry) : deps :=
  match l with
  | [] => []
  | (i, (_, h)) :: r =>
      map (fun e : entry => (fst e, i)) (filter (fun e : entry => h || snd (snd e)) r) ++ order_deps r
  end.
Definition entry_eqb (a b : entry) : bool :=
  Nat.eqb (fst a) (fst b) && Nat.eqb (fst (snd a)) (fst (snd b)) && Bool.eqb (snd (snd a)) (snd (snd b)).
(** tensorLevelVars[tensor] is a set (1743-1752). *)
Definition add_entry (e : entry) (l : list entry) : list entry := if existsb (entry_eqb e) l then l else l ++ [e].
Definition tensor_entries (uses : ivar -> list use) (loops : list ivar) (t : nat) : list entry :=
  fold_left (fun l i => fold_left (fun l u => if Nat.eqb (u_tensor u) t then add_entry (i, (u_level u, u_hard u)) l else l)
                                  (uses i) l) loops [].
Definition tensor_names (uses : ivar -> list use) (loops : list ivar) : list nat :=
  nodup Nat.eq_dec (flat_map (fun i => map u_tensor (uses i)) loops).
Definition hard_deps (srt : list entry -> list entry) (uses : ivar -> list use) (loops : list ivar) : deps :=
  flat_map (fun t => order_deps (srt (tensor_entries uses loops t))) (tensor_names uses loops).

Section Stmt.
Variable V : Type.

(** CollectSoftDependencies 1776-1796: neighbouring modes of each access in
    storage order.  [mo]: the mode ordering of each tensor. *)
Variable mo : tensor -> list nat.
Fixpoint neighbours (l : list ivar) : deps :=
  match l with a :: l' => match l' with b :: _ => (b, a) :: neighbours l' | [] => [] end | [] => [] end.
Definition access_deps (t : tensor) (vs : list ivar) : deps := neighbours (map (fun m => nth m vs 0) (mo t)).
Fixpoint expr_deps (e : nexpr V) : deps :=
  match e with
  | NLit _ => []
  | NAcc t vs => access_deps t vs
  | NNeg a | NFun _ a | NRed _ _ a => expr_deps a
  | NAdd a b | NSub a b | NMul a b | NDiv a b => expr_deps a ++ expr_deps b
  end.
Fixpoint soft_deps (s : nstmt V) : deps :=
  match s with
  | NAssign t vs _ e => access_deps t vs ++ expr_deps e
  | NForall _ _ b => soft_deps b
  | NWhere c p => soft_deps p ++ soft_deps c
  end.

(** DAGBuilder 1707-1763: the variables and annotations of the first contiguous
    loops, and the statement inside them; the visitor enters both sides of an
    outer where, and innerBody is the last one met. *)
Fixpoint dag (s : nstmt V) : list (ivar * annot) * option (nstmt V) :=
  match s with
  | NAssign _ _ _ _ => ([], None)
  | NForall an i b => if is_forall b then (match dag b with (l, ib) => ((i, an) :: l, ib) end) else ([(i, an)], Some b)
  | NWhere c p => match dag p, dag c with (l, ib), (l', ib') => (l ++ l', match ib' with None => ib | _ => ib' end) end
  end.
(** forallParallelUnit and forallOutputRaceStrategy: the last loop over [i]. *)
Definition annot_of (l : list (ivar * annot)) (i : ivar) : annot :=
  fold_left (fun a p => if Nat.eqb (fst p) i then snd p else a) l no_annot.
(** TopoReorderRewriter 1802-1828: every outermost loop is replaced by the
    sorted loops around innerBody; merge strategy and unroll factor are those of
    the loop replaced. *)
Fixpoint topo_rewrite (l : list (ivar * annot)) (sorted : list ivar) (ib : nstmt V) (s : nstmt V) : nstmt V :=
  match s with
  | NAssign _ _ _ _ => s
  | NForall an _ _ =>
      fold_right (fun i b => NForall {| an_merge := an_merge an; an_unit := an_unit (annot_of l i);
                                        an_race := an_race (annot_of l i); an_unroll := an_unroll an |} i b) ib sorted
  | NWhere c p => NWhere (topo_rewrite l sorted ib c) (topo_rewrite l sorted ib p)
  end.
(** reorderLoopsTopologically 1704-1834.  [uses]: the levels a loop's merge
    lattice iterates, locates and appends to (1716-1741); [None]: the assertion
    on cycles fails. *)
Definition reorderLoopsTopologically (srt : list entry -> list entry) (uses : ivar -> list use) (s : nstmt V) : option (nstmt V) :=
  let '(l, ib) := dag s in
  match topologicallySort (hard_deps srt uses (map fst l)) (soft_deps s) (map fst l) with
  | None => None
  | Some sorted => Some (match ib with None => s | Some b => topo_rewrite l sorted b s end)
  end.

(** ** scalarPromote, 1836-1984 *)
(** The maps hoistLevel (with hoistIndices) and reduceOp, keyed by access.  A
    node is known by its path in the statement.  (Loops that are GPU warp or
    block reductions are not modelled.) *)
Definition acc := (tensor * list ivar)%type.
Definition acc_eqb (a b : acc) : bool := Nat.eqb (fst a) (fst b) && list_eqb (snd a) (snd b).
Section Maps.
Context {B : Type}.
Fixpoint assoc (a : acc) (m : list (acc * B)) : option B :=
  match m with [] => None | (k, b) :: m => if acc_eqb k a then Some b else assoc a m end.
Definition m_erase (a : acc) (m : list (acc * B)) : list (acc * B) := filter (fun p => negb (acc_eqb (fst p) a)) m.
Definition m_set (a : acc) (b : B) (m : list (acc * B)) : list (acc * B) := (a, b) :: m_erase a m.
End Maps.
Definition path := list nat.
Record hoists := { hs_level : list (acc * (path * list ivar)); hs_op : list (acc * option redop) }.
Definition no_hoists : hoists := {| hs_level := []; hs_op := [] |}.

(** FindHoistLevel 1840-1929.  [idx]: the loops around ([indices] and
    [derivedIndices], which are the same set here).  A forall computes one
    result (getResultAccesses). *)
Definition hoist_here (whole scalars : bool) (pth : path) (idx : list ivar) (a : acc) (h : hoists) : hoists :=
  if negb scalars && is_nil (snd a) then h
  else if subset (snd a) idx && match assoc a (hs_level h) with None => true | Some _ => false end
  then {| hs_level := m_set a (pth, idx) (hs_level h);
          hs_op := if negb whole || negb (set_eqb (snd a) idx) then m_set a None (hs_op h) else hs_op h |}
  else h.
Definition hoist_assign (idx : list ivar) (a : acc) (op : option redop) (h : hoists) : hoists :=
  {| hs_level := match assoc a (hs_level h) with
                 | Some (_, hidx) => if set_eqb hidx idx then m_erase a (hs_level h) else hs_level h
                 | None => hs_level h
                 end;
     hs_op := match assoc a (hs_op h) with Some _ => m_set a op (hs_op h) | None => hs_op h end |}.
Fixpoint find_hoist (whole scalars : bool) (pth : path) (idx : list ivar) (s : nstmt V) (h : hoists) : hoists :=
  match s with
  | NAssign t vs op _ => hoist_assign idx (t, vs) op h
  | NForall _ i b =>
      find_hoist whole scalars (0 :: pth) (i :: idx) b (hoist_here whole scalars pth idx (res b, lhs b) h)
  | NWhere c p => find_hoist whole scalars (1 :: pth) idx c (find_hoist whole scalars (2 :: pth) idx p h)
  end.

(** ReplaceReductionExpr 854-870 with one substitution. *)
Fixpoint subst_lhs (a : acc) (t : tensor) (s : nstmt V) : nstmt V :=
  match s with
  | NAssign t' vs op e => if acc_eqb (t', vs) a then NAssign t [] op e else s
  | NForall an i b => NForall an i (subst_lhs a t b)
  | NWhere c p => NWhere (subst_lhs a t c) (subst_lhs a t p)
  end.

(** HoistWrites 1932-1980.  [tmp A]: the new scalar for result [A].  Only the
    result access of a loop can have been hoisted to it. *)
Variable tmp : tensor -> tensor.
Fixpoint hoist_writes (h : hoists) (pth : path) (s : nstmt V) : nstmt V :=
  match s with
  | NAssign _ _ _ _ => s
  | NForall an i b =>
      let b' := hoist_writes h (0 :: pth) b in
      let a := (res b, lhs b) in
      match assoc a (hs_level h) with
      | Some (pth', _) =>
          if list_eqb pth' pth then
            NWhere (NAssign (fst a) (snd a) (match assoc a (hs_op h) with Some op => op | None => None end) (NAcc (tmp (fst a)) []))
                   (NForall an i (subst_lhs a (tmp (fst a)) b'))
          else NForall an i b'
      | None => NForall an i b'
      end
  | NWhere c p => NWhere (hoist_writes h (1 :: pth) c) (hoist_writes h (2 :: pth) p)
  end.
(** scalarPromote(stmt, provGraph, isWholeStmt, promoteScalar); scalarPromote(stmt)
    is [scalarPromote true false]. *)
Definition scalarPromote (whole scalars : bool) (s : nstmt V) : nstmt V :=
  hoist_writes (find_hoist whole scalars [] [] s no_hoists) [] s.

(** ** optimizeSpMM, 1990-2081 *)
(** Level formats: name (0 dense, 1 compressed) and isOrdered; mode ordering. *)
Record lformat := { lf_name : nat; lf_ordered : bool }.
Definition format := (list lformat * list nat)%type.
Definition named (n : nat) (k : nat) (f : format) : bool :=
  match nth_error (fst f) k with Some l => Nat.eqb (lf_name l) n | None => false end.
Definition ordered_at (k : nat) (f : format) : bool :=
  match nth_error (fst f) k with Some l => lf_ordered l | None => false end.
Definition identity_order (f : format) : bool := list_eqb (firstn 2 (snd f)) [0; 1].
Variable fmt : tensor -> format.
(** [w]: the new workspace. *)
Definition optimizeSpMM (w : tensor) (s : nstmt V) : nstmt V :=
  match s with
  | NForall _ i (NForall _ k (NForall _ j (NAssign A va _ (NMul (NAcc B vb) (NAcc C vc))))) =>
      if list_eqb va [i; j] && list_eqb vb [i; k] && list_eqb vc [k; j]
         && named 0 0 (fmt A) && named 1 1 (fmt A) && identity_order (fmt A)
         && ordered_at 0 (fmt B) && ordered_at 1 (fmt B) && identity_order (fmt B)
         && ordered_at 0 (fmt C) && ordered_at 1 (fmt C) && identity_order (fmt C)
      then NForall no_annot i
             (NWhere (NForall no_annot j (NAssign A [i; j] None (NAcc w [j])))
                     (NForall no_annot k (NForall no_annot j
                        (NAssign w [j] (Some RSum) (NMul (NAcc B [i; k]) (NAcc C [k; j]))))))
      else s
  | _ => s
  end.
End Stmt.
Arguments soft_deps {V}. Arguments expr_deps {V}. Arguments dag {V}. Arguments topo_rewrite {V}. Arguments reorderLoopsTopologically {V}.
Arguments find_hoist {V}. Arguments subst_lhs {V}. Arguments hoist_writes {V}. Arguments scalarPromote {V}. Arguments optimizeSpMM {V}.
