(** The C function around a kernel: /repo/src/codegen/codegen_c.cpp (FindVars,
    visit of Function and of the statements) and /repo/src/codegen/codegen.cpp
    (checkForAlloc, printDecls, printPack, unpackTensorProperty,
    packTensorProperty, genUniqueName).

    The lowered function speaks of variables (objects, told apart by their
    identity) and of properties of tensors.  The C function speaks of names: it
    copies every property that is mentioned to a local variable, runs the body
    on those variables, and stores the properties of results back.

    Not modelled: unfolded parameters (is_parameter), coroutines (yield),
    headers, types and casts, [restrict], pragmas, print and sort statements. *)
From Coq Require Import String List Arith ZArith Bool.
Import ListNotations.
From Verif Require Import Util.

(** ** Statements: /repo/include/taco/ir/ir.h *)
(** [V]: what is declared; [R]: what expressions and assignments refer to. *)
Inductive how := Malloc | Calloc | Realloc.
Inductive expr (R : Type) :=
| Lit (z : Z)
| Ref (r : R)
| Load (a i : expr R)
| Bin (f : Z -> Z -> Z) (a b : expr R).
Inductive stmt (V R : Type) :=
| Skip
| Seq (a b : stmt V R)
| Decl (v : V) (e : expr R)
| Assign (r : R) (e : expr R)
| Store (a i e : expr R)
| Alloc (k : how) (r : R) (n : expr R)
| Free (e : expr R)
| If (c : expr R) (a b : stmt V R)
| For (v : V) (lo hi inc : expr R) (b : stmt V R)
| While (c : expr R) (b : stmt V R)
| Braces (b : stmt V R).
Arguments Lit {R}. Arguments Ref {R}. Arguments Load {R}. Arguments Bin {R}.
Arguments Skip {V R}. Arguments Seq {V R}. Arguments Decl {V R}. Arguments Assign {V R}.
Arguments Store {V R}. Arguments Alloc {V R}. Arguments Free {V R}. Arguments If {V R}.
Arguments For {V R}. Arguments While {V R}. Arguments Braces {V R}.

(** ** Memory *)
(** Blocks by address (address 0 is NULL, address [n + 1] the n-th block);
    [None]: freed; a cell that is [None]: not initialised. *)
Definition heap := list (option (list (option Z))).
Definition block_of (h : heap) (a : Z) : option (list (option Z)) :=
  if (a <=? 0)%Z then None
  else match nth_error h (Z.to_nat (a - 1)) with Some (Some b) => Some b | _ => None end.
Definition in_block (b : list (option Z)) (i : Z) : bool :=
  ((0 <=? i) && (i <? Z.of_nat (length b)))%Z.
Definition load (h : heap) (a i : Z) : option Z :=
  match block_of h a with
  | Some b => if in_block b i then nth (Z.to_nat i) b None else None
  | None => None
  end.
Definition store (h : heap) (a i x : Z) : option heap :=
  match block_of h a with
  | Some b =>
      if in_block b i then Some (set_nth h (Z.to_nat (a - 1)) (Some (set_nth b (Z.to_nat i) (Some x))))
      else None
  | None => None
  end.
Definition release_block (h : heap) (a : Z) : option heap :=
  if (a =? 0)%Z then Some h
  else match block_of h a with Some _ => Some (set_nth h (Z.to_nat (a - 1)) None) | None => None end.
Definition new_block (h : heap) (b : list (option Z)) : heap * Z :=
  (h ++ [Some b], Z.of_nat (S (length h))).
Definition grown (b : list (option Z)) (n : nat) : list (option Z) :=
  firstn n b ++ repeat None (n - length b).
Definition allocate (k : how) (h : heap) (old n : Z) : option (heap * Z) :=
  if (n <? 0)%Z then None
  else match k with
       | Malloc => Some (new_block h (repeat None (Z.to_nat n)))
       | Calloc => Some (new_block h (repeat (Some 0%Z) (Z.to_nat n)))
       | Realloc =>
           if (old =? 0)%Z then Some (new_block h (repeat None (Z.to_nat n)))
           else match block_of h old, release_block h old with
                | Some b, Some h' => Some (new_block h' (grown b (Z.to_nat n)))
                | _, _ => None
                end
       end.

(** ** Running a statement *)
(** [Stuck]: no meaning (undefined behaviour, or not a C program). *)
Inductive outcome (A : Type) := Done (a : A) | Stuck | NoFuel.
Arguments Done {A}. Arguments Stuck {A}. Arguments NoFuel {A}.
Definition bind {A B} (x : outcome A) (f : A -> outcome B) : outcome B :=
  match x with Done a => f a | Stuck => Stuck | NoFuel => NoFuel end.
Definition demand {A} (x : option A) : outcome A :=
  match x with Some a => Done a | None => Stuck end.

(** What variables mean is left open: reading, writing and declaring one, and
    entering and leaving a pair of braces. *)
Record scoping (V R E : Type) := Scoping {
  get : E -> R -> option Z;
  put : E -> R -> Z -> option E;
  declare : E -> V -> Z -> option E;
  enter : E -> E;
  leave : E -> E;
  this : V -> R }.
Arguments get {V R E}. Arguments put {V R E}. Arguments declare {V R E}.
Arguments enter {V R E}. Arguments leave {V R E}. Arguments this {V R E}.

Definition less (a b : Z) : Z := if (a <? b)%Z then 1%Z else 0%Z.

Section Run.
  Context {V R E : Type} (S : scoping V R E).
  Fixpoint eval (e : E) (h : heap) (x : expr R) : option Z :=
    match x with
    | Lit z => Some z
    | Ref r => get S e r
    | Load a i =>
        match eval e h a, eval e h i with Some a, Some i => load h a i | _, _ => None end
    | Bin f a b =>
        match eval e h a, eval e h b with Some a, Some b => Some (f a b) | _, _ => None end
    end.
  (** Loops and branches have braces, blocks and scopes have none:
      ir_printer.cpp 269-294 (IfThenElse), 422-434 (While), 436-446 (Block,
      Scope); codegen_c.cpp 428-482 (For: a for statement of C), 536-565
      (Allocate); ir_printer.cpp 465-528 (VarDecl, Assign), 377-388 (Store). *)
  Fixpoint exec (fuel : nat) (s : stmt V R) (e : E) (h : heap) : outcome (E * heap) :=
    match fuel with
    | 0 => NoFuel
    | Datatypes.S fuel =>
        match s with
        | Skip => Done (e, h)
        | Seq a b => bind (exec fuel a e h) (fun r => exec fuel b (fst r) (snd r))
        | Decl v x =>
            bind (demand (eval e h x)) (fun z => bind (demand (declare S e v z)) (fun e => Done (e, h)))
        | Assign r x =>
            bind (demand (eval e h x)) (fun z => bind (demand (put S e r z)) (fun e => Done (e, h)))
        | Store a i x =>
            bind (demand (eval e h a)) (fun a => bind (demand (eval e h i)) (fun i =>
            bind (demand (eval e h x)) (fun z => bind (demand (store h a i z)) (fun h => Done (e, h)))))
        | Alloc k r n =>
            bind (demand (eval e h n)) (fun n => bind (demand (get S e r)) (fun old =>
            bind (demand (allocate k h old n)) (fun q =>
            bind (demand (put S e r (snd q))) (fun e => Done (e, fst q)))))
        | Free x =>
            bind (demand (eval e h x)) (fun a => bind (demand (release_block h a)) (fun h => Done (e, h)))
        | If c a b =>
            bind (demand (eval e h c)) (fun z => exec fuel (Braces (if (z =? 0)%Z then b else a)) e h)
        | While c b =>
            bind (demand (eval e h c)) (fun z =>
              if (z =? 0)%Z then Done (e, h)
              else bind (exec fuel (Braces b) e h) (fun r => exec fuel (While c b) (fst r) (snd r)))
        | For v lo hi inc b =>
            bind (demand (eval e h lo)) (fun z =>
            bind (demand (declare S (enter S e) v z)) (fun e =>
            bind (exec fuel (While (Bin less (Ref (this S v)) hi)
                                   (Seq (Braces b) (Assign (this S v) (Bin Z.add (Ref (this S v)) inc)))) e h)
                 (fun r => Done (leave S (fst r), snd r))))
        | Braces b =>
            bind (exec fuel b (enter S e) h) (fun r => Done (leave S (fst r), snd r))
        end
    end.
End Run.

(** ** The lowered function *)
(** TensorProperty, ir.h 74-84 (those that code generation accepts). *)
Inductive kind := Dimension | Indices | Values | FillValue | ValuesSize.
(** GetProperty, ir.h 785-797, without its name; tensors by their number among
    the results followed by the operands. *)
Record property := Property { tensor : nat; what : kind; mode : nat; index : nat }.
(** A mention of a variable, or of a property with the name the mention has. *)
Inductive ref := RVar (v : nat) | RProp (p : property) (name : string).

(** Function, ir.h: the names of its tensors, results first; the names of its
    variables and whether they are arrays (is_ptr), ir.h Var. *)
Record func := Func {
  tensors : list string;
  results : nat;
  var_name : nat -> string;
  var_ptr : nat -> bool;
  body : stmt nat ref }.

(** ** FindVars *)
(** The mentions in the order FindVars visits them: codegen_c.cpp 213-262 and
    ir_visitor.cpp 17-250. *)
Fixpoint expr_refs {R} (e : expr R) : list R :=
  match e with
  | Lit _ => []
  | Ref r => [r]
  | Load a i => expr_refs a ++ expr_refs i
  | Bin _ a b => expr_refs a ++ expr_refs b
  end.
Fixpoint refs {V R} (of : V -> R) (s : stmt V R) : list R :=
  match s with
  | Skip => []
  | Seq a b => refs of a ++ refs of b
  | Decl v e => of v :: expr_refs e
  | Assign r e => r :: expr_refs e
  | Store a i e => expr_refs a ++ expr_refs i ++ expr_refs e
  | Alloc _ r n => r :: expr_refs n
  | Free e => expr_refs e
  | If c a b => expr_refs c ++ refs of a ++ refs of b
  | For v lo hi inc b => of v :: expr_refs lo ++ expr_refs hi ++ expr_refs inc ++ refs of b
  | While c b => expr_refs c ++ refs of b
  | Braces b => refs of b
  end.

(** What gets a name: a variable, or a property (canonicalPropertyVar, 179). *)
Inductive entity := EVar (v : nat) | EProp (p : property).
Definition kind_eq_dec (a b : kind) : {a = b} + {a <> b}. Proof. decide equality. Defined.
Definition property_eq_dec (a b : property) : {a = b} + {a <> b}.
Proof. decide equality; try apply Nat.eq_dec. apply kind_eq_dec. Defined.
Definition entity_eq_dec (a b : entity) : {a = b} + {a <> b}.
Proof. decide equality; [apply Nat.eq_dec | apply property_eq_dec]. Defined.
Definition entity_of (r : ref) : entity :=
  match r with RVar v => EVar v | RProp p _ => EProp p end.

(** varMap and canonicalPropertyVar as one list. *)
Definition naming := list (entity * string).
Fixpoint named (x : entity) (m : naming) : option string :=
  match m with
  | [] => None
  | (y, n) :: m => if entity_eq_dec y x then Some n else named x m
  end.

(** visit(Var) 213-217: an array keeps its name, and the name is not recorded;
    visit(GetProperty) 238-262. *)
Definition name_ref (f : func) (s : naming * counters) (r : ref) : naming * counters :=
  let (m, c) := s in
  match named (entity_of r) m with
  | Some _ => s
  | None =>
      match r with
      | RVar v =>
          if var_ptr f v then (m ++ [(EVar v, var_name f v)], c)
          else let (n, c') := get_unique_name c (var_name f v) in (m ++ [(EVar v, n)], c')
      | RProp p name =>
          if tensor p <? length (tensors f)
          then let (n, c') := get_unique_name c name in (m ++ [(EProp p, n)], c')
          else s
      end
  end.

(** resetUniqueNameCounters, codegen.cpp 434-474. *)
Definition keywords : list string :=
  ["auto"; "break"; "case"; "char"; "const"; "continue"; "default"; "do"; "double"; "else"; "enum";
   "extern"; "float"; "for"; "goto"; "if"; "inline"; "int"; "long"; "register"; "restrict"; "return";
   "short"; "signed"; "sizeof"; "static"; "struct"; "switch"; "typedef"; "union"; "unsigned"; "void";
   "volatile"; "while"; "bool"; "complex"; "imaginary"]%string.

(** genUniqueName, codegen.cpp 476-485, is NameGenerator::getUniqueName. *)
Definition find_vars (f : func) : naming :=
  fst (fold_left (name_ref f) (refs RVar (body f)) ([], new_generator keywords)).

(** ** The C function *)
(** Statements with names; [None]: the assertions of visit(Var) 370-372 and
    visit(GetProperty) 497-499 fail. *)
Fixpoint rename_expr (m : naming) (e : expr ref) : option (expr string) :=
  match e with
  | Lit z => Some (Lit z)
  | Ref r => option_map Ref (named (entity_of r) m)
  | Load a i =>
      match rename_expr m a, rename_expr m i with Some a, Some i => Some (Load a i) | _, _ => None end
  | Bin f a b =>
      match rename_expr m a, rename_expr m b with Some a, Some b => Some (Bin f a b) | _, _ => None end
  end.
Fixpoint rename (m : naming) (s : stmt nat ref) : option (stmt string string) :=
  match s with
  | Skip => Some Skip
  | Seq a b => match rename m a, rename m b with Some a, Some b => Some (Seq a b) | _, _ => None end
  | Decl v e =>
      match named (EVar v) m, rename_expr m e with Some v, Some e => Some (Decl v e) | _, _ => None end
  | Assign r e =>
      match named (entity_of r) m, rename_expr m e with
      | Some r, Some e => Some (Assign r e) | _, _ => None end
  | Store a i e =>
      match rename_expr m a, rename_expr m i, rename_expr m e with
      | Some a, Some i, Some e => Some (Store a i e) | _, _, _ => None end
  | Alloc k r n =>
      match named (entity_of r) m, rename_expr m n with
      | Some r, Some n => Some (Alloc k r n) | _, _ => None end
  | Free e => option_map Free (rename_expr m e)
  | If c a b =>
      match rename_expr m c, rename m a, rename m b with
      | Some c, Some a, Some b => Some (If c a b) | _, _, _ => None end
  | For v lo hi inc b =>
      match named (EVar v) m, rename_expr m lo, rename_expr m hi, rename_expr m inc, rename m b with
      | Some v, Some lo, Some hi, Some inc, Some b => Some (For v lo hi inc b)
      | _, _, _, _, _ => None end
  | While c b =>
      match rename_expr m c, rename m b with Some c, Some b => Some (While c b) | _, _ => None end
  | Braces b => option_map Braces (rename m b)
  end.

(** checkForAlloc, codegen.cpp 52-68. *)
Fixpoint has_alloc {V R} (s : stmt V R) : bool :=
  match s with
  | Alloc _ _ _ => true
  | Seq a b | If _ a b => has_alloc a || has_alloc b
  | For _ _ _ _ b | While _ b | Braces b => has_alloc b
  | _ => false
  end.

(** A field of a taco_tensor_t: [tensor->vals], [tensor->indices[m][i]], ... *)
Record field := Field { fkind : kind; fmode : nat; findex : nat }.

(** The C function: parameters; declarations [name = tensor->field]; body;
    stores [tensor->field = name]. *)
Record cfunc := CFunc {
  params : list string;
  unpack : list (string * (string * field));
  cbody : stmt string string;
  pack : list ((string * field) * string) }.

(** The order of the declarations: printDecls 333-362 (results before operands,
    then property, mode and index); printPack 393-416 the same for results. *)
Definition kind_rank (k : kind) : nat :=
  match k with Dimension => 1 | Indices => 5 | Values => 6 | FillValue => 7 | ValuesSize => 8 end.
Definition before (a b : property) : bool :=
  if tensor a =? tensor b then
    if kind_rank (what a) =? kind_rank (what b) then
      if mode a =? mode b then index a <=? index b else mode a <? mode b
    else kind_rank (what a) <? kind_rank (what b)
  else tensor a <? tensor b.
Fixpoint insert_sorted (x : property * string) (l : list (property * string)) : list (property * string) :=
  match l with
  | [] => [x]
  | y :: l => if before (fst x) (fst y) then x :: y :: l else y :: insert_sorted x l
  end.
Definition sorted_props (m : naming) : list (property * string) :=
  fold_right insert_sorted []
    (flat_map (fun e => match e with (EProp p, n) => [(p, n)] | _ => [] end) m).

(** unpackTensorProperty, codegen.cpp 232-272. *)
Definition unpack_of (f : func) (e : property * string) : string * (string * field) :=
  let p := fst e in (snd e, (nth (tensor p) (tensors f) EmptyString, Field (what p) (mode p) (index p))).
(** packTensorProperty, codegen.cpp 274-309: nothing is stored for dimensions
    and fill values. *)
Definition pack_of (f : func) (e : property * string) : list ((string * field) * string) :=
  let p := fst e in
  match what p with
  | Dimension | FillValue => []
  | _ => [((nth (tensor p) (tensors f) EmptyString, Field (what p) (mode p) (index p)), snd e)]
  end.
(** outputProperties 257-259. *)
Definition is_result (f : func) (e : property * string) : bool := tensor (fst e) <? results f.

(** visit(Function) 283-348. *)
Definition codegen (f : func) : option cfunc :=
  let m := find_vars f in
  match rename m (body f) with
  | Some b =>
      Some (CFunc (tensors f) (map (unpack_of f) (sorted_props m)) b
             (if has_alloc (body f)
              then flat_map (pack_of f) (filter (is_result f) (sorted_props m)) else []))
  | None => None
  end.

(** ** Running the C function *)
(** A name is a number (or an address), or a parameter: the i-th tensor. *)
Inductive cvalue := Num (z : Z) | Param (i : nat).
(** The names of each pair of braces, innermost first. *)
Definition frame := list (string * cvalue).
Definition cenv := list frame.
Fixpoint find_name (n : string) (fr : frame) : option cvalue :=
  match fr with
  | [] => None
  | (m, x) :: fr => if string_dec m n then Some x else find_name n fr
  end.
Fixpoint lookup (n : string) (e : cenv) : option cvalue :=
  match e with
  | [] => None
  | fr :: e => match find_name n fr with Some x => Some x | None => lookup n e end
  end.
Fixpoint set_name (n : string) (z : Z) (fr : frame) : option frame :=
  match fr with
  | [] => None
  | (m, x) :: fr =>
      if string_dec m n then match x with Num _ => Some ((m, Num z) :: fr) | Param _ => None end
      else option_map (cons (m, x)) (set_name n z fr)
  end.
Fixpoint assign (n : string) (z : Z) (e : cenv) : option cenv :=
  match e with
  | [] => None
  | fr :: e =>
      match find_name n fr with
      | Some _ => option_map (fun fr => fr :: e) (set_name n z fr)
      | None => option_map (cons fr) (assign n z e)
      end
  end.
(** Declaring a name twice between the same braces is an error; the parameters
    belong to the outermost braces (C11 6.2.1, 6.7). *)
Definition c_declare (e : cenv) (n : string) (z : Z) : option cenv :=
  match e with
  | [] => None
  | fr :: e => match find_name n fr with Some _ => None | None => Some (((n, Num z) :: fr) :: e) end
  end.
Definition c_scoping : scoping string string cenv :=
  Scoping _ _ _ (fun e n => match lookup n e with Some (Num z) => Some z | _ => None end)
    (fun e n z => assign n z e) c_declare (cons []) (@tl frame) (fun n => n).

(** The caller's tensors: the value of each field of each parameter. *)
Definition store_of := nat -> field -> Z.
Definition field_eq_dec (a b : field) : {a = b} + {a <> b}.
Proof. decide equality; try apply Nat.eq_dec. apply kind_eq_dec. Defined.
Definition set_field (T : store_of) (i : nat) (f : field) (z : Z) : store_of :=
  fun j g => if Nat.eq_dec i j then if field_eq_dec f g then z else T j g else T j g.

Fixpoint param_frame (i : nat) (ps : list string) (fr : frame) : option frame :=
  match ps with
  | [] => Some fr
  | p :: ps => match find_name p fr with Some _ => None | None => param_frame (S i) ps (fr ++ [(p, Param i)]) end
  end.
Fixpoint run_unpack (T : store_of) (l : list (string * (string * field))) (fr : frame) : option frame :=
  match l with
  | [] => Some fr
  | (n, (t, f)) :: l =>
      match find_name n fr, find_name t fr with
      | None, Some (Param i) => run_unpack T l ((n, Num (T i f)) :: fr)
      | _, _ => None
      end
  end.
Fixpoint run_pack (e : cenv) (l : list ((string * field) * string)) (T : store_of) : option store_of :=
  match l with
  | [] => Some T
  | ((t, f), n) :: l =>
      match lookup t e, lookup n e with
      | Some (Param i), Some (Num z) => run_pack e l (set_field T i f z)
      | _, _ => None
      end
  end.
Definition is_keyword (n : string) : bool := if in_dec string_dec n keywords then true else false.
Definition c_names (c : cfunc) : list string :=
  params c ++ map fst (unpack c) ++ refs (fun n => n) (cbody c).
Definition run_c (fuel : nat) (c : cfunc) (T : store_of) (h : heap) : outcome (store_of * heap) :=
  if existsb is_keyword (c_names c) then Stuck
  else
    bind (demand (param_frame 0 (params c) [])) (fun fr =>
    bind (demand (run_unpack T (unpack c) fr)) (fun fr =>
    bind (exec c_scoping fuel (cbody c) [fr] h) (fun r =>
    bind (demand (run_pack (fst r) (pack c) T)) (fun T => Done (T, snd r))))).
