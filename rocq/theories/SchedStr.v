(** Schedules written on the command line: /repo/src/parser/schedule_parser.cpp and
    setSchedulingCommands of /repo/tools/taco.cpp. *)
From Coq Require Import String List ZArith Bool Ascii.
From Verif Require Import Parser.
Import ListNotations.
Local Open Scope nat_scope.

Definition txt (s : string) : text := list_ascii_of_string s.

(** What the two parsers return: a value, a user error, or they do not return (the
    lexer's loop over a complex scalar). *)
Inductive sresult (A : Type) := SOk (a : A) | SError | SDiverge.
Arguments SOk {A}. Arguments SError {A}. Arguments SDiverge {A}.

(** lexer.getIdentifier() for words and scalars, lexer.tokenString(tok) for the others:
    schedule_parser.cpp 87-99, lexer.cpp 102-171. *)
Definition token_text (t : token) : text :=
  match t with
  | TIdent s | TInt s | TUint s | TFloat s | TComplex s => s
  | TComma => txt "," | TLparen => txt "(" | TRparen => txt ")" | TUnderscore => txt "_"
  | TLcurly => txt "{" | TRcurly => txt "}" | TAdd => txt "+" | TSub => txt "-"
  | TMul => txt "*" | TDiv => txt "/" | TEq => txt "=" | TError => txt "error"
  | TEot | TDiverge => []
  end.

(** The loop of ScheduleParser, schedule_parser.cpp 33-107.  [paren] and [curly] are
    parenthesesCnt and curlyParenthesesCnt, which the assertions keep from being negative;
    simplification: they do not overflow. *)
Fixpoint schedule_loop (ts : list token) (paren curly : nat) (parsed : list (list text)) (current_schedule : list text) (current_element : text)
  : sresult (list (list text)) :=
  match ts with
  | [] | TEot :: _ =>                                                             (* 101-107 *)
      if negb (paren =? 0) then SError
      else
        let current_schedule := match current_element with [] => current_schedule | _ => current_schedule ++ [current_element] end in
        SOk (match current_schedule with [] => parsed | _ => parsed ++ [current_schedule] end)
  | TDiverge :: _ => SDiverge
  | TLparen :: ts =>                                                              (* 35-46 *)
      if paren =? 0 then schedule_loop ts (S paren) curly parsed (current_schedule ++ [current_element]) []
      else schedule_loop ts (S paren) curly parsed current_schedule (current_element ++ token_text TLparen)
  | TRparen :: ts =>                                                              (* 47-54 *)
      if paren =? 0 then SError
      else schedule_loop ts (paren - 1) curly parsed current_schedule
             (if 1 <? paren then current_element ++ token_text TRparen else current_element)
  | TComma :: ts =>                                                               (* 55-74 *)
      if 0 <? curly then schedule_loop ts paren curly parsed current_schedule (current_element ++ token_text TComma)
      else if paren =? 0 then schedule_loop ts paren curly (parsed ++ [current_schedule ++ [current_element]]) [] []
      else if paren =? 1 then schedule_loop ts paren curly parsed (current_schedule ++ [current_element]) []
      else schedule_loop ts paren curly parsed current_schedule (current_element ++ token_text TComma)
  | TLcurly :: ts =>                                                              (* 75-79 *)
      schedule_loop ts paren (S curly) parsed current_schedule (current_element ++ token_text TLcurly)
  | TRcurly :: ts =>                                                              (* 80-86 *)
      if curly =? 0 then SError
      else schedule_loop ts paren (curly - 1) parsed current_schedule (current_element ++ token_text TRcurly)
  | t :: ts => schedule_loop ts paren curly parsed current_schedule (current_element ++ token_text t)   (* 87-98 *)
  end.
(** ScheduleParser, 23-108. *)
Definition ScheduleParser (argValue : text) : sresult (list (list text)) := schedule_loop (lex argValue) 0 0 [] [] [].

(** The loop of varListParser, 119-171. *)
Fixpoint varlist_loop (ts : list token) (curly : nat) (parsed : list text) (current_element : text) : sresult (list text) :=
  match ts with
  | [] | TEot :: _ =>                                                             (* 167-171 *)
      if negb (curly =? 0) then SError
      else SOk (match current_element with [] => parsed | _ => parsed ++ [current_element] end)
  | TDiverge :: _ => SDiverge
  | TComma :: ts =>                                                               (* 121-131 *)
      if 0 <? curly then varlist_loop ts curly (parsed ++ [current_element]) []
      else varlist_loop ts curly parsed (current_element ++ token_text TComma)
  | TLcurly :: ts => varlist_loop ts (S curly) parsed []                          (* 132-136 *)
  | TRcurly :: ts =>                                                              (* 137-146 *)
      if curly =? 0 then SError
      else if curly =? 1 then varlist_loop ts (curly - 1) (parsed ++ [current_element]) []
      else varlist_loop ts (curly - 1) parsed current_element
  | TLparen :: ts | TRparen :: ts => varlist_loop ts curly parsed current_element (* 147-152 *)
  | t :: ts => varlist_loop ts curly parsed (current_element ++ token_text t)     (* 153-164 *)
  end.
(** varListParser, 112-172. *)
Definition varListParser (argValue : text) : sresult (list text) := varlist_loop (lex argValue) 0 [] [].

(** sscanf(s, "%zu", &n) == 1, with strtoul's value: a sign is accepted, what follows the
    digits is not looked at, and numbers that are too large become the largest. *)
Fixpoint leading_digits (s : text) : text :=
  match s with c :: s => if is_digit c then c :: leading_digits s else [] | [] => [] end.
Definition scan_size (s : text) : option Z :=
  let '(negative, s) := match s with
                        | c :: s' => if (c =? "-")%char then (true, s') else if (c =? "+")%char then (false, s') else (false, s)
                        | [] => (false, s)
                        end in
  match leading_digits s with
  | [] => None
  | ds => let n := decimal ds in
          Some (if (2 ^ 64 <=? n)%Z then 2 ^ 64 - 1 else if negative then (- n) mod 2 ^ 64 else n)%Z
  end.

Inductive unit_name := NotParallel | GPUBlock | GPUWarp | GPUThread | CPUThread | CPUVector.
Inductive race_name := IgnoreRaces | NoRaces | Atomics | Temporary | ParallelReduction.
Inductive bound_name := MinExact | MinConstraint | MaxExact | MaxConstraint.
Inductive merge_name := TwoFinger | Gallop.
Inductive assemble_name := Append | Insert.
(** The scheduling calls that setSchedulingCommands makes, with their arguments. *)
Inductive command :=
| CPos (i ipos tensor : text)
| CFuse (i j f : text)
| CSplit (i i1 i2 : text) (splitFactor : Z)
| CDivide (i i1 i2 : text) (divideFactor : Z)
| CPrecompute (expr : text) (i_vars iw_vars : list text) (name : text)
| CReorder (vars : list text)
| CMergeby (i : text) (strategy : merge_name)
| CBound (i i1 : text) (bound : Z) (type : bound_name)
| CUnroll (i : text) (unrollFactor : Z)
| CParallelize (i : text) (unit : unit_name) (strategy : race_name)
| CAssemble (tensor : text) (strategy : assemble_name) (separately_schedulable : bool).

Fixpoint lookup {A} (table : list (string * A)) (s : text) : option A :=
  match table with [] => None | (k, a) :: table => if text_eqb s (txt k) then Some a else lookup table s end.
(** 505-512. *)
Definition merge_names : list (string * merge_name) := [("TwoFinger", TwoFinger); ("Gallop", Gallop)]%string.
(** 525-537. *)
Definition bound_names : list (string * bound_name) :=
  [("MinExact", MinExact); ("MinConstraint", MinConstraint); ("MaxExact", MaxExact); ("MaxConstraint", MaxConstraint)]%string.
(** 558-577. *)
Definition unit_names : list (string * unit_name) :=
  [("NotParallel", NotParallel); ("GPUBlock", GPUBlock); ("GPUWarp", GPUWarp); ("GPUThread", GPUThread);
   ("CPUThread", CPUThread); ("CPUVector", CPUVector)]%string.
(** 579-593. *)
Definition race_names : list (string * race_name) :=
  [("IgnoreRaces", IgnoreRaces); ("NoRaces", NoRaces); ("Atomics", Atomics); ("Temporary", Temporary);
   ("ParallelReduction", ParallelReduction)]%string.
(** 619-638. *)
Definition assemble_names : list (string * assemble_name) := [("Append", Append); ("Insert", Insert)]%string.
Definition bool_names : list (string * bool) := [("true", true); ("false", false)]%string.

Definition checked {A B} (o : option A) (f : A -> sresult B) : sresult B := match o with Some a => f a | None => SError end.
Definition sbind {A B} (r : sresult A) (f : A -> sresult B) : sresult B :=
  match r with SOk a => f a | SError => SError | SDiverge => SDiverge end.

(** One turn of the loop of setSchedulingCommands, taco.cpp 326-645, up to the call: the
    number and the form of the arguments.  Each taco_uassert and taco_uerror is SError.
    Simplification: finding the variables and tensors in the statement is not part of this
    function (see [applied] for pos). *)
Definition command_of (directive : list text) : sresult command :=
  match directive with
  | [] => SError                         (* scheduleCommand[0]: not reached, C55_directives *)
  | command :: args =>
      if text_eqb command (txt "pos") then match args with [i; ipos; tensor] => SOk (CPos i ipos tensor) | _ => SError end
      else if text_eqb command (txt "fuse") then match args with [i; j; f] => SOk (CFuse i j f) | _ => SError end
      else if text_eqb command (txt "split") then
        match args with [i; i1; i2; n] => checked (scan_size n) (fun n => SOk (CSplit i i1 i2 n)) | _ => SError end
      else if text_eqb command (txt "divide") then
        match args with [i; i1; i2; n] => checked (scan_size n) (fun n => SOk (CDivide i i1 i2 n)) | _ => SError end
      else if text_eqb command (txt "precompute") then
        match args with
        | [e; i; iw] => sbind (varListParser i) (fun i => sbind (varListParser iw) (fun iw => SOk (CPrecompute e i iw (txt "workspace"))))
        | [e; i; iw; name] => sbind (varListParser i) (fun i => sbind (varListParser iw) (fun iw => SOk (CPrecompute e i iw name)))
        | _ => SError
        end
      else if text_eqb command (txt "reorder") then match args with _ :: _ :: _ => SOk (CReorder args) | _ => SError end
      else if text_eqb command (txt "mergeby") then
        match args with [i; strategy] => checked (lookup merge_names strategy) (fun s => SOk (CMergeby i s)) | _ => SError end
      else if text_eqb command (txt "bound") then
        match args with
        | [i; i1; n; type] => checked (scan_size n) (fun n => checked (lookup bound_names type) (fun t => SOk (CBound i i1 n t)))
        | _ => SError
        end
      else if text_eqb command (txt "unroll") then
        match args with [i; n] => checked (scan_size n) (fun n => SOk (CUnroll i n)) | _ => SError end
      else if text_eqb command (txt "parallelize") then
        match args with
        | [i; unit; strategy] =>
            checked (lookup unit_names unit) (fun u => checked (lookup race_names strategy) (fun r => SOk (CParallelize i u r)))
        | _ => SError
        end
      else if text_eqb command (txt "assemble") then
        match args with
        | [tensor; strategy] => checked (lookup assemble_names strategy) (fun s => SOk (CAssemble tensor s false))
        | [tensor; strategy; sep] =>
            checked (lookup assemble_names strategy) (fun s => checked (lookup bool_names sep) (fun b => SOk (CAssemble tensor s b)))
        | _ => SError
        end
      else SError
  end.
Fixpoint commands_of (directives : list (list text)) : sresult (list command) :=
  match directives with
  | [] => SOk []
  | d :: ds => sbind (command_of d) (fun c => sbind (commands_of ds) (fun cs => SOk (c :: cs)))
  end.
(** The -s option, taco.cpp 1022-1029, and the commands it leads to. *)
Definition schedule_option (argValue : text) : sresult (list command) :=
  sbind (ScheduleParser argValue) (fun parsed => match parsed with [] => SError | _ => commands_of parsed end).

(** taco.cpp 337-343: pos looks for an operand of that name, and does nothing if there is
    none; the other commands are carried out or refused. *)
Definition applied (operands : list text) (cs : list command) : list command :=
  filter (fun c => match c with CPos _ _ tensor => existsb (text_eqb tensor) operands | _ => true end) cs.
