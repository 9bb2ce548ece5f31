(** Model of the search helpers that the C back end prints into every kernel:
    /repo/src/codegen/codegen_c.cpp lines 60-128 (the [cHeaders] string). *)
From Coq Require Import ZArith List Lia Bool.
From Verif Require Import Outcome.
Import ListNotations.
Open Scope Z_scope.

(** codegen_c.cpp 92-105 and 112-125, the [while (upper - lower > 1)] loop shared by
    taco_binarySearchAfter (87-107) and taco_binarySearchBefore (108-128).
    Returns [inl mid] when the target itself was found, else [inr (lower,upper)].
    [fuel] bounds the recursion; C ints are unbounded [Z] here. *)
Fixpoint bsearch_loop (fuel : nat) (a : list Z) (target lower upper : Z)
  : outcome (Z + (Z * Z)) :=
  match fuel with
  | O => NoFuel
  | S fuel =>
      if upper - lower >? 1 then
        let mid := (upper + lower) / 2 in
        do midValue <- rd a mid;
        if midValue <? target then bsearch_loop fuel a target mid upper
        else if midValue >? target then bsearch_loop fuel a target lower mid
        else Val (inl mid)
      else Val (inr (lower, upper))
  end.

(** codegen_c.cpp: int taco_binarySearchAfter(int *array, int arrayStart,
    int arrayEnd, int target). *)
Definition taco_binarySearchAfter (a : list Z) (arrayStart arrayEnd target : Z)
  : outcome Z :=
  do v <- rd a arrayStart;
  if v >=? target then Val arrayStart
  else
    do r <- bsearch_loop (S (Z.to_nat (arrayEnd - arrayStart))) a target arrayStart arrayEnd;
    match r with
    | inl mid => Val mid
    | inr (_, upper) => Val upper
    end.

(** codegen_c.cpp: int taco_binarySearchBefore(...): note the read of
    [array[arrayEnd]], i.e. [arrayEnd] is an inclusive bound here. *)
Definition taco_binarySearchBefore (a : list Z) (arrayStart arrayEnd target : Z)
  : outcome Z :=
  do v <- rd a arrayEnd;
  if v <=? target then Val arrayEnd
  else
    do r <- bsearch_loop (S (Z.to_nat (arrayEnd - arrayStart))) a target arrayStart arrayEnd;
    match r with
    | inl mid => Val mid
    | inr (lower, _) => Val lower
    end.

(** codegen_c.cpp 71-76, first loop of taco_gallop:
    [while (curr + step < arrayEnd && array[curr + step] < target)
       { curr += step; step = step * 2; }] *)
Fixpoint gallop_up (fuel : nat) (a : list Z) (arrayEnd target curr step : Z)
  : outcome (Z * Z) :=
  match fuel with
  | O => NoFuel
  | S fuel =>
      if curr + step <? arrayEnd then
        do v <- rd a (curr + step);
        if v <? target then gallop_up fuel a arrayEnd target (curr + step) (step * 2)
        else Val (curr, step)
      else Val (curr, step)
  end.

(** second loop of taco_gallop:
    [while (step > 0) { if (curr + step < arrayEnd && array[curr+step] < target)
       curr += step; step = step / 2; }] *)
Fixpoint gallop_down (fuel : nat) (a : list Z) (arrayEnd target curr step : Z)
  : outcome Z :=
  match fuel with
  | O => NoFuel
  | S fuel =>
      if step >? 0 then
        if curr + step <? arrayEnd then
          do v <- rd a (curr + step);
          if v <? target
          then gallop_down fuel a arrayEnd target (curr + step) (step / 2)
          else gallop_down fuel a arrayEnd target curr (step / 2)
        else gallop_down fuel a arrayEnd target curr (step / 2)
      else Val curr
  end.

(** codegen_c.cpp: int taco_gallop(int *array, int arrayStart, int arrayEnd,
    int target).  The C condition is
    [array[arrayStart] >= target || arrayStart >= arrayEnd]: the read comes
    first, so an empty segment still reads [array[arrayStart]]. *)
Definition taco_gallop (a : list Z) (arrayStart arrayEnd target : Z) : outcome Z :=
  do v <- rd a arrayStart;
  if (v >=? target) || (arrayStart >=? arrayEnd) then Val arrayStart
  else
    let fuel := S (S (Z.to_nat (arrayEnd - arrayStart))) in
    do p <- gallop_up fuel a arrayEnd target arrayStart 1;
    let '(curr, step) := p in
    do curr <- gallop_down (S (S (Z.to_nat step))) a arrayEnd target curr (step / 2);
    Val (curr + 1).
