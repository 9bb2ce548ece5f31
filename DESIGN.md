# Formal model of taco in Rocq (Coq 8.16.1)

## Layout

* `rocq/theories/*.v` -- model files (definitions with the `/repo` file and
  lines they model), proof files, and `Prop_*.v` files that contain nothing but
  property theorems, each closed by `exact`, followed by a satisfiability
  `Example` and by `Print Assumptions`.
* `properties.jsonl` -- the English properties.
* `MANIFEST.json` -- property -> theorem names and status.
* `seeded/LOG.jsonl` -- mutation tests of the theorems.

## Modelling conventions

* C++ containers are lists; C `int` indices are `Z` (or `nat` where negative
  values are impossible), unbounded unless a property is about overflow, in
  which case the wrap-around is explicit.
* Values of tensor components are elements of an arbitrary commutative ring
  (`ring_theory`), so results hold for exact integers, modular integers,
  rationals; floating point rounding is **not** modelled.
* Undefined behaviour (out-of-bounds read or write) is a distinct outcome: array
  reads return `option`, or the operational semantics has no rule for them, so a
  theorem that concludes "the program runs to completion" also says that no such
  access happened.
* `std::sort`/`qsort` are not assumed stable: theorems quantify over every
  sorting function that returns a sorted permutation, or show that stability is
  irrelevant.
* A property that is false of the code is stated together with the condition
  under which it is true; the failure is a theorem named `..._refuted` with a
  concrete witness.

## Properties: what is modelled and how it is proved

| id | modelled code | proof |
|----|---------------|-------|
| C01, C02 | `packTensor`, `getUniqueEntries`, `pack`, `Index::getSize`, the iterator traversal | induction on levels, invariant relating a block of components to the sub-index it produces |
| C03 | `insert`, `TensorBase::pack` (permute, sort, sum duplicates), on top of C01 | permutation invariance of sums; sort quantified |
| C04 | `TensorBase::at` | from C01; counter-example for non-zero fill |
| C05 | the generated coroutine `iterate` (saved local variables, labels, uninitialised variables on entry) and `const_iterator` (Iterate.v) | induction on the levels for running and resuming the loops; an invariant of the iterator after `k` increments; any capacity |
| C06 | `makeCSRIndex`, `makeCSCIndex`, `transpose` | from C01's read-back function |
| C07 | `equals` | induction on the zipped component sequences; counter-example across formats |
| C08 | `lexicographicalCmp` with 32-bit wrap | induction on tuples; witness for overflow |
| C09 | append/finalise level functions, `doubleSizeIfFull` | state machine over appends, invariant |
| C10 | sequenced insertion level functions | invariant over insertion history |
| C11 | accelerated workspace | invariant over update history |
| C12, C13, C15, C29 | merge loops over k segments, gallop, de-duplication, index sets | loop invariants |
| C14 | `MergeLattice` construction and simplification | induction on expressions, closure of points under joins |
| C16, C17, C19 | lowering of loop nests to an imperative loop language with big-step semantics | induction on the loop nest using C12/C14/C22 |
| C18, C24, C27, C36 | where statements, precompute, scalar promotion, SpMM | denotational equalities |
| C20, C21, C23 | notation conversions, reorder | induction on statements, exchange of finite sums |
| C22 | `zero` on expressions and statements | induction on expressions; induction on statements with the set of temporaries found to be zero |
| C25, C28 | provenance arithmetic, guards, windows | integer arithmetic; induction on compositions |
| C26, C34 | topological sort, cycle check | graph invariants |
| C30, C31, C33 | isomorphism, access order, dimension check | induction on statements |
| C32 | `zeroPreservingArgs` | case analysis over real/integer interpretations |
| C35 | `applyDemorgan` | mutual induction |
| C37 | `ExpressionSimplifier` (Simplify.v; typed wrapping integers, abstract floats in SimplifySpec.v) | induction on fuel; each rewriting rule refines its node |
| C38 | the whole of `simplify(Stmt)`: loop-dependent variables, copy propagation, declaration removal, closed forms of counting loops (SimplifyStmt.v; semantics of statements with break and continue, and the conditions, in SimplifyStmtSpec.v) | simulation: relation between the replaced variables and the values they copy, kept by every statement; counting-loop invariant; termination of the invalidation queue because copies form a forest |
| C39, C41, C42 | name generator, intrusive pointers, scoped maps | invariants over histories |
| C40 | the flags, coordinate buffer, assignment and dependents of every tensor, and insert, assignment, compile, assemble, compute, reads (DelayedEval.v) | an invariant relating the heap of tensors to the eagerly computed values, with the number of later assignments as a measure for the recursion of syncValues; refuted with a witness when any condition is dropped |
| C43 | characters to tokens to expression trees, and the printer (Parser.v; grammar, texts and the conditions in ParserSpec.v) | the recursive descent parser is sound and complete for the grammar (induction on fuel / on derivations), enough fuel always; the lexer by induction on the text; the printed tokens derive the printed tree, by induction on it |
| C47 | the whole einsum string parser: characters, commas, arrow, ellipses, the maps of letters (Einsum.v; strings, ellipses and the result in EinsumSpec.v) | induction on texts for splitting and searching; sorting; the maps hold the first mode of each letter |
| C44 | the texts of .tns, .mtx and .rb files, their writers and readers down to getline, strtol, strtoul and >> (FileIO.v; components, comments and array order in FileIOSpec.v); values of any type with any texts that are read as the values | induction on lines, words and digits; lines of sixteen and ten numbers by induction on what is on the current line; the refuted cases are computed |
| C52 | the printer of expressions and statements of generated C code (PrintC.v; the tokens and grammar of C, and the program that is meant, in PrintCSpec.v) | induction on expressions and statements: the text is lexed to tokens that the meant program derives; the grammar is unambiguous, by a recursive-descent parser that finds any derivation |
| C53 | the parallelize command and parallelizeOuterLoop (Parallel.v), and which assignments become atomic when they are lowered; statements run with all interleavings of the memory accesses of a parallel loop (ParallelSpec.v) | an invariant of interleavings for loops over a variable of the left-hand side (each iteration owns its components) and one for atomic updates (the pending values, in any order); induction on statements; promotion (C27) for the body of an atomic loop; sums of updates for the temporary |
| C54 | the queries of assembly by insertion (AttrQuery.v): preconditions, scalar promotion, lowering of each assignment, removal of redundant reductions and temporaries; the coordinates a statement inserts and the runs of query statements (AttrQuerySpec.v) | the marks of a statement are the hits of its assignment (AttrQueryHits.v); promotion and renaming keep them (AttrQueryWf.v); simulation between marks and the Bool tensors of the query (AttrQuerySim.v); counting, with and without the de-duplication pass (AttrQueryProofs.v) |
| C55 | the parser of -s schedules and of variable lists (SchedStr.v) on top of the lexer of C43, and the decoding of each directive (number and form of arguments, strategies, sscanf of sizes); the grammar of schedules and the text of commands are in SchedStrSpec.v; proved by induction over the grammar with the parser's bracket counts as invariant, and a round trip for all commands; not modelled: finding the named variables and tensors in the statement, and what the commands do (C05-C08, C26, C53, C54) |
| C56 | the dimensions of tensors and index variables through all four steps of parsing an assignment (accesses, collecting, rewriting, check) with the identities of tensors (DimInfer.v); what is known of a variable is specified as a relation (DimInferSpec.v); proved by an invariant over the accesses that describes where each dimension came from, and by showing that rewriting sends each name to one tensor |
| C57 | merge lattices with omit flags, the loops and cases generated from them, zeroing of call arguments and choice of the definition (AlgLattice.v); the set is the meaning of the algebra (ChecksSpec.inside), presence and values are in AlgLatticeSpec.v; proved by a semantics of lattices (for every set of arguments present the lattice has the point of the arguments that matter, flagged exactly when the set is outside) kept by every lattice operation, then for sub-lattices, loops and cases; algebras for which the code is wrong are refuted by computed examples |
| C58 | inference of algebras from properties, inference of fill values, simplification by properties and zeroing of expressions with calls (FuncProps.v); the meaning of annihilator and identity, of expressions and of the visited coordinates is in FuncPropsSpec.v, over any values with the arithmetic laws listed there; proved by induction on expressions |
| C59 | arrays with their policies, storages with their taco_tensor_t, tensors with their flags, and the API calls that allocate, share and destroy them, as a step function on states with undefined behaviour as an outcome (StoreMem.v); who owns what is an invariant (each block has at most one owning array, freed blocks are those of destroyed owners, storages of existing tensors refer to existing arrays), proved for every step and so for every history; the conditions on callers are in StoreMemSpec.v |
| C60 | the traversals of isConcreteNotation and isReductionNotation with their scopes, the provenance graph's queries, and adding a relation and replacing loops (Accept.v); what is asked of each assignment and a small semantics of statements are in AcceptSpec.v; exactness by induction on statements, recursion of the queries by ranks of relations added in order, values by evaluation lemmas and Schedule.v's recovery, transformations by comparing the traversals before and after |
| C61 | the generated loop with its tracked variables, the searches at the start of a chunk and the split loops around it (FusedPos.v), against a plain traversal of the levels (FusedPosSpec.v); invariant: the tracked variables are the unique chain of positions whose segments hold the current position; the search by C46's specification of taco_binarySearchBefore; the reduction by induction with the pending sum |
| C62 | the test in front of the two clones and the iterations that reach the body (Cloned.v, on top of Schedule.v), against the loop nest without unrolling; (a) each root is recovered monotonically from its children, (b) every variable between a root and the loop is above its least value by the margin at most, by induction over the derivation |
| C63 | the loops of one tile with the over-reads and the stale coordinate as in the emitted code (Tile.v), against all coordinates of the tile tested one by one (TileSpec.v); by an invariant over the positions (all before are smaller, all after are not smaller than the next coordinate) and induction over loops, tiles and splits |
| C64 | the rewriters on expressions with node identities and on statements (Replace.v), against a meaning of statements over any operators (ReplaceSpec.v); by induction over expressions and statements with related environments or related stores |
| C65 | the decision, the plain and the accelerated consumer loop and the stores into full, sparse and reduced results (Accel.v, over Workspace.v), against the temporary as a function of its updates (AccelSpec.v); by the set of visited positions, permutation of sums, and induction over the steps of threads |
| C66 | how each scheduling command rebuilds the loops and their annotations (Annot.v), against the list of annotations of a variable's loops (AnnotSpec.v); by a relation between a statement and the one with a pattern cut out, and induction over commands |
| C67 | the code emitted for appending to compressed and singleton levels, run over a tree of loops (CooResult.v), against reading the arrays back (CooResultSpec.v); by flattening the loops of a coordinate group and an invariant of the levels below a position |
| C68 | the checks of pos and the lookup of the level it iterates (PosLevel.v), against the level that stores a variable's mode (PosLevelSpec.v); by cases on the order of modes |
| C69 | naming, unpacking, renaming and packing, and a semantics of C with scopes (KernelWrap.v), against the same statements run on the tensors with variables told apart by identity (KernelWrapSpec.v); simulation: the C environment is a function of the other one |
| C70 | the check of the loop order, the emitted breaks and a semantics of loops with break (EarlyExit.v), against the same loops without break (EarlyExitSpec.v); induction on the statement; a state whose component is the annihilator is a fixed point of the remaining iterations |
| C71 | mode formats, their copy functions, comparison, COO and the cache of helper functions (Formats.v); requests, configurable attributes and layouts in FormatsSpec.v; induction on the list of requests, on the format and on the history |
| C72 | options -f and -d of the command line tool as functions on texts (CliFormat.v); letters, lists of numbers and ends of groups in CliFormatSpec.v; induction on the text, the groups and the arguments |
| C73 | loop nests with parallel units, the kernels collected from them, the launch of blocks and threads, atomic updates as interleaved steps, warp additions and block searches (Cuda.v); loops run in order, well-placed effects and sums in CudaSpec.v; elimination of one parallel unit at a time by induction on the nest, induction on the interleaving |
| C74 | expressions with calls, their merge lattices and their zeroing (CallLattice.v); values, what is needed at a coordinate, true and tidy declarations in CallLatticeSpec.v; an expression of sums and products with the same lattice brings in C14's invariant, then induction on the expression |
| C75 | file names, their suffixes and tensor names, paths, opening, reading and writing by name (FileNames.v); suffixes, base names, identifiers, what a path stands for and unchanged files in FileNamesSpec.v; characterisation of the text after the last dot, then C44's round trips |
| C76 | modules, shims, loading, compile, compileSource and the cache of kernels over a heap of shared modules (Modules.v); what each tensor should run, seen on its own without modules, sharing or cache, in ModulesSpec.v; a relation between states and views kept by every operation |
| C77 | splitting and validation of target strings (Targets.v); names and their occurrence in TargetsSpec.v; first occurrences, induction over the loop that does not advance |
| C78 | taco's and OpenMP's settings and what callFuncPackedRaw does with them (Threads.v); the last setting of a history in ThreadsSpec.v; induction over histories |
| C79 | Equals over all expressions, statements and relations of variables, with null pointers as a third outcome (NotationEq.v); likeness and values in NotationEqSpec.v; induction over expressions with lists of arguments |
| C80 | packing storages into raw structures, any function on memory and structures, unpacking results and destroying old arrays (Kernels.v); what structures and storages hold in KernelsSpec.v; induction over levels and over the list of results, with the freed blocks as frame |
| C81 | the counter of names and identifiers, creation and renaming of tensors and the check in compile (Clash.v, over the expressions of NotationEq.v); what an assignment mentions in ClashSpec.v; invariants over histories, induction over expressions and over the visited accesses |
| C82 | concretizeScheduled and the functions it calls (Scheduled.v, over the statements of Notation.v and the provenance graph of Accept.v); reductions that cover an expression in ScheduledSpec.v; agreement with the unscheduled functions by induction over expressions, then reordering of loop nests (NotationRun.v) |
| C45, C48, C49 | type promotion, typed indices, shape equality | case analysis |
| C50 | argument order of kernels (Iso.v) | induction on statements |
| C51 | `removeExplicitZeros`, `removeExplicitFillValues` | from C03's packing of a new tensor |
| C46 | C helpers printed into every kernel | loop invariants |

## Model files: exactly what is modelled

| file | code | left out |
|------|------|----------|
| Storage.v | `src/storage/pack.cpp` (all of pack: dense and compressed levels), `Index::getSize`, tensor iteration over packed storage | -- |
| CSearch.v | the C helpers printed by `codegen_c.cpp` (`cmp`, binary searches, merges) | CUDA variants |
| IndexExpr.v, Lattice.v | `index_expr` tree, `merge_lattice.cpp` construction, simplification, sub-lattices | index sets and `compute` regions of user functions |
| Eval.v | meaning of expressions, `zero()` on expressions | -- |
| LoopIR.v, Lower.v | the loop statements produced by `lowerForall`, `lowerMergeLattice/Point/Cases` for dense results; operational semantics with bounds checks | parallel loops, GPU, guards of derived variables |
| DenseKernel.v | `lower` around the loops: result zero initialisation and allocation | sparse results |
| Util.v | name generator, intrusive pointers, scoped maps | threads |
| Types.v | `Datatype` promotion, `TypedIndex`, shapes | complex components |
| Checks.v | dimension type checks, `containsTranspose`, access equality and order, De Morgan | named mode formats |
| Intrinsics.v | `zeroPreservingArgs` of all intrinsics | complex arguments |
| Schedule.v | `provenance_graph.cpp`: split, divide, fuse, bound, pos, precompute; bounds recovery and guards | GPU relations |
| Window.v | windowed/strided traversal of compressed and dense modes, index sets | several index sets at once |
| Simplify.v | `ExpressionSimplifier` of `ir/simplify.cpp` | statements |
| SimplifyStmt.v | the rest of `ir/simplify.cpp` (341-722), `util/scopedmap.h`, the rounds of `IRPrinter::print` (ir_printer.cpp 47-60) as a number of rounds | Case and Switch are nested ifs; Store, Allocate, Free, Sort, Print, Yield and comments are one opaque effect on memory; kinds of loops (parallel, vectorised) |
| Parser.v | `parser/lexer.cpp`, `parser/parser.cpp` (grammar: 85-98, 182-365), `index_notation_printer.cpp` (accesses, scalars, +, -, *, / and negation) | characters are bytes; the value of a floating point or complex scalar is its text; the tensors, formats and dimensions given to the parser (parser.cpp 99-180, 313-354) are not modelled: an access is a name with variables; the stream and its position are the rest of the text |
| Einsum.v | `parser/einsum_parser.cpp` (all), `util::split` for the delimiter "->" | a tensor is the list of its dimensions, a format its order; an index variable is its letter (one is made per letter); the assignment that is built is the list of operands and the result, whose meaning is that of index notation |
| FileIO.v | `storage/file_io_tns.cpp`, `file_io_mtx.cpp`, `file_io_rb.cpp` (readers and writers) | a file is its text; a tensor is the list of components its iterator visits, or that are inserted (packing is Pack.v); values are of any type with functions to and from texts; opening of files, formats given by the caller and the permuted storage of the result are not modelled; a missing number in an .rb header is undefined |
| PrintC.v | `ir/ir_printer.cpp` (21-31, 61-608, 658-679) and what `codegen_c.cpp` overrides (350-591): precedences, parentheses, declarations, assignments, loops, branches, cases, allocations | names of variables are given (varMap); the text of the magnitude of a literal is given (floating point formatting, which prints -0.0 as 0.0 and NaN as nan, is not modelled); pragmas of loops are given as lines; Function, Yield and BinOp are left out; the rounds of simplification before printing are SimplifyStmt.v; C numbers that begin with a point, character constants, escapes, other operators and declarators are not in the grammar |
| Parallel.v, ParallelSpec.v | `Parallelize::apply` and `parallelizeOuterLoop` (transformations.cpp 873-1110, 1560-1600), `getReductionVars` (index_notation.cpp 2114-2131, 3668-3720), the atomic depth of `lowerForall`, `lowerWhere` and `lowerAssignment`; sequentially consistent interleavings of single reads, writes and atomic updates | derived index variables, GPU units; preconditions 2 and 3, which look at formats, are a parameter; memory is tensors by coordinates (not their arrays); nested parallel loops run serially |
| AttrQuery.v, AttrQuerySpec.v | `SetAssembleStrategy::apply` (transformations.cpp 1137-1543), `eliminateRedundantReductions` (337-390), `attrQueries` of the level formats | user functions, windows, several results; query statements run on sets of coordinates (the loops that merge operands are C05-C09); division and sqrt have no meaning in queries |
| Notation.v | index notation trees, einsum to reduction to concrete notation, `reorder` | windows, index sets, assemble, sequence and yield statements |
| Iso.v | `isomorphic`, `getArguments`, `getTemporaries`, dimensions of loop variables, the kernel cache, binding of arguments | windows, index sets, calls of user functions |
| Transform.v | `topologicallySort`, `reorderLoopsTopologically`, `scalarPromote`, `optimizeSpMM` | GPU reductions, windows, provenance (no derived variables) |
| Precompute.v | `IndexStmt::precompute`, `Precompute::apply`, `Assignment::getIndexSetRel` | provenance relations other than copies of variables; the check that the expression occurs |
| ZeroStmt.v | `zero(IndexStmt, ...)`, class `Zero`, on statements | function calls, yields and such-that nodes in statements (calls of intrinsics are in Lattice.v) |
| WhereLower.v | `lowerWhere`, `codeToInitializeTemporary`, `getTemporarySize`, dense `lowerAssignment` | parallel temporaries, derived index variables; operands are dense arrays |
| Workspace.v | accelerated workspaces: `lowerAssignment` 570-607, `lowerForallDenseAcceleration`, `codeToInitializeDenseAcceleratorArrays`, `lowerWhere` | one workspace per thread; the body of the consumer (it sees the coordinate and the value) |
| SparseKernel.v | kernels whose result has compressed levels filled by appending: `lower` around the loops, `initResultArrays`, `resizeAndInitValues`, `appendCoordinate`, `generateAppendPositions`, `finalizeResultArrays`, the assemble, compute and fused variants, the level functions of `mode_format_compressed.cpp` and `mode_format_dense.cpp`, `doubleSizeIfFull`, `atLeastDoubleSizeIfFull` | ungrouped insertion, parallel assembly, results whose loops are not in storage order |
| AppendRows.v | what one compressed level of a result sees of such a kernel, for any sequence of rows | -- |
| InsertRows.v | ungrouped insertion: `lowerAssemble`, the insertion functions of `mode_format_compressed.cpp`, `lowerAssignment` 497-531 | singleton levels, parallel insertion, the loops that produce the sequence of insertions |
| MergeLoop.v | the loop for one lattice point over position iterators with both merge strategies and de-duplication: `lowerMergePoint`, `resolveCoordinate`, `reduceDuplicateCoordinates`, `codeToIncIteratorVars`; the loops of a lattice and of a COO tensor | windows, index sets, locators and dimension iterators (elsewhere), what the body computes |
| PackKernel.v | the generated helper kernel that packs a sorted coordinate buffer, tensor.cpp 957-994 | the loops are written directly, not as lowered code |
| Compare.v | lexicographicalCmp, tensor.cpp 251-260, with 32-bit wrapping | -- |
| Tensor.v | construction, insert, reserve, pack, at, setStorage, makeCSR/CSC, transpose, removeExplicit*, equals: tensor.h 164-1270, tensor.cpp 112-470, 1022-1151 | assignments; component types other than the ring; fill values other than 0 except in C04; bytes of the buffer |
| Iterate.v | the helper kernel "iterate" as a coroutine: codegen.cpp 156-195, 592-656, codegen_c.cpp 284-362, 453; `const_iterator`, tensor.h 164-342 | the C types of the buffers; the loops over dense and compressed levels are written directly |
| DelayedEval.v | TensorBase state machine: tensor.cpp 112-147, 295-431, 521-545, 605-738, 808-882, tensor.h 960-965 | what packing does with a buffer (C03), kernels (C09, C14) and the kernel cache (C33, C34) are parameters; kernels that assemble while they compute are not distinguished |
| SchedStr.v | ScheduleParser, varListParser: schedule_parser.cpp 23-172; setSchedulingCommands up to the scheduling calls and the -s option: tools/taco.cpp 311-645, 1022-1029 | the other options of the command line tool; looking up variables, tensors and expressions by name |
| DimInfer.v | parseAssign, parseAccess, getIndexVar: parser.cpp 68-176, 277-348, 373-385; check: index_notation.cpp 1142-1166, error_checks.cpp 36-79 | formats and component types of parsed tensors; the syntax is parsed first (C43), then dimensions are inferred |
| AlgLattice.v | merge_lattice.cpp 43-259, 487-961, 1003-1211 with omit flags; lowerer_impl_imperative.cpp 1583-1625, 1810-2068, 2919-2936; index_notation.cpp 3906-3960; index_notation_nodes.h 296-337; ir_printer.cpp 296-324; tensor_operator.cpp 77-87 | loops that are not innermost, arguments that are expressions, Annihilator and Identity properties, result iterators |
| FuncProps.v | tensor_operator.cpp 49-145; properties.cpp 57-144; properties.h 80-88; index_notation.cpp 688-704, 990-998, 3766-3960, 4094-4228; merge_lattice.cpp 266-302 (as sets, in FuncPropsSpec.v) | square roots, intrinsics, reductions and index variables as arguments; negative positions; types of results |
| StoreMem.v | storage/array.cpp 14-92, 212-219; storage/storage.cpp 126-173; storage/index.cpp 109-129; tensor.cpp 112-147, 263-292, 295-463, 465-470, 521-545, 644-674, 776-852; tensor.h 772-870; allocations of lowerer_impl_imperative.cpp 400-410, 3055-3202 | contents and sizes of arrays, coordinate buffers, taco_tensor_t structures, fill values, dependent tensors (DelayedEval.v), tensors assigned an expression of themselves, CUDA |
| Accept.v | index_notation.cpp 1819-1855, 1928-2018 (last steps), 2114-2129, 2798-2839, 2902-3006; provenance_graph.cpp 908-984, 1092-1094, 1108-1110, 1121-1160; transformations.cpp 721-799, 821-846; index_notation_visitor.cpp 97-133 | isValid is a parameter (its dimension check is in Checks.v); yield statements, windows, index sets, loop annotations, texts of reasons, the checks of pos on formats |
| FusedPos.v | lowerer_impl_imperative.cpp 660-680, 1007-1184, 1418-1580 (what the generated loops do); provenance_graph.cpp 203-266, 458-491, 566-589, 679-696 | the IR; searches per GPU block; packs of more than one mode; integers are unbounded |
| Cloned.v | lowerer_impl_imperative.cpp 647-655, 899-1005; provenance_graph.cpp 956-969, 1121-1160, 1324-1352, 1371-1393 | branches on precomputed and fused position variables; what unrolling and vector instructions do to the body; integers are unbounded |
| Tile.v | lowerer_impl_imperative.cpp 1583-1740, 1741-1808, 3477-3616, 3617-3684, 3686-3735, 3843-3867; lowerer_impl_imperative.h 429-443; provenance_graph.cpp 167-262 (split) | levels with duplicates or windows, galloping, operands other than compressed levels; the tests of the cases are one predicate over the operands present; integers are unbounded |
| Replace.v | index_notation_rewriter.cpp 41-482 | yield nodes; regions and algebras of calls; relations other than split; results maps of assemble nodes; whether an unchanged node is shared |
| Accel.v | lowerer_impl_imperative.cpp 829-852, 2197-2459, 2516-2605 | consumers of several loops or that access the temporary at other variables; temporaries over derived variables (only in the decision); assembly without values; CUDA code; nested parallel regions |
| Annot.v | transformations.cpp 92-127, 157-221, 393-680, 721-799, 905-1090, 1561-1606, 1704-1830, 1937-1979, index_notation.cpp 1819-2036 | the preconditions on iterators and lattices (a parameter), assignments (numbers), several nests under the topological order (C26), the CUDA branch of parallelizeOuterLoop, several exchanged assignments under Temporary |
| CooResult.v | lowerer_impl_imperative.cpp 3055-3137, 3157-3201, 3229-3281, 3311-3345, 3749-3823, mode_format_compressed.cpp 107-190, mode_format_singleton.cpp 74-124, ir_generators.cpp 32-48 | dense levels (SparseKernel.v, AppendRows.v), array-of-structs packs (refused by format.cpp), what the loops visit (a tree) |
| PosLevel.v | index_notation.cpp 1928-1962, provenance_graph.cpp 529-559, iterator.cpp 572-645 | the search for original variables (a list), what the kernel does with the level (C25, C61) |
| KernelWrap.v | codegen_c.cpp 167-263, 283-348, 368-372, 428-482, 497-501, 536-565; codegen.cpp 52-68, 232-309, 319-485; ir_printer.cpp 269-294, 377-388, 422-528; ir_visitor.cpp 17-250 | unfolded parameters (is_parameter), coroutines, headers, types and casts, restrict, pragmas, print, sort, switch; the caller passes distinct tensors; a declared name is visible after its initialiser, not in it |
| EarlyExit.v | lowerer_impl_imperative.cpp 241, 468-487, 529-547, 2516-2617, 2782-2786, 2957-2965; index_notation.cpp 3414-3454; index_notation_visitor.cpp 97-129; properties.h 23-35 | parallel loops; freeing a temporary that a break jumps over; the zeroed operands of later merge loops; one level of splitting |
| Formats.v | format.cpp 25-67, 81-99, 102-148, 154-268, 320-370, 373-440; mode_format_impl.cpp 146-162, 294-305; mode_format_dense.cpp 8-47; mode_format_compressed.cpp 12-62; mode_format_singleton.cpp 12-72, 138; tensor.cpp 914-955, 1012-1020 | user-defined mode formats; allocSize (always the default); the INT_MAX limit; the mutex of the cache |
| CliFormat.v | tools/taco.cpp 86-117, 713-805, 842-852; strings.cpp 10-31; format.cpp 41-53 | all other options (taken to be in order and to leave formats and sizes alone); the order in which an expression and options interact |
| Cuda.v | codegen_cuda.cpp 110-159, 325-381, 470-611, 646-738, 861-970, 1160-1169, 1352-1404, 1407-1497 | declarations, parameters, names and types of kernels, shared memory, allocation, conditionals; parallel loops whose bounds change during the kernel; rounding of floating point sums; divergent warps (undefined in CUDA) |
| CallLattice.v | merge_lattice.cpp 260-360, index_notation.cpp 3772-3993 | division, calls with an iteration algebra (AlgLattice.v), index sets, result iterators; one component type; std::sort is any admissible sort |
| FileNames.v | tensor.cpp 1254-1371, util/files.cpp, the functions of file_io_*.cpp that open files | a file system is what each path holds and which paths may be opened for writing: no directories, links, or errors while writing; packing after reading is C01 |
| Modules.v | codegen/module.cpp 44-219, tensor.cpp 112-150, 583-674, 807-930, codegen_c.cpp 591-631 | a source is the list of its functions; a library is those functions; isomorphism of statements (C30), lowering and the compiler's other errors are parameters; CollisionFinder and the threads of parallel loops are left out |
| Targets.v | target.cpp 12-76 | the loop is bounded by a number of steps that is any |
| Threads.v | tensor.cpp 1387-1409, codegen/module.cpp 179-219 | OpenMP reads back what was set; one host thread |
| NotationEq.v | index_notation.cpp 113-176, 625-1028, 1080-1100, property_pointers.cpp, iteration_algebra.cpp 195-255, provenance_graph.cpp 55-79 and the equals of relations, util/functions.h | tensors, variables and types are numbers; a region is the position of its argument; a std::function is a pointer or an object |
| Kernels.v | kernel.cpp 20-104, storage.cpp 20-69, 126-182, index.cpp 15-46, 84-103, array.cpp 14-35, 94-101 | arrays hold integers and are owned by one storage; fill values, dimensions and CUDA left out; the functions of the module are arbitrary |
| Clash.v | name_generator.cpp 11-27, tensor.cpp 52-85, 112-118, 150-158, 606-636, index_notation_visitor.cpp 33-108 | no overflow of the counter; temporaries and tensors of index sets are not checked and left out |
| Scheduled.v | index_notation.cpp 1796-1806, 2841-2898, 3176-3370, provenance_graph.cpp 956-969, 1096-1106 | the assignment is valid; statements other than assignments, which are returned as they are, are left out |
| LoopRun.v | an interpreter for the loop language, proved sound, used for concrete runs | -- |

C17 and C19 cover results whose levels below the last compressed one are dense,
with the loops of the result in storage order and the first of those dense levels
directly inside the last compressed one. The last condition is needed:
`C17_reduction_before_dense_level_refuted` shows a reduction loop in between, where
the generated code clears the block of values again in each of its iterations.

The meaning of index notation statements is `run` in NotationSpec.v: a forall
runs its body for every value of its variable, an assignment updates one
component, a where clears its temporary to zero, runs the producer, runs the
consumer, and forgets the temporary.  Statements built by the transformations
are compared by `run`, not by the kernels generated for them.

## Trusted base

Coq's kernel; the axioms listed by `Print Assumptions` under each theorem. Every
property theorem is "Closed under the global context" except the three about
real-valued intrinsics, `C32_reals`, `C32_dropped_calls_reals` and
`C32_pow_refuted`, which use the standard library's real numbers and with them
`ClassicalDedekindReals.sig_not_dec`, `ClassicalDedekindReals.sig_forall_dec`,
`FunctionalExtensionality.functional_extensionality_dep` and
`Classical_Prop.classic`; the correspondence between the model and the C++ sources, which is
by reading (each definition cites its source).

Not modelled: floating-point rounding, the C compiler (of its front end, the part C52 needs: tokens and grammar), CUDA,
parallel execution other than in C53 (weak memory, false sharing of sparse results), the LLVM/JIT loader, memory exhaustion.
