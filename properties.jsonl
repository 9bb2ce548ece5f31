{"id": "C01", "title": "Packing loses and invents nothing", "statement": "Packing a lexicographically sorted list of distinct coordinates with values into a tensor of any order whose modes are each dense or compressed, and then reading the value at every in-range coordinate back out of the packed index, returns the inserted value at each inserted coordinate and the fill value at every other coordinate; enumerating the stored components yields exactly the inserted ones, plus explicit fill entries only under dense levels, in increasing lexicographic order.", "quantifier": "every order, every per-mode choice of dense/compressed, every dimension vector, every sorted duplicate-free in-range component list and every fill value", "why_tests_cant": "Unit tests fix a handful of tensors, formats and expressions; the space of format combinations times component lists is infinite and errors show only at specific nestings (e.g. compressed under an empty dense row).", "anchors": ["src/storage/pack.cpp: packTensor, getUniqueEntries, pack", "include/taco/tensor.h: const_iterator"]}
{"id": "C02", "title": "A packed index is well formed and its size agrees with the value array", "statement": "Every index produced by packing is structurally valid: each compressed level's pos array starts at 0, is non-decreasing, has one entry more than the number of positions of the level above, ends at the length of crd, and crd is strictly increasing and in range within each segment; the number of values reported by the index's size query equals the number of values written, and never exceeds the number of value slots allocated before packing.", "quantifier": "every format, dimension vector and sorted in-range component list", "why_tests_cant": "Unit tests fix a handful of tensors, formats and expressions; buffer over-runs need particular fill patterns.", "anchors": ["src/storage/pack.cpp: pack (maxSize, malloc/realloc), packTensor", "src/storage/index.cpp: Index::getSize"]}
{"id": "C03", "title": "Insertion order, mode order and duplicates do not change the tensor", "statement": "After inserting any list of components and packing, the logical tensor is the function that maps each coordinate to the sum of the values inserted there (0 if none). It does not depend on the order of the insertions or on the mode ordering and level types of the tensor's format.", "quantifier": "every list of insertions (with repetitions), every permutation of it, every mode ordering that is a permutation, every dense/compressed format", "why_tests_cant": "Unit tests fix a handful of tensors, formats and expressions; insertion histories are unbounded and the sort is unstable.", "anchors": ["src/tensor.cpp: TensorBase::pack, lexicographicalCmp", "include/taco/tensor.h: TensorBase::insert", "src/storage/pack.cpp"]}
{"id": "C04", "title": "Reading a single component agrees with iterating the tensor", "statement": "Looking up one coordinate of a packed tensor returns the stored value when that coordinate is stored, and zero otherwise. When the tensor's fill value is zero this is the tensor's logical value; when the fill value is not zero it is not (finding).", "quantifier": "every packed tensor, every coordinate and every fill value", "why_tests_cant": "Unit tests fix a handful of tensors, formats and expressions; the defect is only visible for missing coordinates of tensors with non-zero fill.", "anchors": ["include/taco/tensor.h: TensorBase::at"]}
{"id": "C05", "title": "Chunked iteration returns every component once", "statement": "The tensor iterator, which refills a fixed-capacity buffer by re-entering a resumable traversal, yields the same sequence as an unbuffered traversal: nothing is skipped or repeated at a buffer boundary and iteration ends after the last component, whatever the buffer capacity.", "quantifier": "every number of stored components and every positive buffer capacity", "why_tests_cant": "Unit tests fix a handful of tensors, formats and expressions; boundary errors appear only when the component count meets a multiple of the capacity.", "anchors": ["include/taco/tensor.h: const_iterator::advanceIndex, bufferCapacity", "src/tensor.cpp: iterator helper kernel"]}
{"id": "C06", "title": "CSR/CSC arrays and transposition describe the same matrix", "statement": "A matrix wrapped from CSR arrays denotes the matrix with those (row, column, value) triples; wrapping the same three arrays as CSC denotes the transpose; a general transpose permutes coordinates and keeps values; and the component list is unchanged by transposing twice with inverse orders.", "quantifier": "every well-formed CSR triple of arrays and every permutation of modes", "why_tests_cant": "Unit tests fix a handful of tensors, formats and expressions; index bookkeeping errors hide in symmetric or square examples.", "anchors": ["src/storage/index.cpp: makeCSRIndex, makeCSCIndex", "include/taco/tensor.h: makeCSR, makeCSC, TensorBase::transpose"]}
{"id": "C07", "title": "Tensor equality is an equivalence on like-formatted tensors", "statement": "Comparing two tensors with the same format and dimensions returns true exactly when they have the same non-zero components. For different storage orders of the same matrix the comparison may return false (finding).", "quantifier": "all pairs of tensors with zero-free component sequences; all formats", "why_tests_cant": "Unit tests fix a handful of tensors, formats and expressions; the cross-format failure needs a specific pair of layouts.", "anchors": ["src/tensor.cpp: equals, equalsTyped"]}
{"id": "C08", "title": "The coordinate comparator used for sorting is a total order", "statement": "The comparator used to sort coordinate tuples by subtracting ints is a total order that coincides with lexicographic order when coordinates are non-negative 32-bit values; for arbitrary 32-bit values the subtraction can overflow and the order breaks.", "quantifier": "all tuples of non-negative ints below 2^31, and a witness outside", "why_tests_cant": "Unit tests fix a handful of tensors, formats and expressions; overflow needs coordinates of opposite extreme sign.", "anchors": ["src/tensor.cpp: lexicographicalCmp"]}
{"id": "C09", "title": "Appending assembles a valid compressed level within allocated bounds", "statement": "Whatever sequence of (row, increasing columns) a generated kernel appends, the crd and pos arrays it leaves after the final prefix sum are exactly the compressed level of that sequence, and every store made on the way is within the currently allocated capacity thanks to the doubling reallocation.", "quantifier": "every number of rows, every sequence of rows and coordinates, and every initial capacity", "why_tests_cant": "Unit tests fix a handful of tensors, formats and expressions; capacity errors occur only when the count crosses a doubling boundary.", "anchors": ["src/lower/mode_format_compressed.cpp: getAppendCoord, getAppendEdges, getAppendFinalizeLevel", "src/ir/ir_generators.cpp: doubleSizeIfFull, atLeastDoubleSizeIfFull"]}
{"id": "C10", "title": "Ungrouped insertion stores every coordinate exactly once", "statement": "Assembling a compressed level by counting, prefix-summing and then inserting coordinates in any order leaves each inserted coordinate in the segment of its parent, no two in the same slot, and the finalisation restores the pos array to the segment boundaries.", "quantifier": "every number of parents, every multiset of (parent, coordinate) insertions, every insertion order", "why_tests_cant": "Unit tests fix a handful of tensors, formats and expressions; the result depends on the interleaving of insertions.", "anchors": ["src/lower/mode_format_compressed.cpp: getSeqInitEdges, getSeqInsertEdge, getYieldPos, getFinalizeYieldPos", "src/lower/lowerer_impl_imperative.cpp: lowerAssemble"]}
{"id": "C11", "title": "Workspaces with an index list accumulate like a dense array", "statement": "Accumulating any sequence of (index, value) updates into a workspace guarded by an already-set bit array and an index list, and then reading it through the (optionally sorted) list, gives each touched index once with the sum of its values, untouched indices zero, and after the consumer the guards are all clear so that the workspace can be reused for the next iteration.", "quantifier": "every sequence of updates, every workspace size, any number of consecutive uses", "why_tests_cant": "Unit tests fix a handful of tensors, formats and expressions; stale guard bits appear only across particular sequences of uses.", "anchors": ["src/lower/lowerer_impl_imperative.cpp: lowerAssignment (accelerated temporaries), codeToInitializeDenseAcceleratorArrays, lowerForallDenseAcceleration, lowerWhere"]}
{"id": "C12", "title": "Merge loops visit every stored coordinate once, in order", "statement": "The generated merge loop over any number of sorted coordinate segments visits, in strictly increasing order, exactly the coordinates in the union (or the intersection) of the segments, each once, and terminates.", "quantifier": "every number of operands and every sorted duplicate-free segment", "why_tests_cant": "Unit tests fix a handful of tensors, formats and expressions; off-by-one errors in advancing depend on the interleaving of coordinates.", "anchors": ["src/lower/lowerer_impl_imperative.cpp: lowerMergePoint, codeToIncIteratorVars, checkThatNoneAreExhausted"]}
{"id": "C13", "title": "The galloping strategy gives the same intersection as two-finger merging", "statement": "Selecting the gallop merge strategy for an intersection visits exactly the same coordinates, in the same order, as the default two-finger strategy.", "quantifier": "every pair of sorted segments", "why_tests_cant": "Unit tests fix a handful of tensors, formats and expressions; gallop steps depend on the gap lengths.", "anchors": ["src/lower/lowerer_impl_imperative.cpp: codeToIncIteratorVars, lowerForallBody", "src/codegen/codegen_c.cpp: taco_gallop"]}
{"id": "C14", "title": "Merge lattices cover exactly the non-zero region of the expression", "statement": "For any expression over dense and compressed operands in which no operand access is repeated, and any pattern of present coordinates, some lattice point is fully present iff the expression can be non-zero there, and the first fully present point in lattice order keeps every operand that contributes: evaluating the expression with the point's exhausted operands replaced by zero gives the true value. With a repeated operand the second half fails (finding: x + (x*b + c) drops c).", "quantifier": "every add/subtract/multiply/negate expression, every assignment of dense/compressed levels, every presence pattern, every admissible order of equal-size points", "why_tests_cant": "Unit tests fix a handful of tensors, formats and expressions; 2^n presence patterns times all expression trees.", "anchors": ["src/lower/merge_lattice.cpp: intersectLattices, unionLattices, removeDuplicatedTensorRegions, getLoopLattice, subLattice, exhausted"]}
{"id": "C15", "title": "Duplicate coordinates are summed", "statement": "For levels that allow duplicates the generated de-duplication loop reduces each maximal run of equal coordinates to one visit whose value is the sum over the run.", "quantifier": "every sorted coordinate segment with repetitions", "why_tests_cant": "Unit tests fix a handful of tensors, formats and expressions; run-length patterns are unbounded.", "anchors": ["src/lower/lowerer_impl_imperative.cpp: reduceDuplicateCoordinates"]}
{"id": "C16", "title": "Generated kernels compute the tensor expression (dense result)", "statement": "For every assignment of an add/subtract/multiply/negate expression over operands with dense and compressed levels to a dense (or scalar) result, with any loop order compatible with the operands' storage order, the generated loop nest terminates, makes no out-of-bounds access, and leaves in the result at every coordinate the value of the expression summed over the reduction variables.", "quantifier": "every expression without repeated accesses, every loop nest depth, every operand format, every dimension vector and every well-formed operand storage", "why_tests_cant": "Unit tests fix a handful of tensors, formats and expressions; the product of expressions, formats and sparsity structures cannot be enumerated.", "anchors": ["src/lower/lowerer_impl_imperative.cpp: lower, lowerForall, lowerForallDimension, lowerForallPosition, lowerMergeLattice, lowerMergePoint, lowerMergeCases, lowerAssignment", "src/lower/merge_lattice.cpp", "src/index_notation/index_notation.cpp: zero"]}
{"id": "C17", "title": "Generated kernels assemble sparse results correctly", "statement": "When the result has compressed levels, the generated kernel assembles a well-formed index whose stored coordinates are exactly those visited by the loop nest and whose values are the expression's values.", "quantifier": "as C16, with results that append to compressed levels", "why_tests_cant": "Unit tests fix a handful of tensors, formats and expressions; as C16, plus the append state.", "anchors": ["src/lower/lowerer_impl_imperative.cpp: appendCoordinate, generateAppendPositions, initResultArrays, finalizeResultArrays", "src/lower/mode_format_compressed.cpp"]}
{"id": "C18", "title": "Temporaries (where statements) do not change the result", "statement": "Computing a sub-expression into a temporary and consuming it afterwards gives the same result as computing it in place, provided the temporary is re-initialised before each production.", "quantifier": "every producer/consumer pair of the precompute shape, every outer loop nest", "why_tests_cant": "Unit tests fix a handful of tensors, formats and expressions; stale temporaries only show for specific sparsity patterns across outer iterations.", "anchors": ["src/lower/lowerer_impl_imperative.cpp: lowerWhere, codeToInitializeTemporary"]}
{"id": "C19", "title": "Assemble followed by compute equals the fused kernel", "statement": "Running the assemble kernel and then the compute kernel yields the same result storage as the kernel that does both at once.", "quantifier": "every statement in the C17 fragment and every operand storage", "why_tests_cant": "Unit tests fix a handful of tensors, formats and expressions; the two phases share state only through the assembled index.", "anchors": ["src/lower/lowerer_impl_imperative.cpp: generateAssembleCode, generateComputeCode", "src/tensor.cpp: assemble, compute, evaluate"]}
{"id": "C20", "title": "Einsum notation means what its reduction form means", "statement": "Turning Einsum notation into explicit reductions preserves the value: every term is summed over its own variables that are not on the left-hand side, when each operand of the outermost addition or subtraction has terms with the same such variables (in particular for one or two terms). With three or more terms of different variables the placement is wrong: in y(i)=B(i,j)+c(i)+d(i) the term c(i) is summed over j too (finding).", "quantifier": "every einsum expression and environment", "why_tests_cant": "Unit tests fix a handful of tensors, formats and expressions; parenthesisation-dependent behaviour hides unless several groupings are compared.", "anchors": ["src/index_notation/index_notation.cpp: makeReductionNotation, isEinsumNotation"]}
{"id": "C21", "title": "Concrete notation preserves reductions", "statement": "Turning reduction notation into concrete notation (nested loops with compound assignment and where statements) preserves the value of the statement when all its reductions are sums; with nested top-level reductions of different operators it does not (finding).", "quantifier": "every reduction-notation statement of the modelled grammar, every environment", "why_tests_cant": "Unit tests fix a handful of tensors, formats and expressions; needs mixed operators and data on which they differ.", "anchors": ["src/index_notation/index_notation.cpp: makeConcreteNotation, ReplaceReductionsWithWheres"]}
{"id": "C22", "title": "Removing exhausted operands is sound", "statement": "Rewriting a statement with a set of operand accesses known to be zero yields a statement with the same value, and yields nothing only if the statement's value is zero. The rewrite of a division by a zero operand is excluded (finding: treated as zero).", "quantifier": "every expression over accesses, literals, +, -, *, negation, sqrt, cast and intrinsics; every set of accesses; every environment in which those accesses are zero", "why_tests_cant": "Unit tests fix a handful of tensors, formats and expressions; every subset of operands of every expression.", "anchors": ["src/index_notation/index_notation.cpp: zero, struct Zero"]}
{"id": "C23", "title": "Reordering loops does not change the result", "statement": "Reordering two loops, or any permutation of consecutive nested loops anywhere in the statement, leaves the computed tensors unchanged when the statement accumulates or assigns each component one value; every permutation of a perfect nest is carried out. With three or more loops that are not directly nested an undefined statement results instead of an error (finding).", "quantifier": "every loop nest, every permutation of it, every environment; sums in a commutative ring", "why_tests_cant": "Unit tests fix a handful of tensors, formats and expressions; permutations of nests of any depth.", "anchors": ["src/index_notation/transformations.cpp: Reorder::apply", "src/index_notation/index_notation.cpp: IndexStmt::reorder"]}
{"id": "C24", "title": "Precompute does not change the result", "statement": "Hoisting a sub-expression into a workspace indexed by chosen variables leaves the result of a sum or of a plain assignment unchanged when the sub-expression uses only those variables and outer variables, or is a factor of the summed product, and what is left of the assignment still shows every reduction (findings: other reductions become sums; reductions that the remaining assignment does not show are lost).", "quantifier": "every nest of loops around an assignment, every sub-expression occurrence, every choice of workspace variables, every environment", "why_tests_cant": "Unit tests fix a handful of tensors, formats and expressions; expressions and variable choices are unbounded.", "anchors": ["src/index_notation/transformations.cpp: Precompute::apply"]}
{"id": "C25", "title": "Split, divide, fuse, pos and bound schedules visit the same iterations", "statement": "Splitting or dividing a loop by any positive factor, fusing two loops, or bounding a loop, with the guards the lowerer emits, visits each iteration of the original loop exactly once, in any composition of these transformations and any order of the resulting loops, provided that a factor divides the range of a variable whose overrun no guard catches. Schedules that are accepted although they break a condition: splitting the inner variable of a split by a factor that does not divide it, dividing a position loop that does not start at 0, fusing loops whose inner lower bound is not zero, and bounding a loop before splitting it by a factor that does not divide the bound (findings).", "quantifier": "every loop range, every positive factor, every composition of splits/divides/fuses", "why_tests_cant": "Unit tests fix a handful of tensors, formats and expressions; tail iterations depend on divisibility; compositions are unbounded.", "anchors": ["src/index_notation/provenance_graph.cpp: SplitRelNode, DivideRelNode, FuseRelNode, BoundRelNode, PosRelNode", "src/lower/lowerer_impl_imperative.cpp: lowerForall (recovery guards)"]}
{"id": "C26", "title": "Topological reordering of loops respects every operand's storage order", "statement": "For a nest of loops, the automatic loop reordering produces a permutation of the original loops around the same body in which, for every operand, variables of its modes occur in the operand's storage order, and the reordered nest computes the same result. If every operand is accessed with one list of variables, it reports failure only when no such order exists; an operand accessed twice can make it fail although an order exists, and a statement that starts with temporaries loses loops (findings).", "quantifier": "every set of ordering constraints over every set of loop variables", "why_tests_cant": "Unit tests fix a handful of tensors, formats and expressions; constraint graphs are unbounded.", "anchors": ["src/index_notation/transformations.cpp: topologicallySort, reorderLoopsTopologically"]}
{"id": "C27", "title": "Hoisting invariant results into scalars does not change the result", "statement": "Accumulating into a scalar inside an inner reduction loop and writing it to the result after the loop gives the same result as accumulating directly, provided that, where the write-back assigns instead of accumulating, the result starts from zero.", "quantifier": "every loop nest and reduction of the modelled shape", "why_tests_cant": "Unit tests fix a handful of tensors, formats and expressions; nesting patterns are unbounded.", "anchors": ["src/index_notation/transformations.cpp: scalarPromote"]}
{"id": "C28", "title": "Windows and strides address the elements they name", "statement": "An operand window [lo,hi) with stride s exposes exactly the elements lo, lo+s, ... and iteration over the window visits exactly the stored coordinates in it, mapped to (x-lo)/s, when s divides hi-lo. When it does not, the last element in the window is not visited (finding).", "quantifier": "all lo <= hi, all positive strides, all sorted coordinate segments", "why_tests_cant": "Unit tests fix a handful of tensors, formats and expressions; divisibility corner cases.", "anchors": ["src/lower/lowerer_impl_imperative.cpp: projectWindowedPositionToCanonicalSpace, projectCanonicalSpaceToWindowedPosition, upperBoundGuardForWindowPosition, strideBoundsGuard, searchForStartOfWindowPosition", "src/index_notation/index_notation.cpp: Access::getWindowSize"]}
{"id": "C29", "title": "Index sets select the listed coordinates", "statement": "Indexing a compressed mode with a sorted set of coordinates visits exactly the stored coordinates in the set, renumbered by their position in the set. Any other list selects the same coordinates as the sorted list of its distinct coordinates. A set that is not listed in increasing order is sorted, so its coordinates are not numbered by their place in the list (finding).", "quantifier": "every sorted segment and every list of coordinates", "why_tests_cant": "Unit tests fix a handful of tensors, formats and expressions; gallop distances depend on data.", "anchors": ["src/lower/lowerer_impl_imperative.cpp: lowerMergePoint (index set statements)"]}
{"id": "C30", "title": "The kernel cache only reuses kernels for statements with the same meaning", "statement": "If two statements are judged isomorphic then, under the renaming of tensors and variables found, they compute the same function, provided all fill values agree; fill values are not compared (finding).", "quantifier": "every pair of statements of the modelled grammar", "why_tests_cant": "Unit tests fix a handful of tensors, formats and expressions; pairs of statements are unbounded.", "anchors": ["src/index_notation/index_notation.cpp: isomorphic, struct Isomorphic", "src/tensor.cpp: getComputeKernel"]}
{"id": "C31", "title": "Access comparison can key ordered containers", "statement": "Equality of accesses is an equivalence and agrees with equality of the tensor, variables, windows and index sets. The ordering used for ordered maps is a strict weak order on accesses without modifiers; with windows it is not asymmetric (finding).", "quantifier": "all accesses", "why_tests_cant": "Unit tests fix a handful of tensors, formats and expressions; order axioms quantify over triples.", "anchors": ["src/index_notation/index_notation.cpp: operator==(Access), operator<(Access)", "include/taco/index_notation/index_notation_nodes.h: AccessWindow, IndexSet"]}
{"id": "C32", "title": "Zero-preserving arguments of intrinsics are zero preserving", "statement": "For each intrinsic, whenever all arguments of one of the sets it declares zero-preserving are zero the intrinsic's value is zero. pow is declared zero-preserving in its base, which is false at exponent zero (finding).", "quantifier": "all argument values, all literal/non-literal argument patterns", "why_tests_cant": "Unit tests fix a handful of tensors, formats and expressions; quantifies over all numbers.", "anchors": ["src/index_notation/intrinsic.cpp: zeroPreservingArgs"]}
{"id": "C33", "title": "Accepted expressions have consistent dimensions", "statement": "An assignment accepted by the dimension check gives every index variable a single extent: all modes indexed by the variable, with windows and index sets taken into account, have that extent.", "quantifier": "every assignment", "why_tests_cant": "Unit tests fix a handful of tensors, formats and expressions; any number of operands and modes.", "anchors": ["src/error/error_checks.cpp: dimensionsTypecheck"]}
{"id": "C34", "title": "Transposition check is exact", "statement": "The check that rejects transposed expressions reports a problem iff the required variable orders are contradictory, i.e. iff no loop order is compatible with the storage order of all operands and the result.", "quantifier": "every set of operand access orders", "why_tests_cant": "Unit tests fix a handful of tensors, formats and expressions; graphs are unbounded.", "anchors": ["src/error/error_checks.cpp: containsTranspose, hasCycle, addEdges"]}
{"id": "C35", "title": "De Morgan rewriting preserves the iteration space", "statement": "Pushing complements down an iteration-space algebra with De Morgan's laws leaves the described set of points unchanged and complements only on regions.", "quantifier": "every algebra term and every membership assignment", "why_tests_cant": "Unit tests fix a handful of tensors, formats and expressions; terms are unbounded.", "anchors": ["src/index_notation/iteration_algebra.cpp: applyDemorgan"]}
{"id": "C36", "title": "Automatic SpMM rewriting preserves the result", "statement": "The built-in rewriting of sparse matrix-matrix multiplication into a row workspace computes the same product when the reduction is a sum, the result starts from zero and no operand is windowed; it is also applied for other reductions, where it does not (finding).", "quantifier": "every pair of matrices of compatible dimensions", "why_tests_cant": "Unit tests fix a handful of tensors, formats and expressions; needs non-sum reductions to notice.", "anchors": ["src/index_notation/transformations.cpp: optimizeSpMM"]}
{"id": "C37", "title": "Expression simplification preserves values", "statement": "Simplifying a generated expression does not change its value in any environment, terminates and does not crash, whenever the operands of every arithmetic node have the node's type and the expression contains no division of literals by zero: integers wrap in the node's type, Booleans are exact, floating point obeys the laws the rewriting uses (x+0=x, x*1=x, 0*x=0, x/1=x).", "quantifier": "every expression of the modelled IR and every environment", "why_tests_cant": "Unit tests fix a handful of tensors, formats and expressions; expressions are unbounded.", "anchors": ["src/ir/simplify.cpp: ExpressionSimplifier"]}
{"id": "C38", "title": "Statement simplification preserves behaviour", "statement": "Simplifying the statements of a generated kernel (propagating copies, removing declarations, replacing counting loops by closed forms) does not change what the kernel stores, how it ends, or the variables that outlive it, and terminates. Conditions: no implicit conversions; every variable is declared once; no loop reads a copy made outside of it of a variable it assigns; a counting loop assigns each variable once, leaves its bounds alone and has integer counters, and its increment is 1 or divides its literal range. Without each condition the result changes (findings).", "quantifier": "every program meeting the conditions, every initial state, any number of simplification rounds", "why_tests_cant": "The interaction of copies, loops and reassignment has unboundedly many shapes; a wrong replacement shows only for particular ranges and states.", "anchors": ["src/ir/simplify.cpp: simplify(const Stmt&), FindLoopDependentVars, RemoveRedundantStmts, RemoveRedundantLoops, DuplicateBody", "include/taco/util/scopedmap.h", "src/ir/ir_rewriter.cpp: visit(const Yield*)", "src/ir/ir_printer.cpp: IRPrinter::print"]}
{"id": "C39", "title": "Generated names are unique", "statement": "Names handed out by the unique-name generator are pairwise distinct when requested names contain no digit suffix; the general claim is false (finding: a, a, a0).", "quantifier": "every sequence of requests", "why_tests_cant": "Unit tests fix a handful of tensors, formats and expressions; clashes need particular request sequences.", "anchors": ["src/codegen/../util/name_generator.cpp: NameGenerator::getUniqueName"]}
{"id": "C40", "title": "Delayed evaluation is transparent", "statement": "For any history of insertions, assignments, reads and explicit calls of compile, assemble and compute, every read ends and returns the value obtained by performing every operation eagerly, as long as insertions into a tensor and assignments to it are separated by reads of it, a tensor that is inserted into after an assignment was read before it, no tensor is assigned an expression of itself and none is destroyed. Findings: without the first condition two consecutive reads can differ, or old insertions reappear; without the second the computed values are lost; a recursive assignment makes the next read loop forever; an insertion into an operand of a destroyed tensor dereferences null.", "quantifier": "every history of API calls over any number of tensors", "why_tests_cant": "Unit tests fix a handful of tensors, formats and expressions; histories are unbounded.", "anchors": ["src/tensor.cpp: syncValues, pack, compile, assemble, compute, setAssignment, addDependentTensor"]}
{"id": "C41", "title": "Reference counting frees each node exactly once", "statement": "Any sequence of copies, moves, assignments and destructions of handles keeps the reference count equal to the number of live handles and frees the node exactly when it drops to zero; self-assignment of the last handle is the exception (finding).", "quantifier": "every history of handle operations", "why_tests_cant": "Unit tests fix a handful of tensors, formats and expressions; histories are unbounded.", "anchors": ["include/taco/util/intrusive_ptr.h"]}
{"id": "C42", "title": "Scoped maps and sets behave like nested environments", "statement": "Lookups return the binding of the innermost scope, leaving a scope restores all previous bindings, and inserting never affects outer scopes.", "quantifier": "every sequence of scope/unscope/insert/lookup operations", "why_tests_cant": "Unit tests fix a handful of tensors, formats and expressions; sequences are unbounded.", "anchors": ["include/taco/util/scopedmap.h", "include/taco/util/scopedset.h"]}
{"id": "C43", "title": "The expression parser follows the grammar", "statement": "The parser accepts every text whose tokens form an assignment of the documented grammar and returns the one tree the grammar gives it (products bind tighter than sums, operators of one precedence group to the left, negation binds tightest); what it accepts begins with such an assignment; it terminates on every text. Printing an assignment whose right operands are not of their operator's own precedence and parsing the text gives the same assignment, and allowing sums in sums and products in products an assignment of the same value. Findings: input after a complete assignment is ignored (1.5e-3 is read as 1.5); a missing closing parenthesis at the end is an internal error; an unterminated complex scalar hangs; byte 255 ends the input; a - (b - c) is printed as a - b - c; unsigned, negative and complex scalars do not survive printing; integers out of range are replaced by the largest.", "quantifier": "every text, every token sequence, every expression tree", "why_tests_cant": "Unit tests fix a handful of tensors, formats and expressions; nesting is unbounded.", "anchors": ["src/parser/parser.cpp: Parser::parse*", "src/parser/lexer.cpp: Lexer::getToken", "src/index_notation/index_notation_printer.cpp: IndexNotationPrinter"]}
{"id": "C44", "title": "Writing a tensor to a file and reading it back is the identity", "statement": "For the FROSTT (.tns) format, reading what was written returns the same components in the same order; each dimension read is the least one above all coordinates, so dimensions are recovered iff the last slice of each mode is non-empty. MatrixMarket coordinate files return components and dimensions, after any comment lines; a component off the diagonal of a symmetric file also stands for the one across it; array files hold the values with the first coordinate varying fastest. Rutherford-Boeing files return the compressed column arrays. Findings: tensors without components, empty last slices, tabs, the comment lines of .tns files that the documentation describes (they are read as components), dense arrays (written row by row, read column by column), scalars, triangular symmetric arrays, and doubles of more than six digits do not survive.", "quantifier": "every list of components with int coordinates, all dimensions, every value type with texts that are read as the values, all comment lines", "why_tests_cant": "Unit tests fix a handful of tensors, formats and expressions; file contents are unbounded.", "anchors": ["src/storage/file_io_tns.cpp", "src/storage/file_io_mtx.cpp", "src/storage/file_io_rb.cpp"]}
{"id": "C45", "title": "Type promotion is a commutative, associative least upper bound where it is defined", "statement": "The result type of mixing two component types is symmetric, idempotent and never narrower than both operands within a kind.", "quantifier": "all types, all pairs and triples", "why_tests_cant": "Unit tests fix a handful of tensors, formats and expressions; algebraic laws over all combinations.", "anchors": ["src/type.cpp: max_type"]}
{"id": "C46", "title": "Search helpers used by generated code return the right position within bounds", "statement": "The binary searches and gallop emitted into every kernel return, on a sorted segment, the first position whose coordinate is not smaller than the target (respectively the last not greater), read only inside the segment when it is non-empty, and terminate. On an empty segment they read one element past it (finding).", "quantifier": "every sorted array, every segment and target", "why_tests_cant": "Unit tests fix a handful of tensors, formats and expressions; every array length, gap pattern and target.", "anchors": ["src/codegen/codegen_c.cpp: taco_binarySearchAfter, taco_binarySearchBefore, taco_gallop"]}
{"id": "C47", "title": "Einsum strings give the operands and the result the indices they write", "statement": "Parsing an einsum string with an output, such as \"ij,jk->ik\", gives every operand and the result the letters written for them and the result the dimensions of its letters; without an output the result has exactly the letters that occur once, in alphabetical order, and the others are summed over. An ellipsis stands for the modes without letters, all ellipses aligned to the right, and blanks do not matter. Any accepted string gives one index per mode and a result with indices and dimensions of the operands. Findings: the dimensions of modes with the same letter are never compared; tensors with more than 65 modes can throw std::out_of_range; \"...\" for a scalar and \"->\" read past a vector, more modes than letters read before a string; \"i...->...\" is rejected for a vector; \"->ij\" is taken for \"ij->\"; \">i-\" is accepted with > and - as indices; a comma in the output throws std::out_of_range; letters may repeat in the output.", "quantifier": "every string and list of tensors", "why_tests_cant": "Unit tests fix a handful of tensors, formats and expressions; strings are unbounded.", "anchors": ["src/parser/einsum_parser.cpp: EinsumParser::parse, buildResult, findUniqueIndices, exprHasOutput, replaceEllipse, splitSubscriptInput", "src/util/strings.cpp: split"]}
{"id": "C48", "title": "Dynamically typed index arithmetic follows the operand type", "statement": "Reading back an index value stored with a given integer type returns that value modulo the type's range, and comparisons between stored values agree with comparisons of the values; comparing a wide unsigned value with an int truncates it (finding).", "quantifier": "all integer types and values", "why_tests_cant": "Unit tests fix a handful of tensors, formats and expressions; value ranges are large.", "anchors": ["src/storage/typed_index.cpp", "src/storage/typed_value.cpp"]}
{"id": "C49", "title": "Shapes compare equal exactly when their dimensions do, except for symbolic dimensions", "statement": "Two tensor shapes compare equal iff they have the same order and the corresponding fixed dimensions are equal or both variable; dimensions named by index variables compare equal whatever the variable, so shapes naming different variables are treated as the same (finding).", "quantifier": "all shapes of all orders", "why_tests_cant": "Shapes are unbounded lists; tests compare a few literals.", "anchors": ["src/type.cpp: Dimension operator==, Shape operator==", "include/taco/type.h"]}
{"id": "C50", "title": "Every operand is passed in the parameter compiled for it", "statement": "When an assignment is compiled by the default pipeline and computed, every operand of the generated kernel is bound to the storage of its own tensor. A statement scheduled by the user so that a temporary is produced from an operand that comes later in the assignment takes its parameters in another order than they are passed (finding).", "quantifier": "every assignment whose concrete form is a nest of loops, every loop order found and every promoted scalar", "why_tests_cant": "Exchanged operands of commutative operations compute the right values, and tests schedule the leftmost operands; all expressions and schedules are unbounded.", "anchors": ["src/tensor.cpp: packArguments", "src/index_notation/index_notation.cpp: getArguments, getArgumentAccesses", "src/lower/lowerer_impl_imperative.cpp: lower"]}
{"id": "C51", "title": "Removing explicit zeros keeps the tensor", "statement": "Removing the explicit zeros of a tensor gives a tensor with the same value at every coordinate; if the last level of the new format is compressed it stores exactly the components that are not zero. Removing another value replaces it by zero and keeps everything else.", "quantifier": "every packed tensor, every removed value, every dense/compressed format and mode ordering of the result", "why_tests_cant": "The set of stored components depends on the values, the source format and the target format; tests fix one matrix and one format.", "anchors": ["include/taco/tensor.h: removeExplicitZeros, removeExplicitFillValues, insertUnchecked", "src/tensor.cpp: TensorBase::pack"]}
{"id": "C52", "title": "Generated code is printed as the program that is meant", "statement": "The C text printed for an expression or statement of generated code splits into tokens that C's grammar accepts, and every way to read them is the expression or statement that was built: parentheses keep the grouping of operations, compound assignments and increments are the assignments they stand for, else belongs to its own if, cases are the chain of their clauses. Not so (findings): the negation of a negation or of a negative literal is printed as a decrement, which changes an operand; a complex literal in a product has no parentheses; an if without else that is the branch of an if with else takes the else; the pragma of an atomic assignment that is a branch is not at the start of a line.", "quantifier": "all expressions and statements built of the modelled constructs, with any names, nesting, indentation and printer state", "why_tests_cant": "Expressions and statements are unbounded trees and grouping depends on every pair of nested operators; tests compile a few kernels, and a wrong grouping often has the same value.", "anchors": ["src/ir/ir_printer.cpp: IRPrinter::visit, printBinOp, needsParentheses", "src/codegen/codegen_c.cpp: CodeGen_C::visit", "include/taco/ir/ir_printer.h: Precedence"]}
{"id": "C53", "title": "Parallel loops compute what the serial loops compute", "statement": "When loops are parallelized, by commands that are accepted or by default, every interleaving of the iterations ends, and ends with every tensor as the serial statement leaves it: without synchronization (any number of loops), with atomic updates of a reduction, and with a temporary that holds the partial sums. Not so (findings): atomic updates of a scalar that is the temporary of a where statement (the update is not atomic); a temporary for a reduction into a tensor whose coordinates are looped over inside (the code reads a variable outside its loop); loops that read their own result; loop variables that the loop does not use.", "quantifier": "all statements, schedules of parallelize commands, dimensions, operand values over any commutative ring, and all interleavings of single memory accesses", "why_tests_cant": "Races show in a few of the interleavings, whose number is exponential in the number of accesses; tests run one of them per execution and mostly the serial order.", "anchors": ["src/index_notation/transformations.cpp: Parallelize::apply, parallelizeOuterLoop, ReplaceReductionExpr", "src/index_notation/index_notation.cpp: getReductionVars, Assignment::getReductionVars", "src/lower/lowerer_impl_imperative.cpp: lowerAssignment, lowerForall, lowerWhere (markAssignsAtomicDepth)"]}
{"id": "C54", "title": "The counts computed before a result is assembled by insertion are the counts of what is inserted", "statement": "When a result is to be assembled by insertion, the statement that is generated to count its nonzeros gives, for each position of the levels above the compressed one, exactly the number of different coordinates that the computation will insert there (so that every insertion finds its slot and no slot stays empty); exactly the supported formats, and the statements that complete each component before the next, are accepted. Not so (findings): results computed by a negation (nothing is counted), a difference (coordinates stored in both operands are not counted) or a product with a constant (each coordinate counts as often as the constant says); a unique compressed level above a singleton level; the dimensions declared for the query result when the modes are stored in another order.", "quantifier": "all statements of sums and products of operands with any loops and temporaries, all formats, mode orderings, dimensions and sparsity patterns of the operands, dense and sparse temporaries", "why_tests_cant": "An undercount shows only for operands whose patterns overlap in particular ways, and then as a write past the end of an array; tests fix a few formats and small patterns.", "anchors": ["src/index_notation/transformations.cpp: SetAssembleStrategy::apply, eliminateRedundantReductions", "src/lower/mode_format_compressed.cpp: CompressedModeFormat::attrQueries", "src/lower/lowerer_impl_imperative.cpp: lowerAssemble, lowerAccess, lowerNeg, lowerSub"]}
{"id": "C55", "title": "Schedules given as text are the schedules that are carried out", "statement": "A schedule string is read as the directives that it consists of, each with its name and its arguments, whatever white space is between the tokens and however deeply expressions and lists in the arguments are nested; it is accepted exactly when its parentheses are balanced and no brace is closed before it is opened, and refused with an error otherwise; and writing down any sequence of scheduling commands and passing it to the -s option carries out exactly these commands, an assemble without the third argument is not separate, a precompute without a name uses the name workspace, and unknown commands or wrong numbers of arguments are refused. Not so (findings): an empty argument at the very end is dropped; text after the closing parenthesis of a directive is taken into its last argument, so that split(i,i0,i1,1)6 splits by 16; a brace that is not closed swallows the directives after it; sizes may be negative (and become huge) or be followed by anything; characters outside the language become the word error; pos with a tensor that is not an operand does nothing.", "quantifier": "all strings, all sequences of directives with arguments of any nesting, all sequences of scheduling commands with any names, expressions and 64-bit sizes", "why_tests_cant": "The tests list about twenty strings; the schedule that is carried out silently differs from the one written for strings outside such a list.", "anchors": ["src/parser/schedule_parser.cpp: ScheduleParser, varListParser", "src/parser/lexer.cpp: Lexer::getToken, Lexer::tokenString", "tools/taco.cpp: setSchedulingCommands"]}
{"id": "C56", "title": "The dimensions of the tensors of a parsed expression", "statement": "Parsing an assignment gives every index variable one extent: the one that is given for it (option -d), or that of a mode it indexes of an operand whose dimensions are given or that is loaded from a file, or else the default; every mode has the extent of its variable, every name stands for one tensor, the one that is found by name afterwards, and loaded tensors are used as they are. If what is given does not agree, parsing ends with an error. Not so (findings): dimensions given for the result are overridden without notice and are no source for operands; an operand of open dimensions that is indexed in two ways becomes two tensors, one of which cannot be reached; a list of dimensions that is too short is read past its end; with += no dimensions are checked.", "quantifier": "all assignments of any number of accesses of any order, all given dimensions, loaded tensors and default dimensions", "why_tests_cant": "The tests parse a handful of expressions, most with the default dimension; which modes take their dimension from where depends on all accesses together.", "anchors": ["src/parser/parser.cpp: Parser::parseAssign, Parser::parseAccess, Parser::getIndexVar", "src/index_notation/index_notation.cpp: check, Access::operator=, Access::operator+=", "src/error/error_checks.cpp: dimensionsTypecheck"]}
{"id": "C57", "title": "Functions with an iteration algebra are computed exactly on their iteration space", "statement": "A tensor function with an iteration algebra (regions of the arguments combined by union, intersection and complement) is computed only at coordinates of the set the algebra describes; if the operands of unions cannot be skipped while one of their arguments is present, it is computed at all of them, with the values of the arguments there (zero for those not stored), no coordinate of the set is missed by the sequence of loops, and while no argument is exhausted the special definition for the arguments that are present is the one used. The compiler does not fail and leaves no case unguarded. A function with neither an algebra nor properties is computed at every coordinate. Values are compared with zero only for algebras with complements. Not so (findings): a | (b & ~c) computes nothing where a and c are stored; a | (b & c) passes zero for an argument that is stored; with an argument that occurs twice coordinates may be missed; a zero that is stored counts as absent before and as present after another argument is exhausted; after an argument is exhausted a wrong definition may be used.", "quantifier": "all algebras, all arguments compressed or dense at the variable, all coordinates, stored values and sets of exhausted arguments, and every order std::sort may give points of equal size", "why_tests_cant": "The tests use a few algebras of two or three arguments; which points a lattice has and which are left out depends on the whole algebra and on the sort.", "anchors": ["src/lower/merge_lattice.cpp: MergeLatticeBuilder, intersectLattices, unionLattices, correctPointTypes, removeDuplicatedTensorRegions, retrieveRegionIteratorsToOmit", "src/lower/lowerer_impl_imperative.cpp: lowerMergeLattice, lowerMergeCases, lowerMergeCasesWithExplicitZeroChecks, constructInnerLoopCasePreamble, lowerCasesFromMap, lowerTensorOp", "src/index_notation/index_notation.cpp: Zero::visit(CallNode)", "src/index_notation/tensor_operator.cpp: Func::constructDefaultAlgebra"]}
{"id": "C58", "title": "Declared annihilators and identities change where a function is computed, never its result", "statement": "A function that declares an annihilator or an identity but no iteration algebra is computed where all those arguments are stored whose fill value is the annihilator; if there is none, where any argument is stored, provided the identity is the fill value of all arguments (or is declared for some positions only); else everywhere. If the functions have the properties they declare, an expression has at every coordinate that is not visited the value it has where nothing is stored, which is the annihilator or the identity when these were used; fill values inferred for arguments are right; simplifying a call by its properties keeps its value; and leaving out exhausted tensors that are zero never fails and keeps the value. Not so (findings): exhausted tensors with another fill value are replaced by zero; a product with a tensor not filled with zero is missed where only the other factor is stored; an identity with a position given twice turns x - 0 into 0; positions out of range make the library read past the arguments; calling a function with an annihilator on g(x, y) * z dereferences an undefined expression; an argument whose fill value is not the annihilator gets no iterator at all.", "quantifier": "all functions with the declared properties, all numbers of arguments and positions, all argument expressions, fill values, stored values and sets of exhausted tensors", "why_tests_cant": "The tests use a handful of functions of two or three plain tensors; the claim is about every function that satisfies its declaration and every combination of fill values and nested arguments.", "anchors": ["src/index_notation/tensor_operator.cpp: Func::inferAlgFromProperties, constructDefaultAlgebra, constructAnnihilatorAlg, constructIdentityAlg", "src/index_notation/properties.cpp: Annihilator::annihilates, Identity::simplify", "src/index_notation/index_notation.cpp: fillValueInferrer, inferFill, Zero, equals", "src/lower/merge_lattice.cpp: visit(LiteralNode), visit(AddNode), visit(MulNode), visit(CallNode)"]}
{"id": "C59", "title": "Memory of tensors is neither used after it is freed nor freed twice", "statement": "For any history of creating tensors, inserting, assigning, compiling, packing, assembling, computing, reading, sharing storages, supplying and keeping arrays and destroying tensors: no kernel and no read accesses memory that was never set or was freed, nothing is freed twice, arrays the user supplies as their own are never freed, arrays the user keeps stay accessible, tensors that do not share a storage have values in different memory, and every values array that kernels allocate is freed once nothing refers to it; provided compute is called on a result that was assembled or has values, the compute function allocates exactly if the tensor assembles while computing, and only storages with values are shared (the last also requires that assembling while computing is not used). Not so (findings): compute before assemble, and evaluate of a compound assignment to a new tensor, write through a pointer that was never set; a compute function compiled or cached without allocation and run with assembleWhileCompute gives one block two owners (double free, use after free), and the other mismatch loses the results; index arrays that kernels allocate are never freed; with assembleWhileCompute every evaluation leaks a values array.", "quantifier": "every history of API calls over any number of tensors, formats, shared storages and user arrays, with destruction at any point at which nothing refers to the object", "why_tests_cant": "The defects need particular orders of calls and destructions; most leave no trace in the values a test compares.", "anchors": ["src/tensor.cpp: TensorBase, unpackTensorData, pack, setStorage, assemble, compute, evaluate", "src/storage/array.cpp: Array::Content, makeArray", "src/storage/storage.cpp: operator taco_tensor_t*", "include/taco/tensor.h: makeCSR, makeCSC"]}
{"id": "C60", "title": "Statements accepted for compiling are well formed, and loop transformations keep them so", "statement": "A statement without relations between variables is accepted for compiling exactly if each of its assignments uses only variables of the loops around it, has no reductions, has matching dimensions outside of where statements, and accumulates if it reads variables that are not on its left-hand side outside of producers. So what it computes depends on the tensors only, and loops around an accepted plain assignment give every component the value of the right-hand side, in any order of the loops. With relations, loops around an assignment are accepted exactly if its underived variables are determined by the loops' variables, and then their recovered values depend on nothing else. An assignment is accepted as reduction notation exactly if its variables are on the left-hand side or bound by reductions, and then its value depends on the left-hand side's variables only. split, divide, fuse, bound and pos turn accepted statements into accepted ones, and those of one loop succeed when the loop exists and was not transformed before. Not so (findings): in a where statement the loops of the producer also count for the consumer; derived variables are accepted without their loops; inside the producer of one precomputation the variable of another one counts as recovered; variables used as values and plain assignments in producers are accepted although the last iteration decides their result.", "quantifier": "every statement of foralls, wheres, sequences, multis and assembles over assignments, every list of relations, every transformation, all values", "why_tests_cant": "Tests try a few statements that should be accepted or refused; that nothing ill-formed gets through to the lowerer, and that no chain of transformations produces it, is about all of them.", "anchors": ["src/index_notation/index_notation.cpp: isConcreteNotation, isReductionNotation, Assignment::getReductionVars, IndexStmt::split, fuse, bound", "src/index_notation/provenance_graph.cpp: ProvenanceGraph, isRecoverable, isRecoverablePrecompute, getUnderivedAncestors", "src/index_notation/transformations.cpp: AddSuchThatPredicates::apply, ForAllReplace::apply", "src/lower/lower.cpp: isLowerable"]}
{"id": "C61", "title": "A loop over the positions of fused loops visits exactly the stored components", "statement": "After fuse of the loops over the levels of an operand, pos of the fused variable and nested splits whose factors divide each other, the generated loop visits exactly the components that the operand stores, with their coordinates and in storage order, as the unfused nest of loops would: outside parallel loops exactly if the operand is CSR or its first stored component has coordinates 0 in all fused variables but the last. When a loop around the innermost one is parallel, each chunk visits exactly the stored components at its positions, in whatever order the chunks run, and a reduction into a scalar temporary gives an adding consumer the same as every component on its own. This assumes that sparse levels have no empty segments below them, that searched levels are compressed, that chunks start before the last position and, below a dense level over several sparse ones, that no row is empty. Not so (findings): coordinates start at 0 instead of the first stored ones; a parallel search can end in an empty row; one step, not a loop, skips empty segments of compressed levels; after two splits a chunk that starts after the last position reads or writes outside of its arrays; a serial loop that runs again continues from the old variables; fused loops below an unfused one run over all of its iterations' components; the position loop itself cannot run in parallel.", "quantifier": "every chain of at least two dense, compressed and singleton levels with arbitrary arrays, every nest of split factors, every chunk and order of chunks, every adding consumer", "why_tests_cant": "The code walks several arrays at once with variables that are advanced incrementally; tests use a few CSR matrices, and whether the walk stays in step depends on where rows and chunks end in arbitrary arrays.", "anchors": ["src/lower/lowerer_impl_imperative.cpp: lowerForallFusedPosition, searchForFusedPositionStart, lowerForall", "src/index_notation/provenance_graph.cpp: PosRelNode::deriveIterBounds, PosRelNode::recoverVariable, FuseRelNode::recoverVariable, SplitRelNode", "src/codegen/codegen_c.cpp: taco_binarySearchBefore"]}
{"id": "C62", "title": "Unrolled and vectorized loops run the same iterations", "statement": "unroll, and parallelize with a CPU vector, emit a loop twice: with the bounds tests of the original variables and without them, behind a test that all iterations to come are in range. The nest then runs exactly the iterations, in the same order, that it runs without unrolling, so each original iteration once if the schedule has that property: (a) for every loop, if each original variable is split, divided or fused once below the loops around it; (b) for the innermost loop of any nest of transformations, if its variable and those above it are never what a split or divide multiplies (unless fixed by the loops around) and fused inner variables are original ones. A loop is refused exactly if no original variable is both transformed and not yet fixed by the loops around. Not so (findings): after splitting the outer loop of a split, unrolling or vectorizing a middle loop lets iterations beyond the range run; so does a variable split three times; with two transformed variables the margin of one is applied to the other; an untransformed loop cannot be unrolled or vectorized when nothing else is transformed.", "quantifier": "every list of split, divide, fuse, bound and precompute relations, every order of the loops, every loop chosen, all ranges", "why_tests_cant": "Whether the single test covers every variable depends on the whole graph of derived variables and on ranges that no factor divides; tests unroll one split with a few sizes.", "anchors": ["src/lower/lowerer_impl_imperative.cpp: lowerForallCloned, lowerForall", "src/index_notation/provenance_graph.cpp: isRecoverable, newlyRecoverableParents, getFullyDerivedDescendants, recoverVariable", "include/taco/index_notation/index_notation.h: unroll, parallelize"]}
{"id": "C63", "title": "Split loops over sparse operands", "statement": "A loop over a coordinate of compressed operands that was split, once or repeatedly, finds the start of each tile by binary search and merges from there. For multiplied operands, any number of them, the tiles together visit exactly the coordinates that all operands store, in order, each once, with the right positions, if each factor divides the one before and every coordinate array has one more entry behind the segment; so they do for added operands if that entry is no smaller than the end of the last tile. Not so (findings): an array that ends with the segment is always read one entry behind its end; in a sum, the first coordinate of an operand's next row lets a coordinate of the other operand be visited in a tile before its own and again in its own; with the loops of the split reordered coordinates are visited repeatedly and others never; so are coordinates when a factor does not divide the one before.", "quantifier": "every number of operands, all stored segments, every start and size of a tile, every list of nested factors, every dimension", "why_tests_cant": "Whether tiles overlap or miss a coordinate depends on where every operand's coordinates fall among the tiles and on what lies behind each segment; tests compare a few small products.", "anchors": ["src/lower/lowerer_impl_imperative.cpp: lowerMergeLattice, lowerMergePoint, codeToInitializeIteratorVar, codeToIncIteratorVars, codeToRecoverDerivedIndexVar", "src/index_notation/provenance_graph.cpp: SplitRelNode::computeRelativeBound, deriveIterBounds, recoverChild", "src/codegen/codegen_c.cpp: taco_binarySearchAfter", "include/taco/index_notation/index_notation.h: IndexStmt::split"]}
{"id": "C64", "title": "Replacing variables, tensors and parts of statements", "statement": "replace with a map of index variables that keeps the variables of a statement distinct gives a statement that does the same to every tensor (variables may also be exchanged); with a map of tensors that keeps them distinct, one that does to the new tensors what the old one does to the old; with a map of expressions or statements to others of the same meaning, one of the same meaning; and whatever is not concerned is left as it is. For this, no variable of a reduction or of a scheduling relation and none of an access to the stored structure may be replaced, and no tensor with a window or index set on its access. In these cases the meaning is lost (findings): a reduction keeps its variable while its uses change; relations keep theirs; structure accesses become value accesses; windows and index sets of replaced tensors are dropped. A cast is never replaced itself.", "quantifier": "every statement and expression of index notation, every map, all operators and types of values, all tensors and dimensions", "why_tests_cant": "Capture and lost modifiers depend on which node kinds and which variables meet in one statement; tests replace in a few plain ones.", "anchors": ["include/taco/index_notation/index_notation_rewriter.h: replace", "src/index_notation/index_notation_rewriter.cpp: IndexNotationRewriter, ReplaceRewriter, ReplaceIndexVars, ReplaceTensorVars"]}
{"id": "C65", "title": "Iterating only the stored positions of a temporary keeps the result", "statement": "When a temporary vector is consumed by a loop that only visits the positions stored in it, the result is that of a loop over the whole dimension with zeros where nothing was stored: full results have every component assigned, sparse results have the right component at every coordinate, appended once and in increasing order if the level is ordered, and reductions add up the whole dimension. This holds for results whose mode ordering is its own inverse and right-hand sides that are zero where the temporary is; then exactly the consumers that read one dense vector and write a sparse level (or do not use the variable in the result) are iterated this way. Threads use separate parts of shared temporaries. Findings: a right-hand side with a constant (w(j) + 1) is iterated this way too and loses components; with other mode orderings the wrong level is consulted, so dense results keep old contents, ordered levels receive unsorted coordinates, or sparse ones explicit zeros; a temporary that is multiplied up is zero without acceleration.", "quantifier": "every right-hand side, result format, mode ordering, dimension and sequence of stored values; every interleaving of threads", "why_tests_cant": "Whether a component is lost depends on the right-hand side, on which positions happen to be stored and on the mode ordering of the result; tests use a few products with row- or column-major results.", "anchors": ["src/lower/lowerer_impl_imperative.cpp: canAccelerateDenseTemp, lowerWhere, lowerForall, codeToInitializeTemporary, codeToInitializeTemporaryParallel, codeToInitializeLocalTemporaryParallel", "include/taco/index_notation/index_notation.h: IndexStmt::precompute, IndexStmt::wsaccel"]}
{"id": "C66", "title": "Annotations of loops under further scheduling", "statement": "parallelize, mergeby and unroll annotate the loops over the variable they name: each sets only its own fields, their order does not matter, and a later annotation of the same kind counts. Every sequence of accepted scheduling commands that do not name a variable keeps the annotations of all loops over it. A command that names a variable without a loop changes nothing. Findings: reorder (also into the present order), split, divide, fuse, pos and bound remove all annotations of the loops they name; precompute removes the annotations of the whole nest around the expression, also of variables it is not given; sorting loops topologically keeps parallel units and race strategies but gives every loop the merge strategy and unroll factor of the outermost one; all without an error.", "quantifier": "every statement, every sequence of scheduling commands and every decision of the checks that accept them", "why_tests_cant": "A schedule is a sequence of commands of any length in any order; tests fix a few, and a lost annotation changes no result.", "anchors": ["src/index_notation/transformations.cpp: Reorder, SetMergeStrategy, Precompute, ForAllReplace, Parallelize, parallelizeOuterLoop, reorderLoopsTopologically, scalarPromote", "src/index_notation/index_notation.cpp: IndexStmt::split, IndexStmt::divide, IndexStmt::reorder, IndexStmt::mergeby, IndexStmt::parallelize, IndexStmt::pos, IndexStmt::fuse, IndexStmt::bound, IndexStmt::unroll, IndexStmt::precompute, forall"]}
{"id": "C67", "title": "Results in coordinate format", "statement": "A result stored in coordinate format (COO of any order), or in coordinates with compressed levels below, holds exactly the components the kernel visited, in the order it visited them, with the values it computed: reading the pos, crd and values arrays back gives that list. Slices in which nothing was visited are not stored. This holds for kernels that assemble and compute at once, and for an assemble kernel followed by a compute kernel, also when it is computed again with other values at the same coordinates. No access is outside an array, whatever size arrays start with. Formats with a singleton level below a unique level are refused. Finding: a coordinate group below any other appending level (for example {Compressed, Compressed(not unique), Singleton}) is accepted but gives a kernel that uses an undeclared position variable and does not compile.", "quantifier": "every format of compressed and singleton levels starting with a compressed one, every nest of loops with any coordinates visited (also empty slices), every value and every initial array size", "why_tests_cant": "Arrays grow at sizes of a million entries, and the shared position variables depend on the shape of the format; tests use a few formats and small tensors.", "anchors": ["src/lower/lowerer_impl_imperative.cpp: initResultArrays, appendCoordinate, generateAppendPositions, resizeAndInitValues, finalizeResultArrays", "src/lower/mode_format_singleton.cpp: getAppendCoord, getAppendInitLevel", "src/lower/mode_format_compressed.cpp: getAppendCoord, getAppendEdges, getAppendInitEdges, getAppendInitLevel", "src/format.cpp: COO", "src/ir/ir_generators.cpp: doubleSizeIfFull, atLeastDoubleSizeIfFull"]}
{"id": "C68", "title": "The level that pos iterates", "statement": "pos(i, ipos, A(...)) is accepted only for an access the statement reads and a variable that is (or is derived from variables) in it. If the modes of A are stored in the order they are written, pos iterates the stored positions of the bottom level that the variable's original variables index, and is refused exactly if that level is dense. For one variable of a matrix the refusal is right for every order of modes. Findings: for other orders of modes the level iterated is the one whose number is the variable's mode, so pos on the rows of a CSC matrix is accepted but iterates the dense column level, and on a DCSC matrix the positions of the wrong level; fusing column and row of a CSC matrix is refused although its bottom level is compressed; with three modes dense levels are accepted and compressed ones refused.", "quantifier": "every access, every order of its modes and format of its levels, every set of original variables of the variable given", "why_tests_cant": "Tests use pos only on tensors whose modes are stored in the order they are written.", "anchors": ["src/index_notation/index_notation.cpp: IndexStmt::pos", "src/index_notation/provenance_graph.cpp: PosRelNode::getAccessIterator", "src/lower/iterator.cpp: Iterators::createAccessIterators"]}
{"id": "C69", "title": "The generated C function acts on the caller's tensors", "statement": "The C function of a kernel reads each property of each tensor it is given from that tensor, and when it returns each array of a result that it allocated or set is in that result, no other field has changed, and memory is as if the lowered function had worked on the tensors themselves, with every variable kept apart whatever its name. This needs names that do not clash; no check enforces it. Findings: two loops over variables named i and one over i0, or two temporaries of one name of which one is used inside the other's scope, compile and compute something else; two tensors of one name, a tensor called A_vals beside A, and a tensor named like a keyword give C code that does not compile.", "quantifier": "every lowered function (all statements: declarations, assignments, stores, allocations, branches, loops), all names, all tensors, all memory, any number of steps", "why_tests_cant": "whether two names clash depends on all the names a user chose and on the order in which variables first occur", "anchors": ["src/codegen/codegen_c.cpp: CodeGen_C::FindVars, CodeGen_C::visit(const Function*)", "src/codegen/codegen.cpp: printDecls, printPack, unpackTensorProperty, packTensorProperty, genUniqueName, resetUniqueNameCounters, checkForAlloc", "src/ir/ir_printer.cpp: visit"]}
{"id": "C70", "title": "Leaving a reduction's loop early does not change the result", "statement": "When a reduction operator is declared with an annihilator, the kernel may leave a loop once the accumulated value is the annihilator; the result is the one of running all iterations. It is for loops in any order around one assignment that reduces over some variable and whose result variables are not split, and for reductions in expressions, if the annihilator absorbs whatever follows it. Findings: the result is wrong without a reduction variable (A(i) op= B(i) stops at the first annihilator), when a variable of the result is split and the loops of its parts are inside a reduction loop, when a temporary is indexed by the reduction variable, when the annihilator was declared for the second argument only, and when another statement shares the loop; without any loop the kernel does not compile.", "quantifier": "every statement (assignments, loops, where, sequences), all operators, all coordinates the loops visit, all data, any depth", "why_tests_cant": "whether a loop is left depends on the data, and whether that is right depends on the order of all loops and on all assignments", "anchors": ["src/lower/lowerer_impl_imperative.cpp: emitEarlyExit, lowerAssignment, lower", "src/index_notation/index_notation.cpp: allForFreeLoopsBeforeAllReductionLoops", "include/taco/index_notation/properties.h: Annihilator"]}
{"id": "C71", "title": "Formats have the requested properties and equal formats are stored alike", "statement": "A variant of a mode format has what was last requested of every attribute its class lets one choose and keeps the others; hasProperties answers exactly. Two formats compare equal exactly if their modes agree in all attributes but padding, are grouped alike and are stored in the same order. COO(n, ...) has one compressed level and singletons, ordered as requested, of which only the last is unique. Over any history of tensors, the cached helper functions (packing, iterating) of a tensor are those for its format, component type and dimensions, if code depends on these only. Findings: requests a class does not support are dropped silently; padding and the types of index arrays are not compared, so a padded format is given the helper functions of an unpadded one; a mode ordering that is not a permutation is accepted.", "quantifier": "every sequence of requested properties, every pair of formats, every order, every history of requests to the cache", "why_tests_cant": "sequences of requests, formats and histories are unbounded", "anchors": ["src/format.cpp: Format, ModeFormat::operator(), hasProperties, operator==, COO, isDense", "src/lower/mode_format_impl.cpp: equals, operator==", "src/lower/mode_format_dense.cpp, mode_format_compressed.cpp, mode_format_singleton.cpp: copy", "src/tensor.cpp: getHelperFunctions"]}
{"id": "C72", "title": "Format and size options of the command line tool mean what the usage message says", "statement": "For every tensor name, every non-empty list of mode letters, every order of modes and every grouping of modes, the option -f=name:letters[:modes[:ends]] gives the tensor exactly the format the letters describe, stored in the given order and grouped as listed; whatever is accepted was written so; unknown letters and wrong numbers of parts end the program with its error codes. -d=name:sizes gives exactly the sizes. On a whole command line the first option for a name counts.", "quantifier": "all names, letters, orders, groupings, sizes and command lines", "why_tests_cant": "descriptors are unbounded texts and command lines are arbitrary sequences of options", "anchors": ["tools/taco.cpp: main, printUsageInfo", "src/util/strings.cpp: split", "src/format.cpp: Format"]}
{"id": "C73", "title": "Kernels generated for GPUs do the work of the loops they replace", "statement": "For every program whose effects are inside the loops over threads (or in the reduction after them), the threads that a GPU kernel launches over blocks, warps and threads have together exactly the effects of the loops, each as often. However threads take turns, no atomic addition or atomic or is lost; the additions of a warp are combined without losing any, also when some threads have returned; the search that precedes a kernel writes the start of every block once and in bounds; leaving a loop where the source continues is right for conditions that stay true.", "quantifier": "all loop nests, bounds, block and grid sizes, all interleavings of threads and all values", "why_tests_cant": "the outcome depends on the interleaving of thousands of threads and on loop bounds; tests see a few schedules of a few sizes, and need the hardware", "anchors": ["src/codegen/codegen_cuda.cpp: DeviceFunctionCollector, printDeviceFunctions, printThreadIDVariable, printDeviceFuncCall, visit(For), visit(Store), visit(Continue), atomicAddWarp, taco_binarySearchBeforeBlockLaunch"]}
{"id": "C74", "title": "Loops over the operands of calls compute the calls' values everywhere", "statement": "In an expression that calls functions (max, min, comparisons, abs, mod, ...), the loop generated for an index variable visits a coordinate exactly when the operands absent there do not make the expression zero by what the functions declare, and at every coordinate what it computes is the value of the whole expression, an absent operand being zero. Where it does not visit, the value is zero. Every function of the library on integers satisfies this; pow does not (finding: 0 to the power 0).", "quantifier": "all expressions with nested calls and distinct operands, all functions with true declarations, all patterns of present operands and all values", "why_tests_cant": "the cases are the subsets of operands present at a coordinate for every expression; tests try a few calls on a few vectors", "anchors": ["src/lower/merge_lattice.cpp: visit(CallIntrinsicNode)", "src/index_notation/index_notation.cpp: struct Zero, visit(CallIntrinsicNode)", "src/index_notation/intrinsic.cpp: zeroPreservingArgs"]}
{"id": "C75", "title": "Reading and writing a tensor by file name use the format of the suffix and touch only that file", "statement": "A file name that ends with .tns, .ttx, .mtx or .rb is read and written in that format: a tensor that the format can hold, written under a name, is read back under it, named after the part of the file name before the first dot with underscores for dashes. Any other name is an error that changes no file; whatever the outcome, a write changes no other file than the one the path stands for (~ is the home directory). The tensor's name is a C identifier when the base name is made of letters, digits, underscores and dashes and begins with a letter. Findings: a failed write to a .rb file empties the file first; a file called tns without a dot is accepted; files in different directories give tensors of one name (whose kernels do not compile); names such as 2d.tns give tensors whose names are not identifiers; ~ without HOME is undefined behaviour.", "quantifier": "all file names, file systems, home directories, tensors, component types with their texts, and builds with and without assertions", "why_tests_cant": "file names and the contents of the file system are unbounded; tests read a handful of files", "anchors": ["src/tensor.cpp: getExtension, dispatchRead, read, dispatchWrite, write", "src/util/files.cpp: sanitizePath, openStream", "src/storage/file_io_tns.cpp, file_io_mtx.cpp, file_io_rb.cpp: readTNS, writeTNS, readMTX, writeMTX, readRB, writeRB"]}
{"id": "C76", "title": "A tensor runs the code that was last compiled for it, whatever else is compiled", "statement": "After any sequence of assignments, compile(), compile(stmt), compileSource(source), setAssembleWhileCompute, assemble() and compute() on any tensors, a tensor whose assignment has changed since it was compiled refuses to run; otherwise assemble and compute both run the code of one and the same statement isomorphic to the one that was compiled for it (exactly that statement with its flag when cached kernels are switched off), or the user's own functions if those were compiled. Sharing of kernels between tensors through the cache, and failed compilations elsewhere, have no effect on this. Findings: compileSource always fails once anything was compiled for the tensor or an attempt failed, so a kernel cannot be edited and recompiled nor a misprint corrected; compile(stmt) with a new schedule is silently ignored when the assignment has not changed; after a failed compilation, compile() reports success and running the tensor calls a null pointer.", "quantifier": "all histories of operations on any number of tensors, statements, isomorphism relations, lowerings, compilers and user sources", "why_tests_cant": "modules are shared by pointer between tensors and a process-wide cache; which code runs depends on the whole history", "anchors": ["src/tensor.cpp: compile, compileSource, getComputeKernel, cacheComputeKernel, assemble, compute, setAssignment, setAssembleWhileCompute", "src/codegen/module.cpp: compileToSource, writeShims, compile, setSource, getFuncPtr, callFuncPackedRaw", "include/taco/codegen/module.h: Module::callFuncPacked"]}
{"id": "C77", "title": "Target strings that are declared valid name an architecture and a system, and make a target", "statement": "validateTargetString(s) is true only of strings that contain the name of an architecture and, after it, the name of a system, and is true of all that contain one architecture followed by a system, so of every string of the documented form arch-os-features whose features do not name the other architecture. Findings: Target(s) fails for every string s: with a user error if s has no dash, else with std::out_of_range, because the loop that splits the string never advances; strings that are not of the documented form are declared valid, and c99-linux-x86 is not.", "quantifier": "all strings", "why_tests_cant": "strings are unbounded, and no test constructs a target from one", "anchors": ["src/target.cpp: parseTargetString, Target::Target, Target::validateTargetString", "include/taco/target.h"]}
{"id": "C78", "title": "Kernels run with the threads and schedule that were last set, and restore those of the program", "statement": "After any sequence of taco_set_num_threads, taco_set_parallel_schedule, OpenMP calls of the program and runs of kernels, a kernel runs with the schedule, chunk size and number of threads last set for taco (one thread, static, chunk size 0 at first; numbers that are not positive are ignored), and the program's own OpenMP settings are those that it last made, even if kernels change them.", "quantifier": "all histories of settings and kernel runs, and all kernels", "why_tests_cant": "the settings are process-wide state; what a kernel sees depends on the whole history", "anchors": ["src/tensor.cpp: taco_set_parallel_schedule, taco_get_parallel_schedule, taco_set_num_threads, taco_get_num_threads", "src/codegen/module.cpp: Module::callFuncPackedRaw"]}
{"id": "C79", "title": "Expressions and statements that are found equal mean the same", "statement": "equals(a, b) is true of two expressions only if they have the same value for all tensors, operators and functions, so a tensor that is assigned an equal expression need not be compiled again. If the functions that are called are function pointers, it is true exactly if the expressions are the same (types, literals, windows, index sets, operators, arguments, iteration algebras, special definitions) but for names of calls and positions and order of declared properties; likewise for statements, but for merge strategies of loops and results of assemble statements. Findings: comparing calls of function objects (lambdas, structs) dereferences a null pointer, so assigning such an expression twice to a tensor is undefined behaviour; positions of annihilators and identities are not compared; equality is not symmetric.", "quantifier": "all pairs of expressions and statements of the whole index notation, all interpretations", "why_tests_cant": "pairs of expressions are unbounded, and each field that is not compared is a wrong result only for some of them", "anchors": ["src/index_notation/index_notation.cpp: struct Equals, equals, checkRegionDefinitions, checkIterationAlg, operator== of Access", "src/index_notation/property_pointers.cpp: equals", "src/index_notation/provenance_graph.cpp: IndexVarRel::equals and the equals of relations", "include/taco/util/functions.h: targetPtrEqual", "src/tensor.cpp: uses of equals"]}
{"id": "C80", "title": "A kernel called on tensor storages gets what they hold and its results are read back", "statement": "When a Kernel made by compile(stmt) is evaluated, assembled or computed on tensor storages, its function gets structures that hold exactly the index and values of the storages. After evaluating or assembling, if the function left complete tensors in new arrays, each result storage reads back exactly these levels and values, the next call passes the same arrays on, all other storages keep their arrays and nothing else is freed; computing leaves every storage's arrays in place. The call returns true exactly if the function returned 0. Findings: a result with a singleton level is never accepted; a newly constructed storage with a dense level makes every call undefined; after a failed call the old results are gone.", "quantifier": "all functions a module may contain, all memories, all lists of storages with dense, compressed and singleton levels, including storages passed more than once as operands", "why_tests_cant": "the sizes of the arrays are read from what the generated function leaves; a wrong size or a freed array shows only for some formats and contents", "anchors": ["src/index_notation/kernel.cpp: packArguments, unpackResults, Kernel::operator(), Kernel::assemble, Kernel::compute", "src/storage/storage.cpp: TensorStorage::operator taco_tensor_t*, setIndex, setValues", "src/storage/array.cpp: Array::Content", "src/storage/index.cpp: Index::Index"]}
{"id": "C81", "title": "Compiling an assignment refuses different tensors of the same name, and only those", "statement": "After any sequence of tensor creations, renamings and other uses of the name counter, compile() of an assignment reports a name clash exactly if two different tensors it mentions, on either side and at any depth, have the same name at that time. Tensors created without a name never clash with each other. Finding: a tensor created without a name can clash with one the user named, because made-up names (A followed by a number) are not reserved.", "quantifier": "all histories of creations and renamings, all assignments over the tensors", "why_tests_cant": "histories and expressions are unbounded; one test has one clash between two sides of an assignment", "anchors": ["src/tensor.cpp: TensorBase::compile (CollisionFinder), TensorBase::setName, constructors", "src/util/name_generator.cpp: uniqueName, getUniqueId", "src/index_notation/index_notation_visitor.cpp", "include/taco/tensor.h: TensorBase::Content"]}
{"id": "C82", "title": "Making a statement concrete with a schedule gives the loops that were asked for, each once", "statement": "concretizeScheduled with a provenance graph and a list of loop variables: for an Einsum assignment over variables the schedule leaves alone, any order of its free and reduction variables (or no list) gives loops in that order which compute the assignment's value; for variables that come from splitting, dividing or bounding, the loops are exactly those of the list, in order, around the body that concretize gives. Findings: a fused variable gets its loop twice; without a list, a split variable of the left-hand side gets a loop over another variable; a product reduction becomes a sum; a statement that uses a derived variable is left without loops.", "quantifier": "all rings, tensors, dimensions, Einsum expressions, provenance graphs without (and, for the findings, with) fuses, lists of loops", "why_tests_cant": "expressions, graphs and orders are unbounded; no test calls the function", "anchors": ["src/index_notation/index_notation.cpp: IndexStmt::concretizeScheduled, makeReductionNotationScheduled, isReductionNotationScheduled, makeConcreteNotationScheduled", "src/index_notation/provenance_graph.cpp: getFullyDerivedDescendants, getUnderivedAncestors, isDerivedFrom", "include/taco/index_notation/index_notation.h: IndexStmt::concretizeScheduled"]}
