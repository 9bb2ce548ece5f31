{
 "claims": [
  {
   "property": "C01",
   "status": "proved",
   "theorems": [
    "C01_pack_read_back",
    "C01_pack_components_exact",
    "C01_pack_components_compressed"
   ],
   "note": "packTensor/pack modelled level by level; the first of equal coordinates wins, as in the code."
  },
  {
   "property": "C02",
   "status": "proved",
   "theorems": [
    "C02_pack_well_formed",
    "C02_pack_size",
    "C02_pack_buffer_bound"
   ],
   "note": ""
  },
  {
   "property": "C03",
   "status": "proved",
   "theorems": [
    "C03_insertions",
    "C03_order_and_format",
    "C03_stored_coordinates",
    "C03_scalar",
    "C03_scalar_insert_again_refuted",
    "C03_insert_into_wrapped_refuted"
   ],
   "note": "Any history of insertions, packings and reservations, any order of modes, any dense or compressed levels, any sort; the helper kernel that packs is modelled.  Findings: inserting into a scalar that was packed writes out of bounds; inserting into a tensor made from arrays discards the arrays."
  },
  {
   "property": "C04",
   "status": "proved",
   "theorems": [
    "C04_at",
    "C04_at_after_history",
    "C04_fill_value_refuted"
   ],
   "note": "Fill value 0; finding for other fill values."
  },
  {
   "property": "C05",
   "status": "proved",
   "theorems": [
    "C05_iteration",
    "C05_capacity",
    "C05_comparison",
    "C05_post_increment_refuted"
   ],
   "note": "Dense and compressed levels in any mode order, any capacity.  Finding: the postfix increment."
  },
  {
   "property": "C06",
   "status": "proved",
   "theorems": [
    "C06_csr",
    "C06_csc_is_transpose",
    "C06_pointers",
    "C06_transpose",
    "C06_transpose_twice",
    "C06_transpose_twice_dense_refuted"
   ],
   "note": "Any order and any formats.  The component list is unchanged by transposing twice if the format in between has a compressed last level; finding otherwise."
  },
  {
   "property": "C07",
   "status": "proved",
   "theorems": [
    "C07_equality",
    "C07_integers",
    "C07_tolerance_refuted",
    "C07_mode_order_refuted"
   ],
   "note": "Same dimensions and mode order, any level types.  Findings: the relative tolerance makes different large integers equal and the relation neither symmetric nor transitive; CSR and CSC of one matrix are unequal."
  },
  {
   "property": "C08",
   "status": "proved",
   "theorems": [
    "C08_lexicographic",
    "C08_total_order",
    "C08_overflow_refuted"
   ],
   "note": "Tuples of any length."
  },
  {
   "property": "C09",
   "status": "proved",
   "theorems": [
    "C09_below_dense",
    "C09_below_compressed"
   ],
   "note": "Any number of rows and columns and any initial capacity of at least one, below a dense and below a compressed level; C17 covers whole kernels."
  },
  {
   "property": "C10",
   "status": "proved",
   "theorems": [
    "C10_ungrouped_insertion",
    "C10_any_order"
   ],
   "note": "One compressed level below any number of dense levels, which is what lowerAssemble supports."
  },
  {
   "property": "C11",
   "status": "proved",
   "theorems": [
    "C11_workspace"
   ],
   "note": "Any number of uses, any workspace size, sorted or not, with or without values."
  },
  {
   "property": "C12",
   "status": "proved",
   "theorems": [
    "C12_loops_visit_stored_coordinates",
    "C12_union",
    "C12_intersection"
   ],
   "note": "General loop nests over any supported expression, and the n-way union and intersection of sparse vectors."
  },
  {
   "property": "C13",
   "status": "proved",
   "theorems": [
    "C13_same_visits",
    "C13_past_the_end_refuted",
    "C13_singleton_refuted",
    "C13_duplicates_refuted"
   ],
   "note": "Any number of operands whose levels are compressed without duplicates, in arrays with one readable entry after the segment.  Findings: on exactly sized arrays the gallop kernel reads past the end; with singleton levels or levels with duplicates, which mergeby accepts, it does not terminate."
  },
  {
   "property": "C14",
   "status": "proved",
   "theorems": [
    "C14_case_exact",
    "C14_loop_cases",
    "C14_exact",
    "C14_case_value",
    "C14_repeated_operand_refuted"
   ],
   "note": "For expressions in which no access occurs twice, every sort std::sort may perform; refuted for repeated accesses."
  },
  {
   "property": "C15",
   "status": "proved",
   "theorems": [
    "C15_one_loop",
    "C15_disjunction",
    "C15_coordinate_tensor"
   ],
   "note": "One merge loop with any condition on the body, the sequence of loops of a disjunction, and coordinate tensors of any order."
  },
  {
   "property": "C16",
   "status": "proved",
   "theorems": [
    "C16_reduction_kernel",
    "C16_reduction_compute_kernel",
    "C16_assignment_kernel",
    "C16_assignment_compute_kernel",
    "C16_kernel_deterministic"
   ],
   "note": "Expressions without repeated accesses; values in an arbitrary commutative ring."
  },
  {
   "property": "C17",
   "status": "proved",
   "theorems": [
    "C17_appended_result",
    "C17_stored_coordinates",
    "C17_reduction_before_dense_level_refuted"
   ],
   "note": "Results with any number of dense and compressed levels whose levels below the last compressed one are dense, loops in storage order. Refuted for a reduction loop between the last compressed level and the dense levels below it."
  },
  {
   "property": "C18",
   "status": "proved",
   "theorems": [
    "C18_lowering",
    "C18_in_place",
    "C18_code_in_place"
   ],
   "note": "Dense temporaries of any order in any loop nest; the code is run on arrays with arbitrary initial contents of the temporaries."
  },
  {
   "property": "C19",
   "status": "proved",
   "theorems": [
    "C19_assemble_then_compute"
   ],
   "note": "As C17; computing again gives the same result, and the operands may change their values between assembling and computing."
  },
  {
   "property": "C20",
   "status": "proved",
   "theorems": [
    "C20_einsum",
    "C20_bound",
    "C20_three_terms_refuted"
   ],
   "note": "Exact whenever the operands of the outermost addition have uniform bound variables; refuted for three terms."
  },
  {
   "property": "C21",
   "status": "proved",
   "theorems": [
    "C21_concrete",
    "C21_total",
    "C21_einsum",
    "C21_mixed_operators_refuted",
    "C21_product_refuted",
    "C21_compound_refuted"
   ],
   "note": "All reduction-notation assignments whose reductions are sums; refuted for mixed operators, product reductions and lost compound operators."
  },
  {
   "property": "C22",
   "status": "proved",
   "theorems": [
    "C22_zero_stmt",
    "C22_zero_nothing",
    "C22_zero_expr",
    "C22_product_refuted",
    "C22_division_refuted",
    "C22_empty_product_refuted"
   ],
   "note": "Statements (assignments, loops, wheres, reductions, division) over any commutative ring; C22_zero_expr adds binary and n-ary intrinsics on expressions. Findings: product reductions by zero, division by zero and empty products are treated as zero."
  },
  {
   "property": "C23",
   "status": "proved",
   "theorems": [
    "C23_reorder",
    "C23_accepted",
    "C23_exchange",
    "C23_undefined_refuted"
   ],
   "note": "Statements of assignments, loops and where; annotations are not part of the meaning."
  },
  {
   "property": "C24",
   "status": "proved",
   "theorems": [
    "C24_precompute",
    "C24_product_refuted",
    "C24_outer_reduction_refuted",
    "C24_broadcast_refuted",
    "C24_term_refuted"
   ],
   "note": "Every nest of loops around one assignment that sums or assigns once per component; statements that already have a where are not covered. Refuted for product reductions, for outer reductions whose variable is hoisted away, for broadcasts and for summands."
  },
  {
   "property": "C25",
   "status": "proved",
   "theorems": [
    "C25_same_iterations",
    "C25_without_bounds",
    "C25_split",
    "C25_divide",
    "C25_split_inner_refuted",
    "C25_divide_position_refuted",
    "C25_fuse_offset_refuted",
    "C25_bound_guard_refuted",
    "C25_bound_crash_refuted"
   ],
   "note": "Any composition of split, divide, fuse, bound and precompute renaming, any loop order, under the stated conditions on factors; refuted theorems show schedules accepted by the library that break each condition. A position variable enters as an underived variable over its segment."
  },
  {
   "property": "C26",
   "status": "proved",
   "theorems": [
    "C26_storage_order",
    "C26_succeeds",
    "C26_same_result",
    "C26_same_operand_refuted",
    "C26_where_refuted"
   ],
   "note": "Loop nests around one body; success whenever no tensor is accessed with two lists of variables. Refuted for an operand accessed twice and for statements that start with where."
  },
  {
   "property": "C27",
   "status": "proved",
   "theorems": [
    "C27_promote",
    "C27_promote_inner",
    "C27_initial_value_refuted"
   ],
   "note": "Every statement of assignments, loops and where whose assignments sum or assign; whole-statement promotion needs a result that starts from zero."
  },
  {
   "property": "C28",
   "status": "proved",
   "theorems": [
    "C28_window_exact",
    "C28_window_general",
    "C28_window_parallel",
    "C28_dense_window",
    "C28_dense_window_once",
    "C28_last_element_refuted",
    "C28_empty_segment_refuted"
   ],
   "note": "Strictly sorted non-empty segments, all windows and strides."
  },
  {
   "property": "C29",
   "status": "proved",
   "theorems": [
    "C29_indexset_exact",
    "C29_any_list",
    "C29_unsorted_refuted"
   ],
   "note": "One operand with one index set."
  },
  {
   "property": "C30",
   "status": "proved",
   "theorems": [
    "C30_isomorphic",
    "C30_renamed",
    "C30_cache",
    "C30_fill_refuted",
    "C30_flag_refuted",
    "C30_merge_strategy_refuted"
   ],
   "note": "Statements of assignments, loops and where; every history of compilations. Fill values must agree: they are not compared."
  },
  {
   "property": "C31",
   "status": "proved",
   "theorems": [
    "C31_equality",
    "C31_order",
    "C31_index_sets_refuted",
    "C31_windows_and_index_sets_refuted",
    "C31_structure_ignored_refuted"
   ],
   "note": "Strict order for accesses without index sets (windows allowed); refuted with index sets."
  },
  {
   "property": "C32",
   "status": "proved",
   "theorems": [
    "C32_integers",
    "C32_reals",
    "C32_dropped_calls_integers",
    "C32_dropped_calls_reals",
    "C32_pow_refuted",
    "C32_mod_refuted"
   ],
   "note": "All 33 intrinsics, integer and real arguments, literal or not; refuted for pow's base and mod's divisor. Complex arguments are not modelled."
  },
  {
   "property": "C33",
   "status": "proved",
   "theorems": [
    "C33_accepted_iff_consistent",
    "C33_extent_of_use",
    "C33_named_dimension_refuted",
    "C33_window_extent_refuted"
   ],
   "note": "Exact when no dimension is named by an index variable."
  },
  {
   "property": "C34",
   "status": "proved",
   "theorems": [
    "C34_exact"
   ],
   "note": ""
  },
  {
   "property": "C35",
   "status": "proved",
   "theorems": [
    "C35_same_points",
    "C35_normal_form",
    "C35_equality",
    "C35_replace"
   ],
   "note": ""
  },
  {
   "property": "C36",
   "status": "proved",
   "theorems": [
    "C36_spmm",
    "C36_product_refuted"
   ],
   "note": "All statements (recognised or not) that sum into a zero result; windows are not modelled."
  },
  {
   "property": "C37",
   "status": "proved",
   "theorems": [
    "C37_value",
    "C37_terminates",
    "C37_no_crash",
    "C37_literal_conversion_refuted",
    "C37_conversion_refuted",
    "C37_ieee_refuted",
    "C37_crash_refuted"
   ],
   "note": "All expressions of the modelled node kinds with equal operand types; refuted theorems show mixed-type literals, mixed-type quotients, IEEE special values and literal division by zero."
  },
  {
   "property": "C38",
   "status": "proved",
   "theorems": [
    "C38_preserves",
    "C38_rounds",
    "C38_terminates",
    "C38_deterministic",
    "C38_increment_refuted",
    "C38_stale_copy_refuted",
    "C38_assigned_twice_refuted",
    "C38_moving_bound_refuted",
    "C38_counter_advanced_twice_refuted",
    "C38_unsigned_source_refuted",
    "C38_yield_refuted",
    "C38_empty_while_refuted",
    "C38_float_sum_refuted"
   ],
   "note": "All three passes, for programs meeting the stated conditions; each _refuted theorem shows a program outside of them whose meaning changes."
  },
  {
   "property": "C39",
   "status": "proved",
   "theorems": [
    "C39_names_distinct",
    "C39_first_request_unchanged",
    "C39_global_names_distinct",
    "C39_digit_suffix_refuted",
    "C39_reserved_refuted"
   ],
   "note": "For names that do not end in a digit; the refuted theorems record the collisions otherwise."
  },
  {
   "property": "C40",
   "status": "proved",
   "theorems": [
    "C40_reads",
    "C40_inputs_and_results",
    "C40_insert_while_pending_refuted",
    "C40_assign_over_buffer_refuted",
    "C40_insert_into_result_refuted",
    "C40_recursive_refuted",
    "C40_destroyed_refuted"
   ],
   "note": "Simulation by eager evaluation for every history meeting the stated conditions; each condition that is dropped is refuted with a concrete history. What packing does and the kernels are parameters."
  },
  {
   "property": "C41",
   "status": "proved",
   "theorems": [
    "C41_counts_exact",
    "C41_no_leak",
    "C41_handles_valid",
    "C41_self_assignment_refuted",
    "C41_field_assignment_refuted"
   ],
   "note": "Histories in which no copy assignment releases the last reference that keeps its source alive; the refuted theorems show that the exclusion is needed."
  },
  {
   "property": "C42",
   "status": "proved",
   "theorems": [
    "C42_lookup_innermost",
    "C42_unscope_restores",
    "C42_insert_local",
    "C42_remove_innermost",
    "C42_remove_not_restored_refuted"
   ],
   "note": "Restoring holds for histories without remove; the refuted theorem shows why."
  },
  {
   "property": "C43",
   "status": "proved",
   "theorems": [
    "C43_sound",
    "C43_complete",
    "C43_unambiguous",
    "C43_terminates",
    "C43_lexer",
    "C43_round_trip",
    "C43_round_trip_value",
    "C43_trailing_input_refuted",
    "C43_exponent_refuted",
    "C43_unclosed_refuted",
    "C43_complex_refuted",
    "C43_byte_255_refuted",
    "C43_printer_refuted",
    "C43_scalars_refuted"
   ],
   "note": "Lexer, recursive descent parser and printer of expressions. Findings: ignored trailing input, hang on unterminated complex scalars, missing parentheses of the printer, scalars that do not survive printing."
  },
  {
   "property": "C44",
   "status": "proved",
   "theorems": [
    "C44_tns",
    "C44_tns_format",
    "C44_tns_dimensions",
    "C44_mtx",
    "C44_mtx_file",
    "C44_array",
    "C44_rb",
    "C44_integers",
    "C44_empty_refuted",
    "C44_slices_refuted",
    "C44_tabs_refuted",
    "C44_negative_refuted",
    "C44_comment_refuted",
    "C44_mtx_empty_refuted",
    "C44_dense_refuted",
    "C44_scalar_refuted",
    "C44_triangle_refuted",
    "C44_digits_refuted"
   ],
   "note": "FROSTT, MatrixMarket and Rutherford-Boeing files; the refuted theorems are findings: what a file loses."
  },
  {
   "property": "C45",
   "status": "proved",
   "theorems": [
    "C45_least_upper_bound",
    "C45_commutative",
    "C45_associative",
    "C45_idempotent",
    "C45_values_lost_refuted",
    "C45_constants_swapped_refuted"
   ],
   "note": "All pairs of component types; the refuted theorems record that promotion may lose values (integers into floats) and that two 128-bit constants are swapped."
  },
  {
   "property": "C46",
   "status": "proved",
   "theorems": [
    "C46_search_after",
    "C46_search_before",
    "C46_search_before_repeated",
    "C46_gallop",
    "C46_empty_segment_refuted",
    "C46_search_after_repeated_refuted"
   ],
   "note": "Refuted theorems record the out-of-bounds read on empty segments and the non-first match with repeated entries."
  },
  {
   "property": "C47",
   "status": "proved",
   "theorems": [
    "C47_explicit",
    "C47_implicit",
    "C47_once",
    "C47_ellipsis_explicit",
    "C47_ellipsis_implicit",
    "C47_accepted",
    "C47_arrows",
    "C47_dimensions",
    "C47_dimension_check_refuted",
    "C47_many_modes_refuted",
    "C47_empty_ellipsis_refuted",
    "C47_empty_input_refuted",
    "C47_malformed_refuted",
    "C47_names_refuted",
    "C47_repeated_output_refuted"
   ],
   "note": "The whole parser of einsum strings, with ellipses. Findings: dimensions are not compared, undefined behaviour for empty pieces, malformed strings that are accepted."
  },
  {
   "property": "C48",
   "status": "proved",
   "theorems": [
    "C48_assign_read",
    "C48_in_range_exact",
    "C48_arithmetic",
    "C48_compare",
    "C48_compare_int",
    "C48_compare_int_refuted",
    "C48_increment_refuted",
    "C48_uint16_product_refuted",
    "C48_reference_copy_refuted"
   ],
   "note": "All eight integer widths; comparisons with int are exact only in int's range."
  },
  {
   "property": "C49",
   "status": "proved",
   "theorems": [
    "C49_shape_equality",
    "C49_index_var_dimensions_refuted"
   ],
   "note": "All shapes."
  },
  {
   "property": "C50",
   "status": "proved",
   "theorems": [
    "C50_operands",
    "C50_promotion",
    "C50_where_refuted"
   ],
   "note": "For statements whose concrete notation is a nest of loops (insertTemporaries and parallelizeOuterLoop not modelled); refuted for user schedules with a where."
  },
  {
   "property": "C51",
   "status": "proved",
   "theorems": [
    "C51_remove",
    "C51_remove_zeros"
   ],
   "note": "removeExplicitZeros and removeExplicitFillValues."
  },
  {
   "property": "C52",
   "status": "proved",
   "theorems": [
    "C52_expressions",
    "C52_statements",
    "C52_unambiguous",
    "C52_negation_refuted",
    "C52_negative_literal_refuted",
    "C52_complex_refuted",
    "C52_else_refuted",
    "C52_atomic_refuted"
   ],
   "note": "The text of every printable expression and statement is lexed and derived by C's grammar, uniquely, as the meant program; printable excludes exactly the refuted cases, casts and literals as subscripted arrays, and branches that are declarations, comments or empty cases."
  },
  {
   "property": "C53",
   "status": "proved",
   "theorems": [
    "C53_no_races",
    "C53_outer_loop",
    "C53_atomics",
    "C53_temporary",
    "C53_scalar_temporary_refuted",
    "C53_temporary_vector_refuted",
    "C53_own_operand_refuted",
    "C53_unused_variable_refuted"
   ],
   "note": "All interleavings of single memory accesses. The refuted theorems are findings: races and wrong code in schedules that are accepted."
  },
  {
   "property": "C54",
   "status": "proved",
   "theorems": [
    "C54_counts",
    "C54_last_level",
    "C54_accepts",
    "C54_no_queries",
    "C54_query_dims",
    "C54_negation_refuted",
    "C54_subtraction_refuted",
    "C54_constant_factor_refuted",
    "C54_unique_singleton_refuted",
    "C54_query_dims_refuted"
   ],
   "note": "For statements built of sums and products of operands, with any loops and temporaries. The refuted theorems are findings: wrong counts."
  },
  {
   "property": "C55",
   "status": "proved",
   "theorems": [
    "C55_reads",
    "C55_accepts",
    "C55_white_space",
    "C55_directives",
    "C55_lists",
    "C55_commands",
    "C55_short_forms",
    "C55_refused",
    "C55_applied",
    "C55_empty_last_refuted",
    "C55_trailing_text_refuted",
    "C55_unclosed_brace_refuted",
    "C55_sizes_refuted",
    "C55_scalars_refuted",
    "C55_empty_list_refuted",
    "C55_pos_refuted"
   ],
   "note": "For every schedule of the grammar and every sequence of commands. The refuted theorems are findings."
  },
  {
   "property": "C56",
   "status": "proved",
   "theorems": [
    "C56_infers",
    "C56_refuses",
    "C56_respects",
    "C56_agrees",
    "C56_result_overridden_refuted",
    "C56_result_no_source_refuted",
    "C56_one_tensor_refuted",
    "C56_short_list_refuted",
    "C56_accumulate_refuted"
   ],
   "note": "Success and refusal where the result's dimensions are open or agree and each open tensor is indexed in one way; C56_respects and C56_agrees hold of all inputs. The refuted theorems are findings."
  },
  {
   "property": "C57",
   "status": "proved",
   "theorems": [
    "C57_only_inside",
    "C57_no_failure",
    "C57_exactly_inside",
    "C57_nothing_missed",
    "C57_definitions",
    "C57_when_values_are_compared",
    "C57_xor",
    "C57_default",
    "C57_unclean_refuted",
    "C57_unclean_value_refuted",
    "C57_repeated_argument_refuted",
    "C57_stored_zero_refuted",
    "C57_definitions_refuted"
   ],
   "note": "For algebras with every argument once, and for the algebra of functions that have none; exactness for clean ones (the operands of unions are settled). The refuted theorems are findings and show why each restriction is needed; C57_xor covers exclusive or, whose arguments occur twice, and C57_default functions with neither algebra nor properties, whose arguments occur twice too."
  },
  {
   "property": "C58",
   "status": "proved",
   "theorems": [
    "C58_space",
    "C58_no_failure",
    "C58_background",
    "C58_background_annihilator",
    "C58_background_identity",
    "C58_fill_values",
    "C58_simplified",
    "C58_zeroing",
    "C58_zeroed_not_read",
    "C58_exhausted_fill_refuted",
    "C58_filled_factor_refuted",
    "C58_repeated_position_refuted",
    "C58_positions_refuted",
    "C58_nested_call_refuted",
    "C58_argument_left_out_refuted"
   ],
   "note": "For values with the usual laws of zero (not floating point infinities and NaN), literal divisors other than zero, and factors that are zero where nothing is stored; the refuted theorems are findings and show why the restrictions are needed."
  },
  {
   "property": "C59",
   "status": "proved",
   "theorems": [
    "C59_safe",
    "C59_freed_once",
    "C59_user_arrays",
    "C59_usable",
    "C59_assembled",
    "C59_held",
    "C59_no_sharing",
    "C59_accounted",
    "C59_all_freed",
    "C59_compute_first_refuted",
    "C59_stale_kernel_refuted",
    "C59_lost_values_refuted",
    "C59_index_leak_refuted",
    "C59_values_leak_refuted"
   ],
   "note": "For every history of careful calls; the findings are histories outside the conditions, and two leaks of careful ones."
  },
  {
   "property": "C60",
   "status": "proved",
   "theorems": [
    "C60_exact",
    "C60_closed",
    "C60_plain",
    "C60_reduction",
    "C60_reduction_value",
    "C60_relations",
    "C60_values",
    "C60_anywhere",
    "C60_kept",
    "C60_succeeds",
    "C60_shape",
    "C60_recursion",
    "C60_index_value_refuted",
    "C60_producer_refuted",
    "C60_sibling_refuted",
    "C60_derived_refuted",
    "C60_precompute_refuted"
   ],
   "note": "Exact acceptance without relations and for loop nests with them; the findings are accepted statements outside the claims."
  },
  {
   "property": "C61",
   "status": "proved",
   "theorems": [
    "C61_serial",
    "C61_chunk",
    "C61_chunks",
    "C61_one_split",
    "C61_reduced",
    "C61_first_row_refuted",
    "C61_empty_rows_refuted",
    "C61_empty_segment_refuted",
    "C61_overrun_refuted",
    "C61_overrun_reduced_refuted",
    "C61_again_refuted",
    "C61_above_refuted",
    "C61_order_refuted"
   ],
   "note": "Serial loops: an exact condition (iff). The _refuted theorems are findings outside the stated conditions."
  },
  {
   "property": "C62",
   "status": "proved",
   "theorems": [
    "C62_one_level",
    "C62_innermost",
    "C62_iterations",
    "C62_split",
    "C62_accepted",
    "C62_plain_loop_refused",
    "C62_outer_refuted",
    "C62_inner_refuted",
    "C62_two_variables_refuted"
   ],
   "note": "The _refuted theorems are findings outside the stated conditions."
  },
  {
   "property": "C63",
   "status": "proved",
   "theorems": [
    "C63_tile_product",
    "C63_product",
    "C63_tile_addition",
    "C63_addition",
    "C63_addition_refuted",
    "C63_exact_array_refuted",
    "C63_reordered_refuted",
    "C63_not_nested_refuted"
   ],
   "note": "The _refuted theorems are findings outside the stated conditions."
  },
  {
   "property": "C64",
   "status": "proved",
   "theorems": [
    "C64_variables",
    "C64_tensors",
    "C64_expressions",
    "C64_statements",
    "C64_only_those",
    "C64_reduction_refuted",
    "C64_schedule_refuted",
    "C64_structure_refuted",
    "C64_window_refuted",
    "C64_cast_refuted"
   ],
   "note": "The _refuted theorems are findings outside the stated conditions."
  },
  {
   "property": "C65",
   "status": "proved",
   "theorems": [
    "C65_choice",
    "C65_full",
    "C65_sparse",
    "C65_reduction",
    "C65_zero",
    "C65_threads",
    "C65_constant_refuted",
    "C65_constant_sum_refuted",
    "C65_product_refuted",
    "C65_ordering_refuted",
    "C65_sorting_refuted",
    "C65_missed_refuted",
    "C65_scalar_operand_refuted"
   ],
   "note": "The _refuted theorems are findings outside the stated conditions."
  },
  {
   "property": "C66",
   "status": "proved",
   "theorems": [
    "C66_kept",
    "C66_annotate",
    "C66_temporary",
    "C66_order",
    "C66_absent",
    "C66_derived_loops",
    "C66_reordered_loops",
    "C66_precomputed_nest",
    "C66_topological",
    "C66_outer",
    "C66_reorder_refuted",
    "C66_same_order_refuted",
    "C66_precompute_refuted",
    "C66_topological_refuted"
   ],
   "note": "The _refuted theorems are findings: annotations that are lost or spread without an error."
  },
  {
   "property": "C67",
   "status": "proved",
   "theorems": [
    "C67_fused",
    "C67_assemble_then_compute",
    "C67_coo",
    "C67_every_format",
    "C67_nested_coo_refuted"
   ],
   "note": "C67_nested_coo_refuted is a finding: a coordinate group below another appending level gives a kernel that is not C."
  },
  {
   "property": "C68",
   "status": "proved",
   "theorems": [
    "C68_natural",
    "C68_foreign",
    "C68_absent",
    "C68_one_variable",
    "C68_one_check",
    "C68_matrix_check",
    "C68_csc_refuted",
    "C68_dcsc_refuted",
    "C68_fused_refuted",
    "C68_check_refuted"
   ],
   "note": "The _refuted theorems are findings about tensors whose modes are stored in another order than written."
  },
  {
   "property": "C69",
   "status": "proved",
   "theorems": [
    "C69_kernel",
    "C69_names",
    "C69_no_digits",
    "C69_all_different",
    "C69_suffix_refuted",
    "C69_temporaries_refuted",
    "C69_tensor_names_refuted",
    "C69_same_name_refuted",
    "C69_keyword_refuted"
   ],
   "note": "Proved for names without clashes (clear_names; two sufficient conditions are given); the _refuted theorems are findings about names that clash."
  },
  {
   "property": "C70",
   "status": "proved",
   "theorems": [
    "C70_safe",
    "C70_no_exit",
    "C70_nest",
    "C70_reduction",
    "C70_no_reduction_refuted",
    "C70_split_refuted",
    "C70_temporary_refuted",
    "C70_position_refuted",
    "C70_together_refuted",
    "C70_no_loop_refuted"
   ],
   "note": "Proved for the statements described; the _refuted theorems are findings about statements the check lets through."
  },
  {
   "property": "C71",
   "status": "proved",
   "theorems": [
    "C71_requested",
    "C71_kept",
    "C71_has",
    "C71_variant_has",
    "C71_ignored_refuted",
    "C71_equal",
    "C71_equivalence",
    "C71_is_dense",
    "C71_coo",
    "C71_coo_refused",
    "C71_helpers",
    "C71_padded_refuted",
    "C71_level_types_refuted",
    "C71_ordering_refuted"
   ],
   "note": "The _refuted theorems are findings."
  },
  {
   "property": "C72",
   "status": "proved",
   "theorems": [
    "C72_letters",
    "C72_ordering",
    "C72_groups",
    "C72_accepted",
    "C72_errors",
    "C72_dimensions",
    "C72_first",
    "C72_bounds_refuted",
    "C72_scalar_refuted",
    "C72_permutation_refuted",
    "C72_sizes_refuted"
   ],
   "note": "The _refuted theorems are findings."
  },
  {
   "property": "C73",
   "status": "proved",
   "theorems": [
    "C73_program",
    "C73_adds",
    "C73_ors",
    "C73_mul_refuted",
    "C73_mul_alone",
    "C73_warp",
    "C73_search",
    "C73_break",
    "C73_break_refuted",
    "C73_outside_refuted",
    "C73_uneven_refuted",
    "C73_large_refuted"
   ],
   "note": "The _refuted theorems are findings."
  },
  {
   "property": "C74",
   "status": "proved",
   "theorems": [
    "C74_visited",
    "C74_value",
    "C74_loops",
    "C74_zeroing",
    "C74_library",
    "C74_pow_refuted"
   ],
   "note": "The _refuted theorem is a finding. Operands are distinct (C14_repeated_operand_refuted)."
  },
  {
   "property": "C75",
   "status": "proved",
   "theorems": [
    "C75_round_trip",
    "C75_read",
    "C75_write",
    "C75_other_files",
    "C75_unknown",
    "C75_missing",
    "C75_refused",
    "C75_identifier",
    "C75_failed_write_refuted",
    "C75_no_dot_refuted",
    "C75_same_name_refuted",
    "C75_not_identifier_refuted",
    "C75_home_refuted",
    "C75_user_refuted"
   ],
   "note": "The _refuted theorems are findings: failed writes destroy the file, names without a dot, names that are not distinct or not identifiers, tildes."
  },
  {
   "property": "C76",
   "status": "proved",
   "theorems": [
    "C76_runs",
    "C76_total",
    "C76_source",
    "C76_source_refuted",
    "C76_ignored_refuted",
    "C76_failure_refuted",
    "C76_misprint_refuted"
   ],
   "note": "The _refuted theorems are findings: sources on tensors that were compiled, new schedules that are ignored, failed compilations that later report success."
  },
  {
   "property": "C77",
   "status": "proved",
   "theorems": [
    "C77_valid",
    "C77_accepted",
    "C77_constructor_refuted",
    "C77_valid_refuted",
    "C77_form_refuted"
   ],
   "note": "The _refuted theorems are findings: no string makes a target."
  },
  {
   "property": "C78",
   "status": "proved",
   "theorems": [
    "C78_kernel",
    "C78_host"
   ],
   "note": ""
  },
  {
   "property": "C79",
   "status": "proved",
   "theorems": [
    "C79_value",
    "C79_decides",
    "C79_sound",
    "C79_statements",
    "C79_reflexive",
    "C79_object_refuted",
    "C79_positions_refuted",
    "C79_symmetric_refuted",
    "C79_schedule_refuted"
   ],
   "note": "The _refuted theorems are findings: function objects, positions of properties, asymmetry, merge strategies."
  },
  {
   "property": "C80",
   "status": "proved",
   "theorems": [
    "C80_arguments",
    "C80_results",
    "C80_compute",
    "C80_singleton_refuted",
    "C80_new_refuted",
    "C80_failure_refuted"
   ],
   "note": "The _refuted theorems are findings: singleton results, new storages, failed calls."
  },
  {
   "property": "C81",
   "status": "proved",
   "theorems": [
    "C81_clash",
    "C81_names",
    "C81_unnamed",
    "C81_unnamed_refuted"
   ],
   "note": "The _refuted theorem is a finding: made-up names are not reserved."
  },
  {
   "property": "C82",
   "status": "proved",
   "theorems": [
    "C82_value",
    "C82_loops",
    "C82_fused_refuted",
    "C82_split_refuted",
    "C82_product_refuted",
    "C82_derived_refuted"
   ],
   "note": "The _refuted theorems are findings."
  }
 ]
}