{
 "claims": [
  {
   "property": "C01",
   "status": "proved",
   "theorems": [
    "addressing_bijective",
    "addressing_overflow_refuted"
   ],
   "note": "Bijection for every order and every extents whose product fits in 64 bits; the overflow case named in the statement is the refutation theorem."
  },
  {
   "property": "C02",
   "status": "proved",
   "theorems": [
    "owning_iteration_column_major",
    "digits_enumerate_column_major"
   ],
   "note": ""
  },
  {
   "property": "C03",
   "status": "proved",
   "theorems": [
    "strided_iteration_complete",
    "strided_iteration_not_before",
    "zero_extent_iteration_exact",
    "zero_extent_iteration_refuted",
    "zero_stride_iteration_refuted"
   ],
   "note": "Order-1 views need a positive stride with stride*extent < 2^64 (what valid slicings of a storage give); the two failing cases are refutation theorems."
  },
  {
   "property": "C04",
   "status": "proved",
   "theorems": [
    "slice_selects_requested",
    "slice_elements",
    "subscript_chain_exact",
    "middle_subscript_lost_refuted"
   ],
   "note": "Histories and chains that lose no subscript; subscript_chain_exact: the other valid chains are undefined. Sources are all views reachable from an owning array by any history of valid subscripts."
  },
  {
   "property": "C05",
   "status": "proved",
   "theorems": [
    "slice_of_slice_composes",
    "strided_slices_compose"
   ],
   "note": "Any number of earlier slicings, then two, equal one composed, for any kinds of subscripts that select the slices; composed stride not longer than the dimension."
  },
  {
   "property": "C06",
   "status": "partial",
   "theorems": [
    "out_of_range_always_rejected",
    "bounds_check_wraps_refuted"
   ],
   "note": "The claim as stated is false of the code when start+(extent-1)*stride wraps modulo 2^64 (refutation); without wrap every out-of-range chain is rejected."
  },
  {
   "property": "C07",
   "status": "proved",
   "theorems": [
    "slice_selects_requested",
    "slice_elements"
   ],
   "note": "Index ranges are one of the subscript kinds the theorems quantify over. Chains that lose a subscript: C63."
  },
  {
   "property": "C08",
   "status": "proved",
   "theorems": [
    "index_chain_reaches_element",
    "index_drops_dimension"
   ],
   "note": ""
  },
  {
   "property": "C09",
   "status": "proved",
   "theorems": [
    "every_shortcut_same_as_generic"
   ],
   "note": ""
  },
  {
   "property": "C10",
   "status": "partial",
   "theorems": [
    "bounded_slice_clamped",
    "bounded_slices_of_views",
    "bounded_strided_slice_exact",
    "bounded_strided_slice_clamped_partial",
    "bounded_strided_count_refuted"
   ],
   "note": "Unstrided: full claim. Strided: exact characterisation: in bounds, never longer, at most the last index lost, and lost exactly when the remainder is neither 0 nor stride-1 and the bound is not smaller (the named failing case, refutation)."
  },
  {
   "property": "C11",
   "status": "partial",
   "theorems": [
    "drop_to_preserves_elements",
    "drop_to_scalar_contiguous",
    "drop_to_scalar_view_refuted",
    "drop_to_rejected",
    "drop_to_scalar_view_exact",
    "dropped_expression_undefined",
    "dropped_expression_refuted"
   ],
   "note": "What cannot be dropped is rejected in a checked build. drop_to<0> on strided views is false of the code (refutation; it returns the first element of the contiguous array or view that was subscripted: exact theorem), and reading any dropped element-wise expression is undefined (theorem and refutation); drop_to on indirect views does not compile."
  },
  {
   "property": "C12",
   "status": "proved",
   "theorems": [
    "rows_and_columns",
    "axis_items_any_axis",
    "last_axis_items",
    "axis_unit_extent_refuted"
   ],
   "note": "Any axis of any array or view without index ranges: elements, their order, partition, extents; a leading extent of 1 shifts the extents (the named failing case, refutation). An inner axis does not compile on a contiguous array and is undefined on a view (same theorem)."
  },
  {
   "property": "C13",
   "status": "partial",
   "theorems": [
    "axis_iterator_laws",
    "axis_iterator_difference_refuted"
   ],
   "note": "The difference law is false of the code."
  },
  {
   "property": "C14",
   "status": "proved",
   "theorems": [
    "nested_list_defines_array",
    "ragged_list_rejected"
   ],
   "note": "All orders; both element types; any throw point."
  },
  {
   "property": "C15",
   "status": "partial",
   "theorems": [
    "constructor_from_dimensions",
    "constructor_converting",
    "constructor_copy",
    "nested_list_defines_array",
    "constructor_exceptions_propagate",
    "constructor_exact",
    "no_element_operations",
    "nothrow_element_throwing_source_refuted",
    "unsigned_dimensions_refuted",
    "mixed_dimensions_refuted"
   ],
   "note": "Proved for every constructor whenever the products that the right fold over the dimensions forms fit the common types of their operands and a nothrow element type comes with a nothrow source; the exceptions are false of the code (refutations)."
  },
  {
   "property": "C16",
   "status": "partial",
   "theorems": [
    "copy_assignment_partial",
    "converting_assignment_partial",
    "copy_assignment_exact",
    "converting_assignment_exact",
    "no_element_operations",
    "assignment_exceptions_propagate",
    "assignment_leaks_storage_refuted"
   ],
   "note": "All four possible outcomes are characterised exactly; the fourth (storage lost) is the defect, shown reachable. Source elements of the converting assignment are values (aliasing is C55)."
  },
  {
   "property": "C17",
   "status": "partial",
   "theorems": [
    "every_program_balanced_partial",
    "every_program_releases_all",
    "moved_from_undefined",
    "no_element_operations",
    "moved_from_copy_refuted"
   ],
   "note": "Holds for every program over any number of variables that does not copy from a moved-from non-empty array nor assign it a value of its former size; those two are undefined (refutation)."
  },
  {
   "property": "C18",
   "status": "proved",
   "theorems": [
    "builder_pushes",
    "builder_destroyed",
    "builder_released",
    "builder_checked",
    "every_program_balanced_partial",
    "rvalue_push_refuted"
   ],
   "note": "push_back(T&&) of a throwing move terminates (refutation)."
  },
  {
   "property": "C19",
   "status": "proved",
   "theorems": [
    "assignment_writes_exactly_view",
    "scalar_assignment_writes_exactly_view",
    "assignment_extents_checked",
    "reachable_views_qualify"
   ],
   "note": "All element types, all views reachable by slicing histories (distinct positions; repeated ones: C54), all expression sources."
  },
  {
   "property": "C20",
   "status": "proved",
   "theorems": [
    "overlap_assignment_uses_old_values",
    "plain_assignment_safe_when_no_early_write",
    "plain_assignment_safe_when_aligned",
    "plain_overlapping_assignment_refuted"
   ],
   "note": "overlap(view) = e for any overlap; plain assignment characterised; the failing case named in the statement is the refutation."
  },
  {
   "property": "C21",
   "status": "proved",
   "theorems": [
    "expression_is_pointwise",
    "expression_extents_checked",
    "operands_live_for_full_expression"
   ],
   "note": "All expression trees, with named and temporary operands; expressions kept in a variable are C53, dropped expressions C11."
  },
  {
   "property": "C22",
   "status": "proved",
   "theorems": [
    "inplace_updates_once",
    "inplace_with_itself",
    "inplace_unary_updates_once",
    "inplace_extents_checked"
   ],
   "note": "Scalar operands that are elements of the view: C66."
  },
  {
   "property": "C23",
   "status": "partial",
   "theorems": [
    "seq_contents_partial",
    "seq_rejects_unreachable",
    "seq_too_long_throws",
    "seq_across_sign_refuted",
    "seq_across_sign_throws_refuted",
    "seq_longest_refuted",
    "seq_same_side_exact",
    "seq_across_exact",
    "seq_unreachable_unchecked"
   ],
   "note": "Complete characterisation of every pair of ends and step, including what happens where the claim fails (PropSeq.v). Exact contents proved when start and stop are on the same side of 2^63 and the vector is not longer than max_size; the claim is false of the code across 2^63 (refuted theorems)."
  },
  {
   "property": "C24",
   "status": "proved",
   "theorems": [
    "matrix_product_of_views",
    "blas_same_as_product",
    "blas_product_any_alpha",
    "product_sizes_checked"
   ],
   "note": "Generic element type and operations; right operand without index ranges (drop does not exist for those). BLAS GEMM itself is modelled by the reference column-major loop."
  },
  {
   "property": "C25",
   "status": "proved",
   "theorems": [
    "cat_concatenates",
    "as_vector_elements",
    "flatten_keeps_elements",
    "reshape_keeps_elements",
    "reshape_size_checked",
    "reshape_owning_keeps_elements"
   ],
   "note": "cat up to 2^64-1 elements; allocation failure not modelled here (it is in C14-C16)."
  },
  {
   "property": "C42",
   "status": "partial",
   "theorems": [
    "blas_sizes_fit",
    "blas_sizes_rejected",
    "blas_product_big_rejected",
    "blas_sizes_unchecked_refuted"
   ],
   "note": "Proved as stated for checked builds and for values that fit; in an unchecked build a dimension above INT_MAX is changed (refuted)."
  },
  {
   "property": "C26",
   "status": "partial",
   "theorems": [
    "integer_max",
    "integer_min",
    "integer_which_max",
    "integer_which_min",
    "float_max",
    "float_min",
    "float_which_max_exact",
    "float_which_min_exact",
    "max_with_start",
    "sum_exact",
    "prod_exact",
    "sum_unsigned_modular",
    "prod_unsigned_modular",
    "count_is_number_of_true",
    "which_is_positions_of_true",
    "positions_characterised",
    "all_any_none",
    "which_max_empty_refuted",
    "which_max_nan_refuted",
    "prod_short_refuted"
   ],
   "note": "Integral and floating point elements (ordering incl. NaN; floating sums are C46). Fails for which_max/which_min when the maximum equals the start value and a NaN comes first, and the documented result for empty ranges does not exist."
  },
  {
   "property": "C27",
   "status": "partial",
   "theorems": [
    "means_agree_unsigned",
    "means_agree_iff_partial",
    "mean_of_iterators",
    "means_disagree_refuted",
    "mean_of_empty_undefined"
   ],
   "note": "The overloads agree for signed elements exactly when the sum is not negative (if and only if), always for unsigned ones."
  },
  {
   "property": "C43",
   "status": "proved",
   "theorems": [
    "nth_is_nth_smallest"
   ],
   "note": "For any conforming std::nth_element."
  },
  {
   "property": "C35",
   "status": "proved",
   "theorems": [
    "C35_integer_text_roundtrip",
    "C35_text_injective",
    "C35_text_to_integer",
    "C35_integer_text_numeric",
    "C35_integer_numeric_roundtrip",
    "C35_index_numeric_refuted"
   ],
   "note": "Also: the trip through numeric, which loses indices from 2^53 on."
  },
  {
   "property": "C36",
   "status": "partial",
   "theorems": [
    "C36_index_from_integer",
    "C36_uinteger_from_integer",
    "C36_integer_from_integer",
    "C36_unsigned_from_text",
    "C36_no_literal",
    "C36_unsigned_from_numeric",
    "C36_integer_from_numeric",
    "C36_negative_text_wraps",
    "C36_index_negative_text_refuted",
    "C36_uinteger_negative_text_refuted",
    "C36_narrowing_refuted"
   ],
   "note": "Proved from every integer type to index_t and for every value that fits; negative text and narrowing silently change the value (refuted)."
  },
  {
   "property": "C44",
   "status": "proved",
   "theorems": [
    "C44_numeric_text",
    "C44_numeric_roundtrip_refuted"
   ],
   "note": "Text of printf %f with exact rounding; infinities and NaN are printed as words."
  },
  {
   "property": "C29",
   "status": "proved",
   "theorems": [
    "C29_rectangular"
   ],
   "note": "Histories over any number of dataframe variables: constructors, copies, moves, assignments, bind (every kind of argument, throwing or not), read, >>, head. Allocation failure not modelled here."
  },
  {
   "property": "C30",
   "status": "partial",
   "theorems": [
    "C30_lookup_partial",
    "C30_lookup_exact_partial",
    "C30_range_iff",
    "C30_bind_lookup",
    "C30_at_position",
    "C30_lookup_refuted",
    "C30_head_refuted"
   ],
   "note": "The claim is false of the code: proved for all histories whose range constructors (and heads) list named columns first and that make no variable from a single named column; for range constructors that condition is shown necessary; bind preserves correct lookup whatever is bound."
  },
  {
   "property": "C31",
   "status": "partial",
   "theorems": [
    "C31_unique_names_partial",
    "C31_range_refuses",
    "C31_unique_names_refuted"
   ],
   "note": "False of the code after construction from a single named column; proved for all other histories."
  },
  {
   "property": "C32",
   "status": "proved",
   "theorems": [
    "C32_bind_strong",
    "C32_bind_when",
    "C32_bind_keeps_lookup"
   ],
   "note": "Exceptions thrown by the checks; allocation failure inside push_back is not modelled."
  },
  {
   "property": "C33",
   "status": "proved",
   "theorems": [
    "C33_table_unique",
    "C33_read_header",
    "C33_read_no_header",
    "C33_read_ragged",
    "C33_read_empty",
    "C33_read_total"
   ],
   "note": "Separators are regular expressions matching single characters (any set of characters), as the defaults are."
  },
  {
   "property": "C34",
   "status": "partial",
   "theorems": [
    "C34_write_text",
    "C34_write_read",
    "C34_write_read_text",
    "C34_write_read_no_header",
    "C34_read_write_read",
    "C34_integer_columns",
    "C34_write_all_or_nothing",
    "C34_trailing_empty_refuted",
    "C34_header_only_refuted"
   ],
   "note": "Proved under the stated condition for dataframes with at least one row; a dataframe without rows does not survive (a header-only text gives columns without data, which cannot be written)."
  },
  {
   "property": "C37",
   "status": "proved",
   "theorems": [
    "C37_coerce_all_or_nothing",
    "C37_coerce_success",
    "C37_coerce_length",
    "C37_can_coerce",
    "C37_same_type",
    "C37_to_column",
    "C37_null_column_refuted"
   ],
   "note": "For any set of coercion rules, including throwing ones; a column without data throws (to_column and copying: undefined)."
  },
  {
   "property": "C38",
   "status": "partial",
   "theorems": [
    "C38_head",
    "C38_head_too_many",
    "C38_partial_copy_partial",
    "C38_partial_copy_exact",
    "C38_partial_copy_refuted",
    "C38_head_refuted"
   ],
   "note": "head fails for dataframes without rows, columns or data; partial copies need first+size < 2^64."
  },
  {
   "property": "C39",
   "status": "proved",
   "theorems": [
    "C39_to_vector",
    "C39_to_view",
    "C39_to_matrix",
    "C39_null_throws"
   ],
   "note": ""
  },
  {
   "property": "C40",
   "status": "proved",
   "theorems": [
    "C40_sample_without_replacement",
    "C40_increasing_distinct",
    "C40_terminates",
    "C40_every_choice_possible",
    "C40_one_too_many",
    "C40_more_than_end_refuted",
    "C40_does_not_return_refuted"
   ],
   "note": "Draws are reals in [0,1) (stdlib Reals axioms). The failing case n > end is proved too."
  },
  {
   "property": "C45",
   "status": "proved",
   "theorems": [
    "C45_sample_with_replacement",
    "C45_sample_order",
    "C45_empty_refuted"
   ],
   "note": ""
  },
  {
   "property": "C41",
   "status": "proved",
   "theorems": [
    "C41_value_semantics",
    "C41_undefined",
    "C41_stable",
    "C41_released",
    "C41_no_leak",
    "C41_released_once",
    "C41_reads",
    "C41_comparisons",
    "C41_moved_from_refuted",
    "C41_borrowed_view",
    "C41_borrowed_view_refuted",
    "C41_moved_view_refuted"
   ],
   "note": "Refinement of arbitrary histories to a semantics of plain values; moved-from objects and views that borrow a std::vector have no value of their own (refuted theorems)."
  },
  {
   "property": "C28",
   "status": "proved",
   "theorems": [
    "C28_plain",
    "C28_formatted",
    "C28_injective",
    "C28_each_element_once",
    "C28_tables",
    "C28_tables_injective",
    "C28_exchange",
    "C28_setter",
    "C28_setter_dimension",
    "C28_setter_fewer_dimensions",
    "C28_empty",
    "C28_setter_other_order_refuted",
    "C28_empty_checked_refuted",
    "C28_empty_extents_refuted",
    "C28_delimiters_refuted"
   ],
   "note": "Any array or view after any history of slicings, ordinary stream and array_ostream with any formats; stream flags, widths and failures are not modelled."
  },
  {
   "property": "C46",
   "status": "proved",
   "theorems": [
    "C46_sum_accurate",
    "C46_sum_with_start",
    "C46_mean_accurate",
    "C46_sum_of_integers",
    "C46_mean_of_integers",
    "C46_nan",
    "C46_empty",
    "C46_mean_outside_refuted",
    "C46_mean_overflow_refuted"
   ],
   "note": "binary64, round to nearest even, no fused operations; stdlib Reals axioms through Flocq."
  },
  {
   "property": "C47",
   "status": "proved",
   "theorems": [
    "C47_var_nonneg",
    "C47_var_accurate",
    "C47_sd_nearest",
    "C47_meansd",
    "C47_var_of_integer_valued",
    "C47_constant_refuted",
    "C47_one_element",
    "C47_no_element",
    "C47_integer_var",
    "C47_integer_var_accurate",
    "C47_scaled",
    "C47_integer_sd",
    "C47_integer_refuted"
   ],
   "note": "Doubles and all integral types; iterator and range overloads do the same."
  },
  {
   "property": "C48",
   "status": "proved",
   "theorems": [
    "view_follows_storage",
    "sliced_view_follows_storage",
    "view_write_through"
   ],
   "note": "Views of any slicing history over any program (construction, moves, swaps, reshapes, assignments, builders, exceptions) that respects ok_prog."
  },
  {
   "property": "C49",
   "status": "proved",
   "theorems": [
    "C49_owned",
    "C49_no_leak",
    "C49_command",
    "C49_program",
    "C49_strong",
    "C49_pointers_stay",
    "C49_pointers_move",
    "C49_pointers_die"
   ],
   "note": "Heap model with failing operations, refining the value model of Frame.v; a column model and the buffer of its vector are one block."
  },
  {
   "property": "C50",
   "status": "proved",
   "theorems": [
    "C50_rectangular",
    "C50_consistent",
    "C50_failed_bind",
    "C50_failed_bind_refuted",
    "C50_failed_assignment_refuted"
   ],
   "note": "The two failing cases named in the property are the refuted theorems."
  },
  {
   "property": "C51",
   "status": "proved",
   "theorems": [
    "C51_uniform",
    "C51_each_index",
    "C51_bits53",
    "C51_bits64",
    "C51_mt19937"
   ],
   "note": "Counting over all sequences of generator states, with the double arithmetic of the loop; stdlib Reals axioms."
  },
  {
   "property": "C52",
   "status": "proved",
   "theorems": [
    "empty_slice_rejected",
    "empty_contiguous_slice",
    "empty_index_range",
    "empty_slice_unchecked",
    "empty_range_unchecked"
   ],
   "note": "Complete description of the cases that C04, C06 and C07 exclude because nothing is selected."
  },
  {
   "property": "C53",
   "status": "proved",
   "theorems": [
    "stored_expression_exact",
    "stored_single_expression",
    "stored_nested_expression_undefined",
    "stored_nested_expression_refuted",
    "stored_temporary_operand_refuted"
   ],
   "note": "Exact: when the later evaluation is the same and when it is undefined behaviour."
  },
  {
   "property": "C54",
   "status": "proved",
   "theorems": [
    "assignment_in_order",
    "inplace_in_order",
    "repeated_assignment_last_wins",
    "repeated_overlap_last_wins",
    "repeated_fill",
    "repeated_inplace_accumulates",
    "repeated_unary_iterates",
    "indexed_inplace"
   ],
   "note": "No hypothesis of distinct positions; the first two have none about overlap either."
  },
  {
   "property": "C55",
   "status": "proved",
   "theorems": [
    "array_assignment_other_size",
    "array_assignment_aligned",
    "array_assignment_no_early_write",
    "array_assignment_in_order",
    "array_assignment_extents_checked",
    "array_assignment_from_itself_refuted"
   ],
   "note": "The failing case named in the property is the refuted theorem."
  },
  {
   "property": "C56",
   "status": "proved",
   "theorems": [
    "C56_nearest",
    "C56_bounds",
    "C56_order",
    "C56_empty"
   ],
   "note": "Arithmetic of doubles as in C46; stdlib Reals axioms."
  },
  {
   "property": "C57",
   "status": "proved",
   "theorems": [
    "mask_selects"
   ],
   "note": "End to end: which, subscripting with the index range, reading and assignment."
  },
  {
   "property": "C58",
   "status": "proved",
   "theorems": [
    "C58_value_semantics",
    "C58_progress",
    "C58_stable",
    "C58_released",
    "C58_no_leak",
    "C58_released_once",
    "C58_race_refuted"
   ],
   "note": "Interleaving semantics with atomic use counts; the named exception is the refuted theorem."
  },
  {
   "property": "C59",
   "status": "proved",
   "theorems": [
    "C59_sample",
    "C59_consecutive",
    "C59_without_replacement",
    "C59_later_draws"
   ],
   "note": "Links the sequences of draws used in C40, C45 and C51 to the state of the engine."
  },
  {
   "property": "C60",
   "status": "proved",
   "theorems": [
    "searches_of_expressions",
    "sums_of_integer_expressions",
    "sums_of_double_expressions",
    "counts_of_expressions",
    "tests_of_expressions",
    "all_equal",
    "mask_expression_selects"
   ],
   "note": "Connects the list results of C26, C27, C43, C46, C47, C56 and C57 to the iterators of C19."
  },
  {
   "property": "C61",
   "status": "proved",
   "theorems": [
    "C61_indexing",
    "C61_expressions",
    "C61_functions",
    "C61_algorithms",
    "C61_sums",
    "C61_programs",
    "C61_tested_programs"
   ],
   "note": "Default module (aborting), all checks on or all off; no hypotheses on the arguments."
  },
  {
   "property": "C62",
   "status": "proved",
   "theorems": [
    "C62_text_to_numeric",
    "C62_zero",
    "C62_text_words",
    "C62_text_nothing",
    "C62_text_total",
    "C62_print_and_read",
    "C62_read_and_print",
    "C62_words",
    "C62_read_and_print_refuted"
   ],
   "note": "std::stod/strtod as specified (correct rounding); no claim about magnitudes in [2^-1022 - 2^-1075, 2^-1022), where the C library's underflow rule is finer; a NaN has no sign in the model. Stdlib Reals axioms through Flocq."
  },
  {
   "property": "C63",
   "status": "proved",
   "theorems": [
    "subscript_chain_exact",
    "matrix_slicings_defined",
    "middle_subscript_lost_refuted"
   ],
   "note": "The lifetime of a parameter ends when the call returns (as in the Itanium ABI for trivially destructible types; C++ leaves it to the implementation)."
  },
  {
   "property": "C64",
   "status": "proved",
   "theorems": [
    "relative_index_exact",
    "relative_index_total",
    "relative_slices_select",
    "relative_suffix",
    "relative_suffix_refuted"
   ],
   "note": "operator[] takes the evaluated slice (it has no overload for relative slices). Callables of the caller are total functions."
  },
  {
   "property": "C65",
   "status": "proved",
   "theorems": [
    "index_container_followed",
    "index_container_unchecked_refuted",
    "index_temporary_refuted",
    "other_index_views_fixed",
    "kept_ranges_history"
   ],
   "note": "Operations that reallocate a std::vector are modelled as releasing its buffer and making a new one; shared const_vectors never change (C41)."
  },
  {
   "property": "C66",
   "status": "proved",
   "theorems": [
    "inplace_element_operand",
    "inplace_other_element",
    "fill_with_element",
    "out_of_place_element_operand",
    "inplace_element_operand_refuted"
   ],
   "note": "Exact result of view op= element; the natural claim is false of the code (refutation)."
  },
  {
   "property": "C67",
   "status": "proved",
   "theorems": [
    "vector_elements",
    "vector_of_pointers",
    "vector_elements_refuted"
   ],
   "note": "Exact for both cases; the natural claim is false of the code for bool (refutation). Compilers that count pointer-to-bool as narrowing (P1957) reject the affected calls."
  },
  {
   "property": "C68",
   "status": "proved",
   "theorems": [
    "C68_pieces",
    "C68_cuts",
    "C68_cuts_any",
    "C68_cuts_any_unique",
    "C68_table_unique",
    "C68_read_ragged",
    "C68_read_header",
    "C68_read_no_header",
    "C68_read_empty",
    "C68_characters",
    "C68_literal",
    "C68_write_read",
    "C68_first_character",
    "C68_runs",
    "C68_empty_match_refuted",
    "C68_overlap_refuted"
   ],
   "note": "A regular expression is its search function with the contract of std::regex_search (search_ok); the iteration over matches is modelled step by step. std::regex_error during matching (stack or complexity limits) is not modelled."
  },
  {
   "property": "C69",
   "status": "proved",
   "theorems": [
    "throwing_indexing",
    "throwing_rejects",
    "throwing_axes",
    "throwing_products",
    "throwing_bad_products",
    "throwing_functions",
    "throwing_terminates_refuted",
    "throwing_reshape",
    "throwing_assignment",
    "throwing_mismatch",
    "throwing_programs",
    "throwing_same_programs",
    "throwing_misuse",
    "incomplete_builder_kept_refuted"
   ],
   "note": "The named failing cases are refutations. cat, columns and dataframes check with the always-throwing module in every build: C24, C29-C39 already describe them."
  },
  {
   "property": "C70",
   "status": "proved",
   "theorems": [
    "interrupted_assignment",
    "interrupted_assignment_values",
    "interrupted_inplace",
    "interrupted_inplace_values",
    "interrupted_update",
    "interrupted_eval",
    "interrupted_overlap",
    "interrupted_array_assignment",
    "interrupted_unchanged_refuted",
    "interrupted_terminates_refuted"
   ],
   "note": "The exceptions are a function from the number of the element operation, all of them considered; the values left by an interrupted assignment are arbitrary."
  },
  {
   "property": "C71",
   "status": "proved",
   "theorems": [
    "parallel_views",
    "parallel_order",
    "parallel_overlap_refuted"
   ],
   "note": "Sequentially consistent interleavings of element accesses; with no data race that is what C++ guarantees. The views and expression objects belong to their threads (sharing views of one index list between threads is C58)."
  },
  {
   "property": "C72",
   "status": "proved",
   "theorems": [
    "iterator_reaches",
    "iterator_equal",
    "iterator_difference",
    "iterator_moves",
    "iterator_backwards_refuted"
   ],
   "note": "std::next, std::prev and std::distance are modelled by their specification for the iterator category (undefined for negative steps of forward iterators)."
  },
  {
   "property": "C73",
   "status": "proved",
   "theorems": [
    "effects_eval",
    "effects_through_views",
    "effects_array_assignment",
    "effects_algorithms",
    "eval_calls_once",
    "assign_calls_once",
    "loops_call_once",
    "tests_call_until_decided",
    "two_passes_call_twice",
    "searches_call_again",
    "stateful_apply",
    "stateful_inplace",
    "max_effects_refuted",
    "operand_order_refuted"
   ],
   "note": "The functions return by value, read their arguments when called and do not throw (C70 has throwing functions). The order in which the operands of one operation are evaluated is a parameter."
  },
  {
   "property": "C74",
   "status": "proved",
   "theorems": [
    "C74_levels",
    "C74_ends",
    "C74_correct_calls",
    "C74_arguments",
    "C74_subscripts",
    "C74_level_one",
    "C74_programs",
    "C74_program_ends",
    "C74_program_level_two",
    "C74_correct_programs"
   ],
   "note": "Views, expressions, assignments, numeric functions, and programs over arrays and builders. A check that is not compiled in is assumed to have no effect."
  },
  {
   "property": "C75",
   "status": "proved",
   "theorems": [
    "C75_prod_accurate",
    "C75_prod_with_start",
    "C75_prod_sign",
    "C75_prod_nan",
    "C75_prod_empty",
    "C75_prod_of_integers",
    "C75_prod_of_expressions",
    "C75_prod_underflow_refuted",
    "C75_product_accurate",
    "C75_blas_same",
    "C75_product_of_integers"
   ],
   "note": "binary64, round to nearest even, no fused operations (as C46); BLAS: the reference loop, alpha = 1. Stdlib Reals axioms through Flocq."
  },
  {
   "property": "C76",
   "status": "proved",
   "theorems": [
    "C76_others",
    "C76_histories",
    "C76_throw",
    "C76_values",
    "C76_read_into",
    "C76_new",
    "C76_copy_defined",
    "C76_constructions"
   ],
   "note": "Values of variables (Frame.v), without allocation failure and throwing cell copies: those are C49 and C50."
  },
  {
   "property": "C77",
   "status": "proved",
   "theorems": [
    "C77_pdf_accurate",
    "C77_pdf_symmetric",
    "C77_pdf_nonneg",
    "C77_pdf_decreasing",
    "C77_pdf_degenerate",
    "C77_small_sigma_refuted",
    "C77_exp_exists",
    "C77_pdf_integers",
    "C77_pdf_unsigned",
    "C77_pdf_integers_refuted",
    "C77_elementwise",
    "C77_abs_sqrt"
   ],
   "note": "std::exp is a hypothesis of the theorems (accuracy, sign, special values, monotonicity), shown to be satisfiable by the correctly rounded exp; pi is bounded by the stdlib series."
  },
  {
   "property": "C78",
   "status": "proved",
   "theorems": [
    "C78_product_of_expressions",
    "C78_product_view_expression",
    "C78_product_expression_view",
    "C78_sizes_checked",
    "C78_scaled",
    "C78_scaled_same_as_product",
    "C78_scaled_accurate",
    "C78_scaled_of_integers",
    "C78_scaled_order_refuted"
   ],
   "note": "GEMM is the reference loop (as in C24, C75); an optimised GEMM may regroup the factor differently."
  },
  {
   "property": "C79",
   "status": "proved",
   "theorems": [
    "C79_canonical",
    "C79_canonical_monotone",
    "C79_without_replacement",
    "C79_bernoulli",
    "C79_bernoulli_certain",
    "C79_bernoulli_independent",
    "C79_discrete_in_range",
    "C79_discrete",
    "C79_zero_weight",
    "C79_discrete_independent",
    "C79_zero_weight_refuted",
    "C79_zero_last_weight_refuted",
    "C79_no_weights_refuted"
   ],
   "note": "The distributions are those of GNU libstdc++ 13 (modelled from its headers); chances are shares of the sequences of engine outputs."
  },
  {
   "property": "C80",
   "status": "proved",
   "theorems": [
    "C80_in_range",
    "C80_uniform",
    "C80_samples_uniform",
    "C80_samples_in_range",
    "C80_returns",
    "C80_end_zero",
    "C80_end_zero_refuted"
   ],
   "note": "std::uniform_int_distribution of GNU libstdc++ 13 with a 32-bit engine (std::mt19937)."
  },
  {
   "property": "C81",
   "status": "proved",
   "theorems": [
    "C81_command",
    "C81_owned",
    "C81_reads_only",
    "C81_defined"
   ],
   "note": "On the heap of columns of C49; the memory of the returned array is that of C14-C18 and C69, not of this heap."
  },
  {
   "property": "C82",
   "status": "proved",
   "theorems": [
    "C82_matrix",
    "C82_numbers",
    "C82_integers",
    "C82_otherwise",
    "C82_save_and_load",
    "C82_trailing_text_refuted",
    "C82_exact_refuted"
   ],
   "note": "Composition of read, the coercions of text and to_matrix. Numbers below the smallest normal double that are not zero are left to C62. Saving uses a header, new line and tab."
  },
  {
   "property": "C83",
   "status": "proved",
   "theorems": [
    "C83_engine",
    "C83_one_after_the_other",
    "C83_leaves_the_rest",
    "C83_progress",
    "C83_determined",
    "C83_reproducible",
    "C83_own_samples",
    "C83_right_kind",
    "C83_shared_refuted",
    "C83_other_unit_refuted"
   ],
   "note": "Every access to an engine takes two steps; an access that begins during another one to the same engine is undefined. Sequentially consistent interleaving otherwise. The engine is the one of libstdc++ 13. The seeds that std::random_device gives are arbitrary."
  },
  {
   "property": "C84",
   "status": "proved",
   "theorems": [
    "C84_read_failed",
    "C84_read_all",
    "C84_extract",
    "C84_loop_forever",
    "C84_write_throw",
    "C84_write_empty",
    "C84_write_stuck",
    "C84_write_sent",
    "C84_write_prefix",
    "C84_write_reported_refuted",
    "C84_cut_between",
    "C84_cut_inside",
    "C84_cut_last",
    "C84_cut_any",
    "C84_interrupted",
    "C84_cut_detected_refuted"
   ],
   "note": "Streams are a library model after libstdc++: state flags, exception mask, width, a device that takes a given number of characters. Separators are single characters; the cut file was written with a header from a dataframe as in C34 (no separators in the cells, last column not empty)."
  },
  {
   "property": "C85",
   "status": "proved",
   "theorems": [
    "C85_max_min",
    "C85_same_as_array",
    "C85_sum_prod",
    "C85_float_sum_prod",
    "C85_count_which",
    "C85_all_any_none",
    "C85_mean",
    "C85_var",
    "C85_float_var",
    "C85_var_one",
    "C85_freq",
    "C85_nth",
    "C85_vector",
    "C85_reread_refuted",
    "C85_array",
    "C85_array_short",
    "C85_array_short_refuted",
    "C85_array_skips_refuted",
    "C85_generated",
    "C85_generated_throws",
    "C85_generated_no_room",
    "C85_generated_terminate_refuted"
   ],
   "note": "std::istream_iterator, uninitialized_copy_n and range-v3's generate view are library models; how characters become values is not modelled. An iterator that has reached the end is undefined behaviour to read or increment."
  },
  {
   "property": "C86",
   "status": "proved",
   "theorems": [
    "C86_command",
    "C86_owned",
    "C86_any_text",
    "C86_read",
    "C86_extract",
    "C86_program"
   ],
   "note": "The text is a string already in memory for the model (a good stream's remaining content); the failures of reading the stream and of splitting are a number of operations before the first column. Failure inside std::regex is among them."
  }
 ]
}