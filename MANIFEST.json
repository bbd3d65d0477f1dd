{
 "claims": [
  {
   "property": "C01",
   "status": "proved",
   "theorems": [
    "enum_set_behaves_as_set",
    "enum_set_insert_returns_iterator",
    "enum_set_equality_extensional",
    "enum_set_has_any_of"
   ],
   "note": "Refinement of a set over all insert/erase histories."
  },
  {
   "property": "C02",
   "status": "partial",
   "theorems": [
    "bit_vector_behaves_as_set",
    "bit_vector_equality_extensional",
    "bit_vector_or_reports_every_change",
    "bit_vector_or_flag_exact_partial",
    "bit_vector_or_flag_exact_refuted"
   ],
   "note": "All set behaviour proved; the documented contract of Or's return value is refuted (true is returned when the argument has more, all-zero, words), and proved exact when the argument has no more words than the receiver."
  },
  {
   "property": "C03",
   "status": "proved",
   "theorems": [
    "string_words_round_trip",
    "string_words_truncate_at_nul",
    "string_words_layout",
    "string_words_append_only",
    "string_decoding_reads_up_to_nul"
   ],
   "note": ""
  },
  {
   "property": "C04",
   "status": "proved",
   "theorems": [
    "mutate_bits_exact",
    "high_bits_exact",
    "sign_extend_exact",
    "zero_extend_exact",
    "count_set_bits_exact",
    "lsb_exact",
    "bit_at_position_exact",
    "set_bits_exact"
   ],
   "note": "For every width, not only 8/16/32/64."
  },
  {
   "property": "C05",
   "status": "proved",
   "theorems": [
    "binary_parse_total",
    "reported_words_are_the_module",
    "reported_words_are_a_prefix",
    "reported_instructions_are_tiled",
    "reported_operand_count"
   ],
   "note": "All grammars satisfying grammar_ok (facts about the generated tables). The reported operand count is a 16-bit field: reported_operand_count says when it is exact."
  },
  {
   "property": "C06",
   "status": "partial",
   "theorems": [
    "parse_endian_independent_partial",
    "parse_endian_independent_refuted"
   ],
   "note": "False in general: OpExtInstImport names are decoded from raw words. Proved for every module without that opcode."
  },
  {
   "property": "C07",
   "status": "proved",
   "theorems": [
    "result_ids_unique",
    "reported_ids_match_operands",
    "id_operands_non_zero",
    "duplicate_result_id_rejected"
   ],
   "note": ""
  },
  {
   "property": "C08",
   "status": "proved",
   "theorems": [
    "callbacks_stop_at_first_failure",
    "callbacks_only_cut_the_run",
    "error_reports_preceding_instructions"
   ],
   "note": ""
  },
  {
   "property": "C09",
   "status": "proved",
   "theorems": [
    "opcode_word_split_make",
    "opcode_word_make_split"
   ],
   "note": ""
  },
  {
   "property": "C10",
   "status": "partial",
   "theorems": [
    "names_get_dense_ids",
    "numeric_names_keep_their_value_partial",
    "preserved_id_bound_refuted"
   ],
   "note": "Dense numbering proved in full. With preserved numeric ids everything is proved except for the name 4294967295, for which the bound wraps (refuted)."
  },
  {
   "property": "C11",
   "status": "proved",
   "theorems": [
    "assembler_reads_the_words",
    "layout_does_not_matter",
    "layout_read_one_word",
    "assembling_depends_on_words_only"
   ],
   "note": "The word splitter, and the whole assembler: two layouts of the same words assemble to the same result."
  },
  {
   "property": "C12",
   "status": "proved",
   "theorems": [
    "string_literal_round_trip"
   ],
   "note": "For strings up to the library's literal size limit."
  },
  {
   "property": "C13",
   "status": "proved",
   "theorems": [
    "integer_literal_accepted_iff_representable",
    "integer_literal_round_trip",
    "wide_integers_unsupported",
    "unsigned_parse_never_negative",
    "negative_after_space_accepted",
    "non_canonical_literal_not_reassembled"
   ],
   "note": "For texts without leading white space, which is what the assembler passes; the last two theorems record what happens outside."
  },
  {
   "property": "C14",
   "status": "proved",
   "theorems": [
    "hex_roundtrip",
    "hex_print_meaning",
    "hex_parse_value_partial",
    "hex_parse_value_refuted",
    "hex_parse_defined",
    "hex_roundtrip_small_refuted",
    "hex_roundtrip_e8m0"
   ],
   "note": "hex_roundtrip covers all patterns of half, bfloat16, single, double and the 8-bit E4M3 and E5M2 formats, whatever follows in the stream. Beyond the claim: what the printed text denotes, how any hexadecimal text is read (partial: exponents near the ends of the exponent type; refuted there), and that reading never loops. The formats narrower than 8 bits lose subnormals (refuted). The decimal notation is left to the C++ library and not modelled."
  },
  {
   "property": "C15",
   "status": "partial",
   "theorems": [
    "cast_representable",
    "cast_widens",
    "cast_special",
    "cast_toward_zero",
    "cast_too_large",
    "cast_rounds_partial",
    "cast_carry_refuted",
    "cast_subnormal_refuted",
    "cast_overflow_refuted",
    "cast_nan_payload_refuted",
    "cast_small_refuted",
    "quantize_folds",
    "quantize_subnormal_refuted"
   ],
   "note": "Proved for every pair of half, bfloat16, single and double: representable values are exact, widening and narrowing back is the identity, signs, zeros, infinities and NaN-ness are kept, rounding towards zero is right below the overflow threshold. The full claim is false of the code: rounding up to a power of two loses the carry, rounding into the subnormal range ignores the mode, overflow gives infinity in every mode; cast_rounds_partial states exactly where rounding is right."
  },
  {
   "property": "C16",
   "status": "proved",
   "theorems": [
    "pattern_expands_as_documented",
    "take_first_matchable_total",
    "pushed_types_come_first",
    "pushed_array_comes_first",
    "mask_operands_in_bit_order",
    "alternate_pattern_keeps_result_id",
    "operand_classes_consistent"
   ],
   "note": "operand.cpp pattern machinery, for every grammar"
  },
  {
   "property": "C17",
   "status": "proved",
   "theorems": [
    "traversal_reports_reachable_once",
    "traversal_order"
   ],
   "note": ""
  },
  {
   "property": "C18",
   "status": "proved",
   "theorems": [
    "dominators_exact"
   ],
   "note": "Termination within a stated number of passes is part of the theorem."
  },
  {
   "property": "C19",
   "status": "proved",
   "theorems": [
    "augmented_cfg_rooted",
    "traversal_roots_reach_all",
    "traversal_roots_minimal_refuted"
   ],
   "note": "The claim is proved; the header's further remark that the root set is minimal is refuted."
  },
  {
   "property": "C20",
   "status": "partial",
   "theorems": [
    "integer_folding_right_partial",
    "integer_folding_no_undefined_partial",
    "integer_folding_encoded_partial",
    "folding_encoding_refuted",
    "folding_smod_refuted",
    "folding_negated_division_refuted",
    "folding_narrow_sconvert_refuted",
    "folding_narrow_sdiv_refuted",
    "folding_smin_refuted",
    "folding_umin_refuted",
    "folding_negate_undefined_refuted",
    "folding_division_undefined_refuted",
    "folding_null_component_refuted"
   ],
   "note": "For every module, well-typed integer or boolean instruction of any width and every execution, the folded constant is the value the specification gives, except for the deviations listed in known_deviation, each refuted by a witness: SMod with negative divisor and zero remainder, -x/x for the smallest integer, signed operations on narrow unsigned operands, min/max/clamp whose opcode and type disagree on signedness. No undefined C++ operation on types of at most 32 bits without null vector components; INT64_MIN negation or division by -1 and null components are refuted."
  },
  {
   "property": "C21",
   "status": "partial",
   "theorems": [
    "rules_preserve_value_partial",
    "rules_no_undefined",
    "rules_well_typed_partial",
    "strength_reduction_preserves",
    "rules_negated_division_refuted",
    "rules_negated_dividend_refuted",
    "rules_double_negative_refuted",
    "rules_copy_type_refuted"
   ],
   "note": "Every integer and boolean rewriting rule of folding_rules.cpp, in the registered order, and the strength reduction pass. False in the code for -(x / c), -(c / x) and (-x) / (-y) with the smallest signed integer, and an OpCopyObject may get an operand of the other signedness; these are refuted with concrete modules and excluded. Not modelled: floating-point and composite rules, BitCastScalarOrVector, BitReverse, cooperative matrices."
  },
  {
   "property": "C22",
   "status": "partial",
   "theorems": [
    "compact_ids_renumbers_partial",
    "compact_ids_idempotent",
    "compact_ids_trailing_lines_refuted"
   ],
   "note": "Proved for modules whose trailing line instructions mention no id. Missing: ids in trailing line instructions, which the pass does not visit (refuted)."
  },
  {
   "property": "C23",
   "status": "partial",
   "theorems": [
    "def_use_answers_exact_partial",
    "def_use_reanalysis_refuted",
    "module_def_use_exact",
    "module_def_use_asserts_iff"
   ],
   "note": "Queries answered exactly after every history of calls within the conditions of DefUseSpec, and after analysing any module with distinct result ids (no condition on history). Missing: the full statement is false, since analysing a used definition again drops its users (def_use_reanalysis_refuted)."
  },
  {
   "property": "C24",
   "status": "proved",
   "theorems": [
    "fresh_ids_are_unused",
    "bound_exceeds_every_id",
    "recomputed_bound_is_least"
   ],
   "note": "For all histories of taking ids, editing, changing the maximum and recomputing the bound."
  },
  {
   "property": "C25",
   "status": "proved",
   "theorems": [
    "lcs_matching_is_longest"
   ],
   "note": "For sequences whose shorter length is below 2^30 (the width of the stored length)."
  },
  {
   "property": "C26",
   "status": "proved",
   "theorems": [
    "synonyms_smallest_equivalence",
    "synonyms_one_representative",
    "synonym_queries_do_not_interfere"
   ],
   "note": ""
  },
  {
   "property": "C27",
   "status": "partial",
   "theorems": [
    "reducer_output_valid_and_interesting",
    "reducer_step_limit_partial",
    "reducer_step_limit_refuted"
   ],
   "note": "Output validity, interestingness and termination are proved. That at most step_limit reductions are tried is false (refuted): the inner do-while loop runs once for each remaining pass after the limit has been reached; the proved bound is step_limit + number of passes - 1."
  },
  {
   "property": "C28",
   "status": "partial",
   "theorems": [
    "link_keeps_modules_apart_partial",
    "link_merge_succeeds_iff",
    "link_too_many_ids",
    "link_version",
    "link_line_ids_refuted"
   ],
   "note": "Missing: ids in attached line instructions and debug scopes of every module but the first are not shifted, so the full statement is false of the code (link_line_ids_refuted); merging drops graphs, graph entry points and the sampled image address mode. Phases 1 to 3 of Link."
  },
  {
   "property": "C29",
   "status": "proved",
   "theorems": [
    "symbols_resolved_iff_resolvable",
    "symbols_resolved_by_name",
    "resolved_imports_are_gone"
   ],
   "note": "Phases 5 to 9 of Link, for modules without decoration groups and function variants; equality of types is a parameter."
  },
  {
   "property": "C30",
   "status": "partial",
   "theorems": [
    "friendly_names_valid_and_unique",
    "debug_names_are_kept",
    "undefined_ids_may_share_a_name_refuted"
   ],
   "note": "Validity and uniqueness are proved for every id the module defines (fewer than 2^32 instructions, so the disambiguating counter does not wrap). The full statement is false for ids that are mentioned but never defined: they fall back to their number, which another id's debug name may be (refuted theorem, concrete witness)."
  },
  {
   "property": "C31",
   "status": "partial",
   "theorems": [
    "layout_accepted_iff_valid",
    "layout_checks_never_assert",
    "layout_error_not_early",
    "layout_error_at_first_partial",
    "layout_error_at_first_refuted"
   ],
   "note": "Acceptance is characterised exactly, for every instruction sequence, functions and graphs included. Where the error is reported: never before the first instruction after which no continuation is valid; at that instruction for modules without graphs; with graphs this is false (refuted: a graph begun inside a function is rejected only at the end)."
  },
  {
   "property": "C32",
   "status": "partial",
   "theorems": [
    "round_trip_partial",
    "round_trip_names_partial",
    "round_trip_friendly_names_partial",
    "round_trip_mask_refuted",
    "round_trip_padding_refuted",
    "round_trip_narrow_refuted",
    "round_trip_bound_refuted",
    "round_trip_float_type_refuted"
   ],
   "note": "Proved for little-endian modules that hold none of the following, for each of which the unrestricted statement is refuted: several bits in a non-optional mask operand the assembler does not treat as a mask, non-zero bytes after a string, a narrow literal that is not sign- or zero-extended, the id 2^32-1, a float type whose width contradicts its encoding. Floating point text is a parameter that must be read back as written. Big-endian modules and the nested-indent option are not covered."
  },
  {
   "property": "C33",
   "status": "partial",
   "theorems": [
    "construction_right",
    "simplification_right_partial",
    "simplification_without_recurrences_partial",
    "sign_queries_right",
    "division_right_partial",
    "simplify_negated_product_refuted",
    "simplify_scaled_offset_refuted",
    "simplify_repeated_offset_refuted",
    "simplify_square_refuted",
    "simplify_product_refuted",
    "simplify_cancelled_recurrence_refuted",
    "simplify_subtracted_unknown_refuted",
    "simplify_zero_step_refuted",
    "at_least_zero_refuted",
    "division_right_operand_refuted"
   ],
   "note": "The full statement is false (eight refuted cases). Proved for all expressions without recurrences and no subtracted products, and for sums of recurrences described by simple_sum; the sign queries and division are also covered. int64 overflow and the construction from instructions are not modelled."
  },
  {
   "property": "C34",
   "status": "partial",
   "theorems": [
    "independence_right_partial",
    "one_loop_independence_right_partial",
    "report_right_partial",
    "crossing_distance_partial",
    "one_loop_test_defined",
    "several_loops_independence_right",
    "binary_gcd_right",
    "intersection_right",
    "different_unknowns_refuted",
    "symbolic_stride_refuted",
    "symbolic_negative_refuted",
    "zero_start_refuted",
    "zero_negative_range_refuted",
    "zero_opposite_refuted",
    "zero_unknown_refuted",
    "zero_decreasing_refuted",
    "varying_unknown_refuted",
    "crossing_equal_refuted",
    "gcd_unknown_step_refuted",
    "gcd_zero_step_refuted",
    "final_trip_message_refuted",
    "not_a_recurrence_refuted",
    "opposite_slopes_refuted",
    "distance_line_comparison_refuted"
   ],
   "note": "Proved: on separable subscript pairs of the forms in handled_any, declared independence excludes every conflict, and the reported distance, direction and peeling are right; the test over several loops is right for all subscripts; intersecting constant constraints loses nothing. Refuted in general, with a witness for each form that goes wrong. Not modelled: subscript partitioning, constraint propagation and the delta test for coupled subscripts; int64 overflow."
  },
  {
   "property": "C35",
   "status": "partial",
   "theorems": [
    "propagation_terminates",
    "constant_propagation_total",
    "constants_right_partial",
    "constants_typed",
    "replacement_changes_nothing_partial",
    "constants_right_refuted"
   ],
   "note": "The SSA propagator and conditional constant propagation (visits, work lists, statuses, replacement). Termination and absence of failed assertions are proved for every well formed function. The values found are shown to be those of every execution, and the replaced function to have the same executions, for functions whose switches are on one-word selectors; for 64-bit selectors the claim is refuted (ccp_pass.cpp:246-281 compares first words only). The folder is a parameter with a correctness condition (C20 covers the integer folder)."
  },
  {
   "property": "C36",
   "status": "proved",
   "theorems": [
    "dominator_queries_exact",
    "postdominator_queries_exact",
    "strict_dominance"
   ],
   "note": "Composes the traversal, the dominator computation and the DFS numbering."
  },
  {
   "property": "C37",
   "status": "proved",
   "theorems": [
    "target_env_longest_name",
    "target_env_names_round_trip",
    "target_envs_consistent"
   ],
   "note": ""
  },
  {
   "property": "C38",
   "status": "proved",
   "theorems": [
    "intrusive_lists_are_sequences",
    "insert_before_itself_refuted",
    "neighbours_of_unlinked_node_refuted"
   ],
   "note": "All histories of calls that meet their preconditions, observed through iteration in both directions, emptiness, ends, membership and neighbours. Two documented usages are shown not to work: inserting a node before itself, and asking for the neighbours of an unlinked node."
  },
  {
   "property": "C39",
   "status": "partial",
   "theorems": [
    "small_vectors_are_sequences_partial",
    "push_back_own_element",
    "push_back_own_element_refuted",
    "insert_nothing_refuted"
   ],
   "note": "Every program over any number of vectors, any inline capacity and element type, with constructors, assignments and destruction; memory faults are part of the model. The full statement is false for two uses a std::vector allows (refuted theorems): a reference to an own element as argument when the inline buffer is full, and inserting an empty range before an element."
  },
  {
   "property": "C40",
   "status": "proved",
   "theorems": [
    "shrinker_output_interesting_and_no_longer",
    "shrinker_attempts_partial",
    "shrinker_attempts_refuted",
    "shrinker_earlier_chunks_unaffected",
    "function_reduction_keeps_the_others"
   ],
   "note": "The bodies of AddFunction transformations may be reduced, so the subsequence is up to those; without AddFunction it is a plain subsequence. The separate assertion attempt <= step_limit is refuted."
  },
  {
   "property": "C41",
   "status": "proved",
   "theorems": [
    "reducer_complete_is_minimal"
   ],
   "note": ""
  },
  {
   "property": "C42",
   "status": "proved",
   "theorems": [
    "environment_from_text_header"
   ],
   "note": ""
  },
  {
   "property": "C43",
   "status": "proved",
   "theorems": [
    "vulkan_env_least_sufficient"
   ],
   "note": ""
  },
  {
   "property": "C44",
   "status": "partial",
   "theorems": [
    "assembler_total_partial",
    "assembler_total_plain_partial",
    "assembler_comma_refuted",
    "assembler_parenthesis_refuted",
    "assembler_unknown_import_refuted"
   ],
   "note": "False in general: a comma or parenthesis between words (or a text that starts with NUL) makes the assembler read the first character of an empty string, and an extended-instruction import written with OpUnknown makes it read a word its instruction does not have. Proved for every text without NUL whose words are all non-empty."
  },
  {
   "property": "C45",
   "status": "partial",
   "theorems": [
    "loop_count_exact_partial",
    "loop_count_complete",
    "loop_run_unique",
    "loop_count_polarity_refuted",
    "loop_count_signedness_refuted",
    "loop_count_wrap_refuted",
    "loop_count_downwards_refuted",
    "loop_count_long_step_refuted"
   ],
   "note": "Exact for loops that leave when the condition fails, whose constants are read by their type as the comparison reads them, whose step fits in 32 bits and whose counter does not wrap; without each of these the count is wrong, which is refuted with concrete loops. Completeness for widths up to 32."
  },
  {
   "property": "C46",
   "status": "partial",
   "theorems": [
    "residual_unroll_partial",
    "split_bodies_unique",
    "residual_unroll_refuted",
    "residual_unroll_down_refuted"
   ],
   "note": "Proved for < and >. False in the code for <= and >=: the residual bound is moved by one in the wrong direction, so that too many bodies are executed; the repository's own test expects such an output. The copying of the body itself is not modelled."
  },
  {
   "property": "C47",
   "status": "partial",
   "theorems": [
    "layout_check_exact_partial",
    "layout_disjoint_partial",
    "layout_aligned_partial",
    "layout_sixteen_elements",
    "layout_wrap_refuted",
    "layout_nested_runtime_refuted",
    "layout_marker_refuted",
    "layout_unknown_length_refuted",
    "layout_runtime_straddle_refuted"
   ],
   "note": "The check decides the layout rules, and accepted blocks have disjoint and aligned contents, for blocks whose offsets, strides and counts can be evaluated and that end below 2^32 - 2^16. Beyond that it is false of the code: sizes wrap around at 2^32, the value 4294967295 switches the check off, an array of unknown length and a nested structure with a runtime array count as empty; and only the first element of a runtime array is checked for straddling."
  },
  {
   "property": "C48",
   "status": "partial",
   "theorems": [
    "local_elim_preserves_partial",
    "local_elim_returns",
    "local_elim_volatile_refuted"
   ],
   "note": "Every defined run of the function is, block by block, a run of the function the pass leaves, on every machine, for functions without volatile accesses that do not store pointers to their own variables; the pass returns on functions whose definitions come before their uses. False in the code with volatile accesses: the pass removes volatile loads and stores. Debug declarations, names and decorations are not modelled."
  },
  {
   "property": "C49",
   "status": "partial",
   "theorems": [
    "ssa_rewrite_preserves_partial",
    "ssa_rewrite_no_loads",
    "ssa_visit_order",
    "ssa_rewrite_stale_refuted",
    "ssa_rewrite_full_refuted",
    "ssa_rewrite_dangling_refuted"
   ],
   "note": "Every defined run of the function is, block by block, a run of the rewritten function, on every machine, whenever the final tables meet two conditions; no loads are left in reachable blocks, without conditions. Without the first condition it is false of the code: a phi that is found to be superfluous at the end overwrites the recorded value of its variable at a block that stores to this variable afterwards, and a later phi takes the old value. Without the second too: a load can be left replaced by a phi that was removed. Not proved: that the recursion ends. Variables that hold pointers, debug declarations and Volatile are not modelled."
  },
  {
   "property": "C50",
   "status": "partial",
   "theorems": [
    "single_store_preserves_partial",
    "single_store_returns",
    "single_store_volatile_refuted"
   ],
   "note": "For every machine, function, run and correct dominance test: a defined run of the function is a run of the function the pass leaves (simulation, with the invariant that past the store the id stored has the value the variable holds). Proved under the rule that pointers to own variables are not stored. Missing: volatile accesses, for which the statement is false (the pass removes volatile loads), pointers to own variables stored in memory, debug declarations, initializers other than as a store at the start. The pass returns if definitions come before uses in the text."
  },
  {
   "property": "C51",
   "status": "partial",
   "theorems": [
    "local_redundancy_preserves_partial",
    "redundancy_preserves_partial",
    "redundancy_returns",
    "local_redundancy_removes",
    "redundancy_removes"
   ],
   "note": "for every function in the shape SPIR-V requires, both passes keep every defined run; missing: modules with several functions, names, decorations and debug information of removed ids; which instructions may be looked up by what they compute is part of the program, not computed from opcodes and types"
  },
  {
   "property": "C52",
   "status": "partial",
   "theorems": [
    "validator_ids_exact_partial",
    "accepted_uses_are_defined_partial",
    "accepted_phi_values_are_defined_partial",
    "validator_ids_exact_refuted"
   ],
   "note": "exact for every module in which every block with a merge instruction that adds an edge has a way to a block without successors; without that the statement is refuted: a kernel with an endless loop and a merge instruction that obeys the rule is rejected; missing: forward pointers, debug information, graphs, and the checks on what kind of thing an operand is"
  },
  {
   "property": "C53",
   "status": "partial",
   "theorems": [
    "licm_preserves_partial",
    "licm_keeps_shape",
    "licm_moves_all",
    "licm_returns",
    "licm_preserves_refuted"
   ],
   "note": "preservation of every defined run is proved for machines on which the operations that may be moved have results for all operands; without that it is false of the code, which moves a guarded integer division to where it is always done (refuted with a witness); that the form is kept, that nothing that could be moved is left, and that the pass returns are proved in full; missing: how loops are found, the making of preheaders (SplitLoopHeader), several functions per module"
  },
  {
   "property": "C54",
   "status": "partial",
   "theorems": [
    "code_sink_preserves_partial",
    "code_sink_keeps_shape",
    "code_sink_returns_partial",
    "store_check_refuted",
    "code_sink_preserves_refuted",
    "code_sink_not_more_often_refuted",
    "code_sink_returns_refuted"
   ],
   "note": "behaviour is kept for every function that writes to none of the variables whose loads the pass takes for constant, shape for every function, and the pass ends if merge blocks are reached when their headers are; refuted in general: the check for stores is false of every variable that is loaded from, so a load can be moved past a store to a Uniform variable; a merge block can be a loop header, where the load is executed more often; an unreachable merge block in an endless loop makes the search endless; missing: memory operands of loads, several functions"
  },
  {
   "property": "C55",
   "status": "partial",
   "theorems": [
    "block_merge_preserves_partial",
    "block_merge_keeps_instructions",
    "block_merge_keeps_structure",
    "block_merge_reconvergence",
    "block_merge_returns"
   ],
   "note": "behaviour (returns, effects, endless runs), instructions, structure and termination, for every function; missing: phis in blocks that are reached over one edge only (the pass replaces them by their value); which blocks are cases of the switch around them (StructuredCFGAnalysis) is a parameter; line numbers and debug scopes are not modelled"
  },
  {
   "property": "C56",
   "status": "partial",
   "theorems": [
    "resolve_bindings_resolves",
    "resolve_bindings_no_conflict",
    "resolve_bindings_keeps",
    "resolve_bindings_returns_partial",
    "resolve_bindings_returns_refuted"
   ],
   "note": "all of it for every module without recursion in which there is room above the binding numbers (number plus count of variables at most 2^32); refuted without room: two variables with number 4294967295 make the loop endless, since the next number wraps to 0; missing: decoration groups"
  },
  {
   "property": "C57",
   "status": "partial",
   "theorems": [
    "dead_constants_keeps",
    "dead_constants_removes_partial",
    "dead_constants_defined_partial",
    "dead_constants_order",
    "dead_constants_removes_refuted",
    "dead_constants_defined_refuted"
   ],
   "note": "nothing needed is removed, the assertion never fails, the order makes no difference and the pass ends, for every module; every unneeded constant is removed if only composites and operations mention constants, refuted otherwise (replicated composites); no mention dangles if decorations mention constants as targets only, refuted otherwise (the scope of a UniformId decoration is removed); missing: decoration groups"
  },
  {
   "property": "C58",
   "status": "partial",
   "theorems": [
    "live_functions_exact",
    "live_functions_closed",
    "interface_exact_partial",
    "interface_stays_partial",
    "interface_exact_refuted",
    "live_functions_mentioned_refuted"
   ],
   "note": "kept functions: exact for every module the optimizer loads, but a function that is mentioned other than by a call is removed (refuted); interfaces: exact, except for conditional entry points (made by the linker) whose name, read as a number, is the id of a used variable (refuted); missing: memory operands with operands of their own in tensor loads"
  },
  {
   "property": "C59",
   "status": "partial",
   "theorems": [
    "flatten_applied",
    "flatten_times",
    "flatten_gone",
    "flatten_rest",
    "flatten_names_partial",
    "flatten_names_returns_refuted"
   ],
   "note": "decorations: for every list of annotations the validator accepts; names: exact if there are no names of members or no groups; with a group and the name of a member the pass never ends (refuted for every such module)"
  },
  {
   "property": "C60",
   "status": "proved",
   "theorems": [
    "unify_values",
    "unify_removes",
    "unify_result",
    "unify_all",
    "unify_consistent"
   ],
   "note": "for every section in which constants mention only what is defined before them; the trie is a list of its paths; not modelled: names of removed constants, and uses outside the section (they are renamed in the same way)"
  },
  {
   "property": "C61",
   "status": "partial",
   "theorems": [
    "private_local_found",
    "private_local_interface",
    "private_local_outputs_partial",
    "private_local_outputs_refuted"
   ],
   "note": "which variables are moved, and the interfaces: exact; the outputs are the same, in both directions, if the function is that of the entry point and is not called; refuted for functions that are called more than once (a private variable keeps its value between calls, a local one does not); missing: executions that do not end, types of pointers"
  },
  {
   "property": "C62",
   "status": "partial",
   "theorems": [
    "pack_exact",
    "pack_aligned",
    "pack_vec4",
    "alignment_exact",
    "size_exact",
    "pack_disjoint_partial",
    "elements_disjoint_partial",
    "pack_disjoint_columns_refuted",
    "pack_disjoint_scalar_refuted",
    "pack_hlsl_refuted"
   ],
   "note": "alignment proved for all rules; offsets and no overlap for the rules std140, std430 and scalar, with matrices stored by rows or square (not with scalar rules); no overlap refuted for matrices stored by columns and for any matrix with scalar rules; with HLSL rules a size wraps around below zero; missing: HLSL rules otherwise, overflow of 32 bits, nested structures that are not packed by the same rules"
  }
 ]
}