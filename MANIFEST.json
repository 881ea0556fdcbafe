{
 "claims": [
  {
   "property": "C01",
   "status": "partial",
   "theorems": [
    "special_add_correct",
    "special_add_unset_rounding_partial",
    "special_sub_correct_partial",
    "special_mul_correct_partial",
    "special_mul_inf_zero",
    "special_div_correct_partial",
    "special_add_unset_rounding_refuted",
    "special_sub_number_zero_refuted",
    "special_mul_number_zero_refuted",
    "special_div_refuted"
   ],
   "note": "Addition is fully correct once a rounding mode is set; subtraction, multiplication and division are refuted when one operand is the plain number 0, and number/NaN raises an exception."
  },
  {
   "property": "C02",
   "status": "partial",
   "theorems": [
    "special_left_lt",
    "special_left_gt",
    "special_left_ge",
    "special_left_eq",
    "special_left_le_partial",
    "number_left_le",
    "number_left_lt_partial",
    "number_left_ge_partial",
    "number_left_eq_partial",
    "number_number_comparisons",
    "number_lt_infinity_refuted",
    "infinity_le_number_refuted",
    "number_gt_special_refuted",
    "zero_equality_not_symmetric_refuted"
   ],
   "note": "Every comparison form is covered; the wrong ones (number against infinity, number > special, plain 0 == signed zero) are refuted."
  },
  {
   "property": "C03",
   "status": "proved",
   "theorems": [
    "fp_decode_is_ieee",
    "fp_word_has_fields",
    "fp_encode_decode",
    "fp_encode_zero",
    "fp_decode_encode",
    "fp_nan_class_round_trip",
    "fp_encode_nearest_even",
    "fp_binary80_round_trip_refuted"
   ],
   "note": "Also: encoding an arbitrary in-range rational gives a nearest-even number. The declared ML_Binary80 (64-bit field, 64-bit Sollya significand) does not round trip."
  },
  {
   "property": "C04",
   "status": "proved",
   "theorems": [
    "fp_code_strictly_increasing",
    "fp_code_monotone",
    "fp_code_injective"
   ],
   "note": ""
  },
  {
   "property": "C05",
   "status": "partial",
   "theorems": [
    "fp_bounds_partial",
    "fp_max_subnormal_refuted",
    "fp_saturate_correct"
   ],
   "note": "Everything but the largest subnormal, which is wrong for every format."
  },
  {
   "property": "C06",
   "status": "partial",
   "theorems": [
    "fx_bounds",
    "fx_encode_correct",
    "fx_encode_domain",
    "fx_encode_fits",
    "fx_decode_encode_partial",
    "fx_signed_round_trip_refuted",
    "fx_wide_round_trip_refuted"
   ],
   "note": "Encoding is exact and fits for every format; decoding is right for non-negative codes of at most 53 bits and refuted for negative values (sign bit ignored) and for wider codes (goes through a Python float)."
  },
  {
   "property": "C07",
   "status": "proved",
   "theorems": [
    "fx_round_grid",
    "fx_round_nearest",
    "fx_round_directed",
    "fx_truncate_wraps",
    "fx_truncate_in_range",
    "fx_truncate_below_refuted",
    "fx_saturate_correct"
   ],
   "note": "Truncation is toward zero, so it exceeds negative off-grid values."
  },
  {
   "property": "C08",
   "status": "partial",
   "theorems": [
    "fp_class_tests_partial",
    "fp_is_subnormal_zero_refuted",
    "hw_fp_class_tests"
   ],
   "note": "All predicates exact except IsSubnormal, which also answers true on zeros (refuted)."
  },
  {
   "property": "C09",
   "status": "proved",
   "theorems": [
    "fp_extraction_reconstructs",
    "fp_exponent_insertion",
    "fp_exponent_extract_insert"
   ],
   "note": ""
  },
  {
   "property": "C10",
   "status": "partial",
   "theorems": [
    "meta_add_encloses",
    "meta_sub_encloses",
    "meta_mul_encloses",
    "meta_neg_encloses",
    "meta_div_encloses",
    "meta_or_exact",
    "meta_and_exact",
    "meta_or_empty_refuted",
    "meta_div_interval_by_list_refuted"
   ],
   "note": "Enclosure for contiguous intervals and interval lists; union and intersection with an empty interval raise, and an interval cannot be divided by a list (refuted)."
  },
  {
   "property": "C11",
   "status": "partial",
   "theorems": [
    "refine_interval_list_correct",
    "refine_empty_refuted",
    "meta_list_bounds",
    "meta_contains_number",
    "meta_contains_range_refuted",
    "meta_list_contains_refuted"
   ],
   "note": "Canonisation and bounds fully proved; membership is exact for a number in one interval, and refuted for ranges and for interval lists (undefined attribute)."
  },
  {
   "property": "C12",
   "status": "partial",
   "theorems": [
    "evaluate_range_sound_partial",
    "evaluate_range_tight",
    "update_interval_stable",
    "modulo_range_refuted",
    "raw_exponent_range_refuted",
    "dot_product_negate_range_refuted"
   ],
   "note": "All operators with a range function except Modulo, RawExponentExtraction (refuted) and DotProductNegate (always raises, refuted); on independent inputs the ranges of the arithmetic operators are also shown to be the smallest ones; vector and table operators are not modelled."
  },
  {
   "property": "C13",
   "status": "partial",
   "theorems": [
    "simplify_preserves_value_partial",
    "simplify_subnormal_refuted",
    "simplify_subnormal_bound_refuted",
    "simplify_infty_refuted"
   ],
   "note": "All simplifications but the class tests IsSubnormal and IsInfty, which are refuted."
  },
  {
   "property": "C14",
   "status": "partial",
   "theorems": [
    "logical_simplification_partial",
    "logical_simplification_total_partial",
    "logical_or_not_refuted",
    "logical_and_not_raises_refuted"
   ],
   "note": "And-of-Not trees are rewritten correctly; Or-of-Not trees are rewritten to a different function (refuted), and a tree whose leftmost leaf only is a Not raises (refuted)."
  },
  {
   "property": "C15",
   "status": "proved",
   "theorems": [
    "size_mul_exact"
   ],
   "note": ""
  },
  {
   "property": "C16",
   "status": "partial",
   "theorems": [
    "size_add_exact_partial",
    "size_add_mixed_refuted",
    "size_add_mixed_overflows",
    "size_sub_exact_partial",
    "size_sub_signed_refuted",
    "size_neg_exact_partial",
    "size_neg_signed_refuted"
   ],
   "note": "Exact for the operand formats in add_safe/sub_safe and for all negations but that of the minimum; outside, overflows are exhibited for whole families of formats."
  },
  {
   "property": "C17",
   "status": "partial",
   "theorems": [
    "largest_fixed_contains",
    "largest_fixed_frac_minimal",
    "solve_equal_contains_partial",
    "solve_equal_forgets_refuted"
   ],
   "note": "Pairs and lists of fixed-point formats (with undefined or abstract entries) are fully covered; a list containing other formats can forget operands."
  },
  {
   "property": "C18",
   "status": "proved",
   "theorems": [
    "size_cst_exact",
    "size_cst_minimal_int",
    "size_cst_minimal_refuted"
   ],
   "note": "The format is exact; it is minimal on positive integers and not minimal in general."
  },
  {
   "property": "C19",
   "status": "partial",
   "theorems": [
    "rtl_simplify_correct",
    "rtl_simplify_total_partial",
    "rtl_simplify_cst_refuted",
    "size_slice_exact"
   ],
   "note": "Bit-for-bit equality is proved for every nesting; totality is proved for nodes without constants, and refuted for a fraction bit of a fixed-point constant (negative shift count)."
  },
  {
   "property": "C20",
   "status": "proved",
   "theorems": [
    "horner_correct",
    "horner_poly_correct"
   ],
   "note": "In every commutative ring; indices strictly decreasing (what get_ordered_coeff_list gives)."
  },
  {
   "property": "C21",
   "status": "partial",
   "theorems": [
    "estrin_correct",
    "estrin_list_correct",
    "estrin_two_coefficients_refuted",
    "estrin_empty_refuted"
   ],
   "note": "Proved for every polynomial built from a dictionary or from Sollya, and from a list of any length but two; a polynomial built from a two-element list raises (the degree attribute is one too large)."
  },
  {
   "property": "C22",
   "status": "partial",
   "theorems": [
    "power_correct",
    "power_cost",
    "power_nonpositive_refuted",
    "power_map_shared_refuted"
   ],
   "note": "Proved for every exponent >= 1 and every history of requests for the same node, with at most 2 log2 n + 1 new nodes; the memo does not key on the variable (refuted when a map is shared), and exponents <= 0 never end."
  },
  {
   "property": "C23",
   "status": "proved",
   "theorems": [
    "twosum_exact",
    "fasttwosum_exact",
    "fasttwosum_unordered_refuted",
    "rne_nearest",
    "sollya_round_rne"
   ],
   "note": "For any rounding to nearest (any tie rule), any precision >= 2, with or without gradual underflow; overflow excluded. Without |x| >= |y| FastTwoSum is not error-free in any format."
  },
  {
   "property": "C24",
   "status": "partial",
   "theorems": [
    "expand_add_exact",
    "expand_sub_exact",
    "expand_mul_exact",
    "expand_fma_exact_partial",
    "expand_fma_212_refuted",
    "expand_fma_specifier_refuted",
    "meta_blocks_exact",
    "mul211_nofma_exact",
    "split_rounded",
    "mul211_nofma_rounded",
    "add321_v2_refuted",
    "expand_conversion_32",
    "expand_conversion_23",
    "normalize_23_error"
   ],
   "note": "In every commutative ring. The 2x2-limb products leave out the product of the low limbs (stated exactly); the (2,1,2) fused multiply-add and the second 3<-2+1 addition are wired wrongly, and the fma specifier is ignored (refuted). Branches which raise NameError return no value."
  },
  {
   "property": "C25",
   "status": "proved",
   "theorems": [
    "pred_gt_correct",
    "expand_max_correct",
    "expand_min_correct",
    "expand_abs_correct",
    "expand_max_unnormalized_refuted",
    "expand_max_mixed_lengths_refuted"
   ],
   "note": "Normalized numbers with the same number of limbs, any number of limbs; both conditions are shown necessary."
  },
  {
   "property": "C26",
   "status": "proved",
   "theorems": [
    "expand_cst_fits",
    "expand_cst_error",
    "expand_cst_last_nearest"
   ],
   "note": "Any list of limb formats; the relative error 2^-(sum of precisions) is for an unbounded exponent range."
  },
  {
   "property": "C27",
   "status": "proved",
   "theorems": [
    "software_clz32_correct"
   ],
   "note": ""
  },
  {
   "property": "C28",
   "status": "proved",
   "theorems": [
    "lzc_block_correct",
    "clz_spec_unique"
   ],
   "note": ""
  },
  {
   "property": "C29",
   "status": "proved",
   "theorems": [
    "heap_reduction_preserves_value"
   ],
   "note": ""
  },
  {
   "property": "C30",
   "status": "proved",
   "theorems": [
    "heap_reduce_reaches_limit",
    "heap_reduction_removes_bits",
    "heap_reduce_limit_one_refuted",
    "heap_default_stage_limit_refuted"
   ],
   "note": "Holds for height limits >= 2; a limit of 1 (or the None default) is refuted."
  },
  {
   "property": "C31",
   "status": "partial",
   "theorems": [
    "plain_product_exact_partial",
    "booth_product_exact_partial",
    "mult_array_exact_partial",
    "mult_array_acc_exact_partial",
    "plain_product_rhs_frac_refuted",
    "booth_product_frac_refuted",
    "mult_array_negative_only_refuted"
   ],
   "note": "Full claim is false of the code: right operand fraction ignored, Booth ignores fractions, negative-only accumulator is not negated."
  },
  {
   "property": "C32",
   "status": "proved",
   "theorems": [
    "compound_adder_correct",
    "compound_adder_limit_zero_refuted"
   ],
   "note": "Equal operand sizes; slice limit 0 refuted."
  },
  {
   "property": "C33",
   "status": "partial",
   "theorems": [
    "int_div_correct_partial",
    "int_div_mixed_width_refuted"
   ],
   "note": "Exact for equal operand widths; refuted for mixed widths. The multi_digit method is not modelled (it references undefined names)."
  },
  {
   "property": "C34",
   "status": "partial",
   "theorems": [
    "lza_positive_within_one",
    "lza_negative_within_one_partial",
    "lza_negative_abs_partial",
    "lza_negative_power_refuted"
   ],
   "note": "Negative sums equal to minus a power of two exceed the tolerance."
  },
  {
   "property": "C35",
   "status": "partial",
   "theorems": [
    "fp_trunc_value",
    "fp_trunc_special",
    "fp_trunc_nan_refuted",
    "fp_trunc_zero_sign_refuted"
   ],
   "note": "Every format and bit pattern: a finite input gives the truncated value; infinities and NaNs are unchanged when the fraction size is at most 2^(e-1), as in all the predefined formats. Otherwise a NaN becomes an infinity. Every negative input above -1, and -0, gives +0 instead of -0."
  },
  {
   "property": "C36",
   "status": "partial",
   "theorems": [
    "fp_add_correct_partial",
    "fp_add_round_up_refuted",
    "fp_add_negative_refuted",
    "fp_add_power_refuted",
    "fp_add_far_refuted",
    "fp_add_cancel_refuted"
   ],
   "note": "Every format, all pairs of normal operands. Proved when the sum has the sign of y, y is at most p+2 binades above x and the sum does not round up to a power of two. Wrong, for all operands of each class: rounding up to 2^(k+1) gives 3*2^k; an exact difference (1+g)2^k with |x|>|y| of opposite signs gives (2-g)2^k; a power of two minus a much smaller number is halved; y more than p+2 binades above x; x + (-x) is not zero. Not covered: inexact differences with |x|>|y| other than a power of two minus a small number."
  },
  {
   "property": "C37",
   "status": "proved",
   "theorems": [
    "get_free_name_fresh",
    "names_distinct",
    "declare_symbol_correct",
    "undeclared_name_repeats_refuted"
   ],
   "note": "Distinctness along histories holds for names that are declared once handed out; a name asked for and not declared may be handed out again (refuted)."
  },
  {
   "property": "C38",
   "status": "partial",
   "theorems": [
    "get_free_name_fresh",
    "get_free_name_loop_stops",
    "get_free_cst_ends_partial",
    "get_free_cst_diverges_refuted"
   ],
   "note": "Symbol names: always terminates. Constant names: terminates exactly when the prefix is already a constant or free in scope; otherwise it loops for ever (refuted)."
  },
  {
   "property": "C39",
   "status": "partial",
   "theorems": [
    "execute_slot_respects_dependencies",
    "schedule_respects_dependencies",
    "pass_list_value",
    "pass_chain_refuted",
    "slot_chain_refuted",
    "slot_chain_partial"
   ],
   "note": "Ordering, exactly-once and termination are proved for every history; the chaining of values is refuted (passes of one turn all receive the original inputs, only the last result is kept)."
  },
  {
   "property": "C40",
   "status": "partial",
   "theorems": [
    "dominator_map_partial",
    "immediate_dominator_partial",
    "dominator_map_entry_refuted"
   ],
   "note": "Termination and exactness for every graph in which no branch goes to the entry, any enumeration order of the edge set, blocks unreachable from the entry included; immediate dominators for reachable blocks. With a branch to the entry the result is wrong (refuted)."
  },
  {
   "property": "C41",
   "status": "partial",
   "theorems": [
    "dominance_frontier_partial",
    "phi_placement_partial"
   ],
   "note": "All blocks reachable and no branch to the entry. The placement is characterised independently: the blocks where two values converge (Cytron). Renaming is C83, C84. Missing: phi nodes of more than two predecessors, which the code does not support; graphs with unreachable blocks."
  },
  {
   "property": "C42",
   "status": "partial",
   "theorems": [
    "blocks_same_execution",
    "blocks_accepted",
    "simplification_same_execution",
    "simplification_accessible_partial",
    "simplification_duplicates_refuted",
    "generated_branches",
    "generated_graph_ok",
    "generated_dominators",
    "loop_return_refuted",
    "loop_init_condition_refuted",
    "empty_block_refuted"
   ],
   "note": "Same executions (termination included) for every accepted program and every meaning of assignments and conditions; exact set of accepted programs; the generated graph meets the hypotheses of the dominator theorems. Refuted: loops whose body ends with a return or whose initialisation contains a condition are rejected; the simplification lists blocks several times (2^n copies after n if/else) and keeps accessible empty blocks. PlaceHolder nodes are not modelled."
  },
  {
   "property": "C43",
   "status": "partial",
   "theorems": [
    "pipeline_accepted",
    "operands_delayed",
    "pipeline_correct",
    "value_unique",
    "pipeline_behaves",
    "registers_exact",
    "registers_one_driver",
    "stage_num_latency",
    "registers_step",
    "registers_load",
    "static_delay_reader_refuted",
    "static_delay_operands_refuted",
    "static_delay_keyerror_refuted",
    "absolute_delay_refuted",
    "stage_num_refuted",
    "recirculate_no_reset_refuted",
    "async_one_process_refuted"
   ],
   "note": "Every acyclic graph and stage assignment whose static delays end at the stage of their reader: accepted exactly when no value is read before its stage, one register per crossed boundary and no other, same function. A static delay that ends elsewhere, recirculation without reset and an asynchronous reset in one process are refuted; the stage count is the latency when an input of stage 0 reaches the last output."
  },
  {
   "property": "C44",
   "status": "partial",
   "theorems": [
    "normalize_map_correct",
    "normalize_map_rejects",
    "category_correct",
    "category_fallback",
    "category_zero_weight_refuted",
    "int_value_in_range",
    "int_standard_onto",
    "int_value_refuted",
    "fix_value_in_bounds",
    "fix_value_representable",
    "fix_near_zero_refuted",
    "fix_zero_refuted",
    "fp_value_representable",
    "fp_value_magnitude",
    "fp_log_interval_bounds"
   ],
   "note": "Exact rational weights. Integer High/Low/NearZero categories raise (refuted); unsigned fixed-point near-zero values are scaled twice and the zero category ignores the bounds (refuted); a first category of weight 0 is drawn on a zero draw (refuted). Multi-precision generator not modelled."
  },
  {
   "property": "C45",
   "status": "partial",
   "theorems": [
    "mantissa_tiles",
    "mantissa_index_correct",
    "fp_tiles",
    "fp_index_correct",
    "offset_input_in_range",
    "uniform_tiles",
    "uniform_index_exact",
    "uniform_index_rounded",
    "uniform_sub_interval_refuted"
   ],
   "note": "Sub-mantissa and sub-FP indexing proved. The uniform indexing rounds to nearest, so the input is not in get_sub_interval (refuted) but is within one interval size of its bound (proved, also with rounding). SubMantissaIndexing.get_index_node raises NameError as written (name not imported); the model is the intended function."
  },
  {
   "property": "C46",
   "status": "proved",
   "theorems": [
    "vhdl_cst_denotes",
    "vhdl_fixed_cst_denotes",
    "get_2scomplement_neg_correct",
    "get_2scomplement_neg_domain_refuted"
   ],
   "note": "get_2scomplement_neg rejects representable magnitudes."
  },
  {
   "property": "C47",
   "status": "partial",
   "theorems": [
    "ph_chunks_sum",
    "ph_chunks_cover",
    "ph_correct",
    "ph_dropped_refuted",
    "ph_out_of_range_refuted",
    "ph_integer_overflow_refuted",
    "ph_odd_field_refuted",
    "get_remainder_correct",
    "get_remainder_doc_refuted"
   ],
   "note": "Field sizes divisible by four, any constant, any nearest rounding, machine integers that wrap: the chunks add up to the constant, and the whole generated loop is proved to return the reduced product modulo a quarter of the period, with an explicit error bound; modulo the full period when the number of dropped bits is 2 or more modulo the chunk size. Refuted: dropping chunks changes the product by a multiple of the period (whole family, binary64 instance); table reads stay in range (every |x| >= 2^1017 in binary64); kept products fit the integer format (k = 14 as in ml_sincos); odd field sizes (binary32) give chunks that are not binary numbers; get_remainder clears one bit more than documented. Exponent range is unbounded in the model."
  },
  {
   "property": "C48",
   "status": "partial",
   "theorems": [
    "linearize_function_correct",
    "linearize_function_accepts",
    "operations_computed_once",
    "fallback_correct",
    "collapse_correct",
    "leaf_endless_refuted",
    "table_operand_refuted",
    "phi_refuted",
    "statement_once_refuted",
    "shared_operation_refuted",
    "stale_operation_refuted",
    "rejected_functions_refuted",
    "collapse_output_refuted",
    "collapse_chain_refuted"
   ],
   "note": "Whole block programs, every starting block and number of steps, every operation and valuation; registers of operations are written by one instruction and each reached operation is computed by one. Conditions: no operation shared between blocks, none read again after one of its variables was assigned, each statement once. Without them the claim is refuted. The fallback pass preserves every run; the copy merging preserves it when the definition is not a copy and the destination is untouched in between, merged registers aside, and is refuted for outputs and chains of copies. Tables and phi nodes are not handled by the code. Register allocation (external library) is not modelled."
  },
  {
   "property": "C49",
   "status": "partial",
   "theorems": [
    "create_copies",
    "create_empty_shape",
    "split2D_correct",
    "expanded_load_correct",
    "expanded_load_negative",
    "expanded_load_out",
    "subset_interval_encloses",
    "compute_interval_encloses",
    "subset_interval_special_refuted",
    "get_interval_fresh",
    "get_interval_stale_refuted"
   ],
   "note": "Splitting and creation proved for every shape. The enclosure holds for numeric entries (bounds attained); a special value resets both bounds (refuted) and the cached interval is stale after an assignment (refuted)."
  },
  {
   "property": "C50",
   "status": "proved",
   "theorems": [
    "queue_reduce_uses_all",
    "queue_reduce_fold",
    "vector_concatenation_in_order",
    "queue_reduce_empty_refuted",
    "vector_concatenation_empty_refuted"
   ],
   "note": "The empty list raises (resp. recurses for ever)."
  },
  {
   "property": "C51",
   "status": "proved",
   "theorems": [
    "fast_exp2i_correct",
    "fast_exp2i_emulate_refuted"
   ],
   "note": "The reference value of the test bench (2**x) differs below the normal range (refuted)."
  },
  {
   "property": "C52",
   "status": "partial",
   "theorems": [
    "emulate_rounds",
    "dequant_rounding",
    "dequant_correct",
    "dequant_ieee",
    "dequant_subnormal_refuted"
   ],
   "note": "Every format and width, all five modes, with saturation, for a normal or zero scale, internal signals as wide as needed. A subnormal scale is refuted."
  },
  {
   "property": "C53",
   "status": "partial",
   "theorems": [
    "remquo_correct",
    "remquo_special",
    "remquo_zero_sign_refuted",
    "remquo_half_up_refuted",
    "remquo_half_down_refuted"
   ],
   "note": "Any precision, any nearest rounding with gradual underflow, any quotient width, wrap-around of the quotient register included: proved for every divisor whose half is exact (subnormal divisors included, their half test is rescaled). Refuted for divisors of the lowest normal binade with an odd significand, and for the sign of the zero returned for equal negative operands. Overflow is left out."
  },
  {
   "property": "C54",
   "status": "partial",
   "theorems": [
    "copy_isomorphic",
    "copy_same_value",
    "copies_disjoint",
    "copy_keeps_inputs_refuted",
    "default_copies_shared_refuted"
   ],
   "note": "Same shape, same sharing, same values, originals untouched, exactly one new object per node: proved for copies started with a new map. Input variables are shared with the original (by design), and Constant.copy() / FunctionCall.copy() called twice without a map return the same object (mutable default argument): refuted. Attributes are one opaque label; SwitchBlock and tables are not modelled."
  },
  {
   "property": "C55",
   "status": "partial",
   "theorems": [
    "depth_node_ordering_correct",
    "depth_node_ordering_ends",
    "depth_node_ordering_cyclic",
    "linearize_graph_correct",
    "parents_first_graded_partial",
    "parents_first_refuted"
   ],
   "note": "Both orders hold every reachable node exactly once, by non-decreasing distance to the root, and end on every DAG. Parents-first holds when all paths to a node have the same length and is refuted in general (operand shared at two depths)."
  },
  {
   "property": "C56",
   "status": "proved",
   "theorems": [
    "rtl_add_correct",
    "rtl_sub_correct",
    "rtl_mul_correct",
    "rtl_mul_sized_exact",
    "rtl_add_wide_refuted"
   ],
   "note": "rtl_add_wide_refuted: outside the stated side condition the result is wrong."
  },
  {
   "property": "C57",
   "status": "proved",
   "theorems": [
    "rtl_conv_correct",
    "rtl_conv_exact",
    "rtl_compare_correct",
    "rtl_compare_lt",
    "rtl_neg_exact",
    "rtl_shift_cst_correct",
    "rtl_slv_conv_correct"
   ],
   "note": ""
  },
  {
   "property": "C58",
   "status": "proved",
   "theorems": [
    "fx_c_constants",
    "fx_c_bit_size_minimal"
   ],
   "note": ""
  },
  {
   "property": "C59",
   "status": "proved",
   "theorems": [
    "format_does_fit_sound",
    "format_does_fit_complete_refuted",
    "size_clz_exact",
    "size_concat_exact",
    "size_slice_exact"
   ],
   "note": "Soundness of the fit test; it is incomplete (refuted)."
  },
  {
   "property": "C60",
   "status": "partial",
   "theorems": [
    "conversion_correct_partial",
    "conversion_negative_refuted",
    "conversion_uint128_refuted",
    "addition_correct_partial",
    "subtraction_correct_partial",
    "subtraction_rounding_refuted",
    "addition_unsigned_refuted",
    "multiplication_correct_partial",
    "multiplication_ignores_refuted",
    "multiplication_overflow_refuted",
    "comparison_correct_partial",
    "comparison_formats_refuted"
   ],
   "note": "Every format of up to 128 bits and every value, under stated conditions on shifts, signs and intermediate formats. Wrong, for whole classes: a negative number that loses bits is shifted logically; unsigned outputs above 64 bits have no code; a subtraction that truncates its second operand is one unit too large; an unsigned sum with a negative operand keeps a carry; a product whose C type is that of the second operand only squares the first operand; signed operands with a wide unsigned output overflow; comparisons of two formats are rejected."
  },
  {
   "property": "C61",
   "status": "partial",
   "theorems": [
    "fixed_point_position_lsb",
    "fixed_point_position_msb_refuted"
   ],
   "note": "The three positions resolved to an LSB index are right; FromPointToMSB is off by one."
  },
  {
   "property": "C62",
   "status": "proved",
   "theorems": [
    "queue_reduce_depth"
   ],
   "note": ""
  },
  {
   "property": "C63",
   "status": "proved",
   "theorems": [
    "worklist_operands_first"
   ],
   "note": ""
  },
  {
   "property": "C64",
   "status": "partial",
   "theorems": [
    "mul211_exact",
    "split_rounded",
    "mul211_nofma_rounded",
    "add212_error",
    "add221_fast_error",
    "add222_error",
    "mul212_error",
    "mul222_error",
    "add222_relative_error_refuted",
    "add222_normalized_refuted",
    "add222_abs",
    "add333_error",
    "add332_error",
    "add323_error",
    "add322_error",
    "add313_error",
    "mul322_error",
    "mul323_error",
    "mul333_error",
    "mul313_error",
    "mul321_error",
    "mul321_declared",
    "mul322_declared",
    "mul313_declared",
    "add322_declared",
    "add331_declared",
    "mul321_declared_refuted"
   ],
   "note": "Add211, Add212/221, Add221_Fast, Mul211, Mul212/221, Mul222 (fused variant): declared bound proved for every precision >= 3. Add222: proved when the high limbs do not cancel by more than 16, refuted in general. Triple-word blocks: absolute error in terms of the limbs, without any condition on overlap or cancellation, for every block; the declared relative error is derived for Mul321, Mul322, Mul313, Add322 and Add331 under the documented conditions (refuted for Mul321 without the non-overlap condition its check omits), not for Add333, Add332, Mul332 and Mul333. Products assume no underflow. The splitting and the product without fma are proved exact with every round-to-nearest, gradual underflow included."
  },
  {
   "property": "C65",
   "status": "proved",
   "theorems": [
    "normalize_33_exact",
    "add321_exact"
   ],
   "note": ""
  },
  {
   "property": "C66",
   "status": "proved",
   "theorems": [
    "table_content_text"
   ],
   "note": "For every shape, every line length and every indentation made of white space; equality after removing white space."
  },
  {
   "property": "C67",
   "status": "partial",
   "theorems": [
    "fmod_same_sign",
    "fmod_opposite_sign",
    "fmod_opposite_sign_refuted",
    "c_fmod_unique"
   ],
   "note": "Any precision, any nearest rounding, unbounded exponents: proved for operands of the same sign (all values, any number of turns). For opposite signs the result is right exactly when the truncated rounded quotient was not too large; refuted on a family with any precision (the correction adds y where it should subtract it)."
  },
  {
   "property": "C68",
   "status": "partial",
   "theorems": [
    "fixed_clz_correct_partial",
    "fixed_clz_negative_refuted",
    "fixed_clz_width_refuted"
   ],
   "note": "Positive values of formats held in 32 or 64 bits. Negative values of formats narrower than their type give a huge count; formats held in 8, 16 or 128 bits have no code. Not covered: zero (the C count of zero is 0 or undefined)."
  },
  {
   "property": "C69",
   "status": "partial",
   "theorems": [
    "c_class_tests_binary32_partial",
    "c_class_tests_binary64_partial",
    "c_subnormal_and_normal_tests",
    "c_is_subnormal_refuted",
    "c_normal_positive_binary32_refuted",
    "c_tests_match_legalizer",
    "c_special_values",
    "c_comp_sign_differs",
    "comp_sign_backends_refuted"
   ],
   "note": "Every bit pattern of both formats. All tests but the subnormal and normal ones are the IEEE class. The subnormal test also accepts zeros and the normal test infinities and NaNs (exact characterization proved); the binary32 positive-normal test calls a function that does not exist. The sign comparison of the C library answers true when the signs differ, that of the other back-end when they are equal: they disagree on every pair of non-zero numbers."
  },
  {
   "property": "C70",
   "status": "partial",
   "theorems": [
    "c_exp_insertion",
    "c_exp_insertion_wraps_refuted",
    "c_exp_insertion_no_offset",
    "c_exp_extraction",
    "c_exp_extraction_unsigned_refuted",
    "c_mantissa_extraction",
    "c_raw_mantissa",
    "c_copy_sign",
    "c_copy_sign_refuted",
    "c_sign_exp_insertion",
    "c_clz_partial",
    "c_clz_zero_refuted",
    "c_clz_fallback_64b",
    "c_clz_fallback_32b_refuted"
   ],
   "note": "Normal numbers for the mantissa and exponent, exponents in the normal range for insertion (outside it wraps). The extracted exponent is an unsigned word, negative exponents are huge until converted to int. The sign copy leaves a negative second operand negative. The leading-zero count of zero is 0. The fallback code for other compilers is modelled with the declared table name: exact on 64 bits, 32 too large on every 32-bit word."
  },
  {
   "property": "C71",
   "status": "partial",
   "theorems": [
    "split_constant",
    "ml_split_dd_d_exact",
    "ml_mult_dd_d2_exact",
    "ml_mult_dd_d2_contraction",
    "ml_add_dd_d2_exact",
    "ml_add_dd_d2_fast_exact",
    "ml_add_dd_d2_fast_refuted",
    "ml_add_dd_d_dd_error",
    "ml_add_dd_dd2_error",
    "ml_split_ds_s_exact",
    "c_double_double_addition",
    "c_double_double_subtraction_partial",
    "c_double_double_missing_refuted"
   ],
   "note": "Every operand without overflow, gradual underflow included; products when their exact value is a multiple of the smallest subnormal. The product stays exact when a compiler contracts it. The fast sum needs |x| >= |y|: the x >= y its comment asks for is not enough. The double-double sum is within 9u^2 of the sum plus 5u^3 of the second operand. Subtraction exists for two double-doubles only, and there is no product of double-doubles."
  },
  {
   "property": "C72",
   "status": "partial",
   "theorems": [
    "ml_fma_dd_d3_error",
    "ml_fma_refuted",
    "ml_fmaf_nearest_partial",
    "ml_fmaf_refuted"
   ],
   "note": "ml_fma is the high part of a sum within 4u^2 of x*y+z, but is not always the nearest double. ml_fmaf is nearest unless the double nearest to x*y+z is half-way between two floats; a witness shows the wrong float in that case."
  },
  {
   "property": "C73",
   "status": "partial",
   "theorems": [
    "c_subnormalize_nearest_partial",
    "c_subnormalize_tie_refuted",
    "c_subnormalize_range_refuted"
   ],
   "note": "Every pair of words when 2 to 30 digits are dropped: the nearest multiple, ties to even when the sign bits agree. With a zero low word of the opposite sign (all negative results with lo = +0) every tie with an odd lower neighbour goes to the odd neighbour. Dropping fewer than 2 or more than 30 digits is undefined behaviour."
  },
  {
   "property": "C74",
   "status": "partial",
   "theorems": [
    "vector_path_sound_partial",
    "vector_function_lanes_partial",
    "vector_function_returns_partial",
    "vector_unlikely_without_else_refuted",
    "vector_loop_dropped_refuted",
    "vector_input_assigned_refuted",
    "vector_local_condition_refuted",
    "vector_prospective_read_refuted",
    "vector_nested_call_refuted",
    "vector_uneven_split_refuted"
   ],
   "note": "Every scheme without loop whose unlikely conditions have an else-branch, whose inputs are not reassigned and whose calls are not nested; the vector function returns when moreover every operation is defined everywhere and the scheme reads its arguments only. Wrong otherwise, each for a family of schemes: an unlikely condition without else is dropped from the mask, a loop is dropped, a reassigned input is replaced, a condition on a local variable reads an undefined variable, guarded reads are done for every lane, a nested call stays scalar, an uneven sub-vector split gives a short result."
  },
  {
   "property": "C75",
   "status": "partial",
   "theorems": [
    "inline_result_partial",
    "inline_early_return_refuted"
   ],
   "note": "Every body whose Returns end their path, with empty pre-statements, when arguments do not read what the body assigns. A Return followed by other statements is not an exit after inlining. Recursive bodies not covered (none is inlined)."
  },
  {
   "property": "C76",
   "status": "proved",
   "theorems": [
    "array_function_elements",
    "array_of_vector_function_partial",
    "array_function_overlap_refuted"
   ],
   "note": "Every length, vector size and memory, in place or disjoint arrays. The composition with the vectorizer has the hypotheses of C74. Partly overlapping arrays give f applied twice."
  },
  {
   "property": "C77",
   "status": "partial",
   "theorems": [
    "correctly_rounded_partial",
    "negative_underflow_refuted",
    "special_correctly_rounded",
    "faithful_accepts",
    "degraded_complete",
    "degraded_sound_partial",
    "degraded_infinite",
    "degraded_overflow",
    "degraded_exceeds_goal_refuted",
    "degraded_misses_goal_refuted",
    "special_bounds",
    "accepts_is_decided"
   ],
   "note": "Faithful: exactly the faithful results, for every format, value and result. Correctly rounded: exactly the IEEE result, except for negative values rounding to zero, where -0 is refused and +0 accepted. Degraded: every result within the goal of the rounded value, and at most the number nearest to a bound beyond; since the goal is counted from the rounded value, results farther from the exact value pass and closer ones are refused. Multi-limb formats not modelled."
  },
  {
   "property": "C78",
   "status": "partial",
   "theorems": [
    "test_rows_size",
    "test_rows_given",
    "test_wrapper_result",
    "test_suite_passes_iff",
    "break_error_refuted"
   ],
   "note": "Every number of tests, vector size, list of given cases and function. With the break_error option the scalar test always returns 0. Array functions not modelled."
  },
  {
   "property": "C79",
   "status": "partial",
   "theorems": [
    "scalar_max_error_correct",
    "scalar_max_error_invalid",
    "vector_max_error_correct",
    "max_error_index_refuted",
    "error_valid_iff",
    "infinite_result_ignored_refuted",
    "relative_error_over_result_refuted",
    "vector_max_error_nan_refuted",
    "vector_max_error_print_refuted"
   ],
   "note": "Every table. Without comparable error the argument table is read at index -1; an infinite result is not counted as an error; the error is relative to the result, so too large results report less than 1; the vector version ignores unexpected NaNs and prints the absolute error as the relative one."
  },
  {
   "property": "C80",
   "status": "partial",
   "theorems": [
    "fp_next_partial",
    "fp_previous_partial",
    "rel_error_to_ulp_partial",
    "search_threshold_result",
    "fp_next_power_refuted",
    "fp_next_subnormal_refuted",
    "rel_error_to_ulp_refuted",
    "search_threshold_power_refuted"
   ],
   "note": "Normal numbers which are not powers of two. A power of two and small subnormal numbers are their own successor; errors are reported between one and two times their size in ulps; the threshold search returns the number below the threshold, and does not end when the threshold is just above a power of two."
  },
  {
   "property": "C81",
   "status": "partial",
   "theorems": [
    "generated_c_correct",
    "decision_graph_correct",
    "branch_local_refuted",
    "stale_value_refuted",
    "loop_body_value_refuted",
    "forced_condition_refuted"
   ],
   "note": "Proved for graphs passing a decidable check (no use of an operation after an assignment to a variable it reads, no use after a loop of what its body introduced, locals assigned before use in the block or around it, loop conditions without forced variables); in particular every graph made of tests and returns. Each clause of the check has a counterexample: a local assigned in both branches of a test is undefined after it, a shared x+1 is not recomputed after x changes, a value first computed in a loop body is undeclared after it, a loop condition stored in a variable never changes."
  },
  {
   "property": "C82",
   "status": "proved",
   "theorems": [
    "each_operation_once",
    "generation_total",
    "declarations_ok",
    "pick0_fresh"
   ],
   "note": "Any graph, any order, any supply of fresh names."
  },
  {
   "property": "C83",
   "status": "partial",
   "theorems": [
    "renaming_correct_partial",
    "renaming_total",
    "renaming_single_assignment",
    "stale_operand_refuted",
    "updated_for_the_phi_refuted",
    "assigned_input_refuted",
    "input_read_refuted",
    "three_predecessors_refuted"
   ],
   "note": "Proved with the reaching definition updated for the predecessor before it is put in a phi node, and for the code as it is when every predecessor of a phi node mentions its variable; phi nodes of two predecessors, inputs never assigned, two branches of a test to different blocks. Without these: the code takes the definition of the other branch (line 766 is commented out; uncommented as written it is wrong too), an input assigned in one branch is lost, even for a read in the other branch, and the third operand is dropped. Single assignment and termination hold in every mode. Missing: operations shared between blocks and renamed in place, unreachable blocks."
  },
  {
   "property": "C84",
   "status": "partial",
   "theorems": [
    "ssa_correct_partial",
    "to_ssa_correct"
   ],
   "note": "Same conditions as C83 on the operands, blocks with at most two predecessors, all blocks reachable, no branch to the entry. Missing: the ordering of operations done by sort_node_by_bb before."
  },
  {
   "property": "C85",
   "status": "partial",
   "theorems": [
    "quotient_correct",
    "reduced_division_correct",
    "reciprocal_error",
    "markstein",
    "reduced_correct",
    "ones_quotient_refuted",
    "ones_rounded"
   ],
   "note": "Correct with a correctly rounded reciprocal, for all operands; correct from the seed when the error before the last rounding is at most E ulp-halves with mant(divisor) < 2 - 2E. For the divisor with all digits one no seed and no number of iterations give a correctly rounded quotient of 1 (ones_quotient_refuted). Exponents unbounded in these theorems; force_fma only."
  },
  {
   "property": "C86",
   "status": "partial",
   "theorems": [
    "numerical_correct_partial",
    "binary32_generic_partial",
    "binary32_rvv_partial",
    "binary64_generic_partial",
    "binary64_rvv_partial",
    "ones_division_refuted",
    "numerical_overflow_refuted",
    "overflow_quotient_finite",
    "double_rounding_refuted"
   ],
   "note": "Proved for quotients not below the smallest normal number, exponents at most emax apart, divisors with a significand below 2 - 2E. Outside: the all-ones divisor is wrong, exponents emax + 1 apart overflow although the quotient is finite, quotients just below the smallest normal number are rounded twice. The subnormal branch is a parameter."
  },
  {
   "property": "C87",
   "status": "partial",
   "theorems": [
    "division_special",
    "division_zero_dividend_refuted"
   ],
   "note": "All special cases but a zero dividend: it is returned unchanged, so its sign is wrong when the divisor is negative."
  },
  {
   "property": "C88",
   "status": "partial",
   "theorems": [
    "generic_seed_accuracy",
    "generic_seed_accuracy_refuted",
    "rvv_seed_accuracy",
    "num_iteration_spec",
    "seed_conv_error"
   ],
   "note": "The generic table misses 2^-7 on an interval of significands: its error is at most 265/32768; the RISC-V table is within 183/32768. Subnormal inputs of the seed are not modelled."
  },
  {
   "property": "C89",
   "status": "partial",
   "theorems": [
    "sqrt_binary32_correct",
    "sqrt_binary64_correct",
    "sqrt_before_rounding",
    "sqrt_binary32_small_refuted",
    "sqrt_binary64_small_refuted"
   ],
   "note": "Proved from 2^(emin+2p) on (2^-101, 2^-968), overflow excluded by the ranges of the intermediate results. Normal operands below have wrongly rounded square roots (witnesses, the largest just below 2^-102 in binary32); subnormal operands are not modelled; the last rounding is to nearest."
  },
  {
   "property": "C90",
   "status": "partial",
   "theorems": [
    "isqrt_binary32_bound",
    "isqrt_binary64_bound",
    "isqrt_binary32_accurate",
    "isqrt_binary64_accurate",
    "isqrt_nearest_refuted"
   ],
   "note": "Same range of operands; the tighter bound (7/2 units) needs 3 iterations and excludes the last three binades. The result is not always the nearest number (witnesses)."
  },
  {
   "property": "C91",
   "status": "partial",
   "theorems": [
    "sqrt_special",
    "isqrt_special",
    "sqrt_minus_zero_refuted",
    "isqrt_minus_zero_refuted",
    "sqrt_last_branch_dead",
    "isqrt_last_branch_dead"
   ],
   "note": "All but minus zero, for which the sign of the result is wrong: the branches meant for it are never reached."
  },
  {
   "property": "C92",
   "status": "partial",
   "theorems": [
    "invsqrt_entry_nearest",
    "invsqrt_seed_error"
   ],
   "note": "Positive normal operands; subnormal operands, whose exponent field does not give their logarithm, are not modelled."
  },
  {
   "property": "C93",
   "status": "partial",
   "theorems": [
    "pow_special_cases",
    "pow_numeric_iff",
    "y_is_odd_spec",
    "pow_zero_inf_refuted",
    "pow_negative_odd_refuted",
    "pow_one_refuted"
   ],
   "note": "Proved outside the clauses the code has wrong, each refuted for all its operands: a zero to an infinite power, -0 and -Inf to a negative odd power (the C remainder is -1), 1 to an infinite or NaN power (the test is a Python comparison, always False). Quiet NaNs and negative numbers to a non-integer power reach the formula, which is not evaluated on them."
  },
  {
   "property": "C94",
   "status": "partial",
   "theorems": [
    "pow_emulation_correct",
    "pow_emulation_raises_iff",
    "pow_code_and_emulation_disagree"
   ],
   "note": "Right whenever no operand is a quiet NaN; exactly the quiet NaN cases that raise are given. Zeros are the signed zero objects, not the number 0; the powers of numbers are left to Sollya."
  },
  {
   "property": "C95",
   "status": "partial",
   "theorems": [
    "pow_exponent_negative",
    "pow_exponent_deviation",
    "pow_exponent_nonnegative_iff",
    "pow_fraction_small",
    "pow_sign_positive",
    "pow_negative_base_refuted",
    "pow_half_refuted"
   ],
   "note": "In exact arithmetic. Right for e < 0; for e >= 0 right exactly when e y is an integer (2^(1/2) gives 1); the sign is never set. The approximations of log2 and of the powers of two are not modelled."
  },
  {
   "property": "C96",
   "status": "partial",
   "theorems": [
    "rootn_special_cases",
    "rootn_even_negzero_refuted",
    "rootn_finite",
    "rootn_emulation_correct",
    "rootn_emulation_refuted",
    "rootn_emulation_sign"
   ],
   "note": "-0 with a positive even n is wrong in the code; +Inf with n <= 0, -Inf with a negative odd n and zeros with a positive odd n are wrong in the emulation. Zeros with an odd n > 1 reach the formula, whose value is not evaluated."
  },
  {
   "property": "C97",
   "status": "proved",
   "theorems": [
    "rootn_exponent_accurate",
    "remainder_exact",
    "nearest_diff_exact"
   ],
   "note": "Unbounded exponent range, precision at least 12."
  },
  {
   "property": "C98",
   "status": "partial",
   "theorems": [
    "exp_reduction",
    "cst32_ok",
    "cst64_ok",
    "exp_reduced_interval_refuted",
    "exp_hi_interval_refuted"
   ],
   "note": "Exactness and accuracy are proved. The last clause is false: the reduced argument is within 0.347 but leaves [-log(2)/2, log(2)/2], and the interval given to Gappa for the exact high part is exceeded by more than 0.004."
  },
  {
   "property": "C99",
   "status": "partial",
   "theorems": [
    "exp_reconstruction",
    "exp_binary16_refuted"
   ],
   "note": "Proved for formats with 2*field_size <= -emin_normal; with a narrower exponent (binary16) the late underflow path returns a negative datum for every k it handles."
  },
  {
   "property": "C100",
   "status": "partial",
   "theorems": [
    "exp_accurate",
    "exp_accurate32",
    "exp_overflow",
    "exp_special",
    "exp_zero",
    "exp_underflow_refuted",
    "cst32_ok",
    "cst64_ok"
   ],
   "note": "Proved but for results within four half-units of the overflow threshold. The flush clause is false in binary64 (all x between log(2^-1075) and -745). The polynomial is a parameter with an error bound, Taylor polynomials are shown to meet it; products and sums are not fused."
  },
  {
   "property": "C101",
   "status": "partial",
   "theorems": [
    "exp2_reduction",
    "exp2_clamp_refuted"
   ],
   "note": "Proved but for the guard: it limits the index to the size of the table and not to its last entry, an index above 8 would be read outside."
  },
  {
   "property": "C102",
   "status": "partial",
   "theorems": [
    "exp2_accurate",
    "exp2_accurate_std",
    "exp2_binary32",
    "tab32_ok",
    "tab64_ok",
    "exp2_faithful_refuted"
   ],
   "note": "1.6 units for all finite x below emax + 1 - 1/16 and all results, less than one unit for binary32 results above 2^-122 and x outside of (-1/2, 0). Below one unit is false in the subnormal range (1.1 units reached for every polynomial). The polynomial is a parameter with an error bound, met by Taylor polynomials; the tables of binary32 and binary64 are verified."
  },
  {
   "property": "C103",
   "status": "partial",
   "theorems": [
    "exp2_integer",
    "exp2_overflow",
    "exp2_special",
    "exp2_nan",
    "exp2_underflow",
    "exp2_nan_below_overflow_refuted",
    "exp2_underflow_refuted"
   ],
   "note": "Integers, overflow, infinities and NaNs are proved. Every x in [emax + 15/16, emax + 1) returns a NaN, and every x in (emin_subnormal - 1, emin_subnormal] returns zero, including emin_subnormal itself."
  },
  {
   "property": "C104",
   "status": "proved",
   "theorems": [
    "log_special"
   ],
   "note": "Natural basis."
  },
  {
   "property": "C105",
   "status": "partial",
   "theorems": [
    "clear_last_entry",
    "arg_red_entry",
    "reduced_argument",
    "generic_table_accuracy",
    "red_interval_refuted",
    "log_mismatch_refuted"
   ],
   "note": "Proved where the seed is computed in the format of the function (binary32). Where it is computed in a smaller format (binary64), every number whose mantissa is within half a unit of the small format below 1+(i+1)/128, 1 <= i <= 127, reads another entry than its seed and its logarithm is wrong by more than 1/1000. The declared interval [1-2^-6, 1+2^-6] is met by no argument; the reduced argument is within 265/32768 of 0."
  },
  {
   "property": "C106",
   "status": "partial",
   "theorems": [
    "log_far",
    "log_around_one",
    "log_above_one",
    "log_one",
    "reduced_log_error",
    "log_constants_exist",
    "series_ok",
    "log_below_one_refuted"
   ],
   "note": "Seed in the format of the function, unbounded exponents, natural basis. 9/16 of a unit outside of (sqrt(2)/2, sqrt(2)], 2/3 of a unit on (1, 129/128), an absolute error of U/80 added to half a unit elsewhere around one. Just below one less than one unit is false: in binary32 log(1-2^-24) is wrong by more than 12 units for every polynomial value."
  },
  {
   "property": "C107",
   "status": "partial",
   "theorems": [
    "cbrt_accurate",
    "cbrt_faithful_refuted"
   ],
   "note": "1.53 unit in the last place for positive normal numbers from 2^(emin+1) to 2^(-emin), all formats of 12 to 53 digits. Less than one unit is false: in binary32 the root of 14424327/2097152 is wrong by more than 1.08 unit. Larger numbers (whose inverse is subnormal) and subnormal numbers are not covered by the accuracy bound."
  },
  {
   "property": "C108",
   "status": "partial",
   "theorems": [
    "cbrt_nan",
    "cbrt_zero",
    "cbrt_zero_sign_refuted",
    "cbrt_negative_refuted",
    "cbrt_inf_refuted",
    "cbrt_tiny_refuted"
   ],
   "note": "NaN and +0 are proved. -0 gives +0. No negative normal number has a negative root. Both infinities give a NaN. A subnormal number of at most 2^(emin-2) gives the infinity of the other sign. All refutations hold for every such argument."
  },
  {
   "property": "C109",
   "status": "partial",
   "theorems": [
    "mpfma_far_correct_partial",
    "mpfma_value",
    "gap_fits_same",
    "gap_fits_mixed",
    "mpfma_half_refuted",
    "mpfma_round_up_refuted",
    "mpfma_cancel_refuted"
   ],
   "note": "Correct only where z is more than f+4 binades above the product (the only test case of the file is there) and the sum does not round up to a power of two. Everywhere else the result is half of the sum, rounded to nearest, ties away from zero when the signs agree. A power of two minus a far smaller product gives one and a half times this power. An exact cancellation gives a power of two."
  },
  {
   "property": "C110",
   "status": "partial",
   "theorems": [
    "mpfma_value",
    "mpfma_mixed_refuted"
   ],
   "note": "The weight of the product is right only when the accumulator has at most 2p-1 digits. Otherwise (binary16 with binary32, binary32 with binary64) the product is divided by 2^(o+1-2p), beside the halving of C109."
  },
  {
   "property": "C111",
   "status": "partial",
   "theorems": [
    "fx_acc_exact",
    "fx_dot_exact",
    "fx_sm_exact",
    "fx_sm_emulated",
    "fx_subnormal_half_refuted",
    "fx_minus_zero_refuted"
   ],
   "note": "Exact for all pairs of finite operands but a subnormal number times a number of the second normal binade or above, whose product is added at half its value for every such pair. The sign and magnitude outputs are those of the emulation but for a cancelled sum: it has the sign of the product, the emulation expects plus zero."
  },
  {
   "property": "C112",
   "status": "partial",
   "theorems": [
    "fx_extra_digits",
    "fx_sm_extra_digits",
    "fx_sign_bit_refuted"
   ],
   "note": "Proved for k >= 1 in two's complement and k >= 0 in sign and magnitude, for the operands of C111. With the default k = 0 the two's complement accumulator has no room for a sign: in every format the square of the largest number is read as negative."
  },
  {
   "property": "C113",
   "status": "partial",
   "theorems": [
    "mask_pass_value",
    "mask_pass_complete",
    "engine_nested_refuted",
    "c_mask_test_correct",
    "c_mask_test_three_refuted",
    "x86_mask_test_correct",
    "x86_mask_test_refuted"
   ],
   "note": "The pass is proved for all graphs whose tests read two lanes or more and whose operands are not tests (a test is a scalar, so typing gives it); the engine itself leaves an expandable node that directly feeds another one. C: sizes 2, 4, 8 are right, size 3 calls a function the header lacks. x86: IsMaskAllZero (SSE, AVX) and IsMaskNotAnyZero on v8bool are right; the SSE entry gives two arguments to _mm_test_all_ones, and the four 64-bit lanes are legalized to a test without entry."
  },
  {
   "property": "C114",
   "status": "partial",
   "theorems": [
    "llvm_int_arith",
    "llvm_icmp",
    "llvm_icmp_ge_refuted",
    "llvm_fcmp",
    "llvm_fcmp_ne_refuted",
    "llvm_fp_neg_partial",
    "llvm_fp_neg_zero_refuted",
    "llvm_vector_neg_refuted",
    "llvm_vector_not_refuted",
    "llvm_bool_ops",
    "llvm_vector_fp_add_mul",
    "llvm_sext",
    "llvm_nearest_int32_partial",
    "llvm_nearest_int32_refuted",
    "llvm_nearest_int64_refuted",
    "llvm_nearbyint",
    "llvm_vector_nearbyint_refuted",
    "llvm_fma_partial",
    "llvm_fma_zero_refuted",
    "llvm_mask_test_inverted",
    "llvm_mask_test_refuted",
    "llvm_wrapper_partial",
    "llvm_wrapper_refuted",
    "llvm_constant_partial",
    "llvm_constant_zero_refuted"
   ],
   "note": "Integer arithmetic, logic of scalars, lane-wise floating-point arithmetic, sign extension, nearbyint and the other comparisons are right. Rejected lines: integer >=, floating-point !=, negation and not of vectors, rounding of a double to 64 bits, vector nearbyint. Wrong values: -(+0), the sign of a null fused result, assigned constant -0, rounding to an integer truncates (wrong for every fraction above one half), IsMaskNotAnyZero is IsMaskAllZero, so that a vector without any valid lane is returned unchecked. Type casts, select, tests of the class, loads and calls are not covered."
  },
  {
   "property": "C115",
   "status": "partial",
   "theorems": [
    "legalized_min_partial",
    "legalized_max_partial",
    "legalized_min_nan_refuted"
   ],
   "note": "Proved for all pairs without NaN. With a NaN the second operand is returned, so that the result depends on the order."
  },
  {
   "property": "C116",
   "status": "partial",
   "theorems": [
    "vla_elements_partial",
    "vla_scalar_partial",
    "vla_lanes_fit",
    "byte_index_correct",
    "vla_mask_dropped_refuted",
    "vla_long_refuted",
    "vla_group_trips_refuted",
    "vla_wide_lanes_refuted",
    "vla_overlap_refuted",
    "byte_index_refuted",
    "byte_index_wraps_refuted"
   ],
   "note": "Proved for fewer than 2^31 elements, every vsetvl within its specification, destinations not read later, and elements for which all validity conditions hold. The validity mask is computed and dropped: where the condition fails, the usual path is stored for every element. From 2^31 elements on nothing is computed. The group size is ignored in the length, so a group of registers is never used; elements twice as wide as the format do not fit. Byte indices are right only when the elements have the size of the index and below 2^size bytes."
  },
  {
   "property": "C117",
   "status": "partial",
   "theorems": [
    "rvv_table_partial",
    "rvv_fp_entries",
    "rvv_round_partial",
    "rvv_rejected_refuted",
    "rvv_conversion_refuted",
    "rvv_floor_refuted",
    "rvv_floor_fp_refuted",
    "rvv_round_saturates_refuted",
    "rvv_round_sign_refuted"
   ],
   "note": "All entries but those refuted: integer fused multiply-add, unsigned negation, arithmetic shift, minimum, maximum and conversion name intrinsics that do not exist; Conversion to an integer rounds to nearest; Floor truncates; rounding within a floating-point format is right only for data within the integer format, saturates beyond it (also for infinities and NaNs) and loses the sign of a zero. Loads, stores, casts between integers and floating-point elements and the reciprocal seed are not covered."
  },
  {
   "property": "C118",
   "status": "partial",
   "theorems": [
    "array_layout",
    "array_inputs_partial",
    "array_expected",
    "array_test_partial",
    "max_index_correct",
    "array_max_error_partial",
    "array_standard_cases_refuted",
    "array_break_error_refuted",
    "array_overrun_refuted",
    "array_max_error_misses_refuted",
    "array_max_error_outside_refuted"
   ],
   "note": "Layout, expected values and verdict are proved for all sizes, empty arrays included, and the index of the maximal error is that of the first largest error. With standard test cases the tables are never generated (a whole array is used as a value). With break_error the test never fails. What the function writes outside of its array is never noticed. The maximal error is measured on as many elements as there are arrays: the others are ignored, and with fewer elements it reads outside of the tables."
  },
  {
   "property": "C119",
   "status": "partial",
   "theorems": [
    "reciprocal_accurate",
    "reciprocal_correctly_rounded_partial",
    "reciprocal_misrounded_refuted",
    "reciprocal_subnormal_result_refuted",
    "reciprocal_huge_refuted",
    "reciprocal_2p127_refuted",
    "reciprocal_infinity_refuted",
    "reciprocal_nan_refuted",
    "reciprocal_zero_refuted",
    "reciprocal_subnormal_refuted",
    "reciprocal_binary64_refuted",
    "reciprocal_sign"
   ],
   "note": "Binary32, all normal inputs with a normal inverse: within 1/2 + 2^-22 of a unit in the last place, and correctly rounded unless the inverse is above the middle of two numbers by at most six 2^-48. When 2^48 - 1 is a multiple of the significand with a quotient 4k+1 the result is always the wrong neighbour. Zeros, infinities, NaNs, subnormal inputs and subnormal results are wrong, and so is binary64 (the last error overflows its format). Inputs between these (distance at most 6, other quotients) are only bounded, not decided. Pipeline registers are not modelled."
  },
  {
   "property": "C120",
   "status": "partial",
   "theorems": [
    "typing_formats",
    "merge_order",
    "merged_exact",
    "integer_format_contains",
    "explicit_formats_kept",
    "constant_fits_partial",
    "constant_fits_refuted",
    "shared_constant_refuted",
    "constants_only_refuted",
    "comparison_refuted",
    "untyped_refuted"
   ],
   "note": "All trees of the modelled operations; constants may not be shared in typing_formats, because sharing is refuted. The value of a real (non-integer) constant in its format is not characterised. Statements, table accesses, calls and multi-precision formats are not modelled."
  },
  {
   "property": "C121",
   "status": "partial",
   "theorems": [
    "bip_indices",
    "bip_argument",
    "bip_table_error",
    "bip_result_error",
    "bip_default",
    "bip_logged_error",
    "bip_wide_interval_refuted",
    "bip_one_refuted",
    "bip_rounding_refuted",
    "bip_modes_refuted",
    "bip_emulation_refuted",
    "bip_offset_refuted",
    "bip_sign_refuted",
    "bip_zero_refuted"
   ],
   "note": "Any function, any sizes: indices, argument, error of the tables (spread of the slopes plus two half units) and of the truncated result; the logged error is exactly the maximum over all table inputs. For the default inverse the bound is a number. Refuted: the result at 1 (off by one unit, three times the logged error), the rounding mode (unused), the expected values above 1 (one bit too few), the offset format (rounding reaches a power of two that is stored as zero), negative functions, zeros at a bound, intervals wider than 1. Sollya's evaluations are exact rationals; pipeline and software variant are not modelled."
  },
  {
   "property": "C122",
   "status": "partial",
   "theorems": [
    "promotion_refines",
    "promotion_value",
    "intel_tables",
    "promotion_operations",
    "promotion_twice",
    "promotion_shared",
    "promotion_levels",
    "promotion_run_partial",
    "promotion_stale_refuted"
   ],
   "note": "All programs of the modelled statements with any translation table and any set of supported operations: the pass never fails and produces the promoted program whatever is shared; values are kept; operations are unchanged, supported or conversions. With every object computed once (as the generated code does) the result is proved for straight-line programs that assign no variable after reading it; refuted otherwise, because the conversion of a variable is shared across an assignment. Programs with branches and loops are proved with expressions computed where they stand only. The pre-statement of a condition and SwitchBlock are left out."
  },
  {
   "property": "C123",
   "status": "partial",
   "theorems": [
    "pw_eval_value",
    "pw_eval_polynomial_iff",
    "pw_eval_rounded",
    "generated_tables",
    "generate_ok_iff",
    "load_generated_tables",
    "load_index_error",
    "load_offsets_from_caller",
    "generated_error",
    "generated_error_after_failure",
    "generated_error_lost",
    "loaded_error",
    "loaded_error_full_zero",
    "loaded_error_bound_refuted",
    "pw_uniform_bound",
    "atan32_extra_term_refuted"
   ],
   "note": "Any number of sub-intervals, degrees and answers of Sollya. Tables, success and reloading are proved. False as the code stands: the graph adds c_d r^(d+1) to the polynomial (more than the error announced by the shipped atan file), a failed error erases the previous ones, a file with all its coefficients is loaded with error zero. Sollya's answers are inputs, values of tables are not rounded to their storage format, pw_uniform_bound is for exact arithmetic (pw_eval_rounded gives the rounding part)."
  },
  {
   "property": "C124",
   "status": "partial",
   "theorems": [
    "axf_reload",
    "axf_reload_list",
    "axf_simple_values",
    "axf_piecewise_values",
    "format_names",
    "format_names_refused",
    "indexing_text",
    "axf_error_kind",
    "axf_class",
    "axf_display_refuted",
    "format_text_refuted",
    "indexing_mantissa_refuted",
    "axf_lost_fields",
    "axf_from_objects_refuted"
   ],
   "note": "Any approximation of the three classes, any list of them, any Sollya values: fields kept, coefficients by increasing degree; the values are kept exactly when the display is exact. Formats read back are half, float, double and fixed-point ones, all others are refused. False as the code stands: text after a fixed-point format is ignored and a number is taken for a format, approximations over mantissa indexings cannot be read back, the interval of a split and the tag of a simple approximation are lost, and the three conversions from library objects always raise. Missing: the text of JSON files and the YAML half."
  },
  {
   "property": "C125",
   "status": "partial",
   "theorems": [
    "bf16_widen_exact",
    "bf16_narrow_truncates",
    "bf16_narrow_special",
    "bf16_narrow_nan_refuted",
    "bf16_constant",
    "bf16_constant_error",
    "bf16_rounded_constant",
    "bf16_round_refuted",
    "bf16_flush",
    "bf16_flush_sign_refuted",
    "bf16_overflow",
    "bf16_overflow_refuted",
    "bf16_special_refuted",
    "bf16_special32"
   ],
   "note": "All words of the two formats and all rational constants. Conversions are exact, respectively toward zero on finite numbers; constants are within 2^-7. False as the code stands: a NaN whose payload is in the 16 low bits becomes an infinity, rounding keeps 11 digits instead of 8 so that constants are not the nearest number and overflow begins too high, negative numbers flushed become +0, special values declared with the format are coded 0. Only rounding to nearest is modelled."
  },
  {
   "property": "C126",
   "status": "partial",
   "theorems": [
    "mp2_comparison_correct",
    "mp3_comparison_correct",
    "renormalize_value",
    "renormalize_canonical",
    "mp3_comparison_two_limbs",
    "mp3_comparison_far",
    "mp3_equal_sound",
    "mp2_abs_correct",
    "canonical_abs",
    "mp2_comparison_ties_refuted",
    "mp3_comparison_refuted",
    "renormalize_refuted",
    "mp2_comparison_nan",
    "mp3_comparison_nan",
    "mp3_infinity_refuted",
    "mp2_infinity",
    "mp2_isnan_sound",
    "mp2_isnan_refuted"
   ],
   "note": "Any precision of at least 3 digits, any tie rule, all six relations. Two limbs: right on canonical numbers, and the condition is necessary. Three limbs: right when the renormalized operands are canonical, and otherwise when the numbers are not within u times their low parts. False as the code stands: Normalize_33 does not make all numbers canonical, so close triples are ordered wrongly and equal ones said distinct; an infinity is unequal to itself; the NaN test says yes of the infinities produced by the blocks. The selection in vectors of multi-limb numbers is not modelled."
  },
  {
   "property": "C127",
   "status": "partial",
   "theorems": [
    "fusion_ends",
    "fusion_keeps_values",
    "fused_operation",
    "addition_kept",
    "addition_fused_once",
    "second_run",
    "product_format_refuted",
    "integer_product_refuted",
    "rounding_once_refuted",
    "prevented_addition_refuted",
    "linear_visits_refuted"
   ],
   "note": "Any graph without cycles, shared at will, with extra inputs. False as the code stands: the format of the multiplication is ignored, an addition marked prevent_optimization is fused, only additions of two operands are looked up in the memoization so that visits are exponential; values are kept only if a fused operation is taken as its two operations. Missing: handles and indices."
  },
  {
   "property": "C128",
   "status": "partial",
   "theorems": [
    "shared_sound",
    "sharing_executions",
    "sharing_objects",
    "unshared_unchanged",
    "one_branch_refuted",
    "load_before_store_refuted",
    "nested_block_refuted",
    "switch_case_refuted",
    "shared_statement_refuted"
   ],
   "note": "Any program graph without cycles, any choice of branches. Missing: executions are sequences of operations, values and the memoization of the code generator are not part of it; a loop goes through its parts once. False as the code stands: the levels searched are those of the outermost call, so that operations of a single branch are taken out of it, k times for k+1 uses, before stores of the branch; conditions which are branches or are in a switch are left; statements used twice get their insertions several times."
  },
  {
   "property": "C129",
   "status": "partial",
   "theorems": [
    "lowering_keeps_values",
    "lowering_objects",
    "lowering_complete",
    "lowering_nothing",
    "several_steps_refuted",
    "extra_inputs_refuted",
    "same_node_refuted",
    "cycle_refuted"
   ],
   "note": "Any graph, cycles and sharing included, any actions; the action is a function of the class of a node (operation, format, formats of operands: those of operands are taken not to change). False as the code stands: after several steps on one node its other uses get the result of the first step; cases of a switch and statements before it are not lowered; operands of a node given back by its action are not lowered. Missing: that the engine ends when actions do not go in circles (theorems are about runs that end)."
  },
  {
   "property": "C130",
   "status": "partial",
   "theorems": [
    "summary_roundtrip",
    "compare_classes",
    "compare_covers",
    "compare_swapped",
    "summary_complete",
    "summary_status",
    "compare_fails_iff",
    "report_counts",
    "report_thresholds",
    "zero_reference_refuted",
    "same_improved_refuted",
    "nan_improved_refuted",
    "new_tests_refuted",
    "lost_tests_refuted",
    "title_space_refuted",
    "message_line_refuted"
   ],
   "note": "Any summaries, titles, messages and reading of numbers; percentages are exact rationals (missing: their rounding in binary64, carriage returns, layout of the report). False as the code stands: a measure reading as zero in the reference makes the whole comparison raise ZeroDivisionError; equal or NaN measures are improvements; tests absent from the reference are not reported, tests that disappeared are in no category; titles with spaces and messages with ends of lines are not read back."
  },
  {
   "property": "C131",
   "status": "partial",
   "theorems": [
    "vbool_formats_only",
    "vbool_formats_chosen",
    "vbool_uniform_width",
    "vbool_run_twice",
    "vbool_result",
    "comparison_root_refuted",
    "same_object_refuted",
    "narrow_lanes_refuted",
    "other_scalars_refuted",
    "mixed_widths_refuted",
    "assembling_refuted",
    "other_booleans_refuted",
    "virtual_constant_refuted"
   ],
   "note": "Any graph, shared or cyclic, for both passes; formats are what the passes read of them. False as the code stands: a comparison that needs no format, or a graph already seen by the same object, is given back as None; lanes of 8 or 16 bits raise KeyError; booleans of two widths are combined without conversion; operands of an assembling after the second are not looked at; other boolean operations and constants stay virtual. Missing: that a run ends (theorems are about runs that end), nodes whose format is not set."
  },
  {
   "property": "C132",
   "status": "partial",
   "theorems": [
    "fallback_execution",
    "fallback_blocks",
    "collapse_execution",
    "collapse_registers",
    "collapse_nothing",
    "chain_refuted",
    "returned_refuted",
    "early_refuted",
    "late_refuted"
   ],
   "note": "Any program, any semantics of operations, stores and tests. Removal of gotos: no condition. Removal of copies: executions are kept if the destination is not touched from the definition to the copy, the source is not itself a removed copy, and sources removed are not outputs. False as the code stands, each condition being needed: a value copied twice is lost, a returned register is lost, destinations read or written in between get a wrong value. Missing: sub-registers, programs with a block in them twice."
  },
  {
   "property": "C133",
   "status": "partial",
   "theorems": [
    "selection_first",
    "selection_none",
    "supported_iff",
    "supported_selected",
    "unregistered_refuted",
    "far_parent",
    "odd_refuted",
    "hierarchy_ancestors",
    "hierarchy_ends",
    "hierarchy_levels",
    "hierarchy_refuted",
    "redefinition_refuted",
    "instance_refuted",
    "instance_other",
    "strict_match",
    "or_list_match",
    "custom_match",
    "list_match",
    "relax_match",
    "list_arity_refuted",
    "relax_arity_refuted",
    "fixed_first_refuted"
   ],
   "note": "Any tables, conditions and hierarchies. The implementation selected is characterised, and so are the operations said supported; both agree in registered languages. False as the code stands: languages other than the default one, tables of ancestors searched before those of their subclasses, arguments of a second request, number of operands in two of the matches, result format in the match of fixed-point formats. Missing: the tables of the targets themselves, effects in conditions."
  },
  {
   "property": "C134",
   "status": "partial",
   "theorems": [
    "tags_given",
    "tags_kept",
    "same_name_refuted",
    "existing_tag_refuted",
    "debug_set",
    "support_checked",
    "support_true",
    "support_c",
    "language_refuted",
    "check_first",
    "check_again_refuted",
    "check_shared_refuted",
    "errors_displayed"
   ],
   "note": "Any acyclic graph, any check, tags, target and evaluation functions. False as the code stands: tags of classes with one name, tags already in the graph, languages other than C below the root, a check pass executed twice or on graphs sharing nodes. Missing: the functions evaluating one operation (apply_bare_range_function), the text displayed."
  },
  {
   "property": "C135",
   "status": "partial",
   "theorems": [
    "bitfield_bits",
    "element_bit",
    "bitfield_arithmetic",
    "bitfield_fraction_refuted",
    "concatenation_bits",
    "concatenation_sign_refuted",
    "concatenation_fraction_refuted",
    "select_converted",
    "select_fraction_refuted",
    "mantissa_value",
    "mantissa_normal"
   ],
   "note": "All formats, operands and positions. Bit fields, single bits, concatenations of unsigned operands, selections and mantissas. False as the code stands, for whole families of operands: fields taken from bits into a format with a fraction, concatenations with a negative right operand or a fraction, selections between formats of one size and several fractions. Missing: the pass Pass_SoftLegalize itself, which raises whatever the graph (see DESIGN.md), shifts of vectors."
  },
  {
   "property": "C136",
   "status": "partial",
   "theorems": [
    "report_shown",
    "enable_adds",
    "error_never_returns",
    "error_raised",
    "error_sub_level_refuted",
    "verbose_refuted",
    "message_fields",
    "message_missing",
    "stream_separation_refuted",
    "vectors_consistent",
    "displays_consistent",
    "eight_pairs_refuted",
    "fixed_consistent",
    "display_sign_refuted",
    "display_kept",
    "wide_macro_refuted",
    "two_words_refuted",
    "object_stale_refuted",
    "object_arguments",
    "group_visits",
    "merge_visits",
    "merge_names",
    "merge_names_refuted",
    "merge_other_names_refuted",
    "merge_itself_refuted"
   ],
   "note": "Any levels, messages, formats, groups and functions. False as the code stands: errors reported at a sub-level of Error, messages with braces once displayed, separation of messages on the stream, display of vectors of eight pairs, of the sign of fixed-point formats and of wide integers, objects of functions asked for before all arguments are known, names after a merge. Missing: fields of messages other than {}, the debugger."
  },
  {
   "property": "C137",
   "status": "partial",
   "theorems": [
    "attributes_given",
    "copy_attributes",
    "copy_unbreakable_refuted",
    "copy_required_refuted",
    "light_copy",
    "defaults_restored",
    "default_inside",
    "unset_refused_refuted",
    "constant_copies_refuted",
    "constants_formats",
    "constant_two_formats_refuted",
    "constant_undefined",
    "constant_blocks_refuted"
   ],
   "note": "Any attributes, defaults, dynamic attributes, constants, formats and blocks. False as the code stands: copies of unbreakable sums, copies with required dynamic attributes, the default that is refused to be removed, second copies of constants and what the sizing of datapaths and the sorting by blocks do with them. Missing: build functions of dynamic attributes, constants that do not fit the format asked for."
  },
  {
   "property": "C138",
   "status": "partial",
   "theorems": [
    "externalized_value",
    "externalized_body",
    "left_out_refuted",
    "not_returned_refuted",
    "same_names_refuted",
    "table_argument",
    "externalizer_refuted",
    "binding_rule"
   ],
   "note": "Any graph, arguments, tags, operations and values. False as the code stands: functions whose body is a call, a variable, a constant or a table, arguments with one name, input variables left out, the class CallExternalizer. Missing: statements and control flow in the body, formats of the parameters."
  },
  {
   "property": "C139",
   "status": "partial",
   "theorems": [
    "allocation_kept",
    "edges_exact",
    "register_copy_refuted",
    "argument_returned_refuted",
    "argument_overwritten_refuted",
    "two_returns_refuted"
   ],
   "note": "Any straight-line code, coloring, operations, words and registers of several words; edges for any program. False as the code stands: the first argument and the first result share a register, returned arguments, functions returning two values in two branches, assignments of a register to another. Missing: values across branches, the coloring of asmde itself, shared operations."
  },
  {
   "property": "C140",
   "status": "partial",
   "theorems": [
    "formats_translated",
    "codes_kept",
    "no_hardware",
    "vectors_refuted",
    "unvisited_formats_refuted",
    "shared_table_refuted",
    "c_type_exact",
    "c_type_smallest",
    "pointer_equality",
    "equality_transitive_refuted",
    "attributes_refuted"
   ],
   "note": "Any graph, format, code, pointer and table. False as the code stands: unevaluated and numeric vectors, pre-statements and cases, shared table formats, transitivity of equality, attributes of pointers. Missing: displays of formats, contents of tables, ML_AdvancedFormat."
  },
  {
   "property": "C141",
   "status": "partial",
   "theorems": [
    "interval_read",
    "interval_refused",
    "endless_refuted",
    "unclosed_refused",
    "nested_refuted",
    "answer_read",
    "answer_refused",
    "answer_lost_refuted"
   ],
   "note": "Any text, any number of comments, any answer. False as the code stands: texts with a closing brace before the first opening one never end, comments in comments leave a brace in a bound, one line not read loses the others. Missing: the conversion of the bounds by sollya.parse, the running of Gappa."
  }
 ]
}