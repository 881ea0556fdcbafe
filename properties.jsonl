{"id": "C01", "title": "Special-value arithmetic follows IEEE-754", "statement": "Adding, subtracting, multiplying or dividing two values of which at least one is an infinity, a signed zero or a NaN gives the class and sign IEEE-754 prescribes: NaN propagates, inf-inf / 0*inf / 0/0 / inf/inf are NaN, otherwise infinities, zeros and their sign follow the rule of signs.", "quantifier": "for every pair of operands (each an arbitrary special value or an arbitrary number)", "why_tests_cant": "numbers are unbounded so the operand space is infinite; unit tests only cover a few pairs, and the wrong pairs are not among them", "anchors": ["metalibm_core/core/special_values.py: special_value_add, special_value_sub, special_value_mul, special_value_div"]}
{"id": "C02", "title": "Special-value comparisons follow the extended-real order", "statement": "For two operands of which one is special, <, <=, >, >=, == agree with the order of the extended reals (signed zeros equal, NaN unordered with everything) and are mutually consistent (x<y iff y>x, equality symmetric).", "quantifier": "for every pair of operands", "why_tests_cant": "infinite operand space; asymmetry only shows on particular operand orders", "anchors": ["metalibm_core/core/special_values.py: FP_SpecialValue.__lt__/__le__/__gt__/__ge__/__eq__, NumericValue, number_less_than_special_value"]}
{"id": "C03", "title": "Floating-point encoding round trip", "statement": "Encoding a representable number of a floating-point format into its integer code and decoding that code gives the same number back, and decoding then re-encoding any finite code other than the code of -0 gives the same code back.", "quantifier": "for every format (any exponent width >= 2, field width >= 1, rounding object as wide as the field plus implicit bit, as for binary16/32/64) and every representable value / every finite code", "why_tests_cant": "2^64 codes for binary64 and arbitrary user-made formats cannot be enumerated", "anchors": ["metalibm_core/core/ml_formats.py: ML_Std_FP_Format.get_integer_coding, get_value_from_integer_coding"]}
{"id": "C04", "title": "Floating-point encoding is order preserving and injective", "statement": "On non-negative representable numbers the integer code is strictly increasing in the value, all codes fit in the storage width, and distinct representable numbers have distinct codes.", "quantifier": "for every format and every pair of representable values", "why_tests_cant": "quantifies over all pairs of values of all formats", "anchors": ["metalibm_core/core/ml_formats.py: ML_Std_FP_Format.get_integer_coding"]}
{"id": "C05", "title": "Floating-point format bounds are exact", "statement": "The advertised emax, emin, largest finite number (omega), smallest normal, smallest subnormal and largest subnormal of a format are exactly the extreme values of the corresponding classes of codes.", "quantifier": "for every format, over all codes of the format", "why_tests_cant": "maximality over all codes is a universal statement", "anchors": ["metalibm_core/core/ml_formats.py: ML_Std_FP_Format.get_emax/get_emin_normal/get_emin_subnormal/get_omega/get_max_subnormal_value/get_min_normal_value"]}
{"id": "C06", "title": "Fixed-point encoding round trip", "statement": "Encoding a value on the grid of a fixed-point format and decoding the code gives the value back, for signed and unsigned formats; the code always fits in the bit width.", "quantifier": "for every integer size, fraction size, signedness and every grid value between the format's min and max", "why_tests_cant": "all formats and all values", "anchors": ["metalibm_core/core/ml_formats.py: ML_Base_FixedPoint_Format.get_integer_coding, get_value_from_integer_coding, get_min_value, get_max_value"]}
{"id": "C07", "title": "Fixed-point truncate / round / saturate", "statement": "Rounding/truncating a value to a fixed-point format returns a grid point within one (resp. half a) unit in the last place, truncation never increases the magnitude of an in-range value and wraps out-of-range ones modulo the range, saturation returns the nearest bound and is the identity inside the range.", "quantifier": "for every rational value and every format", "why_tests_cant": "continuum of input values", "anchors": ["metalibm_core/core/ml_formats.py: ML_Base_FixedPoint_Format.round_sollya_object, truncate, saturate"]}
{"id": "C08", "title": "Bit-level classification tests match IEEE classes", "statement": "The integer code generated for IsNaN, IsInfty, IsInfOrNaN, IsZero, IsSubnormal, IsSignalingNaN and IsQuietNaN answers exactly whether the number stored in those bits belongs to the class.", "quantifier": "for every floating-point format and every bit pattern", "why_tests_cant": "2^32/2^64 bit patterns and arbitrary formats", "anchors": ["metalibm_core/core/legalizer.py: generate_test_expansion, generate_field_extraction", "metalibm_hw_blocks/rtl_blocks.py: fp_is_nan, fp_is_inf, fp_is_zero, fp_is_subnormal"]}
{"id": "C09", "title": "Exponent and mantissa extraction/insertion", "statement": "For every normal number, extracting exponent and mantissa as integer bit operations gives e and m with value = m*2^e and 1 <= |m| < 2, and exponent insertion of any in-range e yields exactly 2^e.", "quantifier": "for every format, every normal bit pattern and every exponent in range", "why_tests_cant": "quantifies over all bit patterns of all formats", "anchors": ["metalibm_core/core/legalizer.py: generate_raw_exp_extraction, generate_exp_extraction, generate_raw_mantissa_extraction, generate_mantissa_extraction, generate_exp_insertion"]}
{"id": "C10", "title": "Interval arithmetic encloses", "statement": "For any x in interval X and y in interval Y, x op y lies in the computed X op Y, for +, -, *, negation, union and intersection (an empty operand gives an empty result).", "quantifier": "for all intervals with rational bounds and all member points", "why_tests_cant": "continuum of points", "anchors": ["metalibm_core/core/meta_interval.py: MetaInterval"]}
{"id": "C11", "title": "Interval list refinement loses nothing", "statement": "Canonising a list of intervals keeps exactly the points of the list and gives sorted, pairwise disjoint intervals; the inf and sup of an interval list are its extreme bounds; membership answers exactly whether the point is in one of the intervals.", "quantifier": "for all lists of intervals and all points", "why_tests_cant": "unbounded list length, continuum of points", "anchors": ["metalibm_core/core/meta_interval.py: refine_interval_list, MetaIntervalList"]}
{"id": "C12", "title": "Range evaluation is sound", "statement": "If every leaf of an expression graph lies in its declared interval then the value of the whole expression lies in the interval computed for it by range evaluation.", "quantifier": "for every expression built from the supported operators, every declared leaf interval and every valuation of the leaves", "why_tests_cant": "arbitrary expression depth and valuation", "anchors": ["metalibm_core/opt/opt_utils.py: evaluate_range", "metalibm_core/core/ml_operations.py: range_function / bare_range_function of Addition, Subtraction, Multiplication, Negation, Abs, FusedMultiplyAdd, Select, Min, Max, Modulo, RawExponentExtraction"]}
{"id": "C13", "title": "Interval-driven simplification of comparisons, min/max and tests preserves values", "statement": "When numerical simplification replaces a comparison, a min/max, a logical operation or a class test by a constant or one of its operands, the replaced node has the same value for every valuation of the inputs inside their intervals.", "quantifier": "for every expression and every valuation consistent with the intervals", "why_tests_cant": "arbitrary expressions and valuations", "anchors": ["metalibm_core/opt/p_numerical_simplification.py: is_simplifiable_to_cst, simplify_logical_op, simplify_comparison, simplify_min_max"]}
{"id": "C14", "title": "Boolean simplification preserves truth values", "statement": "The logical simplification pass replaces a boolean expression by one with the same truth value under every assignment of its variables.", "quantifier": "for every boolean expression and every assignment", "why_tests_cant": "unbounded expression depth", "anchors": ["metalibm_core/opt/p_logical_simplification.py: simplify_logical_and_not, simplify_logical_or_not, LogicalSimplification"]}
{"id": "C15", "title": "Datapath sizing: products never overflow", "statement": "The fixed-point format inferred for a product represents the exact product of any two operand values.", "quantifier": "for all operand formats and all operand values", "why_tests_cant": "all widths and all values", "anchors": ["metalibm_core/opt/p_size_datapath.py: solve_format_Multiplication"]}
{"id": "C16", "title": "Datapath sizing: sums, differences and negations never overflow", "statement": "The fixed-point format inferred for an addition, a subtraction or a negation represents the exact result for any operand values.", "quantifier": "for all operand formats and all operand values", "why_tests_cant": "all widths and all values; violations only happen on extreme values of mixed-sign formats", "anchors": ["metalibm_core/opt/p_size_datapath.py: solve_format_Addition, solve_format_Subtraction, solve_format_Negation, addsub_signed_predicate"]}
{"id": "C17", "title": "Datapath sizing: common format contains both formats", "statement": "The common format computed for two operands of a comparison/select/min/max represents every value of both operand formats, and the fold over any list of operands represents every value of every operand.", "quantifier": "for all pairs / lists of formats and all values", "why_tests_cant": "all widths, unbounded list", "anchors": ["metalibm_core/opt/rtl_fixed_point_utils.py: largest_format, solve_equal_formats"]}
{"id": "C18", "title": "Datapath sizing: constants are representable", "statement": "The minimal format computed for a constant represents that constant exactly.", "quantifier": "for every dyadic constant with at most 99 fractional bits", "why_tests_cant": "infinitely many constants", "anchors": ["metalibm_core/opt/p_size_datapath.py: determine_minimal_fixed_format_cst"]}
{"id": "C19", "title": "Bit slicing composition", "statement": "Merging a slice of a slice into one slice, and an element selection of a slice into one element selection, selects the same bits; the inferred slice format has the right width.", "quantifier": "for all widths, all nested slice bounds and all bit vectors", "why_tests_cant": "all widths and values", "anchors": ["metalibm_core/opt/p_simplify_rtl.py: BasicRTLSimplification", "metalibm_core/opt/p_size_datapath.py: solve_format_SubSignalSelection"]}
{"id": "C20", "title": "Horner scheme evaluates the polynomial", "statement": "The expression generated by the Horner scheme, evaluated without rounding, equals sum c_i x^i, including sparse polynomials and the special handling of +-1 trailing coefficients.", "quantifier": "for every coefficient map and every x (any exact ring)", "why_tests_cant": "unbounded degree and continuum of x and coefficients", "anchors": ["metalibm_core/core/polynomials.py: PolynomialSchemeEvaluator.generate_horner_scheme2, generate_horner_scheme"]}
{"id": "C21", "title": "Estrin scheme evaluates the polynomial", "statement": "The expression generated by the Estrin scheme, evaluated without rounding, equals sum c_i x^i, and the recursion terminates for every non-empty polynomial.", "quantifier": "for every coefficient map and every x", "why_tests_cant": "unbounded degree", "anchors": ["metalibm_core/core/polynomials.py: PolynomialSchemeEvaluator.generate_estrin_scheme, Polynomial.sub_poly"]}
{"id": "C22", "title": "Power generation", "statement": "The expression generated for x^n, evaluated without rounding, equals x^n, whatever powers have already been cached for the same variable.", "quantifier": "for every n >= 1 and every cache history", "why_tests_cant": "unbounded exponents and histories", "anchors": ["metalibm_core/core/polynomials.py: generate_power"]}
{"id": "C23", "title": "TwoSum / FastTwoSum are error-free", "statement": "With operations rounded to nearest even in any binary format, TwoSum returns s and e with s = RN(x+y) and s+e = x+y exactly, and FastTwoSum does so whenever |x| >= |y|.", "quantifier": "for every precision, every pair of format numbers (no overflow)", "why_tests_cant": "continuum of pairs / all precisions", "anchors": ["metalibm_core/opt/ml_blocks.py: generate_twosum, generate_fasttwosum"]}
{"id": "C24", "title": "Multi-precision blocks compute the right sum or product", "statement": "Every double/triple-limb addition, multiplication and fused multiply-add block, evaluated with exact limb operations, returns limbs whose sum is exactly the sum/product/fma of its operands.", "quantifier": "for every block and all operand limbs", "why_tests_cant": "continuum of limb values; wrong operand wiring only shows on asymmetric operands", "anchors": ["metalibm_core/opt/ml_blocks.py: Add211, Add212, Add222, Mul211, Mul212, Mul222, MP_FMA2111..MP_FMA2222, MP_Add333, MP_Add321_v2 ..."]}
{"id": "C25", "title": "Multi-limb min/max and comparison", "statement": "The limb-wise expansion of Min/Max on normalized multi-limb numbers returns the smaller/larger of the two numbers.", "quantifier": "for every pair of normalized multi-limb numbers", "why_tests_cant": "continuum of values", "anchors": ["metalibm_core/opt/p_expand_multi_precision.py: expand_min, expand_max"]}
{"id": "C26", "title": "Constant limb decomposition", "statement": "Expanding a constant in limbs gives limbs representable in the limb format whose sum differs from the constant by at most half an ulp of the last limb, and equals it when it fits.", "quantifier": "for every constant and number of limbs", "why_tests_cant": "continuum of constants", "anchors": ["metalibm_core/opt/p_expand_multi_precision.py: expand_cst"]}
{"id": "C27", "title": "Software leading-zero count", "statement": "The branch-free 32-bit integer sequence generated for count-leading-zeros returns the number of leading zeros of its input (32 for zero).", "quantifier": "for every 32-bit input", "why_tests_cant": "2^32 inputs; the generator's tests use a handful", "anchors": ["metalibm_core/opt/ml_blocks.py: generate_count_leading_zeros"]}
{"id": "C28", "title": "Hardware leading-zero counter", "statement": "The generated leading-zero-count process outputs the number of leading zeros of its input (the width for zero), the output width is enough to hold it, and it agrees with the numeric emulation.", "quantifier": "for every width and every input word", "why_tests_cant": "all widths", "anchors": ["metalibm_hw_blocks/lzc.py: ML_LeadingZeroCounter.generate_scheme, numeric_emulate, get_lzc_output_width"]}
{"id": "C29", "title": "Bit-heap compression preserves the value", "statement": "Each Wallace/Dadda reduction step (3:2 and 4:2 compressors) produces a bit heap with the same weighted sum, for every heap.", "quantifier": "for every bit heap (any shape, any height) and any bit values", "why_tests_cant": "unbounded heaps", "anchors": ["metalibm_hw_blocks/mult_array.py: comp_3to2, comp_4to2, wallace_reduction, dadda_reduction, wallace_4to2_reduction, dadda_4to2_reduction"]}
{"id": "C30", "title": "Bit-heap reduction terminates at the requested height", "statement": "Repeating reduction steps terminates with columns no higher than the requested limit (>= 2), for all four methods.", "quantifier": "for every heap and every limit >= 2", "why_tests_cant": "termination for unbounded heaps", "anchors": ["metalibm_hw_blocks/mult_array.py: reduce_heap, REDUCTION_METHOD_MAP"]}
{"id": "C31", "title": "Partial products and Booth recoding", "statement": "The bits inserted in the positive and negative heaps for a product (plain and radix-4 Booth) have weighted difference equal to the product of the operand values, for all signedness combinations.", "quantifier": "for all operand widths, signedness and operand values", "why_tests_cant": "all widths and values", "anchors": ["metalibm_hw_blocks/mult_array.py: booth_radix4_multiply, merge_product_in_heap, merge_addition_in_heap, convert_bit_heap_to_fixed_point"]}
{"id": "C32", "title": "Compound adder", "statement": "The carry-select compound adder outputs x+y and x+y+1.", "quantifier": "for every width, every base-case limit >= 1 and all inputs", "why_tests_cant": "all widths", "anchors": ["metalibm_hw_blocks/compound_adder.py: CompoundAdder.generate_scheme.rec_add"]}
{"id": "C33", "title": "Integer divider", "statement": "The single-digit hardware divider outputs floor(dividend/divisor) for a non-zero divisor and the configured value for a zero divisor.", "quantifier": "for every width and all operands", "why_tests_cant": "all widths and operands", "anchors": ["metalibm_hw_blocks/int_div.py: MetaIntDiv.generate_scheme_basic"]}
{"id": "C34", "title": "Leading-zero anticipation", "statement": "The anticipated leading zero counts differ from the true leading zero count of |x+y| by at most one (positive count when the sum is positive, negative count otherwise).", "quantifier": "for every width, signedness and all operands", "why_tests_cant": "all widths", "anchors": ["metalibm_hw_blocks/lza.py: ML_LeadingZeroAnticipator.generate_lza, numeric_emulate"]}
{"id": "C35", "title": "Hardware truncation to integer", "statement": "The FP truncation unit returns the input rounded toward zero to an integer for every finite input and leaves infinities and NaNs unchanged.", "quantifier": "for every format and every bit pattern", "why_tests_cant": "all bit patterns of all formats", "anchors": ["metalibm_hw_blocks/fp_int_conv.py: FP_Trunc.generate_scheme"]}
{"id": "C36", "title": "Hardware floating-point adder rounds correctly", "statement": "For normal operands whose sum is normal, the FP adder outputs the round-to-nearest-even of the exact sum.", "quantifier": "for every format and all operand pairs", "why_tests_cant": "all operand pairs of all formats", "anchors": ["metalibm_hw_blocks/ml_fp_adder.py: FP_Adder.generate_scheme"]}
{"id": "C37", "title": "Generated names are fresh", "statement": "A name returned as free is not already declared in any symbol table nor protected, remains distinct from every name handed out earlier, and declaring objects keeps the name->object map injective.", "quantifier": "for every sequence of declarations and free-name requests", "why_tests_cant": "arbitrary histories", "anchors": ["metalibm_core/code_generation/code_object.py: SymbolTable, MultiSymbolTable.get_free_name, declare_symbol"]}
{"id": "C38", "title": "Free-name generation terminates", "statement": "Requesting a free symbol or constant name always terminates with a name.", "quantifier": "for every state of the symbol tables", "why_tests_cant": "termination over all states", "anchors": ["metalibm_core/code_generation/code_object.py: MultiSymbolTable.get_free_name, get_free_cst_name"]}
{"id": "C39", "title": "Pass scheduling respects dependencies", "statement": "The order in which a pass list is executed respects declared dependencies: a pass is enabled only when everything it depends on has been executed, each registered pass is executed exactly once per slot, and the result of one pass is the input of the next.", "quantifier": "for every list of passes and every dependency relation", "why_tests_cant": "arbitrary pass sets", "anchors": ["metalibm_core/core/passes.py: PassDependency, AfterPassByClass, CombineAnd, CombineOr, PassScheduler"]}
{"id": "C40", "title": "Dominator computation", "statement": "The dominator map computed for a control-flow graph is exactly the dominance relation (every path from the entry goes through the dominator), and the immediate dominator is the closest strict dominator.", "quantifier": "for every control-flow graph", "why_tests_cant": "arbitrary graphs with cycles, all paths", "anchors": ["metalibm_core/opt/p_gen_bb.py: build_dominator_map, build_immediate_dominator_map"]}
{"id": "C41", "title": "Dominance frontier and phi placement", "statement": "The computed dominance frontier of a block is exactly the set of blocks where its dominance ends, and phi functions are placed at the iterated dominance frontier of the definitions of each variable.", "quantifier": "for every control-flow graph", "why_tests_cant": "arbitrary graphs", "anchors": ["metalibm_core/opt/p_gen_bb.py: build_dominance_frontiers, phi_node_insertion"]}
{"id": "C42", "title": "Structured code to basic blocks preserves execution", "statement": "Translating statements, conditions and loops to basic blocks gives a control-flow program with the same final state, and removing empty blocks keeps every execution.", "quantifier": "for every structured program, every initial state and every execution length", "why_tests_cant": "loops give unbounded executions", "anchors": ["metalibm_core/opt/p_gen_bb.py: BasicBlockTranslator.execute_on_optree, transform_cb_to_bb, transform_loop_to_bb, Pass_BBSimplification"]}
{"id": "C43", "title": "Pipeline retiming delivers values at the right stage", "statement": "After retiming, an operation consumed at stage t is read from a register chain that delays it by exactly t minus its production stage, and the pipelined circuit computes the same function as the combinational one, latency being the number of stages.", "quantifier": "for every operation graph, stage assignment and input stream", "why_tests_cant": "unbounded graphs and input streams", "anchors": ["metalibm_core/opt/p_pipelining.py: RetimeMap, propagate_op, retime_op, generate_pipeline_stage"]}
{"id": "C44", "title": "Random generators stay in range", "statement": "Values drawn by the integer/fixed-point generators lie inside the format range, the category drawn is the one whose cumulated weight interval contains the draw.", "quantifier": "for every random draw, weight map and format", "why_tests_cant": "all possible draws", "anchors": ["metalibm_core/core/random_gen.py: IntRandomGen, FixedPointRandomGen, get_category_from_weight_index, normalize_map"]}
{"id": "C45", "title": "Table indexing maps every input to its interval", "statement": "The index computed for an input by the sub-mantissa / sub-FP / uniform indexing is within the table, and the input belongs to the sub-interval advertised for that index; sub-intervals tile the input range.", "quantifier": "for every format, split size and input value", "why_tests_cant": "all inputs of all formats", "anchors": ["metalibm_core/core/indexing.py: SubMantissaIndexing, SubFPIndexing, SubUniformIntervalIndexing"]}
{"id": "C46", "title": "VHDL constant literals denote the constant", "statement": "The VHDL literal generated for an integer constant of a bit-vector format, read back as a bit string, denotes the constant modulo 2^width and has exactly the declared width.", "quantifier": "for every width and every integer (including negative)", "why_tests_cant": "all widths and values", "anchors": ["metalibm_core/core/ml_hdl_format.py: generic_get_vhdl_cst, get_2scomplement_neg"]}
{"id": "C47", "title": "Payne-Hanek chunking", "statement": "The chunks of the constant produced for Payne-Hanek reduction sum up to the constant minus a remainder smaller than the weight of the last chunk, and dropping the most significant chunks changes the product by a multiple of the reduction period.", "quantifier": "for every constant, chunk size and number of chunks", "why_tests_cant": "arbitrary precision constants", "anchors": ["metalibm_core/core/payne_hanek.py: generate_payne_hanek, get_remainder"]}
{"id": "C48", "title": "Machine-code linearization preserves expression values", "statement": "Executing the straight-line register code produced from an expression graph leaves the value of the graph in the result register; each virtual register is assigned once; shared nodes are computed once.", "quantifier": "for every expression graph and every input valuation", "why_tests_cant": "unbounded graphs", "anchors": ["metalibm_core/code_generation/machine_program_linearizer.py: MachineInsnGenerator.linearize_graph, get_new_register"]}
{"id": "C49", "title": "Table splitting and enclosure", "statement": "Loading from the split tables of a 2-D table gives the same entry as loading from the 2-D table, and the interval reported for a table contains every entry.", "quantifier": "for all tables, all indices", "why_tests_cant": "all dimensions and contents", "anchors": ["metalibm_core/opt/p_table_linearization.py: split2DTable, TableLinearizer.expand_node", "metalibm_core/core/ml_table.py: ML_Table.get_subset_interval, compute_interval, create_multi_dim_array"]}
{"id": "C50", "title": "Reduction trees combine every operand exactly once", "statement": "Reducing a list of operands with a binary operator through the work-queue gives, for an associative and commutative operator, the fold of all operands.", "quantifier": "for every non-empty operand list and every assoc-comm operator", "why_tests_cant": "unbounded list", "anchors": ["metalibm_core/opt/opt_utils.py: logical_reduce", "metalibm_core/core/ml_operations.py: AdditionN", "metalibm_hw_blocks/compound_adder.py: vector_concatenation"]}
{"id": "C51", "title": "Fast 2^i", "statement": "The fast 2^i function returns exactly 2^i for i in the normal exponent range and clamps to 2^emin / 2^emax outside.", "quantifier": "for every format and every integer i", "why_tests_cant": "unbounded integers", "anchors": ["metalibm_functions/fast_exp2i.py: FastExp2i.generate_scalar_scheme"]}
{"id": "C52", "title": "Dequantizer rounding", "statement": "The rounding increment selected from round, sticky, parity and sign bits implements the requested rounding mode (RNE, RU, RD, RZ, RAZ).", "quantifier": "for every fixed-point value and every rounding mode", "why_tests_cant": "all values and widths", "anchors": ["metalibm_hw_blocks/dequantizer.py: Dequantizer.generate_scheme, numeric_emulate"]}
{"id": "C53", "title": "Remainder/quotient digit recurrence", "statement": "The digit-recurrence of remquo returns the IEEE remainder (nearest, ties to even quotient) and the low bits of the quotient.", "quantifier": "for all finite operands", "why_tests_cant": "all operand pairs; up to thousands of iterations", "anchors": ["metalibm_functions/remquo.py: MetaRemQuo.generate_scheme"]}
{"id": "C54", "title": "Graph copy", "statement": "Copying an operation graph gives a graph with the same shape, in which shared sub-nodes stay shared, no node of the original is reachable from the copy, and two successive copies share nothing.", "quantifier": "for every operation graph and every sequence of copies", "why_tests_cant": "arbitrary sharing patterns and copy histories", "anchors": ["metalibm_core/core/ml_operations.py: ML_ArithmeticOperation.copy, Constant.copy, FunctionCall.copy"]}
{"id": "C55", "title": "Graph ordering", "statement": "The list returned by depth ordering / timing linearization contains every reachable node exactly once, parents before (resp. after) their operands as documented.", "quantifier": "for every operation DAG", "why_tests_cant": "arbitrary DAGs", "anchors": ["metalibm_core/opt/opt_utils.py: depth_node_ordering, extract_tables", "metalibm_core/opt/p_auto_pipeline.py: linearize_graph"]}
{"id": "C56", "title": "Hardware lowering of fixed-point add, sub, mul", "statement": "The bit-vector expression generated for a fixed-point addition, subtraction or multiplication outputs the exact result, rounded down to the output precision and wrapped to the output width, whenever the exact result fits the intermediate width chosen by the generator or the output is not wider than it.", "quantifier": "for all operand and output formats and all operand values", "why_tests_cant": "all widths, alignments and values", "anchors": ["metalibm_core/code_generation/vhdl_backend.py: fixed_point_op_modifier, fixed_point_mul_modifier, adapt_fixed_optree"]}
{"id": "C57", "title": "Hardware lowering of fixed-point conversion, comparison, negation and shift", "statement": "The bit-vector expressions generated for a fixed-point conversion, comparison, negation and constant shift compute the conversion (rounding down, wrapping), the order of the real values, the opposite, and the shifted value.", "quantifier": "for all formats, all values and all in-range shift amounts", "why_tests_cant": "all widths, alignments and values", "anchors": ["metalibm_core/code_generation/vhdl_backend.py: fixed_conversion_modifier, fixed_comparison_modifier, fixed_point_negation_modifier, shift_by_cst_legalizer, sext_modifier, zext_modifier, negation_modifer"]}
{"id": "C58", "title": "C constants of fixed-point values", "statement": "The integer written for a fixed-point constant, including the two 64-bit halves of a 128-bit constant, denotes the scaled value; the C type chosen is the narrowest standard one that is wide enough.", "quantifier": "for all formats and all values of the format", "why_tests_cant": "all widths and values", "anchors": ["metalibm_core/core/ml_formats.py: get_c_cst, get_128b_c_cst, ML_Base_SW_FixedPoint_Format.__init__"]}
{"id": "C59", "title": "Datapath sizing: other operators and the constant-fits test", "statement": "A constant accepted by the fit test is representable in the target format; the formats inferred for a leading-zero count, a concatenation and a slice represent every possible result with the right bit weights.", "quantifier": "for all formats, constants, operand lists and slice bounds", "why_tests_cant": "all widths and values, unbounded operand lists", "anchors": ["metalibm_core/opt/p_size_datapath.py: format_does_fit, solve_format_CLZ, solve_format_Concatenation, solve_format_SubSignalSelection"]}
{"id": "C60", "title": "Software lowering of fixed-point operations", "statement": "The C integer expression generated for a fixed-point conversion, addition, subtraction, multiplication or comparison computes the operation on the represented values (rounded down to the output precision) whenever the result fits the output format.", "quantifier": "for all custom fixed-point formats of up to 128 bits and all values", "why_tests_cant": "all widths, alignments, signs and values", "anchors": ["metalibm_core/targets/common/fixed_point_backend.py: fixed_modifier, mul_modifier, conv_modifier, legalize_fixed_point_comparison"]}
{"id": "C61", "title": "Fixed-point positions", "statement": "A symbolic bit position (counted from the LSB, from the MSB or from the binary point) is resolved to the index of the bit it designates.", "quantifier": "for all fixed-point formats and all positions", "why_tests_cant": "all widths and positions", "anchors": ["metalibm_core/core/legalizer.py: fixed_point_position_legalizer", "metalibm_core/core/advanced_operations.py: FixedPointPosition"]}
{"id": "C62", "title": "Reduction trees have minimal depth", "statement": "The tree built by the work-queue reduction of n operands has depth exactly ceil(log2 n).", "quantifier": "for every non-empty operand list", "why_tests_cant": "unbounded list length; a test on a few sizes would miss sizes where the queue unbalances", "anchors": ["metalibm_core/opt/opt_utils.py: logical_reduce", "metalibm_core/core/ml_operations.py: AdditionN"]}
{"id": "C63", "title": "Linearized pass work-list", "statement": "A linearized graph pass applied to a node ends, applies itself exactly once to every node reachable from it, and reaches each node only after all its operands.", "quantifier": "for every operation DAG, any sharing", "why_tests_cant": "the order of the work-list depends on the whole sharing structure; termination is a property of all DAGs", "anchors": ["metalibm_core/core/passes.py: LinearizedGraphOptimization.execute"]}
{"id": "C64", "title": "Declared error bounds of the double-word blocks", "statement": "The relative error between the value of the limbs returned by a double-word block and the exact sum or product of its operands is at most the local error bound declared by the meta-block, for operands accepted by its input check.", "quantifier": "for every precision and all operands, with rounded limb operations", "why_tests_cant": "worst-case relative errors occur on measure-zero cancellation patterns", "anchors": ["metalibm_core/opt/ml_blocks.py: MB_Add221, MB_Add222, MB_Mul221, MB_Mul222 local_relative_error_eval, check_input_descriptors", "metalibm_core/opt/ml_blocks.py: Add212, Add221_Fast, Add222, Mul212, Mul222"]}
{"id": "C65", "title": "Triple-word blocks declared exact", "statement": "Normalize_33 and Add321 (declared local error 0) return limbs of the limb format whose sum is exactly the sum of the operand limbs, with rounded limb operations.", "quantifier": "for every precision and all operands (|y| <= |xh| for Add321)", "why_tests_cant": "continuum of operands", "anchors": ["metalibm_core/opt/ml_blocks.py: Normalize_33, MP_Add321, MB_Normalize_33, MB_Add321"]}
{"id": "C66", "title": "Table initializer text", "statement": "The text generated for a table initializer is, up to white space, the nested brace list of the entries in index order.", "quantifier": "for every number of dimensions, entries and line length", "why_tests_cant": "line breaking depends on the lengths of all entries", "anchors": ["metalibm_core/core/ml_table.py: get_table_content, ML_Table.get_content_init"]}
{"id": "C67", "title": "Iterative floating-point modulo", "statement": "The generated fmod returns x - n*y with magnitude below |y| and the sign of x (the unique C result), every fused multiply-add of the iteration is exact and the loop stops.", "quantifier": "for every precision, every nearest rounding and all operands, without under/overflow", "why_tests_cant": "the loop length depends on the exponent difference; the quotient is a rounded one", "anchors": ["metalibm_functions/fmod.py: MetaFMOD.generate_scalar_scheme"]}
{"id": "C68", "title": "Leading-zero count of a fixed-point value", "statement": "The C code generated for CountLeadingZeros of a fixed-point value returns the number of leading zeros of the value written on the bits of its format.", "quantifier": "for every fixed-point format and value", "why_tests_cant": "all formats, widths and values", "anchors": ["metalibm_core/targets/common/fixed_point_backend.py: legalize_fixed_point_clz"]}
{"id": "C69", "title": "C library classification tests", "statement": "The C macros selected for the floating-point tests (NaN, signaling, infinity, zero, subnormal, normal, sign comparison) and the special-value constants agree with the IEEE 754 class of the operand, and with the tests of the other back-end.", "quantifier": "for every binary32 and binary64 bit pattern", "why_tests_cant": "2^64 bit patterns; a wrong mask shows on a few of them only", "anchors": ["metalibm_core/support_lib/ml_support_lib.h: ml_is_* macros, ml_comp_sign, special value constants", "metalibm_core/code_generation/generic_processor.py: Test table"]}
{"id": "C70", "title": "C library field manipulation and leading zeros", "statement": "The C macros insert and extract exponents, mantissas and signs so that sign, mantissa and power of two give the number back, and the C leading-zero counts return the number of leading zeros of the word.", "quantifier": "for every binary32 and binary64 number and every 32- and 64-bit word", "why_tests_cant": "2^64 words and all exponents", "anchors": ["metalibm_core/support_lib/ml_support_lib.h: ml_exp_insertion, ml_exp_extraction_dirty, ml_mantissa_extraction, ml_copy_sign, ml_count_leading_zeros"]}
{"id": "C71", "title": "C multi-precision library", "statement": "The C functions on double-doubles: the splitting and the sum and product of two doubles are error-free, a double-double result is normalized, sums of double-doubles are within a few units of 2^-106 of the exact sum, and the C code selected for a double-double operation computes it.", "quantifier": "for every double and every normalized double-double, every round-to-nearest tie rule", "why_tests_cant": "2^128 pairs of operands and more; the failing operands are rare alignments", "anchors": ["metalibm_core/support_lib/ml_multi_prec_lib.c: ml_split_dd_d, ml_mult_dd_d2, ml_add_dd_*, ml_fma_dd_d3, ml_split_ds_s", "metalibm_core/code_generation/generic_processor.py: double-double tables"]}
{"id": "C72", "title": "C library fused multiply-add emulation", "statement": "The emulated fma and fmaf return the number of the format nearest to x * y + z.", "quantifier": "for all operands", "why_tests_cant": "double rounding occurs for one operand triple in about 2^28", "anchors": ["metalibm_core/support_lib/ml_multi_prec_lib.c: ml_fma", "metalibm_core/support_lib/ml_support_lib.h: ml_fmaf"]}
{"id": "C73", "title": "C library subnormal rounding", "statement": "ml_subnormalize_d_dd_i(hi, lo, k) rounds hi + lo to the nearest multiple of the smallest subnormal scaled by 2^-k, ties to even, so that the scaling by 2^k that follows is exact.", "quantifier": "for every double hi, every lo of at most half an ulp of hi, every scale factor", "why_tests_cant": "2^128 pairs of words", "anchors": ["metalibm_core/support_lib/ml_multi_prec_lib.c: ml_subnormalize_d_dd_i"]}
{"id": "C74", "title": "Static vectorization of a scheme", "statement": "The linear path extracted from a scalar scheme, with its validity conditions: on every argument for which the conditions hold, the scalar scheme returns the value of the path. The vector function made of it returns in every lane the result of the scalar function, with the C and the OpenCL wrapper.", "quantifier": "for every scheme without loop, every meaning of the operations, every vector size and sub-vector size dividing it, every vector of arguments", "why_tests_cant": "any nesting of branches, likelihoods and assignments; lanes taking different paths", "anchors": ["metalibm_core/core/static_vectorizer.py: extract_vectorizable_path, vectorize_scheme, vector_replicate_scheme_in_place", "metalibm_core/core/ml_function.py: generate_c_vector_wrapper, generate_opencl_vector_wrapper, generate_vector_implementation"]}
{"id": "C75", "title": "Function inlining", "statement": "Running the statement made by inlining a function body leaves in the destination variable the value which the function returns on the given arguments, and has no other outcome.", "quantifier": "for every body (loops included), every argument expression and every state", "why_tests_cant": "all bodies and states", "anchors": ["metalibm_core/opt/p_function_inlining.py: inline_function"]}
{"id": "C76", "title": "Loops of array functions", "statement": "The generated element-wise array function ends, stores f(src[i]) at dst[i] for every i below the length, and changes no other memory; with a vectorized function the same holds for the scalar function it was made of.", "quantifier": "for every length below 2^32, every vector size, every memory, in place or with separate arrays", "why_tests_cant": "2^32 lengths times remainders; out-of-bounds stores are not seen by output checks", "anchors": ["metalibm_functions/vectorial_function.py: ML_VectorialFunction.generate_scheme, vectorize_function_scheme"]}
{"id": "C77", "title": "Acceptance of results", "statement": "The generated test of a result accepts exactly the results which the declared accuracy allows: the IEEE-rounded value for a correctly rounded function, the values with no other number between them and the exact value for a faithful one, the values within the error goal for a degraded accuracy; infinities, zeros and NaNs included.", "quantifier": "for every binary format, every exact value and every result", "why_tests_cant": "all pairs of exact value and result; a test which accepts too much never fails", "anchors": ["metalibm_core/core/precisions.py: get_output_check_value, get_output_check_test", "metalibm_core/core/ml_formats.py: round_sollya_object, get_c_cst, saturate"]}
{"id": "C78", "title": "Test tables and test loops", "statement": "The test tables contain every given test case and a whole number of vectors; the generated test returns 0 exactly when every row is accepted.", "quantifier": "for all numbers of tests, vector sizes, given cases and functions", "why_tests_cant": "a test loop skipping rows still reports success", "anchors": ["metalibm_core/core/ml_function.py: generate_test_tables, generate_test_wrapper, get_scalar_test_wrapper, get_vector_test_wrapper"]}
{"id": "C79", "title": "Maximal error evaluation", "statement": "The maximal error function returns the largest relative error over the table and prints the first argument where it is reached; an unexpected or missing NaN gives -2.", "quantifier": "for all tables of any length and all errors, NaNs and infinities included", "why_tests_cant": "any combination of rows", "anchors": ["metalibm_core/core/ml_function.py: generate_scalar_max_error_eval, generate_vector_max_error_eval", "metalibm_core/core/precisions.py: compute_error, errorValidGraph"]}
{"id": "C80", "title": "Units in the last place and neighbours", "statement": "ulp, fp_next and fp_previous give the unit in the last place and the neighbours of a number; relative errors are converted into units in the last place; the threshold search returns the smallest number whose image reaches the limit.", "quantifier": "for every binary format and every positive number; every increasing function", "why_tests_cant": "2^64 numbers; non-termination for rare thresholds", "anchors": ["metalibm_core/utility/num_utils.py: ulp, fp_next, fp_previous", "metalibm_core/core/ml_function.py: convertRelErrorToUlp", "metalibm_core/core/approximation.py: search_bound_threshold"]}
{"id": "C81", "title": "Generated C code computes the graph", "statement": "The C function generated from a graph of assignments, tests, loops and returns, where the values of operations are kept in variables and reused, returns the value of the graph and leaves the inputs with their final values, and loops forever only if the graph does.", "quantifier": "for all graphs, all inputs, all meanings of the operations, all orders of generation of the operands and all supplies of fresh names", "why_tests_cant": "sharing, blocks and loops combine without bound", "anchors": ["metalibm_core/code_generation/generators/c_code_generator.py: CCodeGenerator.generate_expr, has_memoization, add_memoization, open_memoization_level", "metalibm_core/code_generation/generator_utility.py: ordered_generation, SymbolOperator.assemble_code, FunctionOperator.assemble_code", "metalibm_core/code_generation/code_object.py: NestedCode.open_level, close_level, get_free_var_name"]}
{"id": "C82", "title": "Shared operations are generated once and declared once", "statement": "Generating an expression emits one assignment for each operation having a variable of its own, however many times it is used; generation always succeeds; no block declares a name twice and no declaration hides an input.", "quantifier": "for all graphs, orders and supplies of fresh names", "why_tests_cant": "exponentially many paths lead to a shared operation", "anchors": ["metalibm_core/code_generation/generators/c_code_generator.py: CCodeGenerator.generate_expr", "metalibm_core/code_generation/code_object.py: NestedCode.get_free_var_name"]}
{"id": "C83", "title": "The SSA renaming preserves executions and assigns every name once", "statement": "After phi nodes are placed on the iterated dominance frontiers, variable_renaming gives a program in which every name is defined at most once and whose executions (effects, returned value) are those of the original program, whenever the original does not read an undefined variable.", "quantifier": "for all control-flow graphs, programs, operations, inputs and numbers of steps", "why_tests_cant": "the value kept for a variable depends on the whole walk of the dominator tree; loops give unboundedly many executions", "anchors": ["metalibm_core/opt/p_gen_bb.py: variable_renaming, updating_reaching_def, update_used_var, get_phi_list_in_bb_successor"]}
{"id": "C84", "title": "Insertion of phi nodes and renaming together produce an equivalent SSA program", "statement": "For a program without phi nodes whose blocks have at most two predecessors, phi_node_insertion followed by variable_renaming ends, produces a program in single assignment form, and that program returns the same results.", "quantifier": "for all programs, orders of the variables and of the work sets", "why_tests_cant": "the correctness of the placement only shows in the executions of the renamed program", "anchors": ["metalibm_core/opt/p_gen_bb.py: phi_node_insertion, build_variable_list_and_defs, variable_renaming, Pass_SSATranslate"]}
{"id": "C85", "title": "The reduced division of the division scheme is correctly rounded", "statement": "Newton-Raphson iterations on the reciprocal square the relative error of the seed up to two roundings, and one correction of the quotient by the exact remainder gives the quotient rounded to nearest: for any operands when the reciprocal is the correctly rounded one, and when the error left by the last iteration before its rounding is small enough for the significand of the divisor.", "quantifier": "for all precisions of at least 12 digits, all roundings to nearest (any tie rule), all operands, seeds and numbers of iterations", "why_tests_cant": "the critical operands are one in 2^p; the pairs of operands cannot be enumerated", "anchors": ["metalibm_functions/ml_div.py: NR_Iteration, compute_reduced_reciprocal, dividend_mult, compute_reduced_division"]}
{"id": "C86", "title": "The division scheme returns the IEEE quotient of two numbers", "statement": "For finite non-zero operands, normal or subnormal, the scheme (scaling by clamped exponents, seed, iterations, reconstruction) returns the correctly rounded quotient, infinity on overflow included.", "quantifier": "for all operands, formats, seeds of a given accuracy and numbers of iterations; instances for binary32 and binary64 with the generic table and the RISC-V vfrec7 table", "why_tests_cant": "2^128 pairs of operands; failures are on isolated divisors and at the limits of the range", "anchors": ["metalibm_functions/ml_div.py: ML_Division.generate_scheme, scaling_div_result"]}
{"id": "C87", "title": "Division follows IEEE-754 on special operands", "statement": "When an operand is a NaN, an infinity or a zero, the value returned is the one of IEEE-754 division, sign included.", "quantifier": "for all pairs of operands with a special one, in any format", "why_tests_cant": "the pairs with a finite operand are too many to enumerate", "anchors": ["metalibm_functions/ml_div.py: ML_Division.generate_scheme"]}
{"id": "C88", "title": "The reciprocal seed tables have the accuracy assumed by the schemes", "statement": "For every number, the reciprocal seed (table entry, exponent and sign) approximates its reciprocal with the relative error the division scheme assumes (2^-7), and the number of iterations is the least that brings the table index size to the size of the significand.", "quantifier": "for all non-zero numbers", "why_tests_cant": "the table is read at every significand of every format", "anchors": ["metalibm_core/core/generic_approximation.py: generic_inv_approx_table", "metalibm_core/targets/riscv/rvv_table.py", "metalibm_core/core/legalizer.py: legalize_reciprocal_seed", "metalibm_functions/ml_div.py: ML_Division.generate_scheme"]}
{"id": "C89", "title": "Square root correctly rounded", "statement": "For every finite positive number of the format from a few binades above the smallest normal one up to the largest, and every number of Newton iterations from the required one on, the square root function returns the number of the format nearest to the exact square root.", "quantifier": "for all numbers of binary32 from 2^-101 and of binary64 from 2^-968, and all numbers of iterations from 2 (binary32), 3 (binary64)", "why_tests_cant": "the hard cases of the square root are a handful among 2^64 operands; the result also depends on the number of iterations, an option", "anchors": ["metalibm_functions/ml_sqrt.py: compute_sqrt", "metalibm_functions/ml_sqrt.py: NR_Iteration", "metalibm_functions/ml_sqrt.py: MetalibmSqrt.generate_scheme"]}
{"id": "C90", "title": "Reciprocal square root accuracy", "statement": "For every positive operand v and number of iterations n the reciprocal square root r returned is positive and 1 - v r^2 is bounded by the error of n exact Newton iterations from the seed plus a few units of the last place.", "quantifier": "for all operands of binary32 from 2^-101 and of binary64 from 2^-968, and all numbers of iterations", "why_tests_cant": "a bound over a continuum of operands and any number of iterations", "anchors": ["metalibm_functions/ml_isqrt.py: compute_isqrt", "metalibm_functions/ml_isqrt.py: generate_NR_iteration_recp_sqrt", "metalibm_functions/ml_isqrt.py: ML_Isqrt.generate_scheme"]}
{"id": "C91", "title": "Square root of special operands", "statement": "The square root and the reciprocal square root of NaNs, infinities, zeros and negative numbers are those of IEEE-754.", "quantifier": "for all formats, special data and numbers of iterations", "why_tests_cant": "dead branches are not exercised by tests that only look at results", "anchors": ["metalibm_functions/ml_sqrt.py: MetalibmSqrt.generate_scheme", "metalibm_functions/ml_isqrt.py: ML_Isqrt.generate_scheme"]}
{"id": "C92", "title": "Seed of the reciprocal square root", "statement": "The legalized reciprocal square root seed (table entry, exponent halved by a C division, parity correction) is within 2^-7, up to roundings, of the reciprocal square root, for every positive normal operand; its table entries are the nearest 9-digit numbers.", "quantifier": "for all positive normal operands, formats and nearest roundings", "why_tests_cant": "the exponent is halved with truncation towards zero, so that odd negative, odd positive and even exponents take different paths", "anchors": ["metalibm_core/core/legalizer.py: legalize_invsqrt_seed", "metalibm_core/core/generic_approximation.py: invsqrt_approx_table"]}
{"id": "C93", "title": "The power function follows IEEE-754 on special operands", "statement": "For every pair of operands for which IEEE-754 (9.2.1) fixes the result of pow without computing a power, the generated function returns that result.", "quantifier": "for all pairs of operands and all formats", "why_tests_cant": "the clauses depend on the parity and the sign of the second operand, over its whole range", "anchors": ["metalibm_functions/pow.py: ML_Pow.generate_scalar_scheme"]}
{"id": "C94", "title": "The emulation of the power function follows IEEE-754 on special operands", "statement": "The reference used by the self test of pow returns, for every pair of operands for which IEEE-754 fixes the result, that result, and raises no exception.", "quantifier": "for all pairs of operands", "why_tests_cant": "the reference is what the tests trust", "anchors": ["metalibm_functions/pow.py: ML_Pow.numeric_emulate", "metalibm_core/core/special_values.py: FP_SpecialValue"]}
{"id": "C95", "title": "The power function computes the exponent y log2|x| and the sign", "statement": "For finite operands the exponents whose powers of two are multiplied add up to y (e + log2|m|), each of the fractional ones is at most 1 in absolute value when e is negative, and the sign of the result is that of x when y is an odd integer.", "quantifier": "for all exponents e, logarithms of significands and finite y", "why_tests_cant": "whether e y is an integer decides between a right and a wrong result", "anchors": ["metalibm_functions/pow.py: ML_Pow.generate_scalar_scheme"]}
{"id": "C96", "title": "The n-th root function and its emulation on special operands", "statement": "rootn and its reference follow the OpenCL C clauses for zeros, infinities, NaNs, negative operands with an even n, and n equal to 0, 1 and -1.", "quantifier": "for all operands and integers n", "why_tests_cant": "the clauses depend on the parity and the sign of n, over the whole range of integers", "anchors": ["metalibm_functions/rootn.py: ML_Rootn.generate_scalar_scheme", "metalibm_functions/rootn.py: ML_Rootn.numeric_emulate"]}
{"id": "C97", "title": "The exponent of the n-th root is split without losing accuracy", "statement": "The integer and the fraction computed from e/n by a rounded division, its exact remainder and a rounded reciprocal add up to e/n with an error of at most half a unit of the last place of 1 (up to second order), and the fraction is at most 1 in absolute value; the remainder and the subtraction of the integer part are exact.", "quantifier": "for all integers e and n of the format and all roundings to nearest", "why_tests_cant": "the remainder must be exact for all quotients", "anchors": ["metalibm_functions/rootn.py: ML_Rootn.generate_scalar_scheme"]}
{"id": "C98", "title": "The exponential reduces its argument exactly", "statement": "In the reduction of exp, the product k*log2_hi and the subtraction x - k*log2_hi are exact, the reduced argument is within 17/64 of half a unit in the last place of 1 of x - k log 2 and inside the interval on which the polynomial is built.", "quantifier": "for all formats from binary32 on, all numbers between the early overflow and underflow bounds", "why_tests_cant": "exactness depends on the number of digits left free in log2_hi for every k, and log 2 is a real number", "anchors": ["metalibm_functions/ml_exp.py: ML_Exponential.generate_scalar_scheme"]}
{"id": "C99", "title": "The exponential multiplies by the power of two with one rounding", "statement": "The standard, late overflow and late underflow paths of exp all return the rounding of 2^k*poly to the format, including gradual underflow and overflow.", "quantifier": "for all k reached by the scheme, all polynomial values between 1/2 and 2, all formats", "why_tests_cant": "the late paths are taken on a few values of k only and go through two products", "anchors": ["metalibm_functions/ml_exp.py: ML_Exponential.generate_scalar_scheme"]}
{"id": "C100", "title": "The exponential is accurate to one unit in the last place", "statement": "exp returns a finite number less than one unit in the last place from exp(x), for every finite x whose exponential is in range, +infinity above the range, 1 at zero, and the IEEE results on infinities and NaNs; no x whose exponential exceeds half of the smallest subnormal number is flushed to zero.", "quantifier": "for all data, all formats from binary32 on, any polynomial within 2^-(p+5) of exp(r)-1-r", "why_tests_cant": "there are 2^64 operands in binary64 and the exponential is a real function", "anchors": ["metalibm_functions/ml_exp.py: ML_Exponential.generate_scalar_scheme"]}
{"id": "C101", "title": "The base two exponential splits its argument and reads its table inside its bounds", "statement": "In exp2, the table index is between 0 and 8 for every finite argument, the index guard never changes it and would keep any other index inside the table, the rest x - k - i/8 is computed exactly from the rounded fraction and is at most 1/16, and the fraction itself is exact except for small negative arguments, where it is within a quarter of the unit in the last place of 1.", "quantifier": "for all formats with at least 12 digits, all finite arguments", "why_tests_cant": "the fraction of a negative argument may round up to 1, on arguments that no directed test has", "anchors": ["metalibm_functions/ml_exp2.py: ML_Exp2.generate_scheme"]}
{"id": "C102", "title": "The base two exponential is accurate", "statement": "exp2 returns a number less than one unit in the last place from 2^x.", "quantifier": "for all finite arguments whose result is in range, normal or subnormal", "why_tests_cant": "2^x is a real number and there are 2^64 arguments in binary64", "anchors": ["metalibm_functions/ml_exp2.py: ML_Exp2.generate_scheme"]}
{"id": "C103", "title": "The base two exponential at the ends of its range and on special data", "statement": "exp2 of an integer is the exact power of two whenever it is representable; the result is +infinity from emax+1 on, zero only where 2^x is at most half of the smallest subnormal number, never a NaN for a number, and follows IEEE-754 on infinities and NaNs.", "quantifier": "for all data", "why_tests_cant": "the failing arguments form short intervals next to the bounds", "anchors": ["metalibm_functions/ml_exp2.py: ML_Exp2.generate_scheme"]}
{"id": "C104", "title": "The logarithm on special data", "statement": "log returns -infinity on both zeros, +infinity on +infinity, and a NaN on negative numbers, on -infinity and on NaNs.", "quantifier": "for all data, all formats, all constants and polynomials", "why_tests_cant": "the tests of the scheme are nested and overlap, the order decides", "anchors": ["metalibm_functions/generic_log.py: ML_GenericLog.generate_scalar_scheme"]}
{"id": "C105", "title": "The logarithm reduces its argument with the inverse its tables are made for", "statement": "The approximate inverse used to reduce the mantissa is the table entry of which the table of logarithms holds the logarithm (clearing its last digit changes nothing, the first entry is replaced by 1), and the reduced argument is inside the interval declared for the polynomial.", "quantifier": "for all mantissas in [1, 2), all formats from 12 digits on", "why_tests_cant": "the seed instruction and the table of logarithms compute their index on their own; they differ on a few mantissas next to the bounds of the table intervals only", "anchors": ["metalibm_functions/generic_log.py: ML_GenericLog.generate_reduced_log_split", "metalibm_functions/generic_log.py: ML_GenericLog.generate_log_table"]}
{"id": "C106", "title": "The logarithm is accurate", "statement": "log returns a number less than one unit in the last place from the logarithm of its argument, subnormal or normal, and log(1) is +0.", "quantifier": "for all positive numbers, all formats from 12 digits on, any polynomial within an eighth of half a unit in the last place, all roundings to nearest", "why_tests_cant": "the logarithm is a real number, and the cancellation next to one depends on the argument", "anchors": ["metalibm_functions/generic_log.py: ML_GenericLog.generate_reduced_log", "metalibm_functions/generic_log.py: ML_GenericLog.generate_reduced_log_split", "metalibm_functions/generic_log.py: ML_GenericLog.generate_scalar_scheme"]}
{"id": "C107", "title": "The cubic root is accurate", "statement": "cbrt returns a finite number less than one unit in the last place from the cubic root of its argument.", "quantifier": "for all positive numbers, all formats of 12 to 53 digits with tables rounded to nearest", "why_tests_cant": "the root is a real number; the iteration is only attracted by it, the last rounding errors are not, and the worst argument is one in tens of thousands", "anchors": ["metalibm_functions/ml_cbrt.py: ML_Cbrt.generate_scheme", "metalibm_functions/ml_cbrt.py: cbrt_newton_iteration"]}
{"id": "C108", "title": "The cubic root of the other data", "statement": "cbrt(-x) is -cbrt(x), cbrt(-0) is -0, cbrt of an infinity is this infinity, cbrt of a NaN is a NaN, and cbrt of a subnormal number is finite.", "quantifier": "for all data of all formats of 12 to 53 digits with tables rounded to nearest", "why_tests_cant": "negative numbers, infinities and tiny numbers follow the same iteration as the others, whose divergence is a fact about all its steps", "anchors": ["metalibm_functions/ml_cbrt.py: ML_Cbrt.generate_scheme"]}
{"id": "C109", "title": "The fused multiply-add is correctly rounded", "statement": "FP_MPFMA returns x*y + z rounded once to nearest, ties to even, in the format of the accumulator.", "quantifier": "for all normal x, y, z whose sum is in the normal range, all formats", "why_tests_cant": "two of three exponents decide the branch, the shift and the clamp; the emulation rounds the exact result, but the regression only generates the block and its single test case is in the branch that works", "anchors": ["metalibm_hw_blocks/ml_fp_mpfma.py: FP_MPFMA.generate_scheme"]}
{"id": "C110", "title": "The fused multiply-add aligns operands of different formats", "statement": "With an accumulator format wider than that of the operands, the product enters the sum with its weight.", "quantifier": "for all pairs of formats, all normal x, y, z", "why_tests_cant": "the width of the product is fixed and that of the datapath grows with the accumulator; only some pairs of formats are generated and none is simulated", "anchors": ["metalibm_hw_blocks/ml_fp_mpfma.py: FP_MPFMA.generate_scheme"]}
{"id": "C111", "title": "The fixed-point accumulation is exact", "statement": "FP_FIXED_MPFMA adds the product of its operands to the accumulator without any error: the two's complement output is acc + x*y modulo the width, the sign and magnitude output is acc + x*y when it fits, and a sequence of accumulations is the exact sum of products.", "quantifier": "for all formats, all numbers of extra digits, all finite operands, all accumulators, all sequences of products", "why_tests_cant": "the accumulator has hundreds of bits, the shift amount depends on both exponents, and the emulation is only run on one test case of normal operands", "anchors": ["metalibm_hw_blocks/ml_fixed_mpfma.py: FP_FIXED_MPFMA.generate_scheme", "metalibm_hw_blocks/ml_fixed_mpfma.py: FP_FIXED_MPFMA.numeric_emulate"]}
{"id": "C112", "title": "The extra digits of the fixed-point accumulator prevent overflows", "statement": "With extra_digit = k the accumulator holds every sum of 2^(k-1) products in two's complement, of 2^k products in sign and magnitude, so that one product always fits.", "quantifier": "for all formats, all k, all sequences of products of finite operands", "why_tests_cant": "the first overflow needs the largest products, and the regression passes a misspelt parameter so that no extra digit is ever generated", "anchors": ["metalibm_hw_blocks/ml_fixed_mpfma.py: FP_FIXED_MPFMA.generate_scheme"]}
{"id": "C113", "title": "Tests on vector masks keep their meaning on every backend", "statement": "IsMaskAllZero, IsMaskNotAllZero, IsMaskAnyZero and IsMaskNotAnyZero have the value their name says after the expansion pass, in the C support library and on x86; after the pass no such test is left and the value of the graph is unchanged.", "quantifier": "for all graphs, all masks, all vector sizes", "why_tests_cant": "the four tests differ by a quantifier and a negation, agree on most masks two by two, and the pass changes the graph in place while it reads it; some entries name functions that do not exist or take one argument", "anchors": ["metalibm_core/opt/p_vector_mask_test_legalization.py: VectorMaskTestExpander.expand_node", "metalibm_core/opt/node_transformation.py: Pass_NodeTransformation.transform_graph", "metalibm_core/support_lib/ml_support_lib.h: ml_is_vmask4_not_any_zero", "metalibm_core/targets/intel/x86_processor.py: legalize_test_IsMaskNotAnyZero"]}
{"id": "C114", "title": "The LLVM-IR lines compute the operation they are selected for", "statement": "For every operation and format of the LLVM table the generated instructions are accepted by the assembler and yield the value of the operation, including signed zeros, NaN comparisons and the four fused multiply and add variants.", "quantifier": "for all operands of the formats of the table", "why_tests_cant": "an ill-formed line is only seen when an LLVM assembler reads it, and a wrong sign of zero, a truncation in place of a rounding or an inverted mask test only for some operands", "anchors": ["metalibm_core/targets/common/llvm_ir.py: llvm_ir_code_generation_table", "metalibm_core/targets/common/llvm_ir.py: legalize_vector_reduction_test", "metalibm_core/core/legalizer.py: legalize_fma_to_std", "metalibm_core/code_generation/generators/llvm_ir_code_generator.py: LLVMIRCodeGenerator.generate_expr"]}
{"id": "C115", "title": "Legalized minimum and maximum", "statement": "The selection that replaces Min (Max) returns one of its operands, not greater (not less) than both, and does not depend on their order when one is a NaN.", "quantifier": "for all pairs of data of all formats", "why_tests_cant": "pairs with a NaN, an infinity or two zeros of different signs are rare among random operands", "anchors": ["metalibm_core/core/legalizer.py: minmax_legalizer_wrapper"]}
{"id": "C116", "title": "The vector-length agnostic loop computes every element", "statement": "The loop generated by the VLA function stores the value of the scalar scheme for each of the n elements and touches nothing else, whatever length the vsetvl instruction grants; the length asked for uses the whole group of registers and fits all the vectors of the body; an indexed load reads the element of its index.", "quantifier": "for all n, all vector lengths allowed by the specification, all scalar schemes, all element sizes and indices", "why_tests_cant": "the length granted is chosen by the processor, the elements outside of the usual path are rare, and lengths from 2^31 on or large tables are never tested", "anchors": ["metalibm_functions/vla_function.py: VLAFunction.generate_scheme", "metalibm_core/core/vla_vectorizer.py: VLAVectorizer.vectorize_scheme", "metalibm_core/targets/riscv/riscv_vector.py: vlaGetLengthOpGen", "metalibm_core/targets/riscv/rvv_legalization.py: Pass_RVV_Legalization"]}
{"id": "C117", "title": "The RISC-V vector entries compute the operation they are selected for", "statement": "For every operation and operand types of the RVV table (vector or scalar operands, four fused multiply-add variants, comparisons, selection, rounding) the intrinsics exist and each lane of the result holds the operation on the lanes of the operands.", "quantifier": "for all operations and operand types of the table, all vector lengths, all lanes", "why_tests_cant": "a missing intrinsic is only seen by a RISC-V compiler for this combination of types, and a wrong rounding, a saturation or the sign of a zero only on some data", "anchors": ["metalibm_core/targets/riscv/riscv_vector.py: rvv64_CCodeGenTable", "metalibm_core/targets/riscv/riscv_vector.py: RVVIntrinsic"]}
{"id": "C118", "title": "Tests of array functions check every element", "statement": "The arrays of the test follow one another in the input, output and expected tables, contain the given values, the standard test cases and the random values; the test fails exactly when an element is wrong or the function writes outside of its array; the maximal error is the largest over all elements and its index is printed.", "quantifier": "for all sizes of arrays, all given values and standard test cases, all tested functions", "why_tests_cant": "these are the tests: an element never looked at, an array used as a value or a swapped option cannot be seen by running them", "anchors": ["metalibm_core/core/array_function.py: ML_ArrayFunction.generate_test_tables", "metalibm_core/core/array_function.py: ML_ArrayFunction.generate_array_check_loop", "metalibm_core/core/array_function.py: ML_ArrayFunction.get_array_test_wrapper", "metalibm_core/core/array_function.py: ML_ArrayFunction.generate_vector_max_error_eval"]}
{"id": "C119", "title": "The hardware reciprocal is the correctly rounded inverse", "statement": "For every floating-point word x the reciprocal unit (table of 256 entries, four Newton-Raphson iterations on fixed-point vectors, rounding) returns 1/x rounded to nearest even, with its sign, and the inverse of the special values.", "quantifier": "for all words of the format, all significands, exponents and signs", "why_tests_cant": "the error of the iterations depends on every bit of the significand; the badly rounded inputs are those for which 2^48 leaves a remainder below seven, a handful among 2^23, and the range errors need extreme exponents", "anchors": ["metalibm_hw_blocks/ml_fp_div.py: FP_Divider.generate_scheme", "metalibm_hw_blocks/ml_fp_div.py: generate_NR_iteration", "metalibm_hw_blocks/ml_fp_div.py: FP_Divider.numeric_emulate"]}
{"id": "C120", "title": "Typing of untyped operations: formats, values kept, constants", "statement": "Let every operation of an expression have no format, at least one operand that is not a constant, numeric operands (no arithmetic on conditions alone, no bitwise operation on floating-point numbers), with variables of 32 or 64-bit integer and binary16, binary32 or binary64 formats and constants used once. Then the typing passes succeed; the format of an arithmetic operation is floating-point as soon as an operand is (a non-integer constant included), of the largest size among the operands that are not constants, signed as soon as one is, whatever their order; constants get the format of their operation. The values of all the operands belong to that format exactly when every integer operand is smaller than the largest size, or the result is an integer and the operand signed or no operand signed. The integer format taken from an interval contains it exactly when its bounds are those of a 64-bit integer of the sign of the lower one. A format given by the author is never replaced. False: a constant keeps its value (negative with unsigned operands, wider than the operand, odd of more than 24 bits with binary32); two operations sharing a constant are typed independently; constants only, binary16 comparisons with a constant, the choice between two conditions, exponent insertions and vectors are typed.", "quantifier": "for all expressions, formats, intervals and constants", "why_tests_cant": "the expressions are unbounded trees and the failures need particular combinations of formats and sharing that no function of the library has to show", "anchors": ["metalibm_core/opt/p_function_typing.py: instantiate_abstract_precision", "metalibm_core/opt/p_function_typing.py: instantiate_precision", "metalibm_core/opt/p_function_typing.py: get_integer_format", "metalibm_core/core/ml_formats.py: merge_abstract_format"]}
{"id": "C121", "title": "Bipartite approximation: error of the tables and of the result", "statement": "The generated entity splits its argument into three fields, reads an initial value and an offset and adds them. For every input of the interval the right entries are read, the sum differs from the function by at most the spread of its slopes over a sub-interval times the reach of an offset, plus half a unit of each table, and the result is that sum truncated to the output format; the error written in the log is the exact maximum over the inputs of the tables. Documented as wrong: the logged error ignores the truncation, the rounding mode input is never used, the expected values have one bit too few above 1, an offset rounded up to a power of two is stored as zero, negative functions do not fit their table, functions with a zero at a bound cannot be generated, and intervals wider than 1 confuse neighbouring inputs.", "quantifier": "for all functions on rationals, intervals, field sizes, formats and inputs", "why_tests_cant": "the error bound holds for all functions; the generator only prints the error of the one it was given, and that error leaves out the final conversion", "anchors": ["metalibm_hw_blocks/bipartite_approx.py: GenericBipartiteApprox.generate_scheme", "metalibm_hw_blocks/bipartite_approx.py: BipartiteApprox.numeric_emulate"]}
{"id": "C122", "title": "Vector promotion keeps values and uses only supported operations", "statement": "The promotion pass moves an operation to the vector registers of the target exactly when all its formats have a promoted format and the target has the operation there, and inserts conversions at the borders. For every program, whatever is shared and whatever the levels, it never fails, the program computes the same values, every operation is an unchanged one, a promoted one that the target supports, or a conversion between a format and its promoted format, and promoting the result again changes nothing. A node asked for twice gives one object, and what a branch defines is forgotten after it. The two Intel tables keep the element and the number of lanes. Documented as wrong: a variable that is assigned again after it was read in promoted form; the conversion of its old value is used again.", "quantifier": "for all programs, translation tables, target capabilities and meanings of operations", "why_tests_cant": "the memoization is keyed by object and format with nested levels; its errors need a node shared between particular consumers, and the sets of supported operations are unbounded", "anchors": ["metalibm_core/opt/p_vector_promotion.py: Pass_Vector_Promotion.promote_node", "metalibm_core/opt/p_vector_promotion.py: does_target_support_promoted_op", "metalibm_core/opt/p_vector_promotion.py: MapStack", "metalibm_core/targets/intel/m128_promotion.py: trans_table"]}
{"id": "C123", "title": "Piecewise polynomial approximations: tables, value of the graph, errors", "statement": "generate_parameters_piecewise_poly_approx succeeds exactly when every sub-interval is of degree 0, or is not a zero of the function with a relative target and is approximated by Sollya or nearly constant. Row i of the table is then the polynomial answered for sub-interval i, entry i of the offsets its lower bound, and loading the exported approximation with the same indexing gives the same tables. The generated graph computes that polynomial at the offset input plus its last coefficient times the next power (it is the polynomial only where that is zero), within the rounding errors of its fused operations. The error given back is the largest of the sub-intervals when all could be computed; otherwise only those after the last failure count. The error given back by loading is the largest over the sub-intervals with a missing coefficient, hence zero for complete files.", "quantifier": "for all numbers of sub-intervals, degrees, polynomials, errors, inputs and roundings of bounded relative error", "why_tests_cant": "a test on a few inputs sees a result close to the function: the additional term is of the order of the approximation error, and the errors are only logged", "anchors": ["metalibm_core/core/approximation.py: generate_parameters_piecewise_poly_approx", "metalibm_core/core/approximation.py: load_piecewese_poly_params_from_axf", "metalibm_core/core/approximation.py: generate_piecewise_poly_approx_from_params", "metalibm_core/utility/axf_utils.py: ApproxError"]}
{"id": "C124", "title": "Approximation files: what is written is read back", "statement": "For any approximation of the three classes whose polynomials have distinct degrees and whose tags are plain values, writing serialize_to_dict with AXF_JSON_Exporter and reading it with AXF_JSON_Importer gives an object with the same fields, each polynomial listed by increasing degree; lists keep their order. If str followed by sollya.parse keeps the values, the formats are half, float, double or fixed-point, and the indexing is a SubFPIndexing over binary32 or binary64 or a SubUniformIntervalIndexing, the library object obtained is the one written; a value that the display does not keep comes back changed. The name of any other format is refused, as is an error neither absolute nor relative and an unknown class. False as the code stands: precision_parser ignores what follows a fixed-point format and answers a number for a number; a split over SubMantissaIndexing is written but cannot be read; the interval of a split and the tag of a simple approximation are lost; from_SPA, from_UPWA and from_GenericPolynomialSplit raise on every object.", "quantifier": "for all approximations, lists of them, values, displays and parsers", "why_tests_cant": "a test reads the files shipped or one it writes; dictionaries, degrees, intervals and formats are unbounded, and keys change type on the way through JSON", "anchors": ["metalibm_core/utility/axf_utils.py: AXF_SimplePolyApprox", "metalibm_core/utility/axf_utils.py: AXF_GenericPolynomialSplit", "metalibm_core/utility/axf_utils.py: AXF_UniformPiecewiseApprox", "metalibm_core/utility/axf_utils.py: AXF_JSON_Importer", "metalibm_core/utility/ml_template.py: precision_parser", "metalibm_core/core/indexing.py: Indexing.parse"]}
{"id": "C125", "title": "bfloat16: conversions, constants and rounding", "statement": "Converting a BFloat16 word to ML_Binary32 keeps its datum (number, signed zero, infinity, class of NaN) and converting back gives the word. Converting a finite ML_Binary32 rounds toward zero into the bfloat16 numbers; infinities are kept, and a NaN is kept with its class if one of its seven upper significand bits is set. BFloat16.get_cst of a number that does not overflow binary32 decodes as that number rounded to binary32 then toward zero, within 2^-7 for normal numbers. After round_to_bfloat16, numbers whose rounding on 11 digits is below 2^-126 are coded 0, those at 2^128 or more are coded as the infinity of their sign, others are at most 15/16 of a unit away. False as the code stands: a signaling NaN with the seven upper bits clear becomes an infinity; numbers 5, 6 or 7 eighths of a unit above a bfloat16 number are given that number although the next one is nearer; numbers from (2-2^-8)2^127 to (2-2^-11)2^127 give the largest finite number instead of an infinity; small negative numbers are coded +0 and not -0; infinities, NaNs and -0 declared with the bfloat16 format are coded 0.", "quantifier": "for all words of 16 and 32 bits and all rational numbers", "why_tests_cant": "the test converts a few table constants with a tolerance of 2^-7, which truncation satisfies; NaN payloads, halfway cases and the overflow threshold are never reached", "anchors": ["metalibm_core/core/ml_formats.py: round_to_bfloat16", "metalibm_core/core/ml_formats.py: bfloat16_get_cst", "metalibm_core/core/ml_formats.py: BFloat16_Class", "metalibm_core/code_generation/generic_processor.py: legalize_bfloat16_to_float32", "metalibm_core/code_generation/generic_processor.py: legalize_float32_to_bfloat16_trunk"]}
{"id": "C126", "title": "Comparison, absolute value and NaN test of multi-limb numbers", "statement": "On two-limb numbers whose first limb is the rounding of their value, legalize_mp_2elt_comparison answers the order of the values for each of the six relations, and legalize_mp_2elt_abs gives the absolute value; with limbs half a unit apart instead, equal numbers are said distinct. legalize_mp_3elt_comparison renormalizes the operands which are not constants; this keeps the value, and gives limbs that are each the rounding of what remains exactly when adding the two low limbs first does not change the rounding of the sum. The answer is right in that case, and also whenever the two numbers differ by more than u times the sum of their low parts; numbers said equal are equal. A first limb that is a NaN makes every relation but NotEqual false. False as the code stands: renormalized binary64 triples with the same value are said distinct, and the greater of two said smaller, even if each limb is its sum with the next one rounded; an operand whose first limb is infinite is said distinct from everything, itself included; the NaN test says yes of the infinity produced by Add211.", "quantifier": "for all formats of at least 3 digits, roundings to nearest, limbs and relations", "why_tests_cant": "tests compare random numbers, far from each other at the scale of the last limb, and never two decompositions of one number", "anchors": ["metalibm_core/core/multi_precision.py: legalize_mp_2elt_comparison", "metalibm_core/core/multi_precision.py: legalize_mp_3elt_comparison", "metalibm_core/core/multi_precision.py: legalize_mp_2elt_abs", "metalibm_core/core/multi_precision.py: legalize_mp_2elt_test_nan", "metalibm_core/opt/ml_blocks.py: Normalize_33"]}
{"id": "C127", "title": "Fusion of multiplications and additions", "statement": "On a graph without cycles fuse_multiply_add ends; every object that was there keeps its class, attributes and number of inputs; from the result no addition or subtraction of two operands can be reached that is breakable, has a multiplication not marked prevent_optimization and no multiplication with a debug attribute. If fused operations have the value of the multiplication and addition they replace, and additions have the format of the multiplications they add, the result has the value of the graph and all other objects keep theirs. An addition that can be fused becomes a fused operation of the kind given by its class, the side of the multiplication and the option for dot products, with its format, tag and debug attribute, exact when the addition and the multiplications are. Met again, it gives the same object. A second run changes nothing. False as the code stands: a 32-bit product added in 64 bits is computed on 64 bits; with a single rounding the value changes; additions marked prevent_optimization are fused; a graph of n+1 objects takes 2^n visits.", "quantifier": "for all graphs, shared or not, all values and semantics of operations, all options", "why_tests_cant": "tests run the pass on the graphs of a few functions, where formats are uniform and sharing is small, and compare with a tolerance", "anchors": ["metalibm_core/opt/p_function_std.py: fuse_multiply_add", "metalibm_core/core/attributes.py: Attributes.get_light_copy", "metalibm_core/core/ml_operations.py: FusedMultiplyAdd"]}
{"id": "C128", "title": "Sharing of sub-expressions between branches", "statement": "subexpression_sharing takes out of a condition or switch only operations found under it that do not depend on variables other than the inputs of the function. Objects are kept, and inputs of statements are those they had with shared operations inserted; whatever the branches taken, the operations executed are the original ones in the same order, with executions of shared operations inserted. A program in which each operation is used once is not changed. False as the code stands: an operation used k+1 times in the only branch of a condition is executed k times before the condition even if the branch is not taken, whatever its class; a load of a branch used twice is moved before a store of that branch; operations shared by the branches of a condition which is itself a branch or is inside a switch are not factorized; a statement used in two places gets its insertions several times.", "quantifier": "for all program graphs without cycles, shared or not, all choices of branches", "why_tests_cant": "tests only check that functions still give the right values for inputs that raise no fault; operations executed needlessly, or before a store, are not observed", "anchors": ["metalibm_core/opt/p_function_std.py: subexpression_sharing", "metalibm_core/opt/p_function_std.py: insert_pre_statement"]}
{"id": "C129", "title": "The lowering engine", "statement": "If lowering actions add objects without changing others and give an object of the same value, the graph given by the lowering pass has the value of the graph received, and objects changed in place keep their value, class, extra inputs and number of operands. If moreover the object given by an action needs no action itself, nothing reached through operands of the result needs an action, and lowering again changes nothing. A graph with nothing to lower is not changed. False as the code stands: the object reached in d+2 steps is used for the first use of a node only, its other uses get the object of the first step, which still needs d+1 steps; objects used in cases of a switch or in the statement before it are never lowered; neither are the operands of a node whose action gives it back, as the base class does; an action giving a new node of the same class makes the engine run for ever.", "quantifier": "for all graphs, shared or cyclic, all lowering actions, all semantics of operations", "why_tests_cant": "tests lower a few functions for one target, in which no shared node takes two steps", "anchors": ["metalibm_core/opt/generic_lowering.py: LoweringEngine.lower_node", "metalibm_core/opt/generic_lowering.py: Pass_GenericLowering.execute_on_graph"]}
{"id": "C130", "title": "Summaries of tests and their comparison", "statement": "A summary dumped then imported is the same, whatever the comment, if titles and fields have no space nor end of line and titles do not start with #. compare says Downgraded (Upgraded) of the tests that pass in the reference (result) and not in the other, Decreased of those passing in both whose measure has increased, Improved of the others passing in both with two measures, with the percentage (1 - res/ref)*100, NotFound of those absent from the result; it leaves out exactly the tests failing in both. Exchanging the summaries exchanges Downgraded and Upgraded and turns Decreased into Improved. Each entry is listed in one category of the report or counted as uncategorized; for positive measures the thresholds i and d list as improved the results below ref*(1-i/100) and as decreased those above ref*(1+d/100). A summary of test runs has one entry per title, that of its last run, which is OK exactly if the run succeeded with an error, if any, between 0 and the threshold. Comparing such summaries fails exactly when a test measured in both has a zero measure in the reference. False as the code stands: that failure loses the whole comparison; a summary compared with itself has improved on every measured test, and a NaN measure is an improvement; tests not in the reference are not reported even if they fail, tests that disappeared are in no category; a title with a space is read back as another one; a message with an end of line is read back as another test, which may be said to pass.", "quantifier": "for all summaries, comments, titles and messages, all readings of numbers, all thresholds", "why_tests_cant": "the summaries are themselves the result of the tests; nothing tests their comparison", "anchors": ["valid/test_summary.py: TestSummary.dump", "valid/test_summary.py: TestSummary.import_from_file", "valid/test_summary.py: TestSummary.compare", "valid/test_summary.py: TestSummary.dump_compare_result", "valid/soft_test_suite.py: GlobalTestResult.summarize"]}
{"id": "C131", "title": "Formats of virtual booleans", "statement": "The legalization of vector booleans (and that of scalar booleans) changes nothing but the formats of comparisons, logical operations, negations, tests (and assemblings) having a virtual boolean format. Each such node of the graph gets the boolean format with the same number of lanes whose width is that of the wider of its operands, with the formats the operands have at the end; if the operands that are not booleans to legalize have a single width, all booleans of the graph have this width. A second run by a new pass object changes nothing. The pass gives back the graph if its root is a boolean to legalize or is neither a comparison nor a virtual boolean. False as the code stands: with a comparison whose format is already chosen as root, or the same pass object executed twice on a graph, the pass gives None instead of the graph; vector comparisons of lanes of neither 32 nor 64 bits raise KeyError; the conjunction of a 32-bit and a 64-bit boolean gets a 64-bit format and keeps its 32-bit operand; the operands of an assembling after the second are ignored; other boolean operations and virtual constants keep a virtual format, counted as 32 bits.", "quantifier": "for all graphs, formats and lanes, both passes", "why_tests_cant": "tests legalize a few functions using one width; formats not supported are found by the C compiler, if at all", "anchors": ["metalibm_core/opt/p_vbool_legalization.py: VirtualBoolVectorLegalizer.legalize_node", "metalibm_core/opt/p_scalar_vbool_legalization.py: VirtualScalarBoolLegalizer.legalize_node", "metalibm_core/opt/node_transformation.py: Pass_NodeTransformation.transform_graph"]}
{"id": "C132", "title": "Removal of gotos and of register copies in machine programs", "statement": "Removing the gotos at the end of blocks to the block that follows keeps all executions (registers, memory, blocks executed) and changes nothing else. The collapse of register copies replaces `src = e; ...; dst = src`, when src is written once and read once, by `dst = e; ...`. Memory, jumps and all registers but the sources removed are kept, provided that dst is neither read nor written in between and that the definition of src is not itself a copy removed; the sources removed are neither read nor written any more; a program without such copies is unchanged. False as the code stands, for want of checking these conditions: in `a = e; b = a; c = b`, what is left is `b = e` and c is never written; a register returned by the function, whose only other use is a copy, is not written any more; a destination read between the definition and the copy is read with its new value; a destination written in between keeps this value instead of the copied one.", "quantifier": "for all programs, all semantics of operations, stores and tests, all initial registers and memory", "why_tests_cant": "tests compile a few functions in which copies do not interfere, and no test has a chain of copies", "anchors": ["metalibm_core/opt/p_machine_code_gen.py: Pass_SimplifyBBFallback.execute_on_graph", "metalibm_core/opt/p_machine_code_gen.py: Pass_CollapseRegisterCopy.execute_on_graph", "metalibm_core/code_generation/machine_program_linearizer.py: MachineInsnGenerator.linearize_graph"]}
{"id": "C133", "title": "Selection of the implementation of an operation", "statement": "Given a target, a language and an operation, the implementation used is that of the first entry (in the order of the tables of the target, then of its parents) for the language, operation class and key whose condition and interface accept the operation and whose answer is not a weak match; if there is none, of the first weak match; and none is found exactly when no entry accepts the operation. An operation is said supported iff the language is registered and some entry accepts it, hence, in a registered language, iff an implementation is found. The parents of a target are its ancestor classes, each once; they are always found; and when all paths between two classes have the same length, each class is searched before its bases. The matches on formats accept exactly the tuples they describe when the numbers of formats agree. False as the code stands: in a language other than the default one (VHDL, for instance) operations are said unsupported although an implementation is selected; an answer that is neither a boolean nor a match result counts as supported and makes the selection raise; with D(B, A), B(C), C(A), the table of A is searched before that of C which redefines it; a second request of a target with other arguments gives the first instance; the match by lists of formats and the relaxed match accept tuples with more or fewer formats than described; the match of fixed-point formats ignores the first format.", "quantifier": "for all tables, conditions, interfaces, languages, operations and class hierarchies", "why_tests_cant": "tests generate code for a few targets, one language and instances created once", "anchors": ["metalibm_core/code_generation/abstract_backend.py: GenericBackend.get_recursive_implementation", "metalibm_core/code_generation/abstract_backend.py: GenericBackend.is_supported_operation", "metalibm_core/code_generation/abstract_backend.py: create_proc_hierarchy", "metalibm_core/code_generation/abstract_backend.py: GenericBackend.get_target_instance", "metalibm_core/code_generation/generator_utility.py: type_strict_match_list", "metalibm_core/code_generation/generator_utility.py: type_custom_match"]}
{"id": "C134", "title": "Checks, tags and evaluation of all nodes of a graph", "statement": "The tagging pass gives a tag to each node of the graph without one, keeps the tags already there, touches no other node, and gives different tags to different nodes if names of classes differ; run again it does nothing. The debug pass sets the debug attribute on the nodes of the graph whose tag is listed and clears it on the others, unless given True in which case they keep theirs; other nodes are untouched. The support check for C accepts a graph iff all its operations are supported. The precision check says True, when first executed, iff all nodes of the graph meet the check. The evaluation of a graph knowing the values of its inputs gives its value, and errors are displayed exactly for the nodes above the inputs, each with its value. False as the code stands: Loop and RangeLoop nodes get the same tags, having the same name; a tag given may be that already held by another node; asked for another language, the support check looks at the root in this language and at all other nodes in C, so it accepts nodes unsupported in the language and refuses supported ones; a check pass executed again answers for the root alone, so a faulty graph passes the second time, and so does a graph sharing the faulty nodes.", "quantifier": "for all acyclic graphs, checks, targets, languages, existing tags and input values", "why_tests_cant": "tests run each pass once, in C, on graphs without faults", "anchors": ["metalibm_core/opt/p_tag_node.py: Pass_TagNode.tag_node", "metalibm_core/opt/p_tag_node.py: Pass_DebugTaggedNode.enable_debug", "metalibm_core/opt/p_check_support.py: check_target_support", "metalibm_core/opt/p_check_precision.py: Pass_CheckGeneric.execute", "metalibm_core/opt/runtime_error_eval.py: evaluate_graph_value", "metalibm_core/opt/runtime_error_eval.py: generate_error_eval_graph"]}
{"id": "C135", "title": "Legalization of bit fields, concatenations, selections and mantissas", "statement": "The software version of the selection of bits lo to hi of a signal is exactly these bits, whatever the sign of the input format, if input and target are fixed-point formats or the target has no fraction; that of one bit is this bit. The software version of a concatenation is its operands side by side, for unsigned operands with the fraction of the result. Branches of a selection are converted to the format of the result unless they have its size. The mantissa extracted from a floating-point signal is the field with the implicit digit: with the exponent (1 for subnormal numbers) it gives the magnitude of the number, and its high bit is set exactly for normal numbers. False as the code stands: bits selected from a std_logic_vector into a fixed-point format with a fraction are shifted, so that no field but 0 is right; a negative right operand of a concatenation sets all bits above it, whatever the left operand; a concatenation of bits whose format has a fraction is shifted; a branch of a selection having the size of the result and a smaller fraction is not converted, so that no value but 0 is right.", "quantifier": "for all formats, sizes, positions and operands", "why_tests_cant": "tests use unsigned integer formats, for which all conversions keep the bits", "anchors": ["metalibm_core/opt/p_rtl_legalize.py: generate_bitfield_extraction", "metalibm_core/opt/p_rtl_legalize.py: sw_legalize_concatenation", "metalibm_core/opt/p_rtl_legalize.py: sw_legalize_vector_element_selection", "metalibm_core/opt/p_rtl_legalize.py: legalize_Select", "metalibm_core/core/hdl_legalizer.py: mantissa_extraction_modifier"]}
{"id": "C136", "title": "Reports, displays of values and groups of functions", "statement": "A report at a level is displayed exactly when that level was enabled, by name or by name and sub-level, and the program goes on; enabling a level adds exactly the reports of that name and sub-level; a report at Log.Error never returns and raises the exception given. The display of a value gives printf as many arguments as its format reads, for vectors, double-words, triple-words and fixed-point formats. The object built for a function has the arguments added before. The functions of a group visited by a pass are those that are not external, and after a merge those of both groups; merging with demotion keeps the functions found by name. False as the code stands: an error reported at a sub-level of Log.Error stops nothing; enabling a level makes a report with a brace in its text raise; messages written on a stream are not separated; vectors of eight pairs give 12 arguments to 16 conversions; of two fixed-point formats differing by their sign, the one built second is displayed with the sign of the first; integers of more than 64 bits are displayed with a macro that C does not have, and two 64-bit words with no separation; arguments added after the object of a function was asked for are not in it; names of the merged group, or of the group itself without demotion, may designate other functions after a merge, and merging a group with itself does not end.", "quantifier": "for all levels, messages, value names, formats, orders in which formats are built, functions and groups", "why_tests_cant": "tests run without verbose levels, display a few formats and never merge groups with equal names", "anchors": ["metalibm_core/utility/log_report.py: Log.report", "metalibm_core/utility/log_report.py: Log.enable_level", "metalibm_core/core/display_utils.py: DisplayFormat", "metalibm_core/core/ml_formats.py: ML_Base_SW_FixedPoint_Format.build_display_format_object", "metalibm_core/code_generation/code_function.py: CodeFunction.get_function_object", "metalibm_core/code_generation/code_function.py: FunctionGroup.merge_with_group"]}
{"id": "C137", "title": "Attributes of nodes, their defaults and copies", "statement": "A node takes the attributes it is given, None included, and otherwise the innermost defaults; its handle is new unless given. A copy has all attributes of the node, static and dynamic, whatever the defaults are at that time, and shares its handle. A light copy keeps format, debug, tag, silence, handle, rounding mode and prevention of optimizations and has no interval, exactness or errors. Defaults set and unset in a well bracketed way are back to what they were, and inside the default is the last set. When formats are propagated to constant inputs, each operation gets the constant in the format asked for, constants themselves being unchanged, if no constant is asked for in two formats that it has not. False as the code stands: a copy is never unbreakable, so that a sum that must not be fused may be once copied; a node with a required dynamic attribute cannot be copied; removing the last default raises but removes it, after which no node can be created; copying a constant twice gives the same node, so that the first of two operations asking for a constant in two formats gets the second format, and a constant met in any number of basic blocks has two nodes only.", "quantifier": "for all attributes, defaults, dynamic attributes, sequences of calls, constants and formats", "why_tests_cant": "tests copy graphs without such marks, and ask for a constant in one format", "anchors": ["metalibm_core/core/attributes.py: Attributes", "metalibm_core/core/attributes.py: Attributes.get_copy", "metalibm_core/core/attributes.py: Attributes.unset_default_precision", "metalibm_core/core/ml_operations.py: Constant.copy", "metalibm_core/opt/p_size_datapath.py: propagate_format_to_input", "metalibm_core/opt/p_gen_bb.py: sort_node_by_bb"]}
{"id": "C138", "title": "Functions made of a part of a graph", "statement": "The function made of an arithmetic operation and of a list of argument nodes has one parameter for each argument, and called with the values of the arguments it gives the value of the operation, if the input variables of the graph are all below arguments and parameters have different names; its result depends on its arguments only. Constant tables are read where they are even when given as arguments. False as the code stands: an input variable left out of the arguments is used in the function, where it is unknown, without an error; a function whose root is a function call, a variable, a constant or a table returns nothing; arguments with the same tag, or a tag equal to the default name of another, give two parameters of one name; CallExternalizer.externalize_call raises a TypeError for all its arguments.", "quantifier": "for all graphs, lists of arguments, tags, semantics of operations and values", "why_tests_cant": "tests make functions of one or two expressions of input variables with different names", "anchors": ["metalibm_core/core/ml_call_externalizer.py: generate_function_from_optree", "metalibm_core/core/ml_call_externalizer.py: CallExternalizer.externalize_call", "metalibm_core/core/ml_function.py: ML_FunctionBasis.externalize_call"]}
{"id": "C139", "title": "Register allocation of machine programs", "statement": "Straight-line machine code with its registers replaced by physical ones makes the same stores and leaves the same results, argument k being in register k at the beginning and result k in register k at the end, if the coloring given by asmde is valid for the lists of definitions and uses, if registers read before being written are arguments which are not results, and if no register shares a physical register with another one live when it is written. The edges given to asmde are exactly those of branches and returns, one to the first block, and branches go to blocks of the program. False as the code stands: the first argument and the first result are the same asmde register, so that an argument still used after the result is written is overwritten; an argument which is also a result is read in the register of the result; of two values returned in two branches the second is not in register 0; a register assigned from a register stops the translation.", "quantifier": "for all programs, registers, colorings, operations, values and calling lists", "why_tests_cant": "tests allocate registers of a few functions of one argument and look at the text of the code", "anchors": ["metalibm_core/code_generation/asmde_translator.py: AssemblySynthesizer.translate_to_asmde_program", "metalibm_core/code_generation/asmde_translator.py: AssemblySynthesizer.transform_to_physical_reg", "metalibm_core/code_generation/asmde_translator.py: AssemblySynthesizer.generate_ABI_phys_output_regs", "metalibm_core/targets/common/dummy_asm_target.py: DummyArchitecture.generate_ABI_physical_input_reg_tuples"]}
{"id": "C140", "title": "Hardware formats for software, and formats of pointers", "statement": "The pass for software formats gives every node reached through inputs the software fixed-point format with the same sizes and sign, and each table format met the software format of its storage; other nodes and tables are kept, codes keep their values, and a second run does nothing. A software format has a C type when it has 1 to 128 bits, and it is the smallest one. Equality of formats is symmetric and reflexive, and a pointer is equal to a pointer or a table of equal data. False as the code stands: vectors of unevaluated size and numeric vectors keep their hardware format, as does all that is in pre-statements and cases; a table out of the graph with the same format object is changed; equality is not transitive; attributes of pointers are in their names and not in their equality.", "quantifier": "for all graphs, formats, sizes, codes and nesting of pointers and tables", "why_tests_cant": "tests translate one function, with one table, and look at the result by eye", "anchors": ["metalibm_core/opt/p_legalize_rtl_to_sw_format.py: legalize_rtl_to_sw_format", "metalibm_core/opt/p_legalize_rtl_to_sw_format.py: Pass_LegalizeRTLtoSWFortmat.execute_on_node", "metalibm_core/core/ml_formats.py: ML_Base_SW_FixedPoint_Format", "metalibm_core/core/ml_complex_formats.py: ML_Pointer_Format.__eq__"]}
{"id": "C141", "title": "Intervals in the answers of Gappa", "statement": "An interval written by Gappa, brackets and blanks anywhere and any number of comments in braces, is read as the two texts on the sides of its comma once comments, brackets and blanks are removed, commas in comments having no effect; without a comma out of comments, or with several, ValueError is raised, as for a comment not closed. In an answer, each expression gets the interval said of it by the last line with its name after the line of results, and no others are in the dictionary; an answer without results raises. False as the code stands: a closing brace before the first opening one makes the reading loop forever; of a comment in another the end is left in the bound; one line that cannot be read loses all others.", "quantifier": "for all texts, comments, numbers of comments, bounds and answers", "why_tests_cant": "tests need Gappa, and read only what it answers for a few formulas", "anchors": ["metalibm_core/utility/gappa_utils.py: parse_gappa_interval", "metalibm_core/utility/gappa_utils.py: execute_gappa_script_extract"]}
