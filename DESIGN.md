# Formal model of metalibm (pinned commit) in Rocq/Coq 8.16.1

## Method

* Shallow embedding: each modelled Python function is a total Gallina function
  over `Z`, `N`, `nat`, `Q`, `bool`, `list`, `option` (Python exceptions are an
  explicit error value). Every definition cites file and lines of /repo.
* Files (all in `rocq/theories`):
  `<Area>Model.v` definitions only; `<Area>Spec.v` small independent
  specification where one is needed; `<Area>Proofs.v` and others lemmas;
  `<Area>Props.v` final theorems, `Example`s showing non-trivial instances of
  their hypotheses, and `Print Assumptions`.
* Loops whose end is not structural have fuel; `None` is "not finished" or a
  Python exception, as stated at the definition, and theorems either give
  enough fuel or hold for every finished run.
* Where the full claim is false of the code, the counter-example is a theorem
  `..._refuted` (a concrete input or, where possible, a whole family of them),
  and the largest true part is a theorem; when only part of the claim is
  established it carries `_partial` or the status `partial` in MANIFEST.json,
  whose note says what is missing or false.
* Sollya numbers are modelled as exact rationals/integers; Sollya's rounding
  functions are modelled by their mathematical definition.
* Floating-point computations are functions of a rounding `rnd : Q -> Q`
  specified only by "nearest number of the format" (RoundSpec.nearest_in), so
  that the theorems hold for every tie-breaking rule, or of the round to
  nearest even `rne` (RoundRne) where the code fixes it.
* Elementary functions are compared with `exp` and `ln` of the standard
  library of real numbers.
* Generated code/hardware is modelled by the value of the generated operation
  graph: machine integers as `Z` modulo 2^n, bit vectors as `list bool` or `Z`.
* Theorems are tested by mutation: seeded/LOG.jsonl records, for each edit of
  a model, the theorems that stopped proving.

## Per-property plan

`Files` is where the theorems of the property are stated.

| id | title | model | proof | files |
|----|----|----|----|----|
| C01 | Special-value arithmetic follows IEEE-754 | special-value arithmetic, branch by branch, over class+sign (numbers in Q) | case analysis against IEEE table; refutations for the wrong branches | SpecialProps |
| C02 | Special-value comparisons follow the extended-real order | comparison methods with 3-valued result | case analysis against extended-real order; refutations | SpecialProps |
| C03 | Floating-point encoding round trip | `get_integer_coding`/`get_value_from_integer_coding` over (mantissa, exponent) dyadics | round-trip by arithmetic on div/mod powers of two; monotonicity; bounds; refute max subnormal | FpFormatProps |
| C04 | Floating-point encoding is order preserving and injective | `get_integer_coding`/`get_value_from_integer_coding` over (mantissa, exponent) dyadics | round-trip by arithmetic on div/mod powers of two; monotonicity; bounds; refute max subnormal | FpFormatProps |
| C05 | Floating-point format bounds are exact | `get_integer_coding`/`get_value_from_integer_coding` over (mantissa, exponent) dyadics | round-trip by arithmetic on div/mod powers of two; monotonicity; bounds; refute max subnormal | FpFormatProps |
| C06 | Fixed-point encoding round trip | fixed-point format functions over Q/Z | arithmetic; refute signed decode | FixedProps |
| C07 | Fixed-point truncate / round / saturate | fixed-point format functions over Q/Z | arithmetic; refute signed decode | FixedProps |
| C08 | Bit-level classification tests match IEEE classes | generated bit formulas over Z codes | independent field decomposition spec, arithmetic | FpFormatProps |
| C09 | Exponent and mantissa extraction/insertion | generated bit formulas over Z codes | independent field decomposition spec, arithmetic | FpFormatProps |
| C10 | Interval arithmetic encloses | MetaInterval over Q with explicit empty | order reasoning; induction on lists | IntervalProps |
| C11 | Interval list refinement loses nothing | MetaInterval over Q with explicit empty | order reasoning; induction on lists | IntervalProps |
| C12 | Range evaluation is sound | expression syntax, `evaluate_range`, range functions | structural induction; refutations for Modulo and RawExponentExtraction | IntervalProps, IntervalTight |
| C13 | Interval-driven simplification of comparisons, min/max and tests preserves values | simplifier over the same syntax | induction on expressions | IntervalProps |
| C14 | Boolean simplification preserves truth values | boolean expression simplifier | refutation of or/not rewriting; soundness of and/not rewriting | LogicProps |
| C15 | Datapath sizing: products never overflow | format solvers | nonlinear integer arithmetic; refutations for add/sub/neg | SizingProps |
| C16 | Datapath sizing: sums, differences and negations never overflow | format solvers | nonlinear integer arithmetic; refutations for add/sub/neg | SizingProps |
| C17 | Datapath sizing: common format contains both formats | format solvers | nonlinear integer arithmetic; refutations for add/sub/neg | SizingProps |
| C18 | Datapath sizing: constants are representable | format solvers | nonlinear integer arithmetic; refutations for add/sub/neg | SizingProps |
| C19 | Bit slicing composition | slices on Z bits | `Z.testbit` reasoning | RtlFixedProps, SizingProps |
| C20 | Horner scheme evaluates the polynomial | generators producing expression trees, evaluated in a commutative ring | induction on coefficient list / degree; cache invariant | PolyProps |
| C21 | Estrin scheme evaluates the polynomial | generators producing expression trees, evaluated in a commutative ring | induction on coefficient list / degree; cache invariant | PolyProps |
| C22 | Power generation | generators producing expression trees, evaluated in a commutative ring | induction on coefficient list / degree; cache invariant | PolyProps |
| C23 | TwoSum / FastTwoSum are error-free | generators evaluated over any rounding to nearest of rationals (RoundSpec) | error-free addition lemmas proved from the definition of nearest | LimbProps, LimbRound, RoundRne |
| C24 | Multi-precision blocks compute the right sum or product | blocks evaluated with exact operations (ring) | `ring`; refutations | LimbExact, LimbProps, LimbTriple, LimbTripleProps, MpLibProps |
| C25 | Multi-limb min/max and comparison | limb lists | lexicographic order lemma; rounding lemmas | LimbProps |
| C26 | Constant limb decomposition | limb lists | lexicographic order lemma; rounding lemmas | LimbProps |
| C27 | Software leading-zero count | 32-bit sequence over Z | case split on the leading-one position, all inputs | HwIntProps |
| C28 | Hardware leading-zero counter | loop over bits | induction on width | HwIntProps |
| C29 | Bit-heap compression preserves the value | bit heaps as weight-indexed maps, reduction loops | weighted-sum invariant; decreasing bit count | BitHeapProps |
| C30 | Bit-heap reduction terminates at the requested height | bit heaps as weight-indexed maps, reduction loops | weighted-sum invariant; decreasing bit count | BitHeapProps |
| C31 | Partial products and Booth recoding | bit insertion for products | induction on digits; Booth identity | BitHeapProps |
| C32 | Compound adder | `rec_add` over bit vectors | strong induction on width | HwIntProps |
| C33 | Integer divider | divider iterations | loop invariant | HwIntProps |
| C34 | Leading-zero anticipation | LZA formula | induction on bits with carry automaton | HwIntProps |
| C35 | Hardware truncation to integer | FP_Trunc on codes | arithmetic on codes | TruncProps |
| C36 | Hardware floating-point adder rounds correctly | FP adder on codes | refutations (negative sums, large exponent difference); partial correctness | AdderProps |
| C37 | Generated names are fresh | symbol tables as maps, name generation | freshness invariant over histories; fuel-free termination argument; refutation | NamesProps |
| C38 | Free-name generation terminates | symbol tables as maps, name generation | freshness invariant over histories; fuel-free termination argument; refutation | NamesProps |
| C39 | Pass scheduling respects dependencies | scheduler state machine | invariant over execution; refutation for result threading | PassesProps |
| C40 | Dominator computation | CFG as finite graph, fixpoint iteration | dominance as path property | DomProps |
| C41 | Dominance frontier and phi placement | CFG as finite graph, fixpoint iteration | dominance as path property | DomProps |
| C42 | Structured code to basic blocks preserves execution | structured programs and CFG programs with small-step semantics | simulation | BlocksProps, DomProps |
| C43 | Pipeline retiming delivers values at the right stage | retime map | invariant; stream semantics | PipeProps, TravProofs |
| C44 | Random generators stay in range | generators as functions of the draws | arithmetic | RandProps |
| C45 | Table indexing maps every input to its interval | index functions | arithmetic on codes | IndexProps |
| C46 | VHDL constant literals denote the constant | string generation | digit-string induction | RtlFixedProps |
| C47 | Payne-Hanek chunking | chunk loop over Q/Z | loop invariant | PayneProps |
| C48 | Machine-code linearization preserves expression values | DAG linearization | invariant over emitted code | LinProps |
| C49 | Table splitting and enclosure | list-of-lists tables | list lemmas | TableProps |
| C50 | Reduction trees combine every operand exactly once | queue reduction | permutation/AC invariant | LogicProps |
| C51 | Fast 2^i | clamp + exponent insertion | arithmetic | Exp2iProps |
| C52 | Dequantizer rounding | rounding increment | floor/parity arithmetic | DequantProps |
| C53 | Remainder/quotient digit recurrence | exact recurrence | loop invariant | RemquoProps |
| C54 | Graph copy | heap of nodes, memoised copy | invariant over the copy map; refutation for shared default map | GraphProps |
| C55 | Graph ordering | DAG traversals | induction; refutation for the BFS order | GraphProps |
| C56 | Hardware lowering of fixed-point add, sub, mul | VHDL bit vectors as a width and an integer | arithmetic modulo powers of two; refutations for mixed signs | RtlFixedProps |
| C57 | Hardware lowering of fixed-point conversion, comparison, negation and shift | VHDL bit vectors as a width and an integer | arithmetic modulo powers of two; refutations for mixed signs | RtlFixedProps |
| C58 | C constants of fixed-point values | constants as text and C integer semantics | digit-string induction; refutations | FixedProps |
| C59 | Datapath sizing: other operators and the constant-fits test | sizing functions of the other operators over formats and ranges | integer arithmetic; refutations | SizingProps |
| C60 | Software lowering of fixed-point operations | fixed-point nodes lowered to C integers with undefined behaviour explicit | arithmetic; refutations where a shift or a cast is wrong | LowerProps |
| C61 | Fixed-point positions | positions as integers | case analysis | SizingProps |
| C62 | Reduction trees have minimal depth | queue reduction building trees | induction on the queue with a depth potential | LogicProps |
| C63 | Linearized pass work-list | work-list of graph nodes | invariant over the traversal | GraphProps |
| C64 | Declared error bounds of the double-word blocks | blocks of LimbModel over any rounding to nearest with unbounded exponents | error analysis in Q, block by block; refutations of declared bounds | LimbBounds, LimbProps, LimbTriple, LimbTripleProps, MpLibProps |
| C65 | Triple-word blocks declared exact | blocks of LimbModel over any rounding to nearest with unbounded exponents | error analysis in Q, block by block; refutations of declared bounds | LimbBounds |
| C66 | Table initializer text | initializer text of nested tables | induction on the table | TableProps |
| C67 | Iterative floating-point modulo | loop with fuel over a rounding to nearest | exactness of each step, remainder invariant | FmodProps |
| C68 | Leading-zero count of a fixed-point value | C count of leading zeros on fixed-point values | arithmetic on Z.log2 | LowerProps |
| C69 | C library classification tests | macros on encodings modulo 2^32 and 2^64 | field decomposition, Z.testbit | SupportProps |
| C70 | C library field manipulation and leading zeros | macros on encodings modulo 2^32 and 2^64 | field decomposition, Z.testbit | SupportProps2 |
| C71 | C multi-precision library | library functions over roundings to nearest of rationals | error-free transformations, error bounds | MpLibProps |
| C72 | C library fused multiply-add emulation | ml_fmaf with a 53-digit and a 24-digit rounding | double rounding analysis, witness | MpLibProps |
| C73 | C library subnormal rounding | bit patterns | arithmetic; witness | MpLibSub |
| C74 | Static vectorization of a scheme | expressions and statements with vector semantics | induction on statements; refutations | VecProps |
| C75 | Function inlining | substitution of a function body | induction; refutation | VecProps2 |
| C76 | Loops of array functions | loops over arrays of integers | loop invariant | VecProps2 |
| C77 | Acceptance of results | data with special values, tables as lists, loops | case analysis, induction on the loops; refutations | CheckAccept, CheckDegraded |
| C78 | Test tables and test loops | data with special values, tables as lists, loops | case analysis, induction on the loops; refutations | CheckLoops |
| C79 | Maximal error evaluation | data with special values, tables as lists, loops | case analysis, induction on the loops; refutations | CheckLoops |
| C80 | Units in the last place and neighbours | data with special values, tables as lists, loops | case analysis, induction on the loops; refutations | CheckUlp |
| C81 | Generated C code computes the graph | graphs of nodes, generated syntax trees, memoization levels | simulation between the evaluation of the graph and the execution of the code | CgenProps |
| C82 | Shared operations are generated once and declared once | graphs of nodes, generated syntax trees, memoization levels | simulation between the evaluation of the graph and the execution of the code | CgenProps |
| C83 | The SSA renaming preserves executions and assigns every name once | basic blocks with renamed variables | simulation with reaching definitions; composition with C40-C41 | SsaProps |
| C84 | Insertion of phi nodes and renaming together produce an equivalent SSA program | basic blocks with renamed variables | simulation with reaching definitions; composition with C40-C41 | SsaProps |
| C85 | The reduced division of the division scheme is correctly rounded | Newton-Raphson iterations over a rounding to nearest of rationals, reconstruction on IEEE data | relative error invariants, correction lemma of a nearly correct quotient | DivCore, DivOnes, DivProofs |
| C86 | The division scheme returns the IEEE quotient of two numbers | Newton-Raphson iterations over a rounding to nearest of rationals, reconstruction on IEEE data | relative error invariants, correction lemma of a nearly correct quotient | DivProps, DivScheme |
| C87 | Division follows IEEE-754 on special operands | decision lists on IEEE data | case analysis against the IEEE table | DivProps |
| C88 | The reciprocal seed tables have the accuracy assumed by the schemes | seed tables as computed lists | interval bounds on each entry, for all mantissas | DivProps |
| C89 | Square root correctly rounded | iterations over a rounding to nearest of rationals | error invariants; midpoints excluded by integer arithmetic; hard cases decided on dyadics | SqrtProofs, SqrtProps |
| C90 | Reciprocal square root accuracy | iterations over a rounding to nearest of rationals | error invariants; midpoints excluded by integer arithmetic; hard cases decided on dyadics | SqrtProps |
| C91 | Square root of special operands | decision list on IEEE data | case analysis | SqrtProps |
| C92 | Seed of the reciprocal square root | seed computed from tables | interval bounds | SqrtProps, SqrtSeed |
| C93 | The power function follows IEEE-754 on special operands | decision lists on IEEE data | case analysis against a table of the standard; refutations | PowProofs |
| C94 | The emulation of the power function follows IEEE-754 on special operands | decision lists on IEEE data | case analysis against a table of the standard; refutations | PowProofs, PowProps |
| C95 | The power function computes the exponent y log2/x/ and the sign | decomposition of the exponent over Q | arithmetic; refutations | PowProofs, PowProps |
| C96 | The n-th root function and its emulation on special operands | decision lists on IEEE data | case analysis against OpenCL clauses; refutations | PowProofs |
| C97 | The exponent of the n-th root is split without losing accuracy | rounded division and remainder over Q | error analysis | PowExp |
| C98 | The exponential reduces its argument exactly | reduction over any rounding to nearest, constants around the real log 2 | exactness of products; enclosure of log 2 proved from a series | ExpProps |
| C99 | The exponential multiplies by the power of two with one rounding | products on IEEE data | exactness of scalings by powers of two, one rounding | ExpProps |
| C100 | The exponential is accurate to one unit in the last place | composition of C98 and C99 with a polynomial given by its error | error analysis in R against `exp` of the standard library | ExpProps |
| C101 | The base two exponential splits its argument and reads its table inside its bounds | reduction over a rounding to nearest | exactness of the fraction | Exp2Props |
| C102 | The base two exponential is accurate | table, polynomial given by its error, reconstruction | error analysis in R against `exp (x ln 2)` | Exp2Props |
| C103 | The base two exponential at the ends of its range and on special data | whole scheme on IEEE data | case analysis, exactness at the integers | Exp2Props |
| C104 | The logarithm on special data | whole scheme on IEEE data | case analysis | LogProps |
| C105 | The logarithm reduces its argument with the inverse its tables are made for | seed, table index, cleared digit | table checked by the kernel, monotonicity of the index | DivProps, LogNear, LogReduce |
| C106 | The logarithm is accurate | two-word arithmetic over a rounding to nearest, constants given by their error | error analysis in R against `ln` of the standard library, series of the logarithm | LogExist, LogNear, LogProofs, LogProps |
| C107 | The cubic root is accurate | Newton iteration on IEEE data, tables given by the real roots | error analysis in R of one step, eight steps, binade ends; binary32 tables checked by integer cubes | CbrtProps |
| C108 | The cubic root of the other data | whole scheme on IEEE data | invariants of the iterates | CbrtProps |
| C109 | The fused multiply-add is correctly rounded | datapath of the fused multiply-add on words of two formats | aligned integers, cells of half a unit shared by the datapath value and the exact sum | MpfmaProps |
| C110 | The fused multiply-add aligns operands of different formats | as C109 | as C109 | MpfmaProps |
| C111 | The fixed-point accumulation is exact | datapath of the fixed-point accumulation on words, both encodings | integers in units of the last digit, induction on the sequence | FixMpfmaProps |
| C112 | The extra digits of the fixed-point accumulator prevent overflows | as C111 | bound on the partial sums by induction | FixMpfmaProps |
| C113 | Tests on vector masks keep their meaning on every backend | expansion pass on trees of nodes with in-place changes, C functions, x86 calls | structural induction, invariant of the queue reduction | MaskProps |
| C114 | The LLVM-IR lines compute the operation they are selected for | table of LLVM instructions run by a small reading of the language reference | case analysis, odd rounding | LlvmProps |
| C115 | Legalized minimum and maximum | selection on data | order of data | LlvmProps |
| C116 | The vector-length agnostic loop computes every element | strip-mining loop over a memory, with the length function as a parameter; byte indices | induction on the elements left, refinement to the scalar scheme | VlaProps |
| C117 | The RISC-V vector entries compute the operation they are selected for | table of intrinsics on lanes of words and data | case analysis of the table, one lemma per operation | RvvProps, RvvProps2 |
| C118 | Tests of array functions check every element | tables as lists and functions of rows, test loops over lists of indices | induction over the arrays, invariant of the maximum | ArrProps |
| C119 | The hardware reciprocal is the correctly rounded inverse | table, iterations on bit vectors with their formats, final rounding on words | refinement of the vectors to integers, error recurrences, linear and polynomial arithmetic | RecipProps |
| C120 | Typing of untyped operations: formats, values kept, constants | expressions as trees, constants as names in a store of formats, two recursive passes | induction over trees, refinement to the specification of formats, set inclusion | TypProps |
| C121 | Bipartite approximation: error of the tables and of the result | tables and their formats as functions of the sizes, bit vectors of the entity | slopes of chords, triangle inequality, folds for the logged maximum, divisibility | BipProps |
| C122 | Vector promotion keeps values and uses only supported operations | graphs as trees with identities, memoization stack, in-place and copied nodes | refinement to a function on plain trees, induction, cache invariant for shared execution | VproProps |
| C123 | Piecewise polynomial approximations: tables, value of the graph, errors | answers of Sollya as records, tables as lists, errors as optional numbers, graph as a Horner loop | induction over degrees and sub-intervals, error propagation, folds for the maxima | PwProps |
| C124 | Approximation files: what is written is read back | Python values as a tree type, JSON as a function on values, Sollya objects as a parameter with its display and parser | sorting lemmas, decimal strings, induction over lists, case analysis of names | AxfProps |
| C125 | bfloat16: conversions, constants and rounding | words as integers, the format model of C07 at 8/7 bits, rounding to digits as a rational function | field decomposition of words, truncation of significands, rounding lemmas | Bf16Props |
| C126 | Comparison, absolute value and NaN test of multi-limb numbers | graphs evaluated with given limb operations and comparison; rounded rationals and IEEE data | lexicographic order lemmas, monotonicity of roundings, exactness of the blocks | MpcProps |
| C127 | Fusion of multiplications and additions | heap of nodes with in-place changes and memoization, values as a relation over any semantics | invariant by induction on fuel with ranks: heap extension, replaced inputs, new nodes | FmaProps |
| C128 | Sharing of sub-expressions between branches | heap of control-flow nodes and operations, traversal with its maps as lists, executions as sequences of operations | invariant of the traversal, relation between heaps closed under insertions | ShareProps |
| C129 | The lowering engine | heap of nodes changed in place, table of lowered nodes, actions as any function on heaps | frame property (nodes of the table are not changed), values as any solution of the equations of the graph, invariant with the set of nodes in progress | EngProps |
| C130 | Summaries of tests and their comparison | texts as lists of characters, dictionaries as lists of pairs in order, numbers as rationals with infinities and NaN, errors as values | inversion of split and join, induction on the dictionary compared | TsumProps |
| C131 | Formats of virtual booleans | heap of nodes changed in place, map of visited nodes, formats by lanes and widths | invariant of the traversal with the set of nodes in progress, frame property of the nodes of the map | VbProps |
| C132 | Removal of gotos and of register copies in machine programs | programs as lists of blocks of instructions, objects changed in place as a list of changes, any semantics of operations | equality of executions; simulation in which pending copies relate a destination to its source | McProps |
| C133 | Selection of the implementation of an operation | tables as lists of entries, conditions and interfaces as functions, classes as numbers with their bases | equality with the first element of a list meeting a condition; invariant of the breadth-first traversal, levels | SelProps |
| C134 | Checks, tags and evaluation of all nodes of a graph | numbered nodes with smaller inputs, one traversal with an action that may raise, maps of visited nodes | a traversal is a fold over the reachable nodes, each once; invariant of the map of answers | TravProps |
| C135 | Legalization of bit fields, concatenations, selections and mantissas | bits as numbers, formats by sizes and sign, conversions as scaling and dropping of high bits | bits of quotients and remainders; divisibility by powers of two | RlgProps |
| C136 | Reports, displays of values and groups of functions | levels, messages and displays as strings, the map of displays, groups as two lists | counting of characters in concatenations; invariant of the map; a growing list is never read to its end | RepProps |
| C137 | Attributes of nodes, their defaults and copies | attributes as a record, defaults as stacks, the default map of copies as part of the state | field by field; invariant of the map of copies over the requests | AttrProps |
| C138 | Functions made of a part of a graph | numbered nodes, copies as trees with parameters, calls with a binding of names | induction on the depth, values of nodes do not depend on the fuel | ExtProps |
| C139 | Register allocation of machine programs | straight-line code over registers and over physical ones, asmde registers, edges | live registers, agreement of live registers by induction on the code | AsmProps |
| C140 | Hardware formats for software, and formats of pointers | formats of nodes and of tables as maps changed by a traversal; formats of pointers as trees | the traversal is a fold over the nodes reached, each once | RswProps |
| C141 | Intervals in the answers of Gappa | text of an interval as characters, the loop removing comments with fuel | induction on the list of comments; each round removes the first | GpiProps |

## Trusted base

* The kernel of Coq 8.16.1, including its `vm_compute` conversion (coqchk
  re-checks the compiled files without it).
* The axioms listed by `Print Assumptions`, at the end of this file. They are
  four axioms of the standard library, used by the theorems about real
  functions only: `ClassicalDedekindReals.sig_not_dec`,
  `ClassicalDedekindReals.sig_forall_dec`,
  `FunctionalExtensionality.functional_extensionality_dep` (real numbers) and
  `Classical_Prop.classic`. All other theorems are closed. No library
  outside of the standard one is used.
* The manual transcription of Python (and of the C support library) into
  Gallina, cited line by line, with the simplifications stated in each file.
* The reading of VHDL, C and IEEE-754 written down in the specification files.

## What is modelled and what is not

Not modelled at all: Sollya, Gappa and the external compilers and simulators;
file output, plotting and command line; the HTML and benchmark
utilities; register allocation (external library);
`opt/p_auto_pipeline.py` except linearize_graph, `opt/p_function_std.py` except fuse_multiply_add and subexpression_sharing,
statements, tables and calls of `opt/p_function_typing.py`,
the functions evaluating one operation in `opt/runtime_error_eval.py`, `opt/p_rtl_legalize.py` except the legalizers of C135,
`core/approximation.py` except the piecewise polynomials, the Gappa and OpenCL
code generators, the LLVM generator except constants, the target tables of
`targets/` except `common/fixed_point_backend.py`, the operations of
`common/llvm_ir.py`, those of `riscv/riscv_vector.py` and rows of `generic_processor.py` and `x86_processor.py`;
`ml_expm1`, the bases of `generic_log` other than e, `ml_log1p`, the trigonometric and
hyperbolic functions, `erf`, `gamma`, `softmax`; the hardware blocks
`ml_new_fp_div`, `ml_fp_gen_adder` and the
remaining parts of `mult_array`. Exception flags are never modelled.

### What each model file covers and leaves out

Each paragraph is the header of the file; every definition inside cites its own lines.

* **BitHeapModel.v**: Model of the bit-heap compression of /repo/metalibm_hw_blocks/mult_array.py. Bits are symbolic single-bit expressions (the Python code manipulates operation nodes, never bit values).
* **HwIntModel.v**: Integer hardware blocks: leading-zero counter, leading-zero anticipator, compound adder, integer divider, and the software 32-bit leading-zero count.
* **FpFormatModel.v**: Floating-point formats: integer coding, decoding, bounds, and the bit-level operation graphs generated by the legalizer for class tests and exponent/mantissa extraction and insertion. Models metalibm_core/core/ml_formats.py:297-480 (ML_Std_FP_Format), metalibm_core/core/special_values.py:458-575 (codings of special values) and metalibm_core/core/legalizer.py:338-711.
* **SpecialModel.v**: Special-value arithmetic and comparisons. Models metalibm_core/core/special_values.py:47-96 (NumericValue operators), 145-173 (FP_SpecialValue operators), 189-211, 213-304 (comparisons), 309-460 (arithmetic), 577-620 (class predicates). The operand type [fpv] is shared with FpFormatModel (Num = NumericValue). A Python exception is [Err].  The [precision] attribute is dropped, except that reading [.precision] of a NumericValue is an exception.
* **FixedModel.v**: Model of the fixed-point formats: codec, rounding, truncation, saturation, C constants. Source: /repo/metalibm_core/core/ml_formats.py. Numbers handled as Sollya objects in the code are exact rationals here.
* **SizingModel.v**: Model of the inference of fixed-point formats for a hardware datapath. Sources: /repo/metalibm_core/opt/p_size_datapath.py and /repo/metalibm_core/opt/rtl_fixed_point_utils.py. A node is seen through its format and its evaluated range (None when evaluate_range returns None).  fixed_point() of ml_hdl_format.py 301-309 only wraps the sizes in a format object.
* **RtlFixedModel.v**: Model of the lowering of fixed-point operations to VHDL bit vectors, of the VHDL constants, and of the slice simplifications. Sources: /repo/metalibm_core/code_generation/vhdl_backend.py, /repo/metalibm_hw_blocks/rtl_blocks.py, /repo/metalibm_core/core/ml_hdl_format.py, /repo/metalibm_core/opt/p_simplify_rtl.py. A std_logic_vector is a width and the unsigned integer it spells; the code builds expressions, the model directly computes the vector they denote. Trusted reading of VHDL: & is concatenation, (h downto l) a slice, signed and unsigned + and - work modulo the common width, * is exact on the sum of the widths (plus one for a mixed product), comparisons of signed/unsigned vectors compare the integers.
* **IntervalModel.v**: Model of the interval objects, of the range evaluation of operation graphs and of the interval-driven simplification. Sources (under /repo/metalibm_core): core/meta_interval.py, opt/opt_utils.py 62-108, core/ml_operations.py (range functions), opt/p_numerical_simplification.py. Sollya intervals are pairs of exact rationals; the Sollya operations on them are the usual exact hulls (Sollya may enlarge them: it rounds outward).  The memoization maps only avoid recomputation: nodes are trees here.
* **LogicModel.v**: Model of the operand-list reductions and of the logical simplification pass. Sources (under /repo): metalibm_core/opt/opt_utils.py 157-169, metalibm_core/core/ml_operations.py 2100-2107, metalibm_hw_blocks/compound_adder.py 60-76, metalibm_core/opt/p_logical_simplification.py 43-178.
* **NamesModel.v**: Model of the symbol tables and of the free-name requests. Source: /repo/metalibm_core/code_generation/code_object.py 58-270. Tables are shared between blocks, so a state maps table identifiers to tables; a MultiSymbolTable lists the identifiers of its nine tables and of all the tables of its parents.
* **PassesModel.v**: Model of the pass dependencies and of the pass scheduler. Source: /repo/metalibm_core/core/passes.py 35-210.
* **GraphModel.v**: Model of operation graphs as linked objects: copy, breadth-first orders and the work-list of linearized passes. Sources (under /repo/metalibm_core): core/ml_operations.py 652-660, 722-736, 816-829, 1935-1943 (copy), opt/opt_utils.py 133-155 (depth_node_ordering), opt/p_auto_pipeline.py 385-401 (linearize_graph), core/passes.py 332-350 (LinearizedGraphOptimization.execute).
* **PolyModel.v**: Model of the polynomial evaluation schemes. Source: /repo/metalibm_core/core/polynomials.py. Coefficients are elements of any type C with the equality test used by is_cst_with_value; node tags and precisions of nodes are dropped, except that the precision is part of the key of the power map.
* **LimbModel.v**: Multi-limb (double-word / triple-word) building blocks. Model of metalibm_core/opt/ml_blocks.py and of metalibm_core/opt/p_expand_multi_precision.py. The Python functions build operation graphs.  Each block is modelled as a function over a record of limb operations: evaluating the built graph with those operations.  The same definition is then read with exact operations (any commutative ring) and with rounded operations. Simplifications: the `precision`, `tag` and `prevent_optimization` attributes of the nodes are dropped (so the calls which forget to forward `precision`, MP_FMA2121 and MP_Add323, look the same as the others); Python exceptions are None.
* **IndexModel.v**: Table indexing.  Model of metalibm_core/core/indexing.py and of generic_mantissa_msb_index_fct (metalibm_core/core/ml_table.py:245-263). The index nodes are evaluated on the integer view of the input (TypeCast). Simplifications: bounds are computed with exact arithmetic (the code mixes Python floats for 1.0 + i * 2**-k, exact up to 52 bits, and Sollya objects); int(i / 2**f) is the integer quotient.  SubMantissaIndexing.get_index_node (indexing.py:107-108) names generic_mantissa_msb_index_fct, which indexing.py does not import: calling it raises NameError.  The function itself, used by ML_ApproxTable, is what is modelled.
* **TableModel.v**: Numerical tables.  Model of metalibm_core/core/ml_table.py and of metalibm_core/opt/p_table_linearization.py. A Python nested list is a tree; Python exceptions are None (or Err).
* **DequantModel.v**: Model of the dequantizer, /repo/metalibm_hw_blocks/dequantizer.py. Every signal is modelled by the integer held on its wires together with the number of fractional bits the code gives it; the wires are as wide as needed (sizing of the inner signals is the subject of C15-C17), only the explicit formats of the code enter.  Inputs are signed integers on a given number of bits.
* **Exp2iModel.v**: Model of the fast 2^i function, /repo/metalibm_functions/fast_exp2i.py.
* **RandModel.v**: Model of the random value generators, /repo/metalibm_core/core/random_gen.py. A draw (random.random(), random.randrange) is an argument of the model; the properties quantify over it.  Python floats used for the weights are exact rationals here, so the rounding of the weights is not modelled.  None is a Python exception.
* **RemquoModel.v**: Model of the remainder/quotient digit recurrence, /repo/metalibm_functions/remquo.py 140-405 (generate_scheme). Numbers are rationals; rnd is the rounding of every floating-point product and difference, es the exponent of the smallest positive number, p the precision.  Overflow is left out (RoundSpec).  Comparisons, selections, Abs, MantissaExtraction and ExponentInsertion are exact.  The quotient is a W-bit integer whose shifts and additions wrap.  The scheme ends on a Return(-1) when the 5000-iteration watchdog is exhausted: None.
* **FmodModel.v**: Model of the iterative floating-point modulo, /repo/metalibm_functions/fmod.py 75-120 (generate_scalar_scheme). rnd rounds every operation (division, fused multiply-add, product, sum); Trunc of a number of the format is a number of the format.  The scheme has no bound on the loop: fuel, None = not finished.
* **PayneModel.v**: Model of the Payne and Hanek reduction, /repo/metalibm_core/core/payne_hanek.py. p is the field size of the format (52 for binary64); chunk_size, half_size and the exponent of scaling_factor are Python true divisions, which are integers for p divisible by 4 (binary64, binary128), the only case modelled here.  rnd rounds every floating-point operation and every table entry, without exponent bounds.  Integers of int_precision have W bits and wrap (swrap), which also stands for the out of range float to integer conversion.
* **DomModel.v**: Model of the control-flow graph analyses of /repo/metalibm_core/opt/p_gen_bb.py: edges, predecessors, dominators, immediate dominators, dominance frontiers and phi placement. A basic block is a number.  Python sets are lists read through membership; where the code iterates over a set (cfg_edges, dominator_map[bb], the work list W) the order is that of the list, and the theorems hold for every order.  Errors reported with Log.Error are None.
* **BlocksModel.v**: Model of /repo/metalibm_core/opt/p_gen_bb.py, Pass_GenerateBasicBlock: structured statements (Statement, ConditionBlock, Loop, Return) to basic blocks. A basic block is a number, a program maps it to its list of instructions. Assignments, conditions and returned expressions are left abstract (types A, C, R): they are evaluated where they stand.  PlaceHolder nodes are not modelled. NotImplementedError and the assertion are None.
* **PipeModel.v**: Model of pipeline generation, /repo/metalibm_core/opt/p_pipelining.py. An operation is a number n; node n is its content and stage n its init_stage attribute.  A signal of the pipelined design is the operation itself (SOrig n) or the register holding it at stage s (SReg n s, the Signal e{s+1}_tag_q whose init_op is n and whose init_stage is s).  get_op_key maps both to n. The in-place op.set_input is a map from operations to their new inputs. None stands for a raised KeyError, for Log.Error and for a loop without end. The output ReferenceAssign nodes are operations without their destination operand (it is created at the stage of the assignment and never rewritten).
* **LinModel.v**: Model of the generation of straight-line register code, /repo/metalibm_core/code_generation/machine_program_linearizer.py, and of the passes of /repo/metalibm_core/opt/p_machine_code_gen.py that work on its result (register allocation, done by an external library, excepted). A node is a number.  A basic block is a label with the list of its nodes; the block made from it carries the same label (get_post_linearization_bb). Virtual registers are their register_id.  None stands for an exception or for a recursion without end.
* **TruncModel.v**: Model of the hardware truncation of a floating-point number to an integer, /repo/metalibm_hw_blocks/fp_int_conv.py 85-148.  Words are integers in [0, 2^n). The sums, differences and comparisons of exponents are exact: their formats are those of the datapath sizing (see SizingModel).
* **AdderModel.v**: Model of the hardware floating-point adder, /repo/metalibm_hw_blocks/ml_fp_adder.py 84-351. Words are integers.  Signals of width n are integers modulo 2^n.  The exponent difference and its comparisons are exact: their formats come from the datapath sizing (see SizingModel), and the constants p+2 and 2p+4 are assumed to fit the signed format of e+2 bits they are given (lines 138-154).  The width of the leading zero count is assumed to be at most e+2 (line 328).  The unused reset input is dropped.
* **LowerModel.v**: Lowering of fixed-point operations to C integer operations.  Model of metalibm_core/targets/common/fixed_point_backend.py and of the integer part of metalibm_core/code_generation/generic_processor.py. The value of a fixed-point node is the integer held by its C variable. Every node is stored in a variable of its own type, as the generator does when it does not inline (generator_utility.py:371-378, 466-474). Undef is the undefined behaviour of C: overflow of signed +, - and * (after the promotion of narrow types to int), shift by the width or more.  A left shift of a signed value wraps, as gcc specifies.  Rejected: no C operator is found, or Python raises an exception.
* **SupportModel.v**: The C support library: encoding macros and integer helpers. Model of metalibm_core/support_lib/ml_support_lib.h:62-240 and of the rows of metalibm_core/code_generation/generic_processor.py:575-735 which select them, together with metalibm_core/core/legalizer.py:699-711. A float or a double is represented by its encoding (the union casts float_to_32b_encoding, float_from_32b_encoding, ... lines 93-117 are then the identity).  uint32_t and uint64_t operations are taken modulo 2^32 and 2^64; a C condition is an integer, true when it is not zero.  Macro arguments are values (the macros which do not parenthesise k, lines 174-183, would misparse an argument such as `a ? b : c`; not modelled).
* **MpLibModel.v**: The C multi-precision library, metalibm_core/support_lib/ml_multi_prec_lib.c, and ml_fmaf of metalibm_core/support_lib/ml_support_lib.h. A finite double (float) is the rational it represents; every +, -, * of the C source is the exact operation followed by the rounding of the type, rnd64 (rnd32).  Simplifications: no overflow, infinity or NaN, and no distinction between the two zeros, except in ml_subnormalize_d_dd_i which is modelled on bit patterns; the compiler does not contract a*b + c into a fused multiply-add (see mult_contracted in MpLibProps for the effect of it).
* **VecModel.v**: Model of the static vectorizer, of the vector wrapper around a vectorized scheme, of function inlining and of the loops of the element-wise array functions. Sources (paths under /repo): - metalibm_core/core/static_vectorizer.py 44-61, 64-70, 81-111, 115-130, 193-310, 323-382, 384-497 - metalibm_core/core/ml_function.py 266-337 (generate_c_vector_wrapper), 339-380 (generate_opencl_vector_wrapper), 1212-1236 - metalibm_core/opt/p_function_inlining.py 35-65 - metalibm_functions/vectorial_function.py 85-126, 228-286 Simplifications: - a value of any format is an integer (its bit pattern); a boolean is true when it is not 0; a vector is the list of its elements and a scalar where a vector is possible is a list of one element; - the meaning of every arithmetic operation and of every external function is a parameter [ops : nat -> list Z -> option Z] ([None] is undefined behaviour, for example a table read out of its bounds); constant tables are part of the operation symbol; - graphs are trees: the memoisation of copies only makes nodes shared; - precisions, tags, debug attributes and logging are left out; - the vector memory access is by element, addresses count elements.
* **CheckModel.v**: Acceptance tests of generated functions: reference values, failure tests, test tables, test loops and maximal error loops. Sources (paths under /repo): - metalibm_core/core/precisions.py 57-330 - metalibm_core/core/ml_function.py 94-111, 1288-1374, 1376-1402, 1445-1569, 1584-1790 - metalibm_core/core/ml_formats.py 326-350, 497-535 Simplifications: scalar floating-point formats (no multi-limb format); numbers computed by Sollya are exact rationals; tables are lists, an access outside a table is [None]; printing is dropped, except for the values printed by the maximal error functions.
* **CgenModel.v**: Model of the C code generator: how a graph of operations and statements is turned into C statements, with one variable per operation, memoization of the nodes already generated and nested levels of code. Source: /repo/metalibm_core/code_generation/generators/c_code_generator.py 75-366, /repo/metalibm_core/code_generation/generator_utility.py 89-104, 408-460, 478-512, 680-800, /repo/metalibm_core/code_generation/code_object.py 340-405, 436-450, 917-1000. Simplifications: - values are integers and operations are total functions of their operands; - the generated text is represented by its syntax tree, a level of code by the names it declares and its statements (the declarations of a level are written in front of its code, push_into_parent_code); - the tags, the memoization dictionaries (keyed by node identity) and the names of every level are kept; the choice of a free name is an arbitrary function [pick] of the names in use and of the prefix; - a Statement with several inputs is a sequence of two, an absent else branch an empty one, constants are written as literals; - the left-hand side of an assignment is a Variable; - SwitchBlock is left out (get_pre_statement raises NotImplementedError for it, ml_operations.py 1972, so none can be generated), as are PlaceHolder, exceptions, tables and debug messages.
* **SsaModel.v**: Model of the second half of the SSA transformation, /repo/metalibm_core/opt/p_gen_bb.py 573-783 (variable_renaming and what it calls), after the insertion of phi nodes (514-549, DomModel). A variable is a number; a name is a variable with the index given by new_var_index (720-728), or without index for the variable of the source. An operation of a block is an assignment or an expression evaluated for its effect; expressions are trees: nodes shared between operations, which the code renames in place, are not modelled.  A block ends with a jump, a test or a return.  A phi node has a destination and the operands filled so far, two at most (534: PhiNode(v, v, None, v, None)).
* **DivModel.v**: Model of the division scheme of /repo/metalibm_functions/ml_div.py and of the reciprocal seed it starts from. The reduced computation (Newton-Raphson iterations on the reciprocal, then correction of the quotient) is a function of the rounding rnd of the floating-point operations, on rationals: its operands are scaled to around one, so it is modelled without overflow.  The reconstruction of the result and the special cases are modelled on IEEE data (fpv), with overflow, signed zeros and NaNs. Simplifications: exception flags and RaiseException are left out; the subnormal branch (Subnormalize in extended precision, 297-326) is a parameter; rounding modes other than to nearest are left out; NR_Iteration with force_fma=False is left out; the error bounds computed by Gappa (solve_eval_error) only annotate the graph.
* **SqrtModel.v**: Model of the square root and reciprocal square root schemes of /repo/metalibm_functions/ml_sqrt.py and ml_isqrt.py, and of the seed they start from. The computation is a function of the rounding rnd of the floating-point operations, on rationals: the only operations which could overflow are left out by the range of the inputs (every intermediate result lies between about 1/v and v).  The special cases are modelled on IEEE data (fpv). Simplifications: exception flags are left out; the last operation, which is done in the current rounding mode (ML_GlobalRoundMode), rounds to nearest as all others; propagate_format only sets the formats (all equal here).
* **PowModel.v**: The power function pow(x, y) and the n-th root rootn(x, n): the decision lists for the special cases, the decomposition of the exponent used for the others, and the emulation functions used to check the results. Models metalibm_functions/pow.py:62-281 (generate_scalar_scheme), 285-345 (numeric_emulate) and metalibm_functions/rootn.py:75-215, 218-262. What is left out: the values of the approximations of log2 and 2^x (a parameter of the exponent functions); the raised exceptions; the compilation of a Select. A datum is [fpv]; a finite nonzero number is [Num q] with q <> 0.
* **ExpModel.v**: The exponential function exp(x): special data, early overflow and underflow tests, argument reduction, and the three ways of multiplying by the power of two. Models metalibm_functions/ml_exp.py:100-425 (generate_scalar_scheme). What is left out: the polynomial found by Sollya (the value [sub] of the evaluated sub-polynomial is a parameter), the raised exceptions, the fusion of a product and a sum into an FMA.  All the operations round to nearest, ties to even.
* **Exp2Model.v**: The function 2^x: reduction by floor, table of the powers of 2^(1/8), polynomial, reconstruction in the normal and in the subnormal range. Models metalibm_functions/ml_exp2.py:77-211 (generate_scalar_scheme). What is left out: the polynomial found by Sollya (the value [pl] of the evaluated polynomial is a parameter), the fusion of a product and a sum into an FMA.  All the operations round to nearest, ties to even.
* **LogModel.v**: The logarithm. Model of metalibm_functions/generic_log.py: generate_reduced_log, generate_reduced_log_split, generate_log_table and generate_scalar_scheme, for the natural basis (log(basis) == 1.0). Simplifications: the arithmetic is done with unbounded exponents (format mkF p None), overflow and underflow of intermediate results are left out; the constants Sollya computes (rounded log(2), tables of logarithms, rounded square root of 2) and the polynomial are parameters, constrained by the hypotheses of the theorems; raised exceptions are dropped; the multiplication by 1/log(basis) of the other bases and the vector and fixed-point variants of the file are not modelled.  The two nodes nobody uses (r, vx_exp) are left out.
* **CbrtModel.v**: The cubic root: seed read in two tables, eight Newton iterations. Models metalibm_functions/ml_cbrt.py:80-195 (generate_scheme). The argument is the code of a datum.  What is left out: the two tables and the constant 1/3.0 are parameters (CbrtSpec.v says which numbers they hold); inverse_red_vx and the last iteration in double-double (xn_2, xn_3, FourThird), which nothing uses.  The operations round to nearest, ties to even.
* **MpfmaModel.v**: Model of the mixed precision fused multiply-add, /repo/metalibm_hw_blocks/ml_fp_mpfma.py 103-575: x and y in the format F, z and the result in the format G. Words are integers, signals of n bits are integers modulo 2^n, and so are the constants (core/ml_hdl_format.py 73-96).  Operands of different widths are added as numeric_std does: the narrower one is extended by zeros on the left.  Pipeline registers and the unused reset input are dropped.  The widths of the shift amount and of the leading zero count are large enough for the values they hold by construction (lines 241, 380); the count is assumed not wider than the exponent signal it is subtracted from (line 546).
* **FixMpfmaModel.v**: Model of the multiply-add with a fixed-point accumulator, /repo/metalibm_hw_blocks/ml_fixed_mpfma.py 112-475 (FP_FIXED_MPFMA): x and y in the format F, an accumulator of fx_width bits, k extra digits (arg_template.extra_digit). Words are integers, signals of n bits are integers modulo 2^n.  Pipeline registers (start_new_stage) and the unused reset input are dropped.  The MantissaExtraction nodes are declared with p-1 bits (lines 187-191) but become a concatenation of the implicit digit and the field, of p bits (core/hdl_legalizer.py 61-83, forward_attributes does not copy the format): hw_mant.
* **LlvmModel.v**: Model of the instruction selection for LLVM-IR: /repo/metalibm_core/targets/common/llvm_ir.py 84-705 (table of the operators), code_generation/llvm_utils.py 45-81 (types), code_generation/generators/ llvm_ir_code_generator.py 190-245, 400-420 (constants, assignments), core/legalizer.py 713-740 (legalize_fma_to_std), 100-125 (minmax_legalizer). A generated line is a structured instruction: opcode, predicate, intrinsic names and literals stay the strings of the table; %names are positions in the list of the previous results, the operands of the operation first.  The tests of the floating-point class, the comparison of signs, the seed and the insertion of the exponent are expanded by functions modelled elsewhere (SupportModel.v, SpecialModel.v, DivModel.v) and left out here, as are pointers and loads.
* **MaskModel.v**: Tests on vector masks and the pass which expands them. Models opt/p_vector_mask_test_legalization.py 54-136, the engine opt/node_transformation.py 82-115, support_lib/ml_support_lib.h 789-867 with targets/common/vector_backend.py 1585-1618, and targets/intel/x86_processor.py 1651-1665, 1727-1751, 2255-2268. Simplifications: the graph is unfolded into a tree, so the memoization map is not kept (a node met again gives the same replacement, and its inputs are already changed); the other operations are opaque; a vector is read by VectorElementSelection only.
* **VlaModel.v**: Model of the vector-length agnostic functions: /repo/metalibm_functions/vla_function.py 116-235 (generate_scheme, the strip-mining loop), core/vla_vectorizer.py 75-135 (vectorize_scheme: the linear path and its validity mask), core/vla_common.py 40-80 (types and operations), targets/riscv/riscv_vector.py 284-294 (vlaGetLengthOpGen), targets/riscv/rvv_legalization.py 66-125 (types and byte indices of the indexed loads). A vector operation works lane by lane, so that the vector scheme is the linear path evaluated on each lane; the table of the lane operations is in RvvModel.v.  A scalar function has one argument, the variable [arg]; memory is as in VecModel.v, one element at each address.
* **RvvModel.v**: Model of the operation table of the RISC-V vector target: /repo/metalibm_core/targets/riscv/riscv_vector.py 180-283 (modifiers), 296-790 (table). An entry of the table is found from the operation, the type of its result and those of its operands; it gives the name of an intrinsic, whose suffix is an element type, and the order of its operands, or modifies the operation, which is searched again.  All types of an operation have the same group size and all operands are followed by the vector length: both are left out.  Left out: TypeCast between floating-point and integer elements, loads, stores and the seed of the reciprocal.
* **ArrModel.v**: Model of the tests of array functions: /repo/metalibm_core/core/array_function.py 69-117 (tables), 145-208 (test tables), 211-256, 292-403 (test wrapper), 575-700 (maximal error). The emulation, the rounding of the inputs and the random values are parameters; the outputs are a memory of data indexed by rows.  Simplifications: one input table (the code supports one), indices of the generated code do not wrap (less than 2^32 rows), printing is dropped.  None: a Python exception while the tables are generated, an access outside of a table in the generated code.
* **RecipModel.v**: Model of the hardware reciprocal, /repo/metalibm_hw_blocks/ml_fp_div.py 66-509, on the bit vectors of RtlFixedModel.v.  Pipeline registers and the unused reset input are dropped; the table is read as a list of constants of its storage format.
* **TypModel.v**: Model of the typing passes, /repo/metalibm_core/opt/p_function_typing.py 57-579, called by every function generation (core/ml_function.py 676-681) with no default precision, and of merge_abstract_format, /repo/metalibm_core/core/ml_formats.py 1670-1687. Constants have an identity (their node) and their format is kept in a store, so that a constant can be shared; operations are trees (the memoization types a shared operation once).  Operations typed in the same way are one kind.  Not modelled: statements, blocks, table loads, function calls, boolean variables, multi-precision formats. None as a result: an exception.
* **BipModel.v**: Model of the bipartite table approximation, /repo/metalibm_hw_blocks/bipartite_approx.py 146-394 (GenericBipartiteApprox, with the fixed-point slices 96-110, 134-143) and 495-512 (numeric_emulate of the entity). The function is a map of rationals (the default one is 1/x); its values and the Sollya computations on them are exact.  The interval is [lo, lo + 2^r].  The bit vectors of the entity are those of RtlFixedModel; the sum of the two table values is exact (its format is sized to hold it) and its conversion to the output format is that of the RTL backend. Not modelled: the pipeline, the software variant, intervals of size smaller than 1 (the shift amount is then negative), the evaluation of the ranges for the log.
* **VproModel.v**: Model of the vector promotion pass, /repo/metalibm_core/opt/p_vector_promotion.py 46-273, with the translation tables of /repo/metalibm_core/targets/intel/m128_promotion.py 53-65 and m256_promotion.py 51-60. Simplifications: - the objects of the graph are trees whose nodes carry their identity; the memoization maps are keyed by identity.  A node that is not promoted is modified in place: it keeps its identity.  A promoted node is a copy (copy_map gives one copy per node), a conversion is a new object; - when an operation is reached again with another expected format the pass goes through the operands it has already rewritten, the model through the original ones; promotion_twice in VproProps shows that rewritten operands are left as they are; - get_match_format is the identity, target.is_supported_operation is an arbitrary predicate on the operation and the formats of its interface; - get_converted_node and evaluate_converted_graph_cost are never called; - the pre-statement of a ConditionBlock and SwitchBlock, which the pass never enters, are left out, as is RangeLoop (hardware only).
* **PwModel.v**: Piecewise polynomial approximations.  Model of metalibm_core/core/approximation.py:76-287 (load_piecewese_poly_params_from_axf, generate_parameters_piecewise_poly_approx, generate_piecewise_poly_approx_from_params, generate_piecewise_poly_approx) and of the error classes of metalibm_core/utility/axf_utils.py:70-127. What Sollya answers (degrees, polynomials, norms) is an input of the model: a record per sub-interval.  Coefficients and offsets are rationals, tables are lists.  Simplification: the values of a table are the values assigned to it (the offsets and coefficients which are not numbers of the storage format are rounded when the table is printed, elsewhere).
* **AxfModel.v**: Approximation files.  Model of metalibm_core/utility/axf_utils.py:56-292 (classes), 293-481 (serialization), 525-557 (JSON files), of precision_parser (metalibm_core/utility/ml_template.py:80-164), of the printed forms of the indexing classes and Indexing.parse (metalibm_core/core/indexing.py:59-61, 138-143, 207-218). Python values are a small inductive type.  json.dumps(sort_keys=True) followed by json.loads is modelled on values: entries sorted by key, integer keys turned into strings, mixed keys refused (TypeError); the text itself is not. Sollya objects are an abstract type V with str (show) and sollya.parse (sparse), which answers its error object instead of raising.  Simplifications: str() of a list or dictionary and iteration over anything but a list are not modelled (EModel); int() of a string reads decimal integers only; the YAML half of the file is not modelled.
* **Bf16Model.v**: Brain floating-point format.  Model of metalibm_core/core/ml_formats.py:1078-1102 and 1146-1150 (rounding and constants of bfloat16) and of metalibm_core/code_generation/generic_processor.py:121-138 (conversions from and to binary32), on top of FpFormatModel.v. Simplifications: rounding to nearest only; the text of constants is the integer printed; sollya.round with a number of digits is its mathematical definition (no bound on exponents); the exception raised when binary32 overflows in get_integer_coding is None.
* **MpcModel.v**: Comparison, absolute value and NaN test of multi-limb numbers.  Model of metalibm_core/core/multi_precision.py:54-168, the legalizations attached in metalibm_core/code_generation/generic_processor.py:322, 562, 568 and 592. The functions build graphs over the limbs hi, me and lo; the model evaluates the graph with given operations and comparison on limbs (as LimbModel.v does), so that it is read with rounded rationals and with IEEE data. Simplifications: attributes of nodes dropped; Log.report(Error) is None; the selection of an element of a vector of multi-limb numbers (171-197) is not modelled.
* **FmaModel.v**: Fusion of multiplications and additions into fused multiply-add operations. Model of metalibm_core/opt/p_function_std.py:137-247 (fuse_multiply_add), with the attributes kept by metalibm_core/core/attributes.py:146-147. Objects are nodes of a heap, named by their position, so that sharing, in-place changes of the inputs and the memoization are those of the code. Simplifications: handles and indices of nodes are dropped; a debug attribute is a boolean (None or not), tags, formats and intervals are numbers; IndexError is None, as is a lack of fuel; statements and all operations but addition, subtraction, multiplication and their fusion are KOp with a number.
* **ShareModel.v**: Sharing of sub-expressions between branches. Model of metalibm_core/opt/p_function_std.py:234-323 (subexpression_sharing) and 358-376 (insert_pre_statement). Objects are nodes of a heap, named by their position.  Simplifications: an object is a leaf, one of the control-flow operations named by the code, or an operation (a number stands for its class); the cases of a switch are a list; the memoization of contains_non_input_variable, of a pure function, is dropped; functions take fuel, and do nothing without; an IndexError on a control-flow operation without inputs is a no-operation.
* **EngModel.v**: The lowering engine. Model of metalibm_core/opt/generic_lowering.py:61-87 (LoweringEngine.lower_node) and 129-132 (execute_on_graph), with core/ml_operations.py:324-328 (set_input). Objects are nodes of a heap, named by their position.  A class stands for all get_lowering_action looks at (operation, formats, key): the action found is a function of it.  An action is any function building objects and giving one. None is a lack of fuel, an unknown object or an action that fails.
* **TsumModel.v**: Summaries of tests and their comparison. Model of valid/test_summary.py:92-226 (PerfCompResult, TestSummary.dump, import_from_file, compare, dump_compare_result) and valid/soft_test_suite.py:306-336 (GlobalTestResult.summarize). Texts are lists of characters.  Dictionaries are lists of pairs in order of insertion.  float() is any function giving a number or failing (None); numbers are rationals, infinities and NaN, and percentages are exact.  Carriage returns, the printing of reports and the texts made from numbers are not modelled.
* **VbModel.v**: Formats of boolean nodes. Model of metalibm_core/opt/p_vbool_legalization.py:50-130 and opt/p_scalar_vbool_legalization.py:47-122, run by opt/node_transformation.py:88-120 (transform_graph, execute_on_optree), with core/ml_formats.py:1163-1171, 1430-1436, 1494-1509 and 1596-1618 (boolean formats). Nodes are objects of a heap, changed in place.  Both legalizers give the node itself or None, so that set_input puts back the operand that was there; the map of a legalizer has the entries of the map of its pass for the nodes it was asked.  Formats are known by what these passes read: lanes, width of a lane, being one of the boolean formats.
* **McModel.v**: Passes on machine programs. Model of metalibm_core/opt/p_machine_code_gen.py:159-188 (Pass_SimplifyBBFallback) and 204-262 (Pass_CollapseRegisterCopy); instructions are those made by code_generation/machine_program_linearizer.py:125-270. A program is the list of its blocks, each one in it once, so that a block is its index and an instruction its block and index.  Instructions changed in place are given by the list of their new destinations, last change first.
* **SelModel.v**: Selection of the implementation of an operation. Model of metalibm_core/code_generation/abstract_backend.py:44-245 (GenericBackend) and 303-328 (hierarchy of processors), and of the predicates on formats of code_generation/generator_utility.py:976-1128. The nested dictionaries language / operation / key / condition / interface of a target are the list of their entries in the order of iteration; an empty dictionary is as an absent one (is_map_supported_operation says False of both).  Conditions and interfaces are functions without effect.  Log.report(Log.Error) raises.
* **TravModel.v**: Passes that look at all nodes of a graph. Model of metalibm_core/opt/p_check_support.py:37-95, opt/p_check_precision.py:37-90, opt/p_tag_node.py:38-115 and opt/runtime_error_eval.py:55-176. Nodes are numbered; [children] gives the inputs of a node that is not a leaf, and none for a leaf, so that graphs are acyclic when children have smaller numbers.  A memoization map is the list of its keys (with values where they matter). Fuel stands for the depth.
* **RlgModel.v**: Legalization of hardware operations: bit fields, concatenations, selections and mantissas. Model of metalibm_core/opt/p_rtl_legalize.py:74-100, 218-301 and core/hdl_legalizer.py:45-126. A signal or variable is its bits, as a number in [0, 2^size).  A fixed-point format has integer and fraction sizes and a sign; std_logic_vector is as unsigned without fraction, and not fixed-point.  Conversions to a format keep what fits and drop high bits.
* **RepModel.v**: Reports, displays and groups of functions. Model of metalibm_core/utility/log_report.py:38-150, core/display_utils.py:35-125, core/ml_formats.py:943-999 (the display of fixed-point formats) and code_generation/code_function.py:40-231. Objects compared with "is" have numbers.  str.format is modelled for messages whose fields are all "{}"; any other field raises, which is what Python does when nothing is named, but not for "{0}" with arguments.  The debugger is not modelled: it returns.
* **AttrModel.v**: Attributes of nodes, their defaults and copies. Model of metalibm_core/core/attributes.py:44-268, core/ml_operations.py:652-660 (copy of constants), opt/p_size_datapath.py:560-602 (propagation of a format to constant inputs) and opt/p_gen_bb.py:227-256 (constants in blocks). Values of attributes (formats, intervals, tags, ...) are numbers, None is None.
* **ExtModel.v**: Functions made of a part of a graph. Model of metalibm_core/core/ml_call_externalizer.py:49-107, with the calls of core/ml_function.py:1170-1173. Nodes are numbered; [g] says what each is.  Copying follows the inputs (core/ml_operations.py: 652-660, 722-736, 816-829, 1935-1943): input variables are not copied, constants and tables keep their contents.  Formats are left out.  Fuel stands for the depth.
* **AsmModel.v**: Register allocation of machine programs. Model of metalibm_core/code_generation/asmde_translator.py:21-25 (extract_src_regs_from_node), 27-86 (maps of registers, physical registers), 96-146 (instructions, registers of arguments and results), 148-231 (translation to a program of asmde), and of metalibm_core/targets/common/dummy_asm_target.py:134-174 (registers of the calling convention). Simplifications: registers, blocks, constants and operations are numbers, values assigned are not shared between instructions; virtual registers given by the architecture are a function of the register (asmde is another project); colors are a partial map from registers of asmde to numbers; the map of physical registers (line 48), a memoization, is empty when the transformation starts; debug objects, bundles and prints are dropped.  Exceptions are values.
* **RswModel.v**: Hardware formats turned into software ones, and formats of pointers. Model of metalibm_core/opt/p_legalize_rtl_to_sw_format.py:52-118, of the names of software fixed-point formats, metalibm_core/core/ml_formats.py:912-967, and of metalibm_core/core/ml_complex_formats.py:62-118. Simplifications: nodes, tables formats and other formats are numbers; a table format is an object, whose storage is changed in place; displays of formats and messages are dropped (a warning, line 950, included). The pass looks at inputs only, with the traversal of TravModel.v.
* **GpiModel.v**: Intervals in the answers of Gappa. Model of metalibm_core/utility/gappa_utils.py:44-53 (parse_gappa_interval) and 76-83 (the reading of the answer in execute_gappa_script_extract). Simplifications: text is a list of characters; the bounds are the two texts given to sollya.parse; a loop that does not end is a lack of fuel, for every fuel; the answer is the list of its lines; the reading of the bounds by sollya.parse and the running of Gappa are left out.

## Behaviours of the code found by the proofs

Remarks seen while transcribing, beside the theorems below:

* A SwitchBlock can never be generated (ml_operations.py 1972), and its copy
  raises AttributeError (1958).
* `processor.generate_expr` drops `generate_pre_process` and
  `force_variable_storing` (abstract_backend.py 298-301).
* p_gen_bb.py 766 is commented out; the third operand of a phi node is dropped.
* ml_div.py 266: the quotient of the last iteration is not used.
* ml_blocks.py 1365-1367: `S2**(50-a_o-b_o-b_u)`; 875: `min(a_o, a_u)`.
* pow.py 198: `vx == 1` compares nodes and is always False.
* ml_exp.py 206: the interval of exact_hi given to Gappa (marked TODO).
* ml_exp2.py: the emulation calls mpfr_exp.
* generic_log.py 102: `r` and 118: `vx_exp` are not used; 158-160: the interval
  of the reduced argument is that of the argument plus one.
* ml_cbrt.py 173, 188-195: `inverse_red_vx` and the last step in double-double
  are not used; negative numbers, infinities and tiny numbers are not told apart.
* ml_fp_mpfma.py 578: the emulation rounds to the format of the operands, not of
  the accumulator; 513: `exp_offset + 1` lacks `prod_exp_offset` (C109).
* ml_fixed_mpfma.py 187-188: the mantissas are declared one bit short; the
  regression passes `extra_digits` instead of `extra_digit`.
* p_vector_mask_test_legalization.py: `execute` calls transform_graph without
  root, hence returns None for a graph whose root is not a test.
* llvm_ir_code_generator.py: vector constants are printed without the types of their
  elements; ml_support_lib.h: no vmask3 function, no ml_ocl function.
* vla_function.py 203: the validity mask returned by vectorize_scheme is not used;
  vla_length_op ignores the group size.
* riscv_vector.py: `vmadd`, unsigned `vneg`, `vsra`, `vmin`, `vmax` and the
  conversions from unsigned vectors do not exist; Floor uses `vfcvt_rtz`.
* rvv_legalization.py: the memo stores the precision of a node and not the node;
  run twice, the pass multiplies the indices twice.
* array_function.py 505: `empty_post_statement_gen` has six parameters and is called
  with seven arguments, so that the benchmark of an array function always raises.
* ml_operations.py 208-218: `__pow__` divides the exponent with `/`; 1039-1040:
  undefined name `ops`.
* ml_fp_div.py 280-297: the format of the last error, int(-4p/5) integer digits, is too
  small for binary64; no special value is handled; 1/x is rounded from an approximation
  below it, so that results just above the middle of two numbers go down.
* p_function_typing.py 461-467: constants get the format of their operation whatever their value (-1 with unsigned operands).
* p_function_typing.py 461-467: a shared constant keeps the format of the first operation, which changes the format of the second; an integer operation then gets a floating-point constant or raises.
* p_function_typing.py 470-512: a comparison of binary16 numbers with a constant, or of constants, sets the format of the constants to None.
* p_function_typing.py 142-226: Select of two conditions, arithmetic on constants and four-lane vectors raise; two-lane binary32 vectors get the scalar binary64.
* bipartite_approx.py 340-394: the error that is logged leaves out the truncation of the
  result, the rounding mode input is read by nothing, an offset rounded up to a power of two
  is stored as zero, the tables are unsigned even for negative functions, and intervals wider
  than 1 lose the low bits of the input (C121).
* bipartite_approx.py 495-512: the expected value is rounded to as many significant bits as the
  format has fraction bits; above 1 the last bit of the output format is lost (C121).
* p_vector_promotion.py 233-238: the conversion of a variable is memoized across assignments to
  it; two operations that read the variable before and after an assignment then share the
  conversion of the first value (C122).
* approximation.py 255-262: the accumulator of the piecewise scheme starts with the last
  coefficient, which the loop adds again: the result has the term c_d r^(d+1) in excess. On the
  shipped atan-fp32.json.axf it is more than three times the announced error (C123).
* approximation.py 96-107: the maximal error is updated only for the missing coefficients; the
  shipped tanh files, which are complete, are loaded with an error of zero (C123).
* approximation.py 234: a Sollya error object compares false with everything, so that it replaces
  the maximum and is replaced by the next error; the shipped erf files have "error" as error (C123).
* approximation.py 156: offset_fct is applied to itself instead of to the offset.
* axf_utils.py 230-240, 338-354, 432-447: from_SPA reads attributes `fct` and
  `absolute`, from_UPWA `error_bound`, from_GenericPolynomialSplit the name
  `upwa`; none exists, all three always raise (`axf_from_objects_refuted`).
* axf_utils.py 173, 466, 254: the interval of a split and the tag of a simple
  approximation are written and not read (`axf_lost_fields`); indexing.py 100-117:
  SubMantissaIndexing has no repr that can be read (`indexing_mantissa_refuted`).
* ml_template.py 145-164: printed names of integer, long double, bfloat16 and
  multi-word formats are refused (`format_names_refused`), text after a
  fixed-point format is ignored, a number is answered as a format
  (`format_text_refuted`; the shipped tanh file has format_list [1]).
* ml_formats.py 1081: bfloat16 has 8 digits, values are rounded to 11 and then
  truncated (`bf16_round_refuted`, `bf16_overflow_refuted`); the zero of a
  flushed negative number and the special values of the format are coded in
  16 bits and then shifted by 16 (`bf16_flush_sign_refuted`,
  `bf16_special_refuted`).
* generic_processor.py 131-138: a NaN with a payload in its 16 low bits becomes
  an infinity (`bf16_narrow_nan_refuted`).
* multi_precision.py 107-168: Normalize_33 does not give a unique form, so close
  triple-word numbers are ordered wrongly (`mp3_comparison_refuted`,
  `renormalize_refuted`), and it makes an infinity unequal to itself
  (`mp3_infinity_refuted`).
* multi_precision.py 62-68: the infinity given by Add211 has a NaN as low limb and
  is said to be a NaN (`mp2_isnan_refuted`).
* p_function_std.py 160-222: the format of a multiplication is not compared with that of the addition it is fused in; a product in 32 bits becomes one in 64 bits.
* p_function_std.py 137-247: `prevent_optimization` of the addition is ignored; the memoization is only consulted for additions of two operands, other nodes are gone through at each use; lines 147-150 are dead.
* ml_operations.py 1039-1040: the parameter of DotProductNegate.range_function is `opts`, the body uses `ops`: NameError when an interval is computed.
* p_function_std.py 333-337: PassSilenceFPOperation uses an undefined name.
* p_function_std.py 237-241: `level_sharing_map` is the variable of the outer function, not the parameter of the traversal: operations of one branch are taken out of it (loads, Return and exceptions included).
* p_function_std.py 358-376: the inputs of statements become a list, after which Statement.add (ml_operations.py 1728-1730) fails; operations are inserted once per use; cases of switches are not gone through.
* ml_operations.py 1972-1974, c_code_generator.py 183-190: the generator asks a SwitchBlock its pre_statement, which raises NotImplementedError, so that no switch can be generated; SwitchBlock.finish_copy (1958-1961) reads `self.statement`, which does not exist.
* generic_lowering.py 83: the table gets the object of the first step, not the lowered one: a shared node lowered in several steps is only fully lowered at its first use.
* generic_lowering.py 78-79, 82-87: inputs that are not operands (SwitchBlock cases, pre_statement) are not lowered, nor the operands of a node whose action gives it back (LoweringAction.lower_node, 58-59).
* valid/test_summary.py 174: the percentage divides by the measure of the reference, which is 0.00 for less than half a hundredth: the comparison of all tests stops.
* valid/test_summary.py 93-97: equal measures, or a NaN, are Improved; 152: tests only in the new run are never reported, whatever their status.
* valid/test_summary.py 115-116, 134-138: titles with spaces and messages with ends of lines are not read back as written.
* node_transformation.py 111-113 with p_vbool_legalization.py 115-118: a root Comparison whose format needs no change is given back as None; 90-91: so is a graph executed twice by the same pass object.
* p_vbool_legalization.py 88, 95, 104: KeyError for lanes of 8 or 16 bits; 84-87: a 32-bit boolean combined with a 64-bit one is not converted; 100-103: an assembling only looks at its first two operands.
* p_machine_code_gen.py 245-258: collapse of register copies: chains of copies lose their value (the definition looked up is a copy already deleted), output registers are not uses, and reads or writes of the destination between definition and copy are not looked for.
* abstract_backend.py 59-60, 237-243: only the default language is registered, so operations in VHDL are said unsupported by a VHDL target; 315-328: breadth-first order puts an ancestor before its subclass when inherited twice at different depths; 63-69: arguments of later requests ignored.
* generator_utility.py 1052-1064, 1108-1118: zip hides missing or extra operands; 1076-1083: reduce starts from the first pair instead of True.
* p_check_support.py 58, 61, 81: the language is not given to recursive calls.
* p_check_precision.py 66-79: the map holds the answer for the node and not for what is below it, so the second answer is wrong.
* p_tag_node.py 44-47: tags already in the graph are not looked at; counters are by class and tags by name (RangeLoop has the name of Loop).
* p_rtl_legalize.py 218-249, 279-291: conversions scale bits by the fraction of the target and extend signs; 74-100: formats of one size are not converted; 146: `legalize_Comparison` called without its second argument (TypeError for any comparison in software); 314: `_, new_node = self.execute(optree)` unpacks a node (TypeError), so Pass_SoftLegalize cannot run as a function pass; 175: arguments swapped (the target is stored as the description of the pass).
* log_report.py 124: `level is Log.Error`: an error at a sub-level does not stop.
* log_report.py 121-123: messages already formatted are formatted again.
* display_utils.py 105: eight conversions, four elements.
* ml_formats.py 970: the sign is not in the key of displays; 974: PRIi128.
* code_function.py 89-93: the function object is kept when arguments are added.
* code_function.py 216-217: a group merged with itself grows for ever.
* attributes.py 140-153: `unbreakable` is not copied.
* attributes.py 241-243: the last default is removed before it is refused.
* ml_operations.py 652: one map of copies for all calls; p_size_datapath.py 587 and p_gen_bb.py 246 rely on new copies.
* ml_call_externalizer.py 104-107: the tag is passed twice, TypeError; 85-88: nothing is returned when the root is a call or a leaf; 73: names of parameters may clash.
* asmde_translator.py 135-142 and dummy_asm_target.py 137, 161: results take the registers of arguments, an argument live after the result is written is lost, and the map of results hides the one of arguments; 23: a register has no inputs; p_machine_code_gen.py 52-72: one result for each returned value.
* p_legalize_rtl_to_sw_format.py 67-69: extra inputs are not visited; 107: the format object of a table, which may be shared, is changed; ml_complex_formats.py 76-83: equality of pointers is not transitive and ignores attributes.
* p_expand_multi_precision.py 420-424: swapped names.
* gappa_utils.py 48-51: a closing brace before the first opening one makes
  the loop endless (the text grows), nested comments leave their end.
* int_div.py 151-219: refers to undefined names.

The theorems that refute a part of a property (the note is that of
MANIFEST.json):

* C01 (Special-value arithmetic follows IEEE-754): Addition is fully correct once a rounding mode is set; subtraction, multiplication and division are refuted when one operand is the plain number 0, and number/NaN raises an exception. Theorems: special_add_unset_rounding_refuted, special_sub_number_zero_refuted, special_mul_number_zero_refuted, special_div_refuted.
* C02 (Special-value comparisons follow the extended-real order): Every comparison form is covered; the wrong ones (number against infinity, number > special, plain 0 == signed zero) are refuted. Theorems: number_lt_infinity_refuted, infinity_le_number_refuted, number_gt_special_refuted, zero_equality_not_symmetric_refuted.
* C03 (Floating-point encoding round trip): Also: encoding an arbitrary in-range rational gives a nearest-even number. The declared ML_Binary80 (64-bit field, 64-bit Sollya significand) does not round trip. Theorems: fp_binary80_round_trip_refuted.
* C05 (Floating-point format bounds are exact): Everything but the largest subnormal, which is wrong for every format. Theorems: fp_max_subnormal_refuted.
* C06 (Fixed-point encoding round trip): Encoding is exact and fits for every format; decoding is right for non-negative codes of at most 53 bits and refuted for negative values (sign bit ignored) and for wider codes (goes through a Python float). Theorems: fx_signed_round_trip_refuted, fx_wide_round_trip_refuted.
* C07 (Fixed-point truncate / round / saturate): Truncation is toward zero, so it exceeds negative off-grid values. Theorems: fx_truncate_below_refuted.
* C08 (Bit-level classification tests match IEEE classes): All predicates exact except IsSubnormal, which also answers true on zeros (refuted). Theorems: fp_is_subnormal_zero_refuted.
* C10 (Interval arithmetic encloses): Enclosure for contiguous intervals and interval lists; union and intersection with an empty interval raise, and an interval cannot be divided by a list (refuted). Theorems: meta_or_empty_refuted, meta_div_interval_by_list_refuted.
* C11 (Interval list refinement loses nothing): Canonisation and bounds fully proved; membership is exact for a number in one interval, and refuted for ranges and for interval lists (undefined attribute). Theorems: refine_empty_refuted, meta_contains_range_refuted, meta_list_contains_refuted.
* C12 (Range evaluation is sound): All operators with a range function except Modulo, RawExponentExtraction (refuted) and DotProductNegate (always raises, refuted); on independent inputs the ranges of the arithmetic operators are also shown to be the smallest ones; vector and table operators are not modelled. Theorems: modulo_range_refuted, raw_exponent_range_refuted, dot_product_negate_range_refuted.
* C13 (Interval-driven simplification of comparisons, min/max and tests preserves values): All simplifications but the class tests IsSubnormal and IsInfty, which are refuted. Theorems: simplify_subnormal_refuted, simplify_subnormal_bound_refuted, simplify_infty_refuted.
* C14 (Boolean simplification preserves truth values): And-of-Not trees are rewritten correctly; Or-of-Not trees are rewritten to a different function (refuted), and a tree whose leftmost leaf only is a Not raises (refuted). Theorems: logical_or_not_refuted, logical_and_not_raises_refuted.
* C16 (Datapath sizing: sums, differences and negations never overflow): Exact for the operand formats in add_safe/sub_safe and for all negations but that of the minimum; outside, overflows are exhibited for whole families of formats. Theorems: size_add_mixed_refuted, size_sub_signed_refuted, size_neg_signed_refuted.
* C17 (Datapath sizing: common format contains both formats): Pairs and lists of fixed-point formats (with undefined or abstract entries) are fully covered; a list containing other formats can forget operands. Theorems: solve_equal_forgets_refuted.
* C18 (Datapath sizing: constants are representable): The format is exact; it is minimal on positive integers and not minimal in general. Theorems: size_cst_minimal_refuted.
* C19 (Bit slicing composition): Bit-for-bit equality is proved for every nesting; totality is proved for nodes without constants, and refuted for a fraction bit of a fixed-point constant (negative shift count). Theorems: rtl_simplify_cst_refuted.
* C21 (Estrin scheme evaluates the polynomial): Proved for every polynomial built from a dictionary or from Sollya, and from a list of any length but two; a polynomial built from a two-element list raises (the degree attribute is one too large). Theorems: estrin_two_coefficients_refuted, estrin_empty_refuted.
* C22 (Power generation): Proved for every exponent >= 1 and every history of requests for the same node, with at most 2 log2 n + 1 new nodes; the memo does not key on the variable (refuted when a map is shared), and exponents <= 0 never end. Theorems: power_nonpositive_refuted, power_map_shared_refuted.
* C23 (TwoSum / FastTwoSum are error-free): For any rounding to nearest (any tie rule), any precision >= 2, with or without gradual underflow; overflow excluded. Without |x| >= |y| FastTwoSum is not error-free in any format. Theorems: fasttwosum_unordered_refuted.
* C24 (Multi-precision blocks compute the right sum or product): In every commutative ring. The 2x2-limb products leave out the product of the low limbs (stated exactly); the (2,1,2) fused multiply-add and the second 3<-2+1 addition are wired wrongly, and the fma specifier is ignored (refuted). Branches which raise NameError return no value. Theorems: expand_fma_212_refuted, expand_fma_specifier_refuted, add321_v2_refuted.
* C25 (Multi-limb min/max and comparison): Normalized numbers with the same number of limbs, any number of limbs; both conditions are shown necessary. Theorems: expand_max_unnormalized_refuted, expand_max_mixed_lengths_refuted.
* C30 (Bit-heap reduction terminates at the requested height): Holds for height limits >= 2; a limit of 1 (or the None default) is refuted. Theorems: heap_reduce_limit_one_refuted, heap_default_stage_limit_refuted.
* C31 (Partial products and Booth recoding): Full claim is false of the code: right operand fraction ignored, Booth ignores fractions, negative-only accumulator is not negated. Theorems: plain_product_rhs_frac_refuted, booth_product_frac_refuted, mult_array_negative_only_refuted.
* C32 (Compound adder): Equal operand sizes; slice limit 0 refuted. Theorems: compound_adder_limit_zero_refuted.
* C33 (Integer divider): Exact for equal operand widths; refuted for mixed widths. The multi_digit method is not modelled (it references undefined names). Theorems: int_div_mixed_width_refuted.
* C34 (Leading-zero anticipation): Negative sums equal to minus a power of two exceed the tolerance. Theorems: lza_negative_power_refuted.
* C35 (Hardware truncation to integer): Every format and bit pattern: a finite input gives the truncated value; infinities and NaNs are unchanged when the fraction size is at most 2^(e-1), as in all the predefined formats. Otherwise a NaN becomes an infinity. Every negative input above -1, and -0, gives +0 instead of -0. Theorems: fp_trunc_nan_refuted, fp_trunc_zero_sign_refuted.
* C36 (Hardware floating-point adder rounds correctly): Every format, all pairs of normal operands. Proved when the sum has the sign of y, y is at most p+2 binades above x and the sum does not round up to a power of two. Wrong, for all operands of each class: rounding up to 2^(k+1) gives 3*2^k; an exact difference (1+g)2^k with |x|>|y| of opposite signs gives (2-g)2^k; a power of two minus a much smaller number is halved; y more than p+2 binades above x; x + (-x) is not zero. Not covered: inexact differences with |x|>|y| other than a power of two minus a small number. Theorems: fp_add_round_up_refuted, fp_add_negative_refuted, fp_add_power_refuted, fp_add_far_refuted, fp_add_cancel_refuted.
* C37 (Generated names are fresh): Distinctness along histories holds for names that are declared once handed out; a name asked for and not declared may be handed out again (refuted). Theorems: undeclared_name_repeats_refuted.
* C38 (Free-name generation terminates): Symbol names: always terminates. Constant names: terminates exactly when the prefix is already a constant or free in scope; otherwise it loops for ever (refuted). Theorems: get_free_cst_diverges_refuted.
* C39 (Pass scheduling respects dependencies): Ordering, exactly-once and termination are proved for every history; the chaining of values is refuted (passes of one turn all receive the original inputs, only the last result is kept). Theorems: pass_chain_refuted, slot_chain_refuted.
* C40 (Dominator computation): Termination and exactness for every graph in which no branch goes to the entry, any enumeration order of the edge set, blocks unreachable from the entry included; immediate dominators for reachable blocks. With a branch to the entry the result is wrong (refuted). Theorems: dominator_map_entry_refuted.
* C42 (Structured code to basic blocks preserves execution): Same executions (termination included) for every accepted program and every meaning of assignments and conditions; exact set of accepted programs; the generated graph meets the hypotheses of the dominator theorems. Refuted: loops whose body ends with a return or whose initialisation contains a condition are rejected; the simplification lists blocks several times (2^n copies after n if/else) and keeps accessible empty blocks. PlaceHolder nodes are not modelled. Theorems: simplification_duplicates_refuted, loop_return_refuted, loop_init_condition_refuted, empty_block_refuted.
* C43 (Pipeline retiming delivers values at the right stage): Every acyclic graph and stage assignment whose static delays end at the stage of their reader: accepted exactly when no value is read before its stage, one register per crossed boundary and no other, same function. A static delay that ends elsewhere, recirculation without reset and an asynchronous reset in one process are refuted; the stage count is the latency when an input of stage 0 reaches the last output. Theorems: static_delay_reader_refuted, static_delay_operands_refuted, static_delay_keyerror_refuted, absolute_delay_refuted, stage_num_refuted, recirculate_no_reset_refuted, async_one_process_refuted.
* C44 (Random generators stay in range): Exact rational weights. Integer High/Low/NearZero categories raise (refuted); unsigned fixed-point near-zero values are scaled twice and the zero category ignores the bounds (refuted); a first category of weight 0 is drawn on a zero draw (refuted). Multi-precision generator not modelled. Theorems: category_zero_weight_refuted, int_value_refuted, fix_near_zero_refuted, fix_zero_refuted.
* C45 (Table indexing maps every input to its interval): Sub-mantissa and sub-FP indexing proved. The uniform indexing rounds to nearest, so the input is not in get_sub_interval (refuted) but is within one interval size of its bound (proved, also with rounding). SubMantissaIndexing.get_index_node raises NameError as written (name not imported); the model is the intended function. Theorems: uniform_sub_interval_refuted.
* C46 (VHDL constant literals denote the constant): get_2scomplement_neg rejects representable magnitudes. Theorems: get_2scomplement_neg_domain_refuted.
* C47 (Payne-Hanek chunking): Field sizes divisible by four, any constant, any nearest rounding, machine integers that wrap: the chunks add up to the constant, and the whole generated loop is proved to return the reduced product modulo a quarter of the period, with an explicit error bound; modulo the full period when the number of dropped bits is 2 or more modulo the chunk size. Refuted: dropping chunks changes the product by a multiple of the period (whole family, binary64 instance); table reads stay in range (every |x| >= 2^1017 in binary64); kept products fit the integer format (k = 14 as in ml_sincos); odd field sizes (binary32) give chunks that are not binary numbers; get_remainder clears one bit more than documented. Exponent range is unbounded in the model. Theorems: ph_dropped_refuted, ph_out_of_range_refuted, ph_integer_overflow_refuted, ph_odd_field_refuted, get_remainder_doc_refuted.
* C48 (Machine-code linearization preserves expression values): Whole block programs, every starting block and number of steps, every operation and valuation; registers of operations are written by one instruction and each reached operation is computed by one. Conditions: no operation shared between blocks, none read again after one of its variables was assigned, each statement once. Without them the claim is refuted. The fallback pass preserves every run; the copy merging preserves it when the definition is not a copy and the destination is untouched in between, merged registers aside, and is refuted for outputs and chains of copies. Tables and phi nodes are not handled by the code. Register allocation (external library) is not modelled. Theorems: leaf_endless_refuted, table_operand_refuted, phi_refuted, statement_once_refuted, shared_operation_refuted, stale_operation_refuted, rejected_functions_refuted, collapse_output_refuted, collapse_chain_refuted.
* C49 (Table splitting and enclosure): Splitting and creation proved for every shape. The enclosure holds for numeric entries (bounds attained); a special value resets both bounds (refuted) and the cached interval is stale after an assignment (refuted). Theorems: subset_interval_special_refuted, get_interval_stale_refuted.
* C50 (Reduction trees combine every operand exactly once): The empty list raises (resp. recurses for ever). Theorems: queue_reduce_empty_refuted, vector_concatenation_empty_refuted.
* C51 (Fast 2^i): The reference value of the test bench (2**x) differs below the normal range (refuted). Theorems: fast_exp2i_emulate_refuted.
* C52 (Dequantizer rounding): Every format and width, all five modes, with saturation, for a normal or zero scale, internal signals as wide as needed. A subnormal scale is refuted. Theorems: dequant_subnormal_refuted.
* C53 (Remainder/quotient digit recurrence): Any precision, any nearest rounding with gradual underflow, any quotient width, wrap-around of the quotient register included: proved for every divisor whose half is exact (subnormal divisors included, their half test is rescaled). Refuted for divisors of the lowest normal binade with an odd significand, and for the sign of the zero returned for equal negative operands. Overflow is left out. Theorems: remquo_zero_sign_refuted, remquo_half_up_refuted, remquo_half_down_refuted.
* C54 (Graph copy): Same shape, same sharing, same values, originals untouched, exactly one new object per node: proved for copies started with a new map. Input variables are shared with the original (by design), and Constant.copy() / FunctionCall.copy() called twice without a map return the same object (mutable default argument): refuted. Attributes are one opaque label; SwitchBlock and tables are not modelled. Theorems: copy_keeps_inputs_refuted, default_copies_shared_refuted.
* C55 (Graph ordering): Both orders hold every reachable node exactly once, by non-decreasing distance to the root, and end on every DAG. Parents-first holds when all paths to a node have the same length and is refuted in general (operand shared at two depths). Theorems: parents_first_refuted.
* C56 (Hardware lowering of fixed-point add, sub, mul): rtl_add_wide_refuted: outside the stated side condition the result is wrong. Theorems: rtl_add_wide_refuted.
* C59 (Datapath sizing: other operators and the constant-fits test): Soundness of the fit test; it is incomplete (refuted). Theorems: format_does_fit_complete_refuted.
* C60 (Software lowering of fixed-point operations): Every format of up to 128 bits and every value, under stated conditions on shifts, signs and intermediate formats. Wrong, for whole classes: a negative number that loses bits is shifted logically; unsigned outputs above 64 bits have no code; a subtraction that truncates its second operand is one unit too large; an unsigned sum with a negative operand keeps a carry; a product whose C type is that of the second operand only squares the first operand; signed operands with a wide unsigned output overflow; comparisons of two formats are rejected. Theorems: conversion_negative_refuted, conversion_uint128_refuted, subtraction_rounding_refuted, addition_unsigned_refuted, multiplication_ignores_refuted, multiplication_overflow_refuted, comparison_formats_refuted.
* C61 (Fixed-point positions): The three positions resolved to an LSB index are right; FromPointToMSB is off by one. Theorems: fixed_point_position_msb_refuted.
* C64 (Declared error bounds of the double-word blocks): Add211, Add212/221, Add221_Fast, Mul211, Mul212/221, Mul222 (fused variant): declared bound proved for every precision >= 3. Add222: proved when the high limbs do not cancel by more than 16, refuted in general. Triple-word blocks: absolute error in terms of the limbs, without any condition on overlap or cancellation, for every block; the declared relative error is derived for Mul321, Mul322, Mul313, Add322 and Add331 under the documented conditions (refuted for Mul321 without the non-overlap condition its check omits), not for Add333, Add332, Mul332 and Mul333. Products assume no underflow. The splitting and the product without fma are proved exact with every round-to-nearest, gradual underflow included. Theorems: add222_relative_error_refuted, add222_normalized_refuted, mul321_declared_refuted.
* C67 (Iterative floating-point modulo): Any precision, any nearest rounding, unbounded exponents: proved for operands of the same sign (all values, any number of turns). For opposite signs the result is right exactly when the truncated rounded quotient was not too large; refuted on a family with any precision (the correction adds y where it should subtract it). Theorems: fmod_opposite_sign_refuted.
* C68 (Leading-zero count of a fixed-point value): Positive values of formats held in 32 or 64 bits. Negative values of formats narrower than their type give a huge count; formats held in 8, 16 or 128 bits have no code. Not covered: zero (the C count of zero is 0 or undefined). Theorems: fixed_clz_negative_refuted, fixed_clz_width_refuted.
* C69 (C library classification tests): Every bit pattern of both formats. All tests but the subnormal and normal ones are the IEEE class. The subnormal test also accepts zeros and the normal test infinities and NaNs (exact characterization proved); the binary32 positive-normal test calls a function that does not exist. The sign comparison of the C library answers true when the signs differ, that of the other back-end when they are equal: they disagree on every pair of non-zero numbers. Theorems: c_is_subnormal_refuted, c_normal_positive_binary32_refuted, comp_sign_backends_refuted.
* C70 (C library field manipulation and leading zeros): Normal numbers for the mantissa and exponent, exponents in the normal range for insertion (outside it wraps). The extracted exponent is an unsigned word, negative exponents are huge until converted to int. The sign copy leaves a negative second operand negative. The leading-zero count of zero is 0. The fallback code for other compilers is modelled with the declared table name: exact on 64 bits, 32 too large on every 32-bit word. Theorems: c_exp_insertion_wraps_refuted, c_exp_extraction_unsigned_refuted, c_copy_sign_refuted, c_clz_zero_refuted, c_clz_fallback_32b_refuted.
* C71 (C multi-precision library): Every operand without overflow, gradual underflow included; products when their exact value is a multiple of the smallest subnormal. The product stays exact when a compiler contracts it. The fast sum needs |x| >= |y|: the x >= y its comment asks for is not enough. The double-double sum is within 9u^2 of the sum plus 5u^3 of the second operand. Subtraction exists for two double-doubles only, and there is no product of double-doubles. Theorems: ml_add_dd_d2_fast_refuted, c_double_double_missing_refuted.
* C72 (C library fused multiply-add emulation): ml_fma is the high part of a sum within 4u^2 of x*y+z, but is not always the nearest double. ml_fmaf is nearest unless the double nearest to x*y+z is half-way between two floats; a witness shows the wrong float in that case. Theorems: ml_fma_refuted, ml_fmaf_refuted.
* C73 (C library subnormal rounding): Every pair of words when 2 to 30 digits are dropped: the nearest multiple, ties to even when the sign bits agree. With a zero low word of the opposite sign (all negative results with lo = +0) every tie with an odd lower neighbour goes to the odd neighbour. Dropping fewer than 2 or more than 30 digits is undefined behaviour. Theorems: c_subnormalize_tie_refuted, c_subnormalize_range_refuted.
* C74 (Static vectorization of a scheme): Every scheme without loop whose unlikely conditions have an else-branch, whose inputs are not reassigned and whose calls are not nested; the vector function returns when moreover every operation is defined everywhere and the scheme reads its arguments only. Wrong otherwise, each for a family of schemes: an unlikely condition without else is dropped from the mask, a loop is dropped, a reassigned input is replaced, a condition on a local variable reads an undefined variable, guarded reads are done for every lane, a nested call stays scalar, an uneven sub-vector split gives a short result. Theorems: vector_unlikely_without_else_refuted, vector_loop_dropped_refuted, vector_input_assigned_refuted, vector_local_condition_refuted, vector_prospective_read_refuted, vector_nested_call_refuted, vector_uneven_split_refuted.
* C75 (Function inlining): Every body whose Returns end their path, with empty pre-statements, when arguments do not read what the body assigns. A Return followed by other statements is not an exit after inlining. Recursive bodies not covered (none is inlined). Theorems: inline_early_return_refuted.
* C76 (Loops of array functions): Every length, vector size and memory, in place or disjoint arrays. The composition with the vectorizer has the hypotheses of C74. Partly overlapping arrays give f applied twice. Theorems: array_function_overlap_refuted.
* C77 (Acceptance of results): Faithful: exactly the faithful results, for every format, value and result. Correctly rounded: exactly the IEEE result, except for negative values rounding to zero, where -0 is refused and +0 accepted. Degraded: every result within the goal of the rounded value, and at most the number nearest to a bound beyond; since the goal is counted from the rounded value, results farther from the exact value pass and closer ones are refused. Multi-limb formats not modelled. Theorems: negative_underflow_refuted, degraded_exceeds_goal_refuted, degraded_misses_goal_refuted.
* C78 (Test tables and test loops): Every number of tests, vector size, list of given cases and function. With the break_error option the scalar test always returns 0. Array functions not modelled. Theorems: break_error_refuted.
* C79 (Maximal error evaluation): Every table. Without comparable error the argument table is read at index -1; an infinite result is not counted as an error; the error is relative to the result, so too large results report less than 1; the vector version ignores unexpected NaNs and prints the absolute error as the relative one. Theorems: max_error_index_refuted, infinite_result_ignored_refuted, relative_error_over_result_refuted, vector_max_error_nan_refuted, vector_max_error_print_refuted.
* C80 (Units in the last place and neighbours): Normal numbers which are not powers of two. A power of two and small subnormal numbers are their own successor; errors are reported between one and two times their size in ulps; the threshold search returns the number below the threshold, and does not end when the threshold is just above a power of two. Theorems: fp_next_power_refuted, fp_next_subnormal_refuted, rel_error_to_ulp_refuted, search_threshold_power_refuted.
* C81 (Generated C code computes the graph): Proved for graphs passing a decidable check (no use of an operation after an assignment to a variable it reads, no use after a loop of what its body introduced, locals assigned before use in the block or around it, loop conditions without forced variables); in particular every graph made of tests and returns. Each clause of the check has a counterexample: a local assigned in both branches of a test is undefined after it, a shared x+1 is not recomputed after x changes, a value first computed in a loop body is undeclared after it, a loop condition stored in a variable never changes. Theorems: branch_local_refuted, stale_value_refuted, loop_body_value_refuted, forced_condition_refuted.
* C83 (The SSA renaming preserves executions and assigns every name once): Proved with the reaching definition updated for the predecessor before it is put in a phi node, and for the code as it is when every predecessor of a phi node mentions its variable; phi nodes of two predecessors, inputs never assigned, two branches of a test to different blocks. Without these: the code takes the definition of the other branch (line 766 is commented out; uncommented as written it is wrong too), an input assigned in one branch is lost, even for a read in the other branch, and the third operand is dropped. Single assignment and termination hold in every mode. Missing: operations shared between blocks and renamed in place, unreachable blocks. Theorems: stale_operand_refuted, updated_for_the_phi_refuted, assigned_input_refuted, input_read_refuted, three_predecessors_refuted.
* C85 (The reduced division of the division scheme is correctly rounded): Correct with a correctly rounded reciprocal, for all operands; correct from the seed when the error before the last rounding is at most E ulp-halves with mant(divisor) < 2 - 2E. For the divisor with all digits one no seed and no number of iterations give a correctly rounded quotient of 1 (ones_quotient_refuted). Exponents unbounded in these theorems; force_fma only. Theorems: ones_quotient_refuted.
* C86 (The division scheme returns the IEEE quotient of two numbers): Proved for quotients not below the smallest normal number, exponents at most emax apart, divisors with a significand below 2 - 2E. Outside: the all-ones divisor is wrong, exponents emax + 1 apart overflow although the quotient is finite, quotients just below the smallest normal number are rounded twice. The subnormal branch is a parameter. Theorems: ones_division_refuted, numerical_overflow_refuted, double_rounding_refuted.
* C87 (Division follows IEEE-754 on special operands): All special cases but a zero dividend: it is returned unchanged, so its sign is wrong when the divisor is negative. Theorems: division_zero_dividend_refuted.
* C88 (The reciprocal seed tables have the accuracy assumed by the schemes): The generic table misses 2^-7 on an interval of significands: its error is at most 265/32768; the RISC-V table is within 183/32768. Subnormal inputs of the seed are not modelled. Theorems: generic_seed_accuracy_refuted.
* C89 (Square root correctly rounded): Proved from 2^(emin+2p) on (2^-101, 2^-968), overflow excluded by the ranges of the intermediate results. Normal operands below have wrongly rounded square roots (witnesses, the largest just below 2^-102 in binary32); subnormal operands are not modelled; the last rounding is to nearest. Theorems: sqrt_binary32_small_refuted, sqrt_binary64_small_refuted.
* C90 (Reciprocal square root accuracy): Same range of operands; the tighter bound (7/2 units) needs 3 iterations and excludes the last three binades. The result is not always the nearest number (witnesses). Theorems: isqrt_nearest_refuted.
* C91 (Square root of special operands): All but minus zero, for which the sign of the result is wrong: the branches meant for it are never reached. Theorems: sqrt_minus_zero_refuted, isqrt_minus_zero_refuted.
* C93 (The power function follows IEEE-754 on special operands): Proved outside the clauses the code has wrong, each refuted for all its operands: a zero to an infinite power, -0 and -Inf to a negative odd power (the C remainder is -1), 1 to an infinite or NaN power (the test is a Python comparison, always False). Quiet NaNs and negative numbers to a non-integer power reach the formula, which is not evaluated on them. Theorems: pow_zero_inf_refuted, pow_negative_odd_refuted, pow_one_refuted.
* C95 (The power function computes the exponent y log2|x| and the sign): In exact arithmetic. Right for e < 0; for e >= 0 right exactly when e y is an integer (2^(1/2) gives 1); the sign is never set. The approximations of log2 and of the powers of two are not modelled. Theorems: pow_negative_base_refuted, pow_half_refuted.
* C96 (The n-th root function and its emulation on special operands): -0 with a positive even n is wrong in the code; +Inf with n <= 0, -Inf with a negative odd n and zeros with a positive odd n are wrong in the emulation. Zeros with an odd n > 1 reach the formula, whose value is not evaluated. Theorems: rootn_even_negzero_refuted, rootn_emulation_refuted.
* C98 (The exponential reduces its argument exactly): Exactness and accuracy are proved. The last clause is false: the reduced argument is within 0.347 but leaves [-log(2)/2, log(2)/2], and the interval given to Gappa for the exact high part is exceeded by more than 0.004. Theorems: exp_reduced_interval_refuted, exp_hi_interval_refuted.
* C99 (The exponential multiplies by the power of two with one rounding): Proved for formats with 2*field_size <= -emin_normal; with a narrower exponent (binary16) the late underflow path returns a negative datum for every k it handles. Theorems: exp_binary16_refuted.
* C100 (The exponential is accurate to one unit in the last place): Proved but for results within four half-units of the overflow threshold. The flush clause is false in binary64 (all x between log(2^-1075) and -745). The polynomial is a parameter with an error bound, Taylor polynomials are shown to meet it; products and sums are not fused. Theorems: exp_underflow_refuted.
* C101 (The base two exponential splits its argument and reads its table inside its bounds): Proved but for the guard: it limits the index to the size of the table and not to its last entry, an index above 8 would be read outside. Theorems: exp2_clamp_refuted.
* C102 (The base two exponential is accurate): 1.6 units for all finite x below emax + 1 - 1/16 and all results, less than one unit for binary32 results above 2^-122 and x outside of (-1/2, 0). Below one unit is false in the subnormal range (1.1 units reached for every polynomial). The polynomial is a parameter with an error bound, met by Taylor polynomials; the tables of binary32 and binary64 are verified. Theorems: exp2_faithful_refuted.
* C103 (The base two exponential at the ends of its range and on special data): Integers, overflow, infinities and NaNs are proved. Every x in [emax + 15/16, emax + 1) returns a NaN, and every x in (emin_subnormal - 1, emin_subnormal] returns zero, including emin_subnormal itself. Theorems: exp2_nan_below_overflow_refuted, exp2_underflow_refuted.
* C105 (The logarithm reduces its argument with the inverse its tables are made for): Proved where the seed is computed in the format of the function (binary32). Where it is computed in a smaller format (binary64), every number whose mantissa is within half a unit of the small format below 1+(i+1)/128, 1 <= i <= 127, reads another entry than its seed and its logarithm is wrong by more than 1/1000. The declared interval [1-2^-6, 1+2^-6] is met by no argument; the reduced argument is within 265/32768 of 0. Theorems: red_interval_refuted, log_mismatch_refuted.
* C106 (The logarithm is accurate): Seed in the format of the function, unbounded exponents, natural basis. 9/16 of a unit outside of (sqrt(2)/2, sqrt(2)], 2/3 of a unit on (1, 129/128), an absolute error of U/80 added to half a unit elsewhere around one. Just below one less than one unit is false: in binary32 log(1-2^-24) is wrong by more than 12 units for every polynomial value. Theorems: log_below_one_refuted.
* C107 (The cubic root is accurate): 1.53 unit in the last place for positive normal numbers from 2^(emin+1) to 2^(-emin), all formats of 12 to 53 digits. Less than one unit is false: in binary32 the root of 14424327/2097152 is wrong by more than 1.08 unit. Larger numbers (whose inverse is subnormal) and subnormal numbers are not covered by the accuracy bound. Theorems: cbrt_faithful_refuted.
* C108 (The cubic root of the other data): NaN and +0 are proved. -0 gives +0. No negative normal number has a negative root. Both infinities give a NaN. A subnormal number of at most 2^(emin-2) gives the infinity of the other sign. All refutations hold for every such argument. Theorems: cbrt_zero_sign_refuted, cbrt_negative_refuted, cbrt_inf_refuted, cbrt_tiny_refuted.
* C109 (The fused multiply-add is correctly rounded): Correct only where z is more than f+4 binades above the product (the only test case of the file is there) and the sum does not round up to a power of two. Everywhere else the result is half of the sum, rounded to nearest, ties away from zero when the signs agree. A power of two minus a far smaller product gives one and a half times this power. An exact cancellation gives a power of two. Theorems: mpfma_half_refuted, mpfma_round_up_refuted, mpfma_cancel_refuted.
* C110 (The fused multiply-add aligns operands of different formats): The weight of the product is right only when the accumulator has at most 2p-1 digits. Otherwise (binary16 with binary32, binary32 with binary64) the product is divided by 2^(o+1-2p), beside the halving of C109. Theorems: mpfma_mixed_refuted.
* C111 (The fixed-point accumulation is exact): Exact for all pairs of finite operands but a subnormal number times a number of the second normal binade or above, whose product is added at half its value for every such pair. The sign and magnitude outputs are those of the emulation but for a cancelled sum: it has the sign of the product, the emulation expects plus zero. Theorems: fx_subnormal_half_refuted, fx_minus_zero_refuted.
* C112 (The extra digits of the fixed-point accumulator prevent overflows): Proved for k >= 1 in two's complement and k >= 0 in sign and magnitude, for the operands of C111. With the default k = 0 the two's complement accumulator has no room for a sign: in every format the square of the largest number is read as negative. Theorems: fx_sign_bit_refuted.
* C113 (Tests on vector masks keep their meaning on every backend): The pass is proved for all graphs whose tests read two lanes or more and whose operands are not tests (a test is a scalar, so typing gives it); the engine itself leaves an expandable node that directly feeds another one. C: sizes 2, 4, 8 are right, size 3 calls a function the header lacks. x86: IsMaskAllZero (SSE, AVX) and IsMaskNotAnyZero on v8bool are right; the SSE entry gives two arguments to _mm_test_all_ones, and the four 64-bit lanes are legalized to a test without entry. Theorems: engine_nested_refuted, c_mask_test_three_refuted, x86_mask_test_refuted.
* C114 (The LLVM-IR lines compute the operation they are selected for): Integer arithmetic, logic of scalars, lane-wise floating-point arithmetic, sign extension, nearbyint and the other comparisons are right. Rejected lines: integer >=, floating-point !=, negation and not of vectors, rounding of a double to 64 bits, vector nearbyint. Wrong values: -(+0), the sign of a null fused result, assigned constant -0, rounding to an integer truncates (wrong for every fraction above one half), IsMaskNotAnyZero is IsMaskAllZero, so that a vector without any valid lane is returned unchecked. Type casts, select, tests of the class, loads and calls are not covered. Theorems: llvm_icmp_ge_refuted, llvm_fcmp_ne_refuted, llvm_fp_neg_zero_refuted, llvm_vector_neg_refuted, llvm_vector_not_refuted, llvm_nearest_int32_refuted, llvm_nearest_int64_refuted, llvm_vector_nearbyint_refuted, llvm_fma_zero_refuted, llvm_mask_test_refuted, llvm_wrapper_refuted, llvm_constant_zero_refuted.
* C115 (Legalized minimum and maximum): Proved for all pairs without NaN. With a NaN the second operand is returned, so that the result depends on the order. Theorems: legalized_min_nan_refuted.
* C116 (The vector-length agnostic loop computes every element): Proved for fewer than 2^31 elements, every vsetvl within its specification, destinations not read later, and elements for which all validity conditions hold. The validity mask is computed and dropped: where the condition fails, the usual path is stored for every element. From 2^31 elements on nothing is computed. The group size is ignored in the length, so a group of registers is never used; elements twice as wide as the format do not fit. Byte indices are right only when the elements have the size of the index and below 2^size bytes. Theorems: vla_mask_dropped_refuted, vla_long_refuted, vla_group_trips_refuted, vla_wide_lanes_refuted, vla_overlap_refuted, byte_index_refuted, byte_index_wraps_refuted.
* C117 (The RISC-V vector entries compute the operation they are selected for): All entries but those refuted: integer fused multiply-add, unsigned negation, arithmetic shift, minimum, maximum and conversion name intrinsics that do not exist; Conversion to an integer rounds to nearest; Floor truncates; rounding within a floating-point format is right only for data within the integer format, saturates beyond it (also for infinities and NaNs) and loses the sign of a zero. Loads, stores, casts between integers and floating-point elements and the reciprocal seed are not covered. Theorems: rvv_rejected_refuted, rvv_conversion_refuted, rvv_floor_refuted, rvv_floor_fp_refuted, rvv_round_saturates_refuted, rvv_round_sign_refuted.
* C118 (Tests of array functions check every element): Layout, expected values and verdict are proved for all sizes, empty arrays included, and the index of the maximal error is that of the first largest error. With standard test cases the tables are never generated (a whole array is used as a value). With break_error the test never fails. What the function writes outside of its array is never noticed. The maximal error is measured on as many elements as there are arrays: the others are ignored, and with fewer elements it reads outside of the tables. Theorems: array_standard_cases_refuted, array_break_error_refuted, array_overrun_refuted, array_max_error_misses_refuted, array_max_error_outside_refuted.
* C119 (The hardware reciprocal is the correctly rounded inverse): Binary32, all normal inputs with a normal inverse: within 1/2 + 2^-22 of a unit in the last place, and correctly rounded unless the inverse is above the middle of two numbers by at most six 2^-48. When 2^48 - 1 is a multiple of the significand with a quotient 4k+1 the result is always the wrong neighbour. Zeros, infinities, NaNs, subnormal inputs and subnormal results are wrong, and so is binary64 (the last error overflows its format). Inputs between these (distance at most 6, other quotients) are only bounded, not decided. Pipeline registers are not modelled. Theorems: reciprocal_misrounded_refuted, reciprocal_subnormal_result_refuted, reciprocal_huge_refuted, reciprocal_2p127_refuted, reciprocal_infinity_refuted, reciprocal_nan_refuted, reciprocal_zero_refuted, reciprocal_subnormal_refuted, reciprocal_binary64_refuted.
* C120 (Typing of untyped operations: formats, values kept, constants): All trees of the modelled operations; constants may not be shared in typing_formats, because sharing is refuted. The value of a real (non-integer) constant in its format is not characterised. Statements, table accesses, calls and multi-precision formats are not modelled. Theorems: constant_fits_refuted, shared_constant_refuted, constants_only_refuted, comparison_refuted, untyped_refuted.
* C121 (Bipartite approximation: error of the tables and of the result): Any function, any sizes: indices, argument, error of the tables (spread of the slopes plus two half units) and of the truncated result; the logged error is exactly the maximum over all table inputs. For the default inverse the bound is a number. Refuted: the result at 1 (off by one unit, three times the logged error), the rounding mode (unused), the expected values above 1 (one bit too few), the offset format (rounding reaches a power of two that is stored as zero), negative functions, zeros at a bound, intervals wider than 1. Sollya's evaluations are exact rationals; pipeline and software variant are not modelled. Theorems: bip_wide_interval_refuted, bip_one_refuted, bip_rounding_refuted, bip_modes_refuted, bip_emulation_refuted, bip_offset_refuted, bip_sign_refuted, bip_zero_refuted.
* C122 (Vector promotion keeps values and uses only supported operations): All programs of the modelled statements with any translation table and any set of supported operations: the pass never fails and produces the promoted program whatever is shared; values are kept; operations are unchanged, supported or conversions. With every object computed once (as the generated code does) the result is proved for straight-line programs that assign no variable after reading it; refuted otherwise, because the conversion of a variable is shared across an assignment. Programs with branches and loops are proved with expressions computed where they stand only. The pre-statement of a condition and SwitchBlock are left out. Theorems: promotion_stale_refuted.
* C123 (Piecewise polynomial approximations: tables, value of the graph, errors): Any number of sub-intervals, degrees and answers of Sollya. Tables, success and reloading are proved. False as the code stands: the graph adds c_d r^(d+1) to the polynomial (more than the error announced by the shipped atan file), a failed error erases the previous ones, a file with all its coefficients is loaded with error zero. Sollya's answers are inputs, values of tables are not rounded to their storage format, pw_uniform_bound is for exact arithmetic (pw_eval_rounded gives the rounding part). Theorems: loaded_error_bound_refuted, atan32_extra_term_refuted.
* C124 (Approximation files: what is written is read back): Any approximation of the three classes, any list of them, any Sollya values: fields kept, coefficients by increasing degree; the values are kept exactly when the display is exact. Formats read back are half, float, double and fixed-point ones, all others are refused. False as the code stands: text after a fixed-point format is ignored and a number is taken for a format, approximations over mantissa indexings cannot be read back, the interval of a split and the tag of a simple approximation are lost, and the three conversions from library objects always raise. Missing: the text of JSON files and the YAML half. Theorems: axf_display_refuted, format_text_refuted, indexing_mantissa_refuted, axf_from_objects_refuted.
* C125 (bfloat16: conversions, constants and rounding): All words of the two formats and all rational constants. Conversions are exact, respectively toward zero on finite numbers; constants are within 2^-7. False as the code stands: a NaN whose payload is in the 16 low bits becomes an infinity, rounding keeps 11 digits instead of 8 so that constants are not the nearest number and overflow begins too high, negative numbers flushed become +0, special values declared with the format are coded 0. Only rounding to nearest is modelled. Theorems: bf16_narrow_nan_refuted, bf16_round_refuted, bf16_flush_sign_refuted, bf16_overflow_refuted, bf16_special_refuted.
* C126 (Comparison, absolute value and NaN test of multi-limb numbers): Any precision of at least 3 digits, any tie rule, all six relations. Two limbs: right on canonical numbers, and the condition is necessary. Three limbs: right when the renormalized operands are canonical, and otherwise when the numbers are not within u times their low parts. False as the code stands: Normalize_33 does not make all numbers canonical, so close triples are ordered wrongly and equal ones said distinct; an infinity is unequal to itself; the NaN test says yes of the infinities produced by the blocks. The selection in vectors of multi-limb numbers is not modelled. Theorems: mp2_comparison_ties_refuted, mp3_comparison_refuted, renormalize_refuted, mp3_infinity_refuted, mp2_isnan_refuted.
* C127 (Fusion of multiplications and additions): Any graph without cycles, shared at will, with extra inputs. False as the code stands: the format of the multiplication is ignored, an addition marked prevent_optimization is fused, only additions of two operands are looked up in the memoization so that visits are exponential; values are kept only if a fused operation is taken as its two operations. Missing: handles and indices. Theorems: product_format_refuted, integer_product_refuted, rounding_once_refuted, prevented_addition_refuted, linear_visits_refuted.
* C128 (Sharing of sub-expressions between branches): Any program graph without cycles, any choice of branches. Missing: executions are sequences of operations, values and the memoization of the code generator are not part of it; a loop goes through its parts once. False as the code stands: the levels searched are those of the outermost call, so that operations of a single branch are taken out of it, k times for k+1 uses, before stores of the branch; conditions which are branches or are in a switch are left; statements used twice get their insertions several times. Theorems: one_branch_refuted, load_before_store_refuted, nested_block_refuted, switch_case_refuted, shared_statement_refuted.
* C129 (The lowering engine): Any graph, cycles and sharing included, any actions; the action is a function of the class of a node (operation, format, formats of operands: those of operands are taken not to change). False as the code stands: after several steps on one node its other uses get the result of the first step; cases of a switch and statements before it are not lowered; operands of a node given back by its action are not lowered. Missing: that the engine ends when actions do not go in circles (theorems are about runs that end). Theorems: several_steps_refuted, extra_inputs_refuted, same_node_refuted, cycle_refuted.
* C130 (Summaries of tests and their comparison): Any summaries, titles, messages and reading of numbers; percentages are exact rationals (missing: their rounding in binary64, carriage returns, layout of the report). False as the code stands: a measure reading as zero in the reference makes the whole comparison raise ZeroDivisionError; equal or NaN measures are improvements; tests absent from the reference are not reported, tests that disappeared are in no category; titles with spaces and messages with ends of lines are not read back. Theorems: zero_reference_refuted, same_improved_refuted, nan_improved_refuted, new_tests_refuted, lost_tests_refuted, title_space_refuted, message_line_refuted.
* C131 (Formats of virtual booleans): Any graph, shared or cyclic, for both passes; formats are what the passes read of them. False as the code stands: a comparison that needs no format, or a graph already seen by the same object, is given back as None; lanes of 8 or 16 bits raise KeyError; booleans of two widths are combined without conversion; operands of an assembling after the second are not looked at; other boolean operations and constants stay virtual. Missing: that a run ends (theorems are about runs that end), nodes whose format is not set. Theorems: comparison_root_refuted, same_object_refuted, narrow_lanes_refuted, other_scalars_refuted, mixed_widths_refuted, assembling_refuted, other_booleans_refuted, virtual_constant_refuted.
* C132 (Removal of gotos and of register copies in machine programs): Any program, any semantics of operations, stores and tests. Removal of gotos: no condition. Removal of copies: executions are kept if the destination is not touched from the definition to the copy, the source is not itself a removed copy, and sources removed are not outputs. False as the code stands, each condition being needed: a value copied twice is lost, a returned register is lost, destinations read or written in between get a wrong value. Missing: sub-registers, programs with a block in them twice. Theorems: chain_refuted, returned_refuted, early_refuted, late_refuted.
* C133 (Selection of the implementation of an operation): Any tables, conditions and hierarchies. The implementation selected is characterised, and so are the operations said supported; both agree in registered languages. False as the code stands: languages other than the default one, tables of ancestors searched before those of their subclasses, arguments of a second request, number of operands in two of the matches, result format in the match of fixed-point formats. Missing: the tables of the targets themselves, effects in conditions. Theorems: unregistered_refuted, odd_refuted, hierarchy_refuted, redefinition_refuted, instance_refuted, list_arity_refuted, relax_arity_refuted, fixed_first_refuted.
* C134 (Checks, tags and evaluation of all nodes of a graph): Any acyclic graph, any check, tags, target and evaluation functions. False as the code stands: tags of classes with one name, tags already in the graph, languages other than C below the root, a check pass executed twice or on graphs sharing nodes. Missing: the functions evaluating one operation (apply_bare_range_function), the text displayed. Theorems: same_name_refuted, existing_tag_refuted, language_refuted, check_again_refuted, check_shared_refuted.
* C135 (Legalization of bit fields, concatenations, selections and mantissas): All formats, operands and positions. Bit fields, single bits, concatenations of unsigned operands, selections and mantissas. False as the code stands, for whole families of operands: fields taken from bits into a format with a fraction, concatenations with a negative right operand or a fraction, selections between formats of one size and several fractions. Missing: the pass Pass_SoftLegalize itself, which raises whatever the graph (see DESIGN.md), shifts of vectors. Theorems: bitfield_fraction_refuted, concatenation_sign_refuted, concatenation_fraction_refuted, select_fraction_refuted.
* C136 (Reports, displays of values and groups of functions): Any levels, messages, formats, groups and functions. False as the code stands: errors reported at a sub-level of Error, messages with braces once displayed, separation of messages on the stream, display of vectors of eight pairs, of the sign of fixed-point formats and of wide integers, objects of functions asked for before all arguments are known, names after a merge. Missing: fields of messages other than {}, the debugger. Theorems: error_sub_level_refuted, verbose_refuted, stream_separation_refuted, eight_pairs_refuted, display_sign_refuted, wide_macro_refuted, two_words_refuted, object_stale_refuted, merge_names_refuted, merge_other_names_refuted, merge_itself_refuted.
* C137 (Attributes of nodes, their defaults and copies): Any attributes, defaults, dynamic attributes, constants, formats and blocks. False as the code stands: copies of unbreakable sums, copies with required dynamic attributes, the default that is refused to be removed, second copies of constants and what the sizing of datapaths and the sorting by blocks do with them. Missing: build functions of dynamic attributes, constants that do not fit the format asked for. Theorems: copy_unbreakable_refuted, copy_required_refuted, unset_refused_refuted, constant_copies_refuted, constant_two_formats_refuted, constant_blocks_refuted.
* C138 (Functions made of a part of a graph): Any graph, arguments, tags, operations and values. False as the code stands: functions whose body is a call, a variable, a constant or a table, arguments with one name, input variables left out, the class CallExternalizer. Missing: statements and control flow in the body, formats of the parameters. Theorems: left_out_refuted, not_returned_refuted, same_names_refuted, externalizer_refuted.
* C139 (Register allocation of machine programs): Any straight-line code, coloring, operations, words and registers of several words; edges for any program. False as the code stands: the first argument and the first result share a register, returned arguments, functions returning two values in two branches, assignments of a register to another. Missing: values across branches, the coloring of asmde itself, shared operations. Theorems: register_copy_refuted, argument_returned_refuted, argument_overwritten_refuted, two_returns_refuted.
* C140 (Hardware formats for software, and formats of pointers): Any graph, format, code, pointer and table. False as the code stands: unevaluated and numeric vectors, pre-statements and cases, shared table formats, transitivity of equality, attributes of pointers. Missing: displays of formats, contents of tables, ML_AdvancedFormat. Theorems: vectors_refuted, unvisited_formats_refuted, shared_table_refuted, equality_transitive_refuted, attributes_refuted.
* C141 (Intervals in the answers of Gappa): Any text, any number of comments, any answer. False as the code stands: texts with a closing brace before the first opening one never end, comments in comments leave a brace in a bound, one line not read loses the others. Missing: the conversion of the bounds by sollya.parse, the running of Gappa. Theorems: endless_refuted, nested_refuted, answer_lost_refuted.

## Print Assumptions of every theorem of the manifest

Closed under the global context (952 theorems):

* AdderProps: fp_add_cancel_refuted, fp_add_correct_partial, fp_add_far_refuted, fp_add_negative_refuted, fp_add_power_refuted, fp_add_round_up_refuted
* ArrProps: array_break_error_refuted, array_expected, array_inputs_partial, array_layout, array_max_error_misses_refuted, array_max_error_outside_refuted, array_max_error_partial, array_overrun_refuted, array_standard_cases_refuted, array_test_partial, max_index_correct
* AsmProps: allocation_kept, argument_overwritten_refuted, argument_returned_refuted, edges_exact, register_copy_refuted, two_returns_refuted
* AttrProps: attributes_given, constant_blocks_refuted, constant_copies_refuted, constant_two_formats_refuted, constant_undefined, constants_formats, copy_attributes, copy_required_refuted, copy_unbreakable_refuted, default_inside, defaults_restored, light_copy, unset_refused_refuted
* AxfProps: axf_class, axf_display_refuted, axf_error_kind, axf_from_objects_refuted, axf_lost_fields, axf_piecewise_values, axf_reload, axf_reload_list, axf_simple_values, format_names, format_names_refused, format_text_refuted, indexing_mantissa_refuted, indexing_text
* Bf16Props: bf16_constant, bf16_constant_error, bf16_flush, bf16_flush_sign_refuted, bf16_narrow_nan_refuted, bf16_narrow_special, bf16_narrow_truncates, bf16_overflow, bf16_overflow_refuted, bf16_round_refuted, bf16_rounded_constant, bf16_special32, bf16_special_refuted, bf16_widen_exact
* BipProps: bip_argument, bip_default, bip_emulation_refuted, bip_indices, bip_logged_error, bip_modes_refuted, bip_offset_refuted, bip_one_refuted, bip_result_error, bip_rounding_refuted, bip_sign_refuted, bip_table_error, bip_wide_interval_refuted, bip_zero_refuted
* BitHeapProps: booth_product_exact_partial, booth_product_frac_refuted, heap_default_stage_limit_refuted, heap_reduce_limit_one_refuted, heap_reduce_reaches_limit, heap_reduction_preserves_value, heap_reduction_removes_bits, mult_array_acc_exact_partial, mult_array_exact_partial, mult_array_negative_only_refuted, plain_product_exact_partial, plain_product_rhs_frac_refuted
* BlocksProps: blocks_accepted, blocks_same_execution, empty_block_refuted, generated_branches, generated_dominators, generated_graph_ok, loop_init_condition_refuted, loop_return_refuted, simplification_same_execution
* CbrtProps: cbrt_nan, cbrt_zero, cbrt_zero_sign_refuted
* CgenProps: branch_local_refuted, decision_graph_correct, declarations_ok, each_operation_once, forced_condition_refuted, generated_c_correct, generation_total, loop_body_value_refuted, pick0_fresh, stale_value_refuted
* CheckAccept: correctly_rounded_partial, faithful_accepts, negative_underflow_refuted, special_correctly_rounded
* CheckDegraded: accepts_is_decided, degraded_complete, degraded_exceeds_goal_refuted, degraded_infinite, degraded_misses_goal_refuted, degraded_overflow, degraded_sound_partial, special_bounds
* CheckLoops: break_error_refuted, error_valid_iff, infinite_result_ignored_refuted, max_error_index_refuted, relative_error_over_result_refuted, scalar_max_error_correct, scalar_max_error_invalid, test_rows_given, test_rows_size, test_suite_passes_iff, test_wrapper_result, vector_max_error_correct, vector_max_error_nan_refuted, vector_max_error_print_refuted
* CheckUlp: fp_next_partial, fp_next_power_refuted, fp_next_subnormal_refuted, fp_previous_partial, rel_error_to_ulp_partial, rel_error_to_ulp_refuted, search_threshold_power_refuted, search_threshold_result
* DequantProps: dequant_correct, dequant_ieee, dequant_rounding, dequant_subnormal_refuted, emulate_rounds
* DivCore: quotient_correct
* DivOnes: ones_quotient_refuted, ones_rounded
* DivProofs: markstein, reciprocal_error, reduced_correct, reduced_division_correct
* DivProps: binary32_generic_partial, binary32_rvv_partial, binary64_generic_partial, binary64_rvv_partial, division_special, division_zero_dividend_refuted, generic_seed_accuracy, generic_seed_accuracy_refuted, generic_table_accuracy, num_iteration_spec, ones_division_refuted, rvv_seed_accuracy, seed_conv_error
* DivScheme: double_rounding_refuted, numerical_correct_partial, numerical_overflow_refuted, overflow_quotient_finite
* DomProps: dominance_frontier_partial, dominator_map_entry_refuted, dominator_map_partial, immediate_dominator_partial, phi_placement_partial, simplification_accessible_partial, simplification_duplicates_refuted
* EngProps: cycle_refuted, extra_inputs_refuted, lowering_complete, lowering_keeps_values, lowering_nothing, lowering_objects, same_node_refuted, several_steps_refuted
* Exp2Props: exp2_clamp_refuted, exp2_nan, exp2_overflow, exp2_reduction, exp2_special, exp2_underflow
* Exp2iProps: fast_exp2i_correct, fast_exp2i_emulate_refuted
* ExpProps: exp_binary16_refuted, exp_reconstruction, exp_special
* ExtProps: binding_rule, externalized_body, externalized_value, externalizer_refuted, left_out_refuted, not_returned_refuted, same_names_refuted, table_argument
* FixMpfmaProps: fx_acc_exact, fx_dot_exact, fx_extra_digits, fx_minus_zero_refuted, fx_sign_bit_refuted, fx_sm_emulated, fx_sm_exact, fx_sm_extra_digits, fx_subnormal_half_refuted
* FixedProps: fx_bounds, fx_c_bit_size_minimal, fx_c_constants, fx_decode_encode_partial, fx_encode_correct, fx_encode_domain, fx_encode_fits, fx_round_directed, fx_round_grid, fx_round_nearest, fx_saturate_correct, fx_signed_round_trip_refuted, fx_truncate_below_refuted, fx_truncate_in_range, fx_truncate_wraps, fx_wide_round_trip_refuted
* FmaProps: addition_fused_once, addition_kept, fused_operation, fusion_ends, fusion_keeps_values, integer_product_refuted, linear_visits_refuted, prevented_addition_refuted, product_format_refuted, rounding_once_refuted, second_run
* FmodProps: c_fmod_unique, fmod_opposite_sign, fmod_opposite_sign_refuted, fmod_same_sign
* FpFormatProps: fp_binary80_round_trip_refuted, fp_bounds_partial, fp_class_tests_partial, fp_code_injective, fp_code_monotone, fp_code_strictly_increasing, fp_decode_encode, fp_decode_is_ieee, fp_encode_decode, fp_encode_nearest_even, fp_encode_zero, fp_exponent_extract_insert, fp_exponent_insertion, fp_extraction_reconstructs, fp_is_subnormal_zero_refuted, fp_max_subnormal_refuted, fp_nan_class_round_trip, fp_saturate_correct, fp_word_has_fields, hw_fp_class_tests
* GpiProps: answer_lost_refuted, answer_read, answer_refused, endless_refuted, interval_read, interval_refused, nested_refuted, unclosed_refused
* GraphProps: copies_disjoint, copy_isomorphic, copy_keeps_inputs_refuted, copy_same_value, default_copies_shared_refuted, depth_node_ordering_correct, depth_node_ordering_cyclic, depth_node_ordering_ends, linearize_graph_correct, parents_first_graded_partial, parents_first_refuted, worklist_operands_first
* HwIntProps: clz_spec_unique, compound_adder_correct, compound_adder_limit_zero_refuted, int_div_correct_partial, int_div_mixed_width_refuted, lza_negative_abs_partial, lza_negative_power_refuted, lza_negative_within_one_partial, lza_positive_within_one, lzc_block_correct, software_clz32_correct
* IndexProps: fp_index_correct, fp_tiles, mantissa_index_correct, mantissa_tiles, offset_input_in_range, uniform_index_exact, uniform_index_rounded, uniform_sub_interval_refuted, uniform_tiles
* IntervalProps: dot_product_negate_range_refuted, evaluate_range_sound_partial, meta_add_encloses, meta_and_exact, meta_contains_number, meta_contains_range_refuted, meta_div_encloses, meta_div_interval_by_list_refuted, meta_list_bounds, meta_list_contains_refuted, meta_mul_encloses, meta_neg_encloses, meta_or_empty_refuted, meta_or_exact, meta_sub_encloses, modulo_range_refuted, raw_exponent_range_refuted, refine_empty_refuted, refine_interval_list_correct, simplify_infty_refuted, simplify_preserves_value_partial, simplify_subnormal_bound_refuted, simplify_subnormal_refuted, update_interval_stable
* IntervalTight: evaluate_range_tight
* LimbBounds: add212_error, add221_fast_error, add222_error, add321_exact, mul211_exact, mul212_error, mul222_error, normalize_33_exact
* LimbExact: expand_add_exact, expand_fma_exact_partial, expand_mul_exact, expand_sub_exact, meta_blocks_exact, mul211_nofma_exact
* LimbProps: add222_normalized_refuted, add222_relative_error_refuted, add321_v2_refuted, expand_abs_correct, expand_cst_error, expand_cst_fits, expand_cst_last_nearest, expand_fma_212_refuted, expand_fma_specifier_refuted, expand_max_correct, expand_max_mixed_lengths_refuted, expand_max_unnormalized_refuted, expand_min_correct, fasttwosum_unordered_refuted, pred_gt_correct
* LimbRound: fasttwosum_exact, twosum_exact
* LimbTriple: add222_abs, add313_error, add322_declared, add322_error, add323_error, add331_declared, add332_error, add333_error, mul313_declared, mul313_error, mul321_declared, mul321_error, mul322_declared, mul322_error, mul323_error, mul333_error, normalize_23_error
* LimbTripleProps: expand_conversion_23, expand_conversion_32, mul321_declared_refuted
* LinProps: collapse_chain_refuted, collapse_correct, collapse_output_refuted, fallback_correct, leaf_endless_refuted, linearize_function_accepts, linearize_function_correct, operations_computed_once, phi_refuted, rejected_functions_refuted, shared_operation_refuted, stale_operation_refuted, statement_once_refuted, table_operand_refuted
* LlvmProps: legalized_max_partial, legalized_min_nan_refuted, legalized_min_partial, llvm_bool_ops, llvm_constant_partial, llvm_constant_zero_refuted, llvm_fcmp, llvm_fcmp_ne_refuted, llvm_fma_partial, llvm_fma_zero_refuted, llvm_fp_neg_partial, llvm_fp_neg_zero_refuted, llvm_icmp, llvm_icmp_ge_refuted, llvm_int_arith, llvm_mask_test_inverted, llvm_mask_test_refuted, llvm_nearbyint, llvm_nearest_int32_partial, llvm_nearest_int32_refuted, llvm_nearest_int64_refuted, llvm_sext, llvm_vector_fp_add_mul, llvm_vector_nearbyint_refuted, llvm_vector_neg_refuted, llvm_vector_not_refuted, llvm_wrapper_partial, llvm_wrapper_refuted
* LogNear: red_interval_refuted
* LogProps: log_special
* LogReduce: arg_red_entry, clear_last_entry, reduced_argument
* LogicProps: logical_and_not_raises_refuted, logical_or_not_refuted, logical_simplification_partial, logical_simplification_total_partial, queue_reduce_depth, queue_reduce_empty_refuted, queue_reduce_fold, queue_reduce_uses_all, vector_concatenation_empty_refuted, vector_concatenation_in_order
* LowerProps: addition_correct_partial, addition_unsigned_refuted, comparison_correct_partial, comparison_formats_refuted, conversion_correct_partial, conversion_negative_refuted, conversion_uint128_refuted, fixed_clz_correct_partial, fixed_clz_negative_refuted, fixed_clz_width_refuted, multiplication_correct_partial, multiplication_ignores_refuted, multiplication_overflow_refuted, subtraction_correct_partial, subtraction_rounding_refuted
* MaskProps: c_mask_test_correct, c_mask_test_three_refuted, engine_nested_refuted, mask_pass_complete, mask_pass_value, x86_mask_test_correct, x86_mask_test_refuted
* McProps: chain_refuted, collapse_execution, collapse_nothing, collapse_registers, early_refuted, fallback_blocks, fallback_execution, late_refuted, returned_refuted
* MpLibProps: c_double_double_addition, c_double_double_missing_refuted, c_double_double_subtraction_partial, ml_add_dd_d2_exact, ml_add_dd_d2_fast_exact, ml_add_dd_d2_fast_refuted, ml_add_dd_d_dd_error, ml_add_dd_dd2_error, ml_fma_dd_d3_error, ml_fma_refuted, ml_fmaf_nearest_partial, ml_fmaf_refuted, ml_mult_dd_d2_contraction, ml_mult_dd_d2_exact, ml_split_dd_d_exact, ml_split_ds_s_exact, mul211_nofma_rounded, split_constant, split_rounded
* MpLibSub: c_subnormalize_nearest_partial, c_subnormalize_range_refuted, c_subnormalize_tie_refuted
* MpcProps: canonical_abs, mp2_abs_correct, mp2_comparison_correct, mp2_comparison_nan, mp2_comparison_ties_refuted, mp2_infinity, mp2_isnan_refuted, mp2_isnan_sound, mp3_comparison_correct, mp3_comparison_far, mp3_comparison_nan, mp3_comparison_refuted, mp3_comparison_two_limbs, mp3_equal_sound, mp3_infinity_refuted, renormalize_canonical, renormalize_refuted, renormalize_value
* MpfmaProps: gap_fits_mixed, gap_fits_same, mpfma_cancel_refuted, mpfma_far_correct_partial, mpfma_half_refuted, mpfma_mixed_refuted, mpfma_round_up_refuted, mpfma_value
* NamesProps: declare_symbol_correct, get_free_cst_diverges_refuted, get_free_cst_ends_partial, get_free_name_fresh, get_free_name_loop_stops, names_distinct, undeclared_name_repeats_refuted
* PassesProps: execute_slot_respects_dependencies, pass_chain_refuted, pass_list_value, schedule_respects_dependencies, slot_chain_partial, slot_chain_refuted
* PayneProps: get_remainder_correct, get_remainder_doc_refuted, ph_chunks_cover, ph_chunks_sum, ph_correct, ph_dropped_refuted, ph_integer_overflow_refuted, ph_odd_field_refuted, ph_out_of_range_refuted
* PipeProps: absolute_delay_refuted, async_one_process_refuted, operands_delayed, pipeline_accepted, pipeline_behaves, pipeline_correct, recirculate_no_reset_refuted, registers_exact, registers_load, registers_one_driver, registers_step, stage_num_latency, stage_num_refuted, static_delay_keyerror_refuted, static_delay_operands_refuted, static_delay_reader_refuted
* PolyProps: estrin_correct, estrin_empty_refuted, estrin_list_correct, estrin_two_coefficients_refuted, horner_correct, horner_poly_correct, power_correct, power_cost, power_map_shared_refuted, power_nonpositive_refuted
* PowExp: nearest_diff_exact, remainder_exact, rootn_exponent_accurate
* PowProofs: pow_emulation_correct, pow_emulation_raises_iff, pow_exponent_deviation, pow_exponent_negative, pow_exponent_nonnegative_iff, pow_fraction_small, pow_negative_odd_refuted, pow_numeric_iff, pow_one_refuted, pow_sign_positive, pow_special_cases, pow_zero_inf_refuted, rootn_emulation_correct, rootn_emulation_refuted, rootn_emulation_sign, rootn_even_negzero_refuted, rootn_finite, rootn_special_cases, y_is_odd_spec
* PowProps: pow_code_and_emulation_disagree, pow_half_refuted, pow_negative_base_refuted
* PwProps: atan32_extra_term_refuted, generate_ok_iff, generated_error, generated_error_after_failure, generated_error_lost, generated_tables, load_generated_tables, load_index_error, load_offsets_from_caller, loaded_error, loaded_error_bound_refuted, loaded_error_full_zero, pw_eval_polynomial_iff, pw_eval_rounded, pw_eval_value, pw_uniform_bound
* RandProps: category_correct, category_fallback, category_zero_weight_refuted, fix_near_zero_refuted, fix_value_in_bounds, fix_value_representable, fix_zero_refuted, fp_log_interval_bounds, fp_value_magnitude, fp_value_representable, int_standard_onto, int_value_in_range, int_value_refuted, normalize_map_correct, normalize_map_rejects
* RecipProps: reciprocal_2p127_refuted, reciprocal_accurate, reciprocal_binary64_refuted, reciprocal_correctly_rounded_partial, reciprocal_huge_refuted, reciprocal_infinity_refuted, reciprocal_misrounded_refuted, reciprocal_nan_refuted, reciprocal_sign, reciprocal_subnormal_refuted, reciprocal_subnormal_result_refuted, reciprocal_zero_refuted
* RemquoProps: remquo_correct, remquo_half_down_refuted, remquo_half_up_refuted, remquo_special, remquo_zero_sign_refuted
* RepProps: display_kept, display_sign_refuted, displays_consistent, eight_pairs_refuted, enable_adds, error_never_returns, error_raised, error_sub_level_refuted, fixed_consistent, group_visits, merge_itself_refuted, merge_names, merge_names_refuted, merge_other_names_refuted, merge_visits, message_fields, message_missing, object_arguments, object_stale_refuted, report_shown, stream_separation_refuted, two_words_refuted, vectors_consistent, verbose_refuted, wide_macro_refuted
* RlgProps: bitfield_arithmetic, bitfield_bits, bitfield_fraction_refuted, concatenation_bits, concatenation_fraction_refuted, concatenation_sign_refuted, element_bit, mantissa_normal, mantissa_value, select_converted, select_fraction_refuted
* RoundRne: rne_nearest, sollya_round_rne
* RswProps: attributes_refuted, c_type_exact, c_type_smallest, codes_kept, equality_transitive_refuted, formats_translated, no_hardware, pointer_equality, shared_table_refuted, unvisited_formats_refuted, vectors_refuted
* RtlFixedProps: get_2scomplement_neg_correct, get_2scomplement_neg_domain_refuted, rtl_add_correct, rtl_add_wide_refuted, rtl_compare_correct, rtl_compare_lt, rtl_conv_correct, rtl_conv_exact, rtl_mul_correct, rtl_mul_sized_exact, rtl_neg_exact, rtl_shift_cst_correct, rtl_simplify_correct, rtl_simplify_cst_refuted, rtl_simplify_total_partial, rtl_slv_conv_correct, rtl_sub_correct, vhdl_cst_denotes, vhdl_fixed_cst_denotes
* RvvProps: rvv_table_partial
* RvvProps2: rvv_conversion_refuted, rvv_floor_fp_refuted, rvv_floor_refuted, rvv_fp_entries, rvv_rejected_refuted, rvv_round_partial, rvv_round_saturates_refuted, rvv_round_sign_refuted
* SelProps: custom_match, far_parent, fixed_first_refuted, hierarchy_ancestors, hierarchy_ends, hierarchy_levels, hierarchy_refuted, instance_other, instance_refuted, list_arity_refuted, list_match, odd_refuted, or_list_match, redefinition_refuted, relax_arity_refuted, relax_match, selection_first, selection_none, strict_match, supported_iff, supported_selected, unregistered_refuted
* ShareProps: load_before_store_refuted, nested_block_refuted, one_branch_refuted, shared_sound, shared_statement_refuted, sharing_executions, sharing_objects, switch_case_refuted, unshared_unchanged
* SizingProps: fixed_point_position_lsb, fixed_point_position_msb_refuted, format_does_fit_complete_refuted, format_does_fit_sound, largest_fixed_contains, largest_fixed_frac_minimal, size_add_exact_partial, size_add_mixed_overflows, size_add_mixed_refuted, size_clz_exact, size_concat_exact, size_cst_exact, size_cst_minimal_int, size_cst_minimal_refuted, size_mul_exact, size_neg_exact_partial, size_neg_signed_refuted, size_slice_exact, size_sub_exact_partial, size_sub_signed_refuted, solve_equal_contains_partial, solve_equal_forgets_refuted
* SpecialProps: infinity_le_number_refuted, number_gt_special_refuted, number_left_eq_partial, number_left_ge_partial, number_left_le, number_left_lt_partial, number_lt_infinity_refuted, number_number_comparisons, special_add_correct, special_add_unset_rounding_partial, special_add_unset_rounding_refuted, special_div_correct_partial, special_div_refuted, special_left_eq, special_left_ge, special_left_gt, special_left_le_partial, special_left_lt, special_mul_correct_partial, special_mul_inf_zero, special_mul_number_zero_refuted, special_sub_correct_partial, special_sub_number_zero_refuted, zero_equality_not_symmetric_refuted
* SqrtProofs: sqrt_before_rounding
* SqrtProps: invsqrt_seed_error, isqrt_binary32_accurate, isqrt_binary32_bound, isqrt_binary64_accurate, isqrt_binary64_bound, isqrt_last_branch_dead, isqrt_minus_zero_refuted, isqrt_nearest_refuted, isqrt_special, sqrt_binary32_correct, sqrt_binary32_small_refuted, sqrt_binary64_correct, sqrt_binary64_small_refuted, sqrt_last_branch_dead, sqrt_minus_zero_refuted, sqrt_special
* SqrtSeed: invsqrt_entry_nearest
* SsaProps: assigned_input_refuted, input_read_refuted, renaming_correct_partial, renaming_single_assignment, renaming_total, ssa_correct_partial, stale_operand_refuted, three_predecessors_refuted, to_ssa_correct, updated_for_the_phi_refuted
* SupportProps: c_class_tests_binary32_partial, c_class_tests_binary64_partial, c_comp_sign_differs, c_is_subnormal_refuted, c_normal_positive_binary32_refuted, c_special_values, c_subnormal_and_normal_tests, c_tests_match_legalizer, comp_sign_backends_refuted
* SupportProps2: c_clz_fallback_32b_refuted, c_clz_fallback_64b, c_clz_partial, c_clz_zero_refuted, c_copy_sign, c_copy_sign_refuted, c_exp_extraction, c_exp_extraction_unsigned_refuted, c_exp_insertion, c_exp_insertion_no_offset, c_exp_insertion_wraps_refuted, c_mantissa_extraction, c_raw_mantissa, c_sign_exp_insertion
* TableProps: compute_interval_encloses, create_copies, create_empty_shape, expanded_load_correct, expanded_load_negative, expanded_load_out, get_interval_fresh, get_interval_stale_refuted, split2D_correct, subset_interval_encloses, subset_interval_special_refuted, table_content_text
* TravProofs: value_unique
* TravProps: check_again_refuted, check_first, check_shared_refuted, debug_set, errors_displayed, existing_tag_refuted, language_refuted, same_name_refuted, support_c, support_checked, support_true, tags_given, tags_kept
* TruncProps: fp_trunc_nan_refuted, fp_trunc_special, fp_trunc_value, fp_trunc_zero_sign_refuted
* TsumProps: compare_classes, compare_covers, compare_fails_iff, compare_swapped, lost_tests_refuted, message_line_refuted, nan_improved_refuted, new_tests_refuted, report_counts, report_thresholds, same_improved_refuted, summary_complete, summary_roundtrip, summary_status, title_space_refuted, zero_reference_refuted
* TypProps: comparison_refuted, constant_fits_partial, constant_fits_refuted, constants_only_refuted, explicit_formats_kept, integer_format_contains, merge_order, merged_exact, shared_constant_refuted, typing_formats, untyped_refuted
* VbProps: assembling_refuted, comparison_root_refuted, mixed_widths_refuted, narrow_lanes_refuted, other_booleans_refuted, other_scalars_refuted, same_object_refuted, vbool_formats_chosen, vbool_formats_only, vbool_result, vbool_run_twice, vbool_uniform_width, virtual_constant_refuted
* VecProps: vector_function_lanes_partial, vector_function_returns_partial, vector_input_assigned_refuted, vector_local_condition_refuted, vector_loop_dropped_refuted, vector_nested_call_refuted, vector_path_sound_partial, vector_prospective_read_refuted, vector_uneven_split_refuted, vector_unlikely_without_else_refuted
* VecProps2: array_function_elements, array_function_overlap_refuted, array_of_vector_function_partial, inline_early_return_refuted, inline_result_partial
* VlaProps: byte_index_correct, byte_index_refuted, byte_index_wraps_refuted, vla_elements_partial, vla_group_trips_refuted, vla_lanes_fit, vla_long_refuted, vla_mask_dropped_refuted, vla_overlap_refuted, vla_scalar_partial, vla_wide_lanes_refuted
* VproProps: intel_tables, promotion_levels, promotion_operations, promotion_refines, promotion_run_partial, promotion_shared, promotion_stale_refuted, promotion_twice, promotion_value

Depends on `ClassicalDedekindReals.sig_forall_dec`, `ClassicalDedekindReals.sig_not_dec`, `Classical_Prop.classic`, `FunctionalExtensionality.functional_extensionality_dep` (33 theorems):

* CbrtProps: cbrt_accurate, cbrt_faithful_refuted, cbrt_inf_refuted, cbrt_negative_refuted, cbrt_tiny_refuted
* Exp2Props: exp2_accurate, exp2_accurate_std, exp2_binary32, exp2_faithful_refuted, exp2_integer, exp2_nan_below_overflow_refuted, exp2_underflow_refuted, tab32_ok, tab64_ok
* ExpProps: cst32_ok, cst64_ok, exp_accurate, exp_accurate32, exp_hi_interval_refuted, exp_overflow, exp_reduced_interval_refuted, exp_reduction, exp_underflow_refuted, exp_zero
* LogExist: log_constants_exist, series_ok
* LogNear: log_below_one_refuted, log_mismatch_refuted
* LogProofs: reduced_log_error
* LogProps: log_above_one, log_around_one, log_far, log_one

