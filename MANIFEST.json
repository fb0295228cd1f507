{
 "claims": [
  {
   "property": "C01",
   "status": "proved",
   "theorems": [
    "C01_lifted_agrees",
    "C01_lifted_agrees_ring",
    "C01_float_sum_refuted",
    "C01_u8_sum_refuted"
   ],
   "note": "law-free for every tree whose root is not a Sum under unary operators; all trees over a ring whose from_usize counts. The two _refuted theorems show that the laws are needed (f64, u8)."
  },
  {
   "property": "C02",
   "status": "partial",
   "theorems": [
    "C02_value_partial",
    "C02_total_partial",
    "C02_real_partial",
    "C02_real_total_partial",
    "C02_integers_exact",
    "C02_reals_exact",
    "C02_refuted"
   ],
   "note": "Proved for all trees (without Cached, see C12), shapes and ranks over any exact scalar type, and for the integers and the reals in particular, except where the code deviates: Sub/Div of a scalar by an array of rank 2 or more, products of a vector with a non-square matrix, zero bases with a non-positive exponent. Each deviation is refuted with a witness in C02_refuted."
  },
  {
   "property": "C03",
   "status": "proved",
   "theorems": [
    "C03_shape_agrees",
    "C03_shape_of_spec",
    "C03_shape_error",
    "C03_cached_sum_refuted"
   ],
   "note": "for trees without Cached below Sum/Power; C03_cached_sum_refuted shows why that exclusion is needed (the shape query of Sum/Power does not visit its operands)."
  },
  {
   "property": "C04",
   "status": "partial",
   "theorems": [
    "C04_jacobian_partial",
    "C04_no_vec",
    "C04_sum_refuted",
    "C04_cached_refuted",
    "C04_order_refuted"
   ],
   "note": "Proved for trees without Cached (with Vecs there is no gradient: C04_no_vec), Sum of scalars only, square matrix-vector products, and contractions whose left operand does not depend on an array target (or is symmetric). Refuted beyond that: Sum of an array (C04_sum_refuted), index order in contractions (C04_order_refuted), caches (C04_cached_refuted)."
  },
  {
   "property": "C05",
   "status": "partial",
   "theorems": [
    "C05_repeat_refuted",
    "C05_hessian_partial"
   ],
   "note": "Second derivatives proved (C05_hessian_partial, same class of trees as C04). Refuted as stated: no expression can be differentiated three times (C05_repeat_refuted, C42)."
  },
  {
   "property": "C06",
   "status": "proved",
   "theorems": [
    "C06_absent_zero",
    "C06_absent_zero_real",
    "C06_absent_adjoints"
   ],
   "note": "At evaluation level, for every tree, shape (including rectangular matrices) and context. Hypotheses: exact arithmetic in which 0/y = 0 and y^2 <> 0 for nonzero y (proved for the reals), and no division by zero or logarithm of zero in the expression."
  },
  {
   "property": "C07",
   "status": "proved",
   "theorems": [
    "C07_contains_occurs",
    "C07_independent"
   ],
   "note": ""
  },
  {
   "property": "C08",
   "status": "partial",
   "theorems": [
    "C08_leftmost_partial",
    "C08_errors",
    "C08_leftmost_refuted"
   ],
   "note": "the leftmost-undefined error holds for cache-free trees whose evaluation does not panic; C08_leftmost_refuted: a Vec length mismatch to the left of an undefined variable panics first, so the full statement is false of the code."
  },
  {
   "property": "C09",
   "status": "partial",
   "theorems": [
    "C09_div_mismatch_partial",
    "C09_shape_mismatch_partial",
    "C09_mismatch_refuted",
    "C09_dense_mismatch_panics"
   ],
   "note": "division and shape queries report the mismatch; add/sub/mul of Vecs of different lengths panic (C09_mismatch_refuted, C09_dense_mismatch_panics), so the full statement is false of the code."
  },
  {
   "property": "C10",
   "status": "partial",
   "theorems": [
    "C10_typed_partial",
    "C10_typed_spec_partial",
    "C10_progress_partial",
    "C10_panic_refuted"
   ],
   "note": "value of the predicted type, spec of the predicted type, and progress for square matrix products without Vecs; C10_panic_refuted: a well-typed non-square matrix-vector product panics."
  },
  {
   "property": "C11",
   "status": "proved",
   "theorems": [
    "C11_adjoint_type",
    "C11_adjoint_shape"
   ],
   "note": "As a statement about types and about the shapes of evaluated buffers. C11_sum_differs shows why Sum is excluded."
  },
  {
   "property": "C12",
   "status": "partial",
   "theorems": [
    "C12_value_partial",
    "C12_same_result_partial",
    "C12_coherence_kept_partial",
    "C12_refuted"
   ],
   "note": "Proved for every placement of Cached nodes and every sequence of evaluations in coherent contexts, for trees free of the deviations listed under C02. Outside them caching can change the value (C12_refuted: zero to the power zero)."
  },
  {
   "property": "C13",
   "status": "proved",
   "theorems": [
    "C13_cached_stable",
    "C13_entry_kept"
   ],
   "note": ""
  },
  {
   "property": "C14",
   "status": "proved",
   "theorems": [
    "C14_frame",
    "C14_cache_free"
   ],
   "note": ""
  },
  {
   "property": "C15",
   "status": "proved",
   "theorems": [
    "C15_history",
    "C15_read_write",
    "C15_other",
    "C15_views",
    "C15_plain",
    "C15_cache",
    "C15_kept",
    "C15_refines",
    "C15_write_spec",
    "C15_refines_spec"
   ],
   "note": "For every list of generated impls and every write history. Hypothesis `compiled`: what rustc checks (distinct field names, one impl per identifier, slots of the kind of their field). C15_refines connects the generated contexts with the contexts used by evaluation."
  },
  {
   "property": "C16",
   "status": "partial",
   "theorems": [
    "C16_refuted",
    "C16_field_partial",
    "C16_ctx_type"
   ],
   "note": "Refuted as stated: an attribute such as #[rustfmt::skip] on any field is rejected, and so are cache types such as Option<[f64; 2]>. The condition is necessary, and sufficient outside these two cases; C44 gives the exact condition. The part about ctx_type! is proved in full."
  },
  {
   "property": "C17",
   "status": "partial",
   "theorems": [
    "C17_indices_partial",
    "C17_indices_refuted"
   ],
   "note": "every runtime shape with at least one dimension; C17_indices_refuted: SDynamic<0> yields no index."
  },
  {
   "property": "C18",
   "status": "partial",
   "theorems": [
    "C18_count_and_size_hint_partial",
    "C18_hint_add",
    "C18_hint_mul",
    "C18_count_refuted"
   ],
   "note": "count in unbounded numbers; on 64-bit usize it wraps or panics where the number does not fit (C18_count_refuted; exact behaviour C65). size_hint is proved in full."
  },
  {
   "property": "C19",
   "status": "proved",
   "theorems": [
    "C19_indices",
    "C19_contains",
    "C19_broadcast",
    "C19_broadcast_runtime",
    "C19_split_concat",
    "C19_concat_split",
    "C19_concat",
    "C19_is_diagonal",
    "C19_rank",
    "C19_equivalent"
   ],
   "note": ""
  },
  {
   "property": "C20",
   "status": "proved",
   "theorems": [
    "C20_build_get",
    "C20_get",
    "C20_unchecked",
    "C20_extensional",
    "C20_constants",
    "C20_map",
    "C20_fold",
    "C20_sum"
   ],
   "note": ""
  },
  {
   "property": "C21",
   "status": "partial",
   "theorems": [
    "C21_subset",
    "C21_outside_partial",
    "C21_pair",
    "C21_outside_refuted"
   ],
   "note": "an out-of-range index panics for Vecs and arrays; C21_outside_refuted: pairs ignore it."
  },
  {
   "property": "C22",
   "status": "partial",
   "theorems": [
    "C22_map",
    "C22_zip_map_partial",
    "C22_zip_map_refuted"
   ],
   "note": "everything except zip_map of a full scalar with a full array of rank >= 2, where the dense code swaps the arguments (C22_zip_map_refuted)."
  },
  {
   "property": "C23",
   "status": "partial",
   "theorems": [
    "C23_zip_map_partial",
    "C23_zip_map_defined",
    "C23_zip_map_id",
    "C23_zip_mut",
    "C23_zip_fold",
    "C23_mismatch",
    "C23_zip_map_refuted"
   ],
   "note": "everything except a scalar on the left of an array of rank >= 2 (C23_zip_map_refuted; exact behaviour is C40)."
  },
  {
   "property": "C24",
   "status": "partial",
   "theorems": [
    "C24_contract_partial",
    "C24_contract_spec_partial",
    "C24_contract_refuted"
   ],
   "note": "all supported pairs except a vector with a non-square matrix (C24_contract_refuted; exact behaviour is C41)."
  },
  {
   "property": "C25",
   "status": "partial",
   "theorems": [
    "C25_eps_partial",
    "C25_ring",
    "C25_derivative_partial",
    "C25_start",
    "C25_conj",
    "C25_scale_refuted"
   ],
   "note": "All operators in every commutative ring and as derivatives over the reals, except Dual * plain value, whose adjoint is not scaled (C25_scale_refuted; exact behaviour is C43)."
  },
  {
   "property": "C26",
   "status": "proved",
   "theorems": [
    "C26_pairs",
    "C26_panics",
    "C26_cache_free",
    "C26_gradient"
   ],
   "note": ""
  },
  {
   "property": "C27",
   "status": "partial",
   "theorems": [
    "C27_panics",
    "C27_accepts",
    "C27_builds",
    "C27_meaning",
    "C27_scalar",
    "C27_exact_partial",
    "C27_refuted"
   ],
   "note": "Conversion is exact: it panics exactly on other operators, and the node denotes the arithmetic value of the source, calls of the node methods included. Scalar expressions whose paths have values evaluate to that value for every scalar type; tensor expressions do wherever evaluation itself is correct (see C02); C27_refuted shows scalar minus matrix."
  },
  {
   "property": "C28",
   "status": "partial",
   "theorems": [
    "C28_equal",
    "C28_display_refuted",
    "C28_display_partial",
    "C28_crate"
   ],
   "note": "Equality is proved in full. Display is refuted: identifiers without a symbol are all shown as type_id. Displays differ when the symbols do; all 50 identifiers of aegir::ids are distinguishable both ways."
  },
  {
   "property": "C29",
   "status": "partial",
   "theorems": [
    "C29_sound_partial",
    "C29_refuted",
    "C29_arrays_partial",
    "C29_arrays_refuted"
   ],
   "note": "Sound over the reals for all scalar trees without Erf/DiGamma of an operand rendered as a constant and without zero bases under non-positive exponents; there the rendering is wrong, and 0/0 is shown as zero in f64 (C29_refuted). For array values: Zero means zeros and a scalar One means one (C29_arrays_partial) unless an operand rendered as One that is not a scalar enters an operator that makes a zero or a scalar one of it, where it is wrong (C29_arrays_refuted)."
  },
  {
   "property": "C30",
   "status": "partial",
   "theorems": [
    "C30_injective_partial",
    "C30_sums_partial",
    "C30_refuted"
   ],
   "note": "The text (to_expr and Display) determines the tree for all trees over variables in the class [clear], also with sums and double contractions on the outside (C30_sums_partial); outside it different expressions with different values share a text (C30_refuted); C88 says exactly which."
  },
  {
   "property": "C31",
   "status": "proved",
   "theorems": [
    "C31_variable",
    "C31_constant"
   ],
   "note": ""
  },
  {
   "property": "C32",
   "status": "proved",
   "theorems": [
    "C32_formula",
    "C32_range",
    "C32_reflection",
    "C32_increasing",
    "C32_derivative",
    "C32_never_exponentiates_positive"
   ],
   "note": "Over the reals, for the two-branch code."
  },
  {
   "property": "C33",
   "status": "proved",
   "theorems": [
    "C33_add",
    "C33_sub",
    "C33_mul",
    "C33_infinite_refuted"
   ],
   "note": "All f64 values via SpecFloat. Add and Sub need no finiteness; C33_infinite_refuted shows Mul does."
  },
  {
   "property": "C34",
   "status": "partial",
   "theorems": [
    "C34_bit_exact_partial",
    "C34_refuted"
   ],
   "note": "No law of the scalars is used. Excludes a scalar to the left of an array of rank 2 or more, where the code exchanges the arguments (C34_refuted)."
  },
  {
   "property": "C35",
   "status": "proved",
   "theorems": [
    "C35_gradient"
   ],
   "note": "For every dimension and every exact scalar type, in every context defining the three variables."
  },
  {
   "property": "C36",
   "status": "partial",
   "theorems": [
    "C36_precedence_partial",
    "C36_order_refuted",
    "C36_compiled_partial"
   ],
   "note": "all pairs; order independence fails between Vecs and Arrays (C36_order_refuted), and holds for every pair of types with a derivative that compiles (C36_compiled_partial)."
  },
  {
   "property": "C37",
   "status": "proved",
   "theorems": [
    "C37_nested",
    "C37_layers",
    "C37_types",
    "C37_root",
    "C37_shapes",
    "C37_cause",
    "C37_undefined"
   ],
   "note": ""
  },
  {
   "property": "C38",
   "status": "proved",
   "theorems": [
    "C38_iterator_restarts",
    "C38_no_dimensions"
   ],
   "note": ""
  },
  {
   "property": "C39",
   "status": "proved",
   "theorems": [
    "C39_mismatch_never_succeeds"
   ],
   "note": ""
  },
  {
   "property": "C40",
   "status": "proved",
   "theorems": [
    "C40_zip_map_swapped",
    "C40_sub_div"
   ],
   "note": ""
  },
  {
   "property": "C41",
   "status": "proved",
   "theorems": [
    "C41_matrix_vector",
    "C41_vector_matrix"
   ],
   "note": ""
  },
  {
   "property": "C42",
   "status": "proved",
   "theorems": [
    "C42_third",
    "C42_constant"
   ],
   "note": "For all trees and targets."
  },
  {
   "property": "C43",
   "status": "proved",
   "theorems": [
    "C43_scale",
    "C43_shift"
   ],
   "note": ""
  },
  {
   "property": "C44",
   "status": "proved",
   "theorems": [
    "C44_accepts",
    "C44_struct",
    "C44_impls",
    "C44_result",
    "C44_ctx_type"
   ],
   "note": "Exact acceptance by the derive, the resulting field, and the composition with ctx_type!."
  },
  {
   "property": "C45",
   "status": "proved",
   "theorems": [
    "C45_syntax",
    "C45_once",
    "C45_display"
   ],
   "note": "Syntax, single definition and displayed text of ids!."
  },
  {
   "property": "C46",
   "status": "proved",
   "theorems": [
    "C46_lms",
    "C46_progress",
    "C46_misses",
    "C46_example_program"
   ],
   "note": "Exact arithmetic; random draws are inputs."
  },
  {
   "property": "C47",
   "status": "proved",
   "theorems": [
    "C47_same",
    "C47_gradient",
    "C47_runs",
    "C47_missing",
    "C47_failing"
   ],
   "note": "Bit for bit in 64-bit floats and for any scalars with a commutative product and a unit."
  },
  {
   "property": "C48",
   "status": "proved",
   "theorems": [
    "C48_gradient",
    "C48_run",
    "C48_improves",
    "C48_floats_differ"
   ],
   "note": "Exact arithmetic, and the float divergence with its witness."
  },
  {
   "property": "C49",
   "status": "proved",
   "theorems": [
    "C49_same",
    "C49_real"
   ],
   "note": "Any scalars; value over the reals."
  },
  {
   "property": "C50",
   "status": "proved",
   "theorems": [
    "C50_accepts",
    "C50_rejects",
    "C50_named",
    "C50_unnamed",
    "C50_runs",
    "C50_operators"
   ],
   "note": "Exact acceptance and generated code; tied to the contains of the operator trees."
  },
  {
   "property": "C51",
   "status": "proved",
   "theorems": [
    "C51_accepts",
    "C51_compiles",
    "C51_reads",
    "C51_lower"
   ],
   "note": "Lower-casing modelled for ASCII letters."
  },
  {
   "property": "C52",
   "status": "proved",
   "theorems": [
    "C52_value",
    "C52_lifted"
   ],
   "note": "Any scalars. Trees without adjoint leaves, spec constants, caches and scalar-scalar contractions, whose short cuts need laws of arithmetic (C02, C12)."
  },
  {
   "property": "C53",
   "status": "proved",
   "theorems": [
    "C53_outcome"
   ],
   "note": "Any scalars; same trees as C52, well-typed."
  },
  {
   "property": "C54",
   "status": "proved",
   "theorems": [
    "C54_sum_gradient"
   ],
   "note": "Exact reals; summands as in C04."
  },
  {
   "property": "C55",
   "status": "proved",
   "theorems": [
    "C55_absent_zero",
    "C55_absent_f64",
    "C55_quotient_refuted"
   ],
   "note": "f64 and any scalars with closed zeros; the limits of the class are shown by C55_quotient_refuted."
  },
  {
   "property": "C56",
   "status": "proved",
   "theorems": [
    "C56_forward_error",
    "C56_gamma",
    "C56_sum",
    "C56_dot"
   ],
   "note": "f64 with SpecFloat arithmetic; ring operations, sums, contractions. powf, division and library functions are outside the class."
  },
  {
   "property": "C57",
   "status": "proved",
   "theorems": [
    "C57_whole_exact"
   ],
   "note": "f64 with SpecFloat arithmetic; same trees as C56."
  },
  {
   "property": "C58",
   "status": "proved",
   "theorems": [
    "C58_factorial",
    "C58_factorial_real",
    "C58_erfc",
    "C58_erfc_real",
    "C58_erfc_f64",
    "C58_erfc_small"
   ],
   "note": "Any scalars, exact reals and f64; gamma and erf are parameters."
  },
  {
   "property": "C59",
   "status": "proved",
   "theorems": [
    "C59_range",
    "C59_node",
    "C59_error"
   ],
   "note": "f64 with SpecFloat arithmetic; exp is a parameter with the stated condition."
  },
  {
   "property": "C60",
   "status": "proved",
   "theorems": [
    "C60_tree_error",
    "C60_gradient_error"
   ],
   "note": "f64 with SpecFloat arithmetic; adjoints of ring operations, regular and smooth as in C04; powf, division and library functions are outside the class."
  },
  {
   "property": "C61",
   "status": "proved",
   "theorems": [
    "C61_steps",
    "C61_floats",
    "C61_error"
   ],
   "note": "Any scalars for the operations; f64 with SpecFloat arithmetic for the bits and the error."
  },
  {
   "property": "C62",
   "status": "proved",
   "theorems": [
    "C62_grammar",
    "C62_unique",
    "C62_error",
    "C62_panics",
    "C62_xor",
    "C62_scalar",
    "C62_conventional_refuted"
   ],
   "note": "The reader is syn's (external), modelled as precedence climbing on the fragment of binary and prefix operators, method calls and parentheses; the value is stated for scalar trees, as in C27. C62_conventional_refuted shows that the usual reading of ^ is not the macro's."
  },
  {
   "property": "C63",
   "status": "proved",
   "theorems": [
    "C63_dot",
    "C63_dot_iff",
    "C63_dot_refuted",
    "C63_outer"
   ],
   "note": "Over the reals, for operands in the class of C04; C63_dot_refuted is a dot product whose evaluated adjoint is not its gradient."
  },
  {
   "property": "C64",
   "status": "proved",
   "theorems": [
    "C64_wrapping",
    "C64_wrapping_fits",
    "C64_checked",
    "C64_builds_agree",
    "C64_release",
    "C64_no_overflow",
    "C64_nothing_overflows"
   ],
   "note": "Widths from 8 bits up. A checked overflow is a mark kept by later operations instead of a panic. C64_parts_refuted and C64_count_refuted show why the size bound and the count matter, C64_division_refuted why the first claim excludes division."
  },
  {
   "property": "C65",
   "status": "proved",
   "theorems": [
    "C65_count",
    "C65_count_new",
    "C65_cardinality_wrapping",
    "C65_cardinality_checked",
    "C65_zero_refuted",
    "C65_equivalent_refuted"
   ],
   "note": "64-bit usize. C65_zero_refuted and C65_equivalent_refuted show the consequences."
  },
  {
   "property": "C66",
   "status": "proved",
   "theorems": [
    "C66_printed",
    "C66_reread",
    "C66_kept",
    "C66_node",
    "C66_no_prefix",
    "C66_reread_refuted"
   ],
   "note": "Printer and reader are syn's and rustc's (external), modelled on the same fragment as C62 plus prefix operators; C66_reread_refuted shows a source whose tokens are read as something else."
  },
  {
   "property": "C67",
   "status": "partial",
   "theorems": [
    "C67_one_reading",
    "C67_value_partial",
    "C67_refuted"
   ],
   "note": "Unique reading holds for every text. The value claim is proved over the reals for scalar trees outside the excluded classes (AddOne/ArcSin/Sinh printed as other functions, poles, blank zeros, bases that are not atoms, exponents and divisors containing a product sign); C67_refuted gives wrong formulas for seven of them."
  },
  {
   "property": "C68",
   "status": "proved",
   "theorems": [
    "C68_when",
    "C68_twice",
    "C68_caches_removed",
    "C68_only_key",
    "C68_by_key"
   ],
   "note": "`Differentiable` bounds are modelled as adjoint returning None where no impl exists. C68_twice is for cache-free trees."
  },
  {
   "property": "C69",
   "status": "proved",
   "theorems": [
    "C69_when",
    "C69_scalar",
    "C69_twice",
    "C69_twice_zero"
   ],
   "note": "Compiling is modelled by `typeof`: all trait bounds of the node hold. Sums are of scalars (scalar_sums), variables and constants scalars and arrays. C69_twice_zero is for exact scalars."
  },
  {
   "property": "C70",
   "status": "proved",
   "theorems": [
    "C70_silent",
    "C70_aborts",
    "C70_struct",
    "C70_field",
    "C70_unnamed",
    "C70_ctx_type",
    "C70_contains",
    "C70_aegir"
   ],
   "note": "Texts of std (unwrap, expect, unimplemented!, todo!) are part of the model; texts written by crate syn are the outcome Foreign."
  },
  {
   "property": "C71",
   "status": "proved",
   "theorems": [
    "C71_doc"
   ],
   "note": "For lists without duplicate type names (others do not compile, C45)."
  },
  {
   "property": "C72",
   "status": "proved",
   "theorems": [
    "C72_relative_error",
    "C72_zero",
    "C72_gamma",
    "C72_mean"
   ],
   "note": "Conditions: no product or quotient underflows, no divisor is zero or infinite, the entry is finite; powf and the library functions are outside the class."
  },
  {
   "property": "C73",
   "status": "proved",
   "theorems": [
    "C73_nodes",
    "C73_quadratic",
    "C73_height",
    "C73_twice",
    "C73_chain",
    "C73_chain_twice"
   ],
   "note": "Nodes are counted in the model's trees, one for each struct of the expression type."
  },
  {
   "property": "C74",
   "status": "proved",
   "theorems": [
    "C74_outcome",
    "C74_kept",
    "C74_history"
   ],
   "note": "The parts of the tree outside the caches may contain adjoints and lifted constants. C74_scalars_refuted shows why contractions of two scalars are excluded from the cached parts."
  },
  {
   "property": "C75",
   "status": "proved",
   "theorems": [
    "C75_room",
    "C75_finite"
   ],
   "note": "C75_limit_refuted shows that the room is needed, C75_shortcut_refuted that the statement does not extend to contractions of lifted constants, whose short cut multiplies by the length first."
  },
  {
   "property": "C76",
   "status": "proved",
   "theorems": [
    "C76_monotone",
    "C76_positive"
   ],
   "note": "Two runs of one expression in f64 (Coq SpecFloat): the computed entries follow the direction given by the rules of signs (goes), all operations included; the exchange of operands for a scalar against a matrix is part of the rules. For sums and products of non-negative numbers finiteness carries over to smaller inputs."
  },
  {
   "property": "C77",
   "status": "proved",
   "theorems": [
    "C77_scaling"
   ],
   "note": "Two runs of one expression in f64 (Coq SpecFloat) on inputs that differ by powers of two; underflow of products and quotients is excluded in both runs, sums need no such condition. The exchange of operands for a scalar divided by a matrix is part of the degree."
  },
  {
   "property": "C78",
   "status": "proved",
   "theorems": [
    "C78_forward_error",
    "C78_forward_gamma",
    "C78_sum",
    "C78_dot",
    "C78_whole_exact",
    "C78_erfc",
    "C78_sigmoid_range",
    "C78_sigmoid_node",
    "C78_sigmoid_error",
    "C78_tree_error",
    "C78_gradient_error",
    "C78_relative_error",
    "C78_relative_zero",
    "C78_relative_gamma",
    "C78_mean",
    "C78_room",
    "C78_no_overflow",
    "C78_monotone",
    "C78_monotone_positive",
    "C78_scaling",
    "C78_f32_error",
    "C78_f32_finite",
    "C78_regression_floats",
    "C78_regression_error",
    "C78_same_gradients",
    "C78_same_runs"
   ],
   "note": "Formats of Coq SpecFloat with 2 <= prec < emax (Flocq for the facts about rounding); f64 is the instance (53, 1024), f32 (24, 128), for which the error bound and absence of overflow are also stated in numbers and all cases are shown. powf and the library functions are parameters; the scalar conversions of f32 other than from whole numbers are not modelled."
  },
  {
   "property": "C79",
   "status": "partial",
   "theorems": [
    "C79_letters_refuted",
    "C79_letters_partial"
   ],
   "note": "False as stated: Tau is displayed as a sigma (C79_letters_refuted). True of all Latin identifiers and exactly of the Greek ones other than Sigma, Tau and Upsilon; C80 gives the symbols of all 50."
  },
  {
   "property": "C80",
   "status": "proved",
   "theorems": [
    "C80_symbols"
   ],
   "note": "crate_ids transcribes the invocation in lib.rs; the escapes are written as the UTF-8 bytes they stand for."
  },
  {
   "property": "C81",
   "status": "proved",
   "theorems": [
    "C81_generic",
    "C81_derivatives",
    "C81_fragment",
    "C81_closed",
    "C81_floats",
    "C81_integers"
   ],
   "note": "Scalar types are instances of the Scalar class of the model; a user type whose operations panic or have side effects is outside it (checked_int of C64 shows how panics can be carried as values). C81_fragment needs only the operations an expression uses; C81_integers is its instance for integers and reals."
  },
  {
   "property": "C82",
   "status": "proved",
   "theorems": [
    "C82_enclosure",
    "C82_arithmetic"
   ],
   "note": "Operators that branch (Dirac, Sign, XLnX, Sigmoid) and powers other than squares get no bound: the former are excluded, the latter yield none. The accuracy of the library functions is a hypothesis of C82_enclosure; C82_example shows that correctly rounded functions meet it."
  },
  {
   "property": "C83",
   "status": "proved",
   "theorems": [
    "C83_named",
    "C83_written",
    "C83_types",
    "C83_chain"
   ],
   "note": "C83_named needs the specification of the sub-expression to be a plain buffer; C83_spec_refuted shows that a constant kept as a Full specification can differ. C83_written drops this for programs on plain buffers. C83_chain is about values over the reals, of expressions of scalars, at points where none of the derivatives meets a power with base zero and exponent at most zero."
  },
  {
   "property": "C84",
   "status": "proved",
   "theorems": [
    "C84_filled",
    "C84_reached",
    "C84_again",
    "C84_stored"
   ],
   "note": "Values of caches are described by what the cached expression evaluates to in the final context; C84_nested_refuted shows why caches under a cache of the same key are excluded in C84_stored (and only there)."
  },
  {
   "property": "C85",
   "status": "proved",
   "theorems": [
    "C85_values",
    "C85_abs_gradient",
    "C85_sign_gradient"
   ],
   "note": "The table is decided in Branch_math.v; it says nothing about operators other than Abs, Negate, Sign, Dirac and XLnX. ln is a parameter."
  },
  {
   "property": "C86",
   "status": "proved",
   "theorems": [
    "C86_symmetric"
   ],
   "note": "Conditions of C05 in both orders (differentiation can not be repeated further, C42)."
  },
  {
   "property": "C87",
   "status": "proved",
   "theorems": [
    "C87_evaluate",
    "C87_adjoint",
    "C87_types",
    "C87_text"
   ],
   "note": "Identifiers are types with a PartialEq in the code; the model has numbers. Not every pair of distinct identifiers may become one (C87_injective_refuted)."
  },
  {
   "property": "C88",
   "status": "proved",
   "theorems": [
    "C88_text",
    "C88_display"
   ],
   "note": "Completes C30: an exact description of the ambiguity. Trees with constants or adjoint leaves are outside (C29)."
  },
  {
   "property": "C89",
   "status": "proved",
   "theorems": [
    "C89_text",
    "C89_plain",
    "C89_typed",
    "C89_some",
    "C89_buffers"
   ],
   "note": "Layout of derive(Debug) and of the std collections is modelled; the text of a scalar is a parameter. Across Rust types a Vec and an array with the same entries print alike (C89_types_refuted)."
  },
  {
   "property": "C90",
   "status": "proved",
   "theorems": [
    "C90_text",
    "C90_both"
   ],
   "note": "Fixed shapes print their rank only (C90_shapes_refuted)."
  },
  {
   "property": "C91",
   "status": "proved",
   "theorems": [
    "C91_constants",
    "C91_buffers",
    "C91_exact",
    "C91_self",
    "C91_symmetric",
    "C91_derivative",
    "C91_evaluate",
    "C91_floats"
   ],
   "note": "Expressions of different Rust types cannot be compared. NaN is not equal to itself (C91_self_refuted); division tells the zeros apart (C91_division_refuted)."
  },
  {
   "property": "C92",
   "status": "proved",
   "theorems": [
    "C92_regret",
    "C92_misses",
    "C92_example_program"
   ],
   "note": "Exact arithmetic."
  },
  {
   "property": "C93",
   "status": "proved",
   "theorems": [
    "C93_square",
    "C93_evaluates",
    "C93_jacobian",
    "C93_panics",
    "C93_wrong"
   ],
   "note": "Sum of scalars only. The two deviations are stated by C93_panics and C93_wrong with their witnesses."
  },
  {
   "property": "C94",
   "status": "proved",
   "theorems": [
    "C94_value",
    "C94_spec",
    "C94_shape",
    "C94_types",
    "C94_derivative",
    "C94_gradient",
    "C94_floats",
    "C94_ints"
   ],
   "note": "Without Cached nodes. Contractions are not exchanged: their operands play different parts."
  },
  {
   "property": "C95",
   "status": "proved",
   "theorems": [
    "C95_mean",
    "C95_example_program"
   ],
   "note": "In exact arithmetic. Randomness is modelled as averaging over all equally likely sequences of draws; the generator itself is outside the repository."
  },
  {
   "property": "C96",
   "status": "proved",
   "theorems": [
    "C96_tracks",
    "C96_distance",
    "C96_example_program",
    "C96_draws",
    "C96_average",
    "C96_average_program"
   ],
   "note": "f64 with round to nearest even. Randomness is modelled as averaging over all equally likely sequences of draws; the generator itself is outside the repository. The sum that makes the label starts at +0.0 as in C46 (its sign does not affect real values)."
  },
  {
   "property": "C97",
   "status": "proved",
   "theorems": [
    "C97_tracks",
    "C97_by_hand",
    "C97_growth",
    "C97_example_program",
    "C97_by_hand_program"
   ],
   "note": "f64 with round to nearest even. The exponential of the library is any function whose result for arguments up to zero is off by at most 8 units of rounding (relative) plus a thousandth of one; C97_example shows there are such functions. Numbers drawn and labels are inputs. The bound on the logits cannot be dropped for the derived gradient (C97_calm_refuted)."
  },
  {
   "property": "C98",
   "status": "proved",
   "theorems": [
    "C98_learns",
    "C98_example_program",
    "C98_mean"
   ],
   "note": "Exact arithmetic. Inputs are drawn uniformly from a finite pool (for the program: the points whose coordinates are multiples of 1/k, any k), labels are one with probability sigmoid(x.w*) exactly; the generator itself is outside the repository. The error is that of the probabilities predicted while learning, averaged over the draws."
  },
  {
   "property": "C99",
   "status": "proved",
   "theorems": [
    "C99_chance",
    "C99_probable",
    "C99_by_hand",
    "C99_example_program",
    "C99_mean"
   ],
   "note": "f64. Inputs are drawn uniformly from a finite pool (for the program: all points whose coordinates are multiples of 2^-53 in [0,1), which is what rand draws), labels are one with exactly the probability the program computes and hands to gen_bool; the random generator itself is outside the repository and taken to be ideal. Hypotheses on the library's exp: eight units of rounding and range [0,1] at numbers up to zero. The exceptional draws are those along which the exact weights stray far from the true ones; with the gradient written by hand there are none."
  },
  {
   "property": "C100",
   "status": "proved",
   "theorems": [
    "C100_rules",
    "C100_unique",
    "C100_evaluates"
   ],
   "note": "typeof models the trait bounds on Function impls. The converse (whatever the implementations evaluate has a type) is for expressions built from variables and constants by operators; a derivative of a variable with four axes is rejected by a bound although its value could be computed (C100_adjoint_refuted)."
  },
  {
   "property": "C101",
   "status": "proved",
   "theorems": [
    "C101_leaves",
    "C101_no_vecs",
    "C101_no_pairs",
    "C101_scalar",
    "C101_scalar_type",
    "C101_pair"
   ],
   "note": "typeof models the trait bounds on Function impls, adjoint the output type of Differentiable. By a scalar, and over scalars by a pair, the criterion is exact; for other targets C101_leaves is a necessary condition and C69 gives the exact one over arrays. C101_pair_arrays_refuted shows that the pair criterion needs scalar leaves."
  },
  {
   "property": "C102",
   "status": "proved",
   "theorems": [
    "C102_signs",
    "C102_training"
   ],
   "note": "Every binary format, every rounding. The maths library is a parameter; respects_signs (squares and even functions ignore the sign of their argument, odd ones follow it) is a hypothesis that C102_library shows satisfiable. Zeros may differ in sign (C102_zero_refuted), which is why divisors must not be zero (C102_divisor_refuted). Trees of variables, constants and operators, without adjoints and caches. C102_training is about the whole loop of examples/linear.rs with its derived gradient, and needs nothing of the library."
  },
  {
   "property": "C103",
   "status": "proved",
   "theorems": [
    "C103_exact",
    "C103_entrywise",
    "C103_typed",
    "C103_gradients",
    "C103_linear",
    "C103_logistic"
   ],
   "note": "C103_exact is generic in the scalar type: exact_sums (commutative, associative addition) holds of the reals (C103_example) and not of floats (C103_floats_refuted). C103_exact and C103_entrywise are about trees of variables, constants and operators; C103_typed and C103_gradients cover every tree without caches, adjoints included, in exact arithmetic where it means what it should (regular, as in C02), and show that both runs succeed. C103_linear and C103_logistic relate whole loops. Constants must not depend on the order. Products of a vector with a matrix that is not square are excluded because they read a leading block only, see C41 (C103_rectangular_refuted)."
  },
  {
   "property": "C104",
   "status": "proved",
   "theorems": [
    "C104_downhill",
    "C104_stationary",
    "C104_second",
    "C104_mean_value",
    "C104_monotone",
    "C104_tangent"
   ],
   "note": "The conditions are those under which the adjoint is the Jacobian (C04_jacobian_partial): posed, regular and smooth, named in the statement. Real arithmetic. One entry of the target is moved at a time; steps of all entries at once are treated for the two examples in the properties about training. The step must be small (C104_large_step_refuted). The second-derivative test C104_second has the conditions of C05_hessian_partial."
  }
 ]
}
