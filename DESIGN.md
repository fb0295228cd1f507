# Formal model of aegir: design

## 1. What is modelled

A deep embedding in Rocq (Coq 8.16.1) of the library `aegir` and of the macros in
`aegir_derive` / `aegir_compile`, read as text from /repo. Model files contain definitions only;
every definition cites the lines it follows.

| model file | modelled source |
|---|---|
| `Base.v` | outcomes (`Ok` / `Err` / panic / does-not-compile), `errors.rs`, `meta/mod.rs: SourceError` |
| `Scalar.v` | the `Scalar`/`num_traits`/`special_fun` operations used (`buffers/scalars.rs`), and the per-element function of every unary operator (`ops/**`) |
| `Shapes.v` | `buffers/shapes/{mod,compiled,runtime}.rs` |
| `MultiProduct.v` | `buffers/shapes/multi_product.rs` (the index odometer, `count`, `size_hint`) |
| `Buffers.v` | `buffers/{mod,scalars,tuples,vecs}.rs`, `buffers/arrays/{buffer,zip_ops}.rs` |
| `Spec.v` | `buffers/spec.rs` |
| `Contraction.v` | `buffers/arrays/contraction_ops.rs` |
| `Node.v` | expression trees, `contains`, `adjoint` (which impls of `Differentiable` exist and what they build) |
| `Eval.v` | `Function::{evaluate, evaluate_spec, evaluate_shape}` for every node, contexts, class precedence |
| `Types.v` | trait resolution: the buffer type of each tree, or "does not compile" |
| `Instances.v` | scalar instances: reals, integers, IEEE formats (`SpecFloat`; binary64 and binary32), 8-bit wrapping integers |
| `Usize.v` | `count`, `cardinality`, `is_equivalent` on 64-bit usize, with wrapping and checked arithmetic |
| `Machine.v` | the integer types of every width, signed and unsigned, with wrapping and with checked arithmetic |
| `Dual.v` | `dual.rs`, `evaluate_dual` |
| `Fmt.v` | `fmt.rs`, all `to_expr`, `Display` of shapes, identifiers, nodes and errors |
| `Debug.v` | `Debug` of expressions, buffers, shapes, specs, dual numbers and errors (derived, and by hand for `Constant` and `Contract`) |
| `Equality.v` | `==` (derived `PartialEq`) of expressions, buffers, shapes, specs and dual numbers |
| `Ids.v` | `aegir_derive/src/ids.rs`, the list in `aegir/src/ids.rs` |
| `Derive.v` | `aegir_derive/src/{lib,ctx}.rs`: attribute parsing, generated impls, `ctx_type!` |
| `Compile.v` | `aegir_compile/src/lib.rs`: the `aegir!` expression folder and the code it prints |
| `Syntax.v` | `aegir_compile/src/lib.rs:134-142`: reading the tokens of `aegir!` (precedence climbing of syn 1, external, restricted to binary and prefix operators, method calls, parentheses and constant blocks), the macro entry point, and the tokens it returns |
| `Ops_derive.v` | `aegir_derive/src/ops.rs` (`derive(Contains)`), the operator structs it is applied to, `ctx!` |
| `Report.v` | `aegir_derive/src/{ctx,ops}.rs`, `aegir_compile/src/lib.rs`: the texts of errors and panics; doc comments of `ids.rs` |
| `Programs.v` | `aegir/examples/{linear,logistic,caching}.rs`, `aegir/benches/{linear,logistic}.rs`: expressions, hand-written gradients, training loops |

Not modelled: the disabled `buffers/ndarray` module (not part of the crate's module tree), the parsers of `syn` (the macros are modelled from the parsed
syntax on, `ids!` from the token list on), random number generation and timing in `examples/` and
`benches/` (draws are inputs of the loops), tests, and memory layout, sharing, borrow checking and performance; of `Debug`, the multi-line form `{:#?}`.

Modelling decisions:

* An expression type such as `Add<Variable<X>, Constant<f64>>` together with its value is one
  inductive tree `node`. Trait resolution ("does it compile?") is the function `typeof`
  on trees; a combination of runtime values without an impl is the outcome `Stuck`.
  Type soundness (C10) shows `Stuck` is unreachable for trees accepted by `typeof`.
* Panics (`unwrap` on `Err`/`None`, out-of-bounds indexing) are the outcome `Panic`.
* Scalars are an arbitrary type with operations (class `Scalar`), so theorems that assume no
  laws hold for f32/f64 and wrapping integers too. Overflow of the integer types is modelled by two
  instances per type: wrapping (release builds) and checked (debug builds), where a mark that all
  later operations keep stands for the panic. A short cut with a zero operand can drop a mark, so
  C64_nothing_overflows speaks of all operands. Division by zero is such a mark in checked builds;
  for release builds, which panic too, C64_release excludes it.
* `usize` is an unbounded natural number, except in `size_hint`, where the saturating and checked
  operations of the code are modelled with the bound 2^64, and in `Usize.v`, which has `count`,
  `cardinality` and `is_equivalent` on 64 bits in release and debug builds.
* `&mut ctx` is state passing: each evaluation returns the outcome and the new context.
* Arrays `[[..F..]]` of rank 1..5 are rose trees carrying their dimensions.
* `exp`, `ln`, `sin`, ... , `gamma`, `digamma`, `ln_gamma`, `erf` are fields of the class `Scalar`.
  Over the reals the elementary ones are the functions of Coq's library; the special functions
  of the crate `special_fun` stay arguments of the theorems, with the relation between a function
  and its derivative as hypothesis where needed.

## 2. Independent specification

Theorem statements use, besides the functions being specified, only these vocabulary files:

| file | content |
|---|---|
| `Vocab.v` | boxes of indices, lexicographic order, well-formed values, occurrence of identifiers, leftmost undefined leaf, coherent caches, pointwise readings |
| `Math.v` | tensors (dimension list and function on indices) and `den`: the textbook value of a tree, without specs, short cuts, buffers, caches or errors; exact scalar types |
| `Code_math.v` | `steps`: the scalar operations of a tree on plain buffers in the order performed; `fault_of`: its first failure; trees without quotients |
| `Real_math.v`, `Calculus.v` | real instance, partial derivatives of `den`, the classes of trees for which C04/C05 are stated |
| `Float_math.v` | agreement of binary64 values, finiteness; the real number of a float, exact value, magnitude and number of roundings of an expression |
| `Enclosure_math.v` | arithmetic on pairs of an exact real number and a bound on the error; accurate library functions |
| `Subst_math.v` | an expression with another one in place of a variable |
| `Rename_math.v` | an expression with other names for its identifiers |
| `Alike_math.v` | the rules by which expressions are printed alike |
| `Debug_math.v` | words, trees that read the same, trees of the same Rust type |
| `Equality_math.v` | equality up to the sign of zero, operations that do not see it |
| `Memo_math.v` | which identifiers have a value after an evaluation; expressions stored under a key |
| `Branch_math.v` | table of Abs, Negate, Sign, Dirac, XLnX on floating-point numbers |
| `Generic_math.v` | buffers, expressions and outcomes over two scalar types that differ only in related scalars; operations that respect a relation |
| `Machine_math.v` | ranges, exact integer value and size of an expression; its operands and divisors |
| `Dual_math.v` | truncated polynomials a + b.eps |
| `Fmt_math.v` | the value a rendered text claims, the class of trees with unambiguous text |
| `Text_math.v` | grammar of formulas on text, with the value of each phrase; the class of trees rendered with enough brackets |
| `Diff_math.v` | parts of an expression; operations that admit one or two derivatives; operand dimensions for which a gradient compiles |
| `Fit_math.v` | dot products of vectors as long as the target of a derivative |
| `Swap_math.v` | expressions that differ by exchanged operands of sums and products |
| `Order_math.v` | reordering entries (C103) |
| `Sign_math.v` | signs and parity (C102) |
| `Leaf_math.v` | leaves and their axes (C101) |
| `Typed_math.v` | typing rules (C100) |
| `Chance_math.v` | means and probabilities over draws with given label chances, errors of the probabilities predicted by floats |
| `Label_math.v` | averages over draws whose labels are drawn with given probabilities, errors of predicted probabilities |
| `Ascent_math.v` | the rate 0.0005, runs with bounded logits and accurate exponentials |
| `Drift_math.v` | floats in [-1, 1], the rate 0.01 and the multiples of 2^-j in f64 |
| `Mean_math.v` | averages over all sequences of draws from a finite collection |
| `Macro_math.v` | accepted fields, last write of a history, arithmetic meaning of source expressions and method calls, grammar of operators |
| `Report_math.v` | faults of attributes and fields with the report each leads to |
| `Program_math.v` | inner product, least mean squares, logistic gradient ascent |

`*_facts.v` and `*_claims.v` contain proofs, `Properties_*.v` the theorems, each with
`Print Assumptions` and with examples meeting its hypotheses.

## 3. Method per property

| id | method |
|---|---|
| C01 | induction on trees over the three mutually defined evaluators; law-free without Sum, ring laws with Sum; f64 and u8 counterexamples for Sum |
| C02 | induction on trees; invariant "spec denotes the math tensor"; refutations for the defects in section 5 |
| C03 | induction on trees |
| C04, C54 | induction on trees over R: `derivable_pt_lim` at every index pair; combined with C02; refutations for Sum and contraction index order |
| C05, C42 | C04 applied to adjoints; third derivatives never compile |
| C06 | induction on trees at the level of `den`, lifted with C02 |
| C55 | induction on trees: values are plain buffers, adjoints constant zero specifications |
| C07 | two-run induction on trees (non-interference) |
| C08 | refinement to a "first undefined leaf with path" function |
| C09, C39 | refuted for + - * on vectors (panic); proved for / and for shape queries; mismatches never succeed |
| C10 | progress and preservation by induction |
| C11 | induction on `typeof` |
| C12, C13, C14 | state invariants by induction on trees |
| C15, C16, C44 | model of the generated impls and of the attribute parser; induction on write histories |
| C17, C18, C38 | invariant of the odometer, simulation of a lexicographic list |
| C19 - C24, C40, C41 | induction on dimensions / trees of arrays |
| C25, C43 | ring algebra and real analysis; refutation for multiplication by a plain value |
| C26 | case analysis on the two outcomes, C04 |
| C27 | induction on the source syntax |
| C70, C71 | the first fault among attributes and fields by induction on lists; texts by computation; format strings invert |
| C50, C51 | induction on fields, attributes and keys |
| C28, C45 | list and string reasoning; token parser |
| C29, C30, C37 | induction on trees and errors; text parser arguments; refutations |
| C31 | special case of the spec invariant |
| C32 | real analysis |
| C33 | case analysis over IEEE numbers |
| C34, C52, C53 | induction on trees, no laws |
| C73 | induction on trees; the product chain by induction on its length |
| C74 | simulation between contexts with and without filled keys, by induction on trees and on histories, no laws |
| C75 | the induction of C56 with finiteness carried along, as long as roundings and magnitudes leave room |
| C76 | two runs related entry by entry (Relate_facts.v); each rounding is monotone |
| C77 | two runs related entry by entry; rounding commutes with powers of two for normal numbers, and tiny sums are exact |
| C81 | logical relation through every function of the model, then induction on expressions |
| C82 | the two runs of Relate_facts.v, one in floating point, one on exact values with bounds; rounding errors with underflow |
| C83 | simulation between the two contexts, by induction on the expression; results without caches are stable when the context grows; for the chain rule induction on the expression over a direct scalar semantics |
| C84 | one invariant of every method (entries only added, which, stability in larger contexts, origin of the entries), by induction on the expression |
| C85 | case analysis on floating-point numbers |
| C86 | functions of two real variables with equal mixed derivatives are closed under the operations; induction on the expression |
| C87 | induction on the expression, with contexts related along the replacement |
| C88 | every tree is brought into the class of C30 by the rules, without changing its text |
| C89 | the text is read from the left: a word or bracket decides the node, and what follows a node cannot be part of it |
| C90 | the same for errors; together with C37 the error itself |
| C91 | `==` is the relation of C81 with `==` of scalars; for floats C81 with equality up to the sign of zero |
| C92 | tangent inequality for the logarithm of the logistic function from the convexity of exp; induction on the draws with the squared distance as potential |
| C93 | induction on the expression: the dimensions of the adjoints (C11) leave dot products as the only contraction by a vector; progress (C10) and C04; witnesses |
| C94 | induction on the exchanges; the buffer operations and the arms of the two matches are symmetric where they succeed |
| C95 | exact progress of one step (C46) averaged over the draws; induction on the number of draws; second moments of the grid by induction on the dimension; Markov's inequality |
| C96 | one step in floats compared with one exact step operation by operation (absolute errors); the exact step brings no two weight vectors further apart; triangle inequality and induction on the draws; then C95 for the exact run |
| C97 | relative error of the quotient in the derived gradient once the model is away from 0 and 1, absolute errors elsewhere; the exact step brings no two weight vectors further apart since the logistic function has slope at most 1/4; triangle inequality and induction on the draws; growth of the exact weights from q/(1+e^q) <= 0.3 |
| C98 | the mean of one step over the label, then over the input (monotonicity of the logistic function with slope at most 1/4); induction on the number of draws; out of the program by C48 |
| C99 | C97 along every path; a maximal inequality (the squared distance to the true weights, stopped when it exceeds l, is a supermartingale up to the term of second order), by induction on the number of draws; rounding of the label's probability costs 4B+16 times its error |
| C100 | typing rules as inductive relations; equivalence with the checker by induction on expressions; completeness from inversion of every lifted operation with C10 |
| C101 | derivative of a leaf is part of the derivative, and parts of what compiles compile; exact criteria by induction on expressions with the rules of C100 |
| C102 | rounding commutes with negation, from the definitions of SpecFloat; relation between two runs lifted through every operation by Relate_facts |
| C103 | indices moved along axes of one length, related operation by operation; sums by permutation of their terms; runs through their closed forms lms_all and climb_all |
| C104 | from the Jacobian theorem of C04 by the definition of the derivative; bumped contexts keep their type, so evaluation succeeds there; second derivatives from C05 by the mean value theorem |
| C79, C80 | computation over the parsed list, against the alphabets given by code points |
| C78 | the float files are written for any format `prec`, `emax` (class `Format` in `Float_facts.v`, a proposition `2 <= prec < emax`); f64 and f32 are instances |
| C72 | the same induction with a multiplicative relation, and quotients |
| C56, C57 | induction on trees relating floats, exact values and magnitudes; rounding errors of single operations from Flocq |
| C60, C61 | relation of results to operands for every short cut of lifted evaluation, without laws (Shortcut_facts.v); error of each such result; induction on trees; C04 for the exact derivative |
| C65 | folds of wrapping and checked operations compared with the fold in unbounded numbers; states of the iterator from C18 |
| C64 | one induction for any relation between computed and exact numbers that the operations and their short cuts respect, used for residues, for `Some`, for sizes and for checked computations |
| C63 | entries of the adjoint from C02, Jacobians of the operands from C04, product rule for the derivative |
| C67 | every text of the grammar is read by a parser (used only in proofs), so readings are unique; induction on trees: the text is a sum (bracketed when used) or a product with the value of `den`; refutations |
| C68 | induction on trees; caches: the absent-variable theorem C06 applied to the cache's key |
| C69 | induction on trees, deciding the type of the adjoint from the dimensions of the operands; zero second gradients by C06 |
| C66 | induction on the converted expression: every printed expression is prefix operators before an operand of the grammar of C62 |
| C62 | the reader collects exactly the operators of a category (completeness by mutual induction on the grammar, soundness by induction on fuel); fuel is enough by a size measure |
| C58, C59 | unfolding of the aliases and of the two-branch sigmoid; exactness, monotonicity and relative error of single roundings from Flocq |
| C35 | evaluation of the gradient expression for all dimensions |
| C36 | finite case analysis |
| C46, C48 | evaluation of the gradients for every length, induction on the draws, real analysis |
| C47 | law-free evaluation of the three gradients; commutativity and unit of binary64 multiplication |
| C49 | evaluation of both expressions for every vector |

## 4. Trusted base

* Coq's kernel (8.16.1), as run by `coqc` with the flags in `rocq/_CoqProject`. No axioms, no
  `Admitted`, no switched-off checks, no functors or module types in this development.
* `Print Assumptions` for each theorem (printed during the build):
  * four axioms of Coq's standard library, `ClassicalDedekindReals.sig_forall_dec`,
    `ClassicalDedekindReals.sig_not_dec`, `FunctionalExtensionality.functional_extensionality_dep` and
    `Classical_Prop.classic`, are listed for the theorems about real numbers:
    C02_real_partial, C02_real_total_partial, C02_reals_exact, C04_jacobian_partial, C04_cached_refuted, C04_order_refuted,
    C04_sum_refuted, C05_hessian_partial, C06_absent_zero_real, C26_gradient, C29_arrays_partial, C29_refuted,
    C29_sound_partial, C32_derivative, C32_formula, C32_increasing, C32_never_exponentiates_positive, C32_range,
    C32_reflection, C46_example_program, C46_lms, C46_misses, C46_progress, C48_gradient, C48_improves, C48_run, C49_real,
    C54_sum_gradient, C56_dot, C56_forward_error, C56_gamma, C56_sum, C57_whole_exact, C58_erfc_f64,
    C58_erfc_real, C58_erfc_small, C58_factorial_real, C59_error, C59_node, C59_range, C60_gradient_error,
    C60_tree_error, C61_error, C63_dot, C63_dot_iff, C63_dot_refuted, C63_outer, C67_one_reading, C67_refuted,
    C67_value_partial, C68_by_key, C72_gamma, C72_mean, C72_relative_error, C72_zero, C75_finite, C75_room,
    C76_monotone, C76_positive, C77_scaling, C78_dot, C78_erfc, C78_f32_error, C78_f32_finite,
    C78_forward_error, C78_forward_gamma, C78_gradient_error, C78_mean, C78_monotone, C78_monotone_positive,
    C78_regression_error, C78_regression_floats, C78_same_gradients, C78_same_runs,
    C78_no_overflow, C78_relative_error, C78_relative_gamma, C78_relative_zero, C78_room, C78_scaling,
    C78_sigmoid_error, C78_sigmoid_node, C78_sigmoid_range, C78_sum, C78_tree_error, C78_whole_exact,
    C81_floats, C81_integers, C82_arithmetic, C82_enclosure, C83_chain, C92_example_program, C92_misses, C92_regret, C93_jacobian, C93_wrong,
    C95_mean, C102_training, C103_linear, C103_logistic, C104_downhill, C104_stationary, C104_second, C104_mean_value, C104_monotone, C104_tangent, C85_abs_gradient, C85_sign_gradient, C85_values, C86_symmetric;
  * the first and third of them only: C25_derivative_partial, C25_scale_refuted;
  * all others: "Closed under the global context".
* That the model follows the Rust source (section 1), including the parts of Rust and of the
  dependencies it relies on: trait resolution, evaluation order, `array-init`, `num_traits`,
  `special_fun`, `syn`/`quote`. This is checked by reading; the code was not run. In addition,
  `Conformance.v` evaluates in the model every assertion of the unit tests and doc tests in /repo
  (except those that test the toolchain, such as `compile_fail`) and gets the asserted results.
  These are tests of the model, no theorem depends on them.
* `SpecFloat` (standard library) as a description of binary64 and binary32. The proofs of C56 to C61, C72, C75 to C78 and C82 use the
  installed library Flocq, whose theorems are checked by the same kernel and add no axiom; no
  statement mentions it.
* That the vocabulary files say what their comments say.

## 5. Disagreements between code and expectation

Each is a theorem or a witness in the development.

1. `zip_ops.rs:158-162`: scalar-with-array for rank >= 2 swaps the arguments of the function, so
   `s - M` computes `M - s` and `s / M` computes `M / s` (C23_zip_map_refuted, C40).
2. `binary.rs:242,374,528`: `unwrap()` on `zip_map_id` panics on vectors of different length in
   Add, Sub, Mul, whereas Div reports an error (C09).
3. `contraction_ops.rs:146,190`: matrix-vector and vector-matrix products are wrong or panic unless
   the matrix is square (C24, C41, C10).
4. `dual.rs:223-249`: `Dual * V` does not scale the adjoint (C25, C43).
5. `unary.rs:263-271`: the adjoint of `Sum` is not summed (C04_sum_refuted); adding up its entries
   gives the gradient (C54).
6. `binary.rs:110-124`: `Power` with a `Full` zero base returns 0 whatever the exponent (C02, C12).
7. `linalg/mod.rs`: the adjoint of contractions mixes value and target index orders (C04_order_refuted);
   the gradient of a dot product is wrong where the Jacobian of its left operand is not symmetric (C63).
8. `contraction_ops.rs:138,181`, `unary.rs:252`: products and sums of constant vectors multiply by the
   count first: overflow, or a panic when the count does not fit, though the result is small (C64).
9. `ConstantAdjoint` is not differentiable, so no expression can be differentiated three times (C42).
10. `multi_product.rs`: `SDynamic<0>` yields no index though its cardinality is 1 (C17).
11. Rendering (C29, C30): `AddOne` prints "1 - x", `ArcSin` prints "acos", `Sinh` of one prints
    "sin(1)", `Erf(0)` and `DiGamma(1)` and `0/0` are shown as wrong constants, `-x^y`, `2 ∘ x^y`,
    `x^y^z` are ambiguous, a bare zero prints as the empty text;
    read with the usual conventions `exp(2x)`, `x / (2y)`, `x^(2y)` and `(x^2)^y`, printed `𝑒^2 ∘ x`,
    `x / 2 ∘ y`, `x^2 ∘ y` and `(x)^2^y`, mean something else (C67_refuted);
    `1 - dx/dx` is shown as zero for vectors, the dot product of ones as one (C29_arrays_refuted).
12. `ids.rs`: identifiers without a symbol all display as `type_id` (C28); symbols are used as
    format strings, so braces matter (C45); the crate's Sigma/Tau/Upsilon symbols are one letter off (C79),
    and its identifier Pi prints as the constant π does (C67).
13. `meta/mod.rs` class precedence depends on the order between Vecs and Arrays (C36).
14. `Cached` under `Sum`/`Power` is not visited by shape queries (C03); a cache can freeze a value that
    the enclosing short cut would not have produced (C12); an expression with a cache cannot be
    differentiated by its variables, only by the cache's key, by which it is zero (C68), which is wrong where the cache is filled (C04_cached_refuted).
15. `build_subset` on pairs ignores out-of-range indices instead of panicking (C21).
16. The lifted `Sum` multiplies by the number of elements, which differs from repeated addition for
    f64 and for u8 (C01).
17. `Vec` buffers cannot be differentiated; a scalar times a vector variable and a matrix times a
    vector have adjoints that do not type-check (C11 and its examples; C69 says which do).
    Every second gradient by arrays that type-checks is zero: Hessians by vectors do not exist (C69).
18. `aegir!`: `/` panics; `^` is Rust's xor and binds weaker than `+`, so `x + y ^ 2` is `(x + y)^2`
    (C62); unary minus and negative literals build no node. The converted expression is printed
    without adding parentheses, so `*a + b` is re-read as `*(a.add(b))` (C66).
19. `derive(Context)`: any multi-segment attribute (`#[rustfmt::skip]`) on a field is rejected; cache
    types such as `Option<[f64; 2]>` panic; `std::option::Option<f64>` is rejected (C16, C44).
20. The derived gradient of the logistic example divides by the likelihood and is NaN where the sigmoid
    underflows to 0, while the gradient written by hand in the benchmark is exact (C48).
21. README.md evaluates an adjoint with `&ctx`, which does not provide the required mutable context.
22. `ctx!` names fields by the lower-case key, so keys that differ only in case do not compile (C51).
23. `derive(Contains)` on a struct without fields, or with a type parameter named `I`, generates code
    that does not compile (examples of C50).
24. `shapes/runtime.rs:28`, `compiled.rs:97`, `multi_product.rs:135`: cardinalities are multiplied up without
    overflow checks, so `is_equivalent` is wrong in release builds and a shape with a zero dimension
    can panic in debug builds (C65).
25. `derive.rs:159`: a field of a tuple struct is reported as "labelled as #[cache] but has no #[id(.)] attr"
    whatever its attributes are; `#[id(a::b)]` gives the bare text of `Option::unwrap` (C70).
26. `ids.rs:12-17,36`: the doc comment of an identifier without symbol names its type, but `type_id` is
    displayed; symbols with braces differ too (C71).
27. `linalg/mod.rs:80` with `contraction_ops.rs`: the gradient of `v.(w(x.y))` by `x` panics if `v` is shorter
    than `x` and is wrong, without notice, if it is longer (C93), although the expression is evaluated correctly.
