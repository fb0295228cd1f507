{"id": "C01", "title": "Lifted and plain evaluation agree", "statement": "For every expression, evaluating it to a specification (`evaluate_spec`) and unwrapping the result gives exactly what plain `evaluate` gives: same value, same error, same panic, same final context.", "quantifier": "all expression trees, all contexts, all scalar types (no algebraic law assumed for trees without Sum; ring laws for trees with Sum)", "why_tests_cant": "the two paths are implemented separately per operator and are composed in arbitrarily deep trees; a test fixes one tree and one context", "anchors": ["aegir/src/lib.rs: Function::{evaluate, evaluate_spec}", "aegir/src/ops/mod.rs: impl_unary!", "aegir/src/ops/arithmetic/*.rs", "aegir/src/ops/linalg/mod.rs: Contract"]}
{"id": "C02", "title": "Evaluation computes the mathematical expression", "statement": "Over exact arithmetic, `evaluate` of a well-typed expression whose variables are all defined with compatible shapes returns, at every index, the value of the obvious mathematical tensor expression (pointwise operators with scalar broadcasting, Kronecker-delta adjoint leaves, full sums, index contractions), regardless of which zero/one/diagonal short cuts fire.", "quantifier": "all expression trees, all contexts, all shapes and ranks, every commutative-ring-like scalar type", "why_tests_cant": "short cuts depend on runtime specs flowing through arbitrary trees; the result must be independent of them for all of them", "anchors": ["aegir/src/ops/arithmetic/binary.rs: evaluate_spec arms", "aegir/src/ops/linalg/mod.rs", "aegir/src/buffers/spec.rs", "aegir/src/meta/variable.rs: VariableAdjoint"]}
{"id": "C03", "title": "Shape query agrees with evaluation", "statement": "Whenever `evaluate` succeeds on an expression without Sum/Power over caches, `evaluate_shape` on the same context succeeds with the shape of that value; and where `evaluate_shape` reports an error, `evaluate` does not succeed.", "quantifier": "all expression trees and contexts", "why_tests_cant": "shape inference and evaluation are separate recursive implementations over unbounded trees", "anchors": ["aegir/src/lib.rs: Function::evaluate_shape", "aegir/src/ops/**: evaluate_shape", "aegir/src/meta/*.rs: evaluate_shape"]}
{"id": "C04", "title": "The adjoint is the derivative", "statement": "For every differentiable expression f and target t, `f.adjoint(t)` evaluated in a context returns the Jacobian: entry (i ++ j) is the partial derivative of entry i of f with respect to entry j of the variable t, at every point where the primitive functions involved are differentiable.", "quantifier": "all differentiable expression trees, targets, contexts over the reals (all points in the smooth domain), all ranks", "why_tests_cant": "derivatives are limits over all reals; tests compare floating-point samples of fixed expressions", "anchors": ["aegir/src/lib.rs: Differentiable", "all impl Differentiable in aegir/src/ops, aegir/src/meta"]}
{"id": "C05", "title": "Higher derivatives", "statement": "Differentiating an adjoint again gives the derivative of the adjoint (Hessian entries), and differentiation can be repeated any number of times ('infinitely differentiable').", "quantifier": "all expression trees, all orders", "why_tests_cant": "quantifies over the order of differentiation and over all trees", "anchors": ["aegir/README.md: Key Features", "aegir/src/meta/variable.rs: impl Differentiable for VariableAdjoint", "aegir/src/meta/constant.rs: ConstantAdjoint"]}
{"id": "C06", "title": "Adjoint with respect to an absent variable is zero", "statement": "If an expression does not contain the target identifier, every entry of its evaluated adjoint is zero, wherever the expression's value exists.", "quantifier": "all differentiable trees not containing the target, all contexts", "why_tests_cant": "absence of an identifier in arbitrary trees; must hold for every input", "anchors": ["aegir/src/lib.rs: Contains, Differentiable", "aegir/src/meta/constant.rs: ConstantAdjoint", "aegir/src/meta/variable.rs: VariableAdjoint"]}
{"id": "C07", "title": "contains bounds what evaluation can observe", "statement": "If `f.contains(i)` is false then no method of f (evaluate, evaluate_spec, evaluate_shape) depends on or modifies the entry of i in the context; and `contains` is true exactly for the identifiers occurring in the tree.", "quantifier": "all trees, identifiers, pairs of contexts", "why_tests_cant": "non-interference is a relation between all pairs of runs", "anchors": ["aegir/src/lib.rs: Contains", "aegir_derive/src/ops.rs", "aegir/src/meta/*.rs: impl Contains"]}
{"id": "C08", "title": "Undefined variables surface as the leftmost error", "statement": "Evaluating an expression (without caches) in a context where some identifier it reads is undefined returns an error, never a panic or a value; the error names the first undefined identifier in left-to-right order and its Left/Right wrapping is the path to the reading leaf. If all identifiers are defined no Undefined error occurs.", "quantifier": "all cache-free trees, all contexts", "why_tests_cant": "path and order correctness over arbitrary trees and definedness patterns", "anchors": ["aegir/src/errors.rs: BinaryError", "aegir/src/meta/mod.rs: SourceError", "aegir/src/ops/arithmetic/binary.rs"]}
{"id": "C09", "title": "Shape mismatches are reported, not panics", "statement": "Combining two buffers of incompatible runtime shape with +, -, *, / returns `BinaryError::Output` carrying the two shapes (left first), never panics.", "quantifier": "all operands, all runtime lengths", "why_tests_cant": "must hold for all length pairs and all operator nestings", "anchors": ["aegir/src/ops/arithmetic/binary.rs: zip_map_id(..).unwrap()", "aegir/src/buffers/vecs.rs: ZipMap"]}
{"id": "C10", "title": "Static typing is sound", "statement": "If the trait bounds of an expression are satisfied for a context type, evaluation returns a well-formed value of the statically computed buffer type (class and shape) or a declared error; the context keeps its type.", "quantifier": "all trees accepted by the trait-resolution rules, all contexts of the type", "why_tests_cant": "progress/preservation over all trees", "anchors": ["aegir/src/ops/**: where clauses", "aegir/src/buffers/mod.rs: ZipMap, Contract", "aegir/src/meta/*.rs"]}
{"id": "C11", "title": "Type of the adjoint", "statement": "Whenever the adjoint of a Sum-free expression type-checks, its buffer shape is the concatenation of the shape of the expression and the shape of the target.", "quantifier": "all trees, all context types", "why_tests_cant": "a statement about all type derivations", "anchors": ["aegir/src/buffers/shapes/compiled.rs: Concat", "aegir/src/meta/mod.rs: Precedence", "aegir/src/ops/**: Differentiable::Adjoint"]}
{"id": "C12", "title": "Caching is transparent", "statement": "With cache entries that are empty or hold the value of the node they cache, and cache keys used for nothing else, evaluating a tree with Cached nodes returns the same mathematical value as the tree with all Cached wrappers removed, and leaves the cache in such a state again.", "quantifier": "all trees with any placement of Cached nodes, all coherent contexts, any sequence of evaluations", "why_tests_cant": "invariant over arbitrary evaluation histories", "anchors": ["aegir/src/meta/cached.rs"]}
{"id": "C13", "title": "Cached evaluates its node at most once and is then stable", "statement": "After a successful evaluation of a Cached node the cache entry holds the returned value; every later evaluation (value, spec or shape) returns that stored value without evaluating the node, until the entry is overwritten - even if the node's inputs change.", "quantifier": "all nodes, contexts, later contexts", "why_tests_cant": "history property", "anchors": ["aegir/src/meta/cached.rs: Function for Cached"]}
{"id": "C14", "title": "Evaluation writes only caches", "statement": "Evaluation in any mode changes no context entry except that an undefined entry keyed by a Cached node of the tree may become defined or be overwritten by an enclosing Cached with the same key; trees without Cached leave the context untouched; defined entries that are not re-written keep their value, also when evaluation fails.", "quantifier": "all trees, all contexts, all outcomes including errors", "why_tests_cant": "frame condition over all inputs and failure points", "anchors": ["aegir/src/meta/cached.rs", "aegir/src/lib.rs: Write"]}
{"id": "C15", "title": "Context read/write laws", "statement": "For contexts generated by the derive macro: read after write returns the written buffer, writes to one identifier do not affect reads of another, read_spec unwraps to read, read_shape is the shape of read, plain fields are always defined and cache fields are defined exactly after a write.", "quantifier": "all generated context types, all write histories", "why_tests_cant": "quantifies over all write sequences", "anchors": ["aegir_derive/src/ctx/derive.rs: emit_read_fns, emit_write_fns", "aegir/src/lib.rs: Read, Write"]}
{"id": "C16", "title": "Which struct declarations derive accepts", "statement": "The Context derive accepts a struct field exactly when it has a name, at most one id attribute with exactly one plain identifier, and, if marked cache, an id and a type whose outermost segment is Option<..>; ctx_type! accepts exactly fields without modifier or with modifier `cache`.", "quantifier": "all attribute lists and field types", "why_tests_cant": "decision procedure over unbounded attribute lists", "anchors": ["aegir_derive/src/ctx/derive.rs: parse_field, parse_attr, parse_id_attr, parse_ty_cache", "aegir_derive/src/ctx/ctx_type.rs: normalise"]}
{"id": "C17", "title": "Runtime shape index iteration", "statement": "`indices()` of a runtime shape yields every valid index exactly once, in row-major (lexicographic) order, and then None; the number of indices equals `cardinality()`.", "quantifier": "all dimension counts and all dimension sizes including zero", "why_tests_cant": "unbounded state machine; must hold for every vector of sizes", "anchors": ["aegir/src/buffers/shapes/multi_product.rs: MultiProduct::{new,iterate_last,next}", "aegir/src/buffers/shapes/runtime.rs: SDynamic"]}
{"id": "C18", "title": "Iterator size hints are exact at every point", "statement": "At every point of the iteration of a runtime shape's indices, `count()` equals and `size_hint()` correctly bounds the number of indices still to be yielded, including saturation when the product exceeds usize.", "quantifier": "all sizes and all positions in the iteration", "why_tests_cant": "requires an invariant relating iterator state to remaining elements", "anchors": ["aegir/src/buffers/shapes/multi_product.rs: count, size_hint, size_hint_mul, size_hint_add"]}
{"id": "C19", "title": "Static shape laws", "statement": "For every compile-time shape: `indices()` enumerates exactly the indices accepted by `contains`, once each, in row-major order; `cardinality` is their number; `broadcast` accepts exactly equal shapes or a scalar on either side and returns the larger one; `concat` and `split` are inverse and cardinalities multiply.", "quantifier": "all shapes S0..S6 with all dimension sizes", "why_tests_cant": "all dimension sizes", "anchors": ["aegir/src/buffers/shapes/compiled.rs", "aegir/src/buffers/shapes/mod.rs"]}
{"id": "C20", "title": "Buffer access laws", "statement": "For every buffer class: build-then-get returns the generating function at every contained index and get returns None outside, where an unchecked read panics; full/zeroes/ones/identity/diagonal are the corresponding constant and diagonal tensors; map, map_ref and mutate agree and act pointwise; fold visits elements in row-major order; sum is the fold of addition.", "quantifier": "all classes (scalars, pairs, vectors, arrays up to rank 5), all shapes, all functions", "why_tests_cant": "all shapes, functions and contents", "anchors": ["aegir/src/buffers/mod.rs", "aegir/src/buffers/scalars.rs", "aegir/src/buffers/tuples.rs", "aegir/src/buffers/vecs.rs", "aegir/src/buffers/arrays/buffer.rs"]}
{"id": "C21", "title": "Sparse construction", "statement": "build_subset returns a buffer holding active(ix) at every listed index and the base value everywhere else; listing an index outside the shape panics.", "quantifier": "all classes, shapes, index lists with repetitions, functions", "why_tests_cant": "all index lists", "anchors": ["aegir/src/buffers/*: build_subset", "aegir/src/meta/variable.rs: VariableAdjoint::evaluate_spec"]}
{"id": "C22", "title": "Spec operations are representation independent", "statement": "`Spec::map`, `Spec::zip_map` and `Spec::shape` commute with unwrapping: working on Full/Diagonal/Raw and unwrapping equals unwrapping first and working on the dense buffer.", "quantifier": "all specs, shapes, functions", "why_tests_cant": "all functions, including those not preserving zero", "anchors": ["aegir/src/buffers/spec.rs: shape, unwrap, map, zip_map, zeroes, ones, eye"]}
{"id": "C23", "title": "Elementwise combination", "statement": "zip_map(x, y, f) of buffers with equal shape is f(x_i, y_i) at every index; if one side is a scalar it is used at every index in its own argument position. zip_map_id, zip_mut and zip_fold agree with it. Shapes that differ at runtime give an error carrying both shapes.", "quantifier": "all buffers, all functions f (not necessarily commutative)", "why_tests_cant": "all f, shapes, contents", "anchors": ["aegir/src/buffers/arrays/zip_ops.rs", "aegir/src/buffers/vecs.rs", "aegir/src/buffers/tuples.rs", "aegir/src/buffers/scalars.rs", "aegir/src/buffers/mod.rs: ZipMap"]}
{"id": "C24", "title": "Contractions compute tensor contractions", "statement": "contract with zero axes is the outer product and with one axis sums the products over the last axis of the left and the first axis of the right operand, for every supported pair of ranks and all dimensions that type-check; the spec-level short cuts give the same result.", "quantifier": "all supported operand types, all dimensions, all contents and specs", "why_tests_cant": "all dimensions, including non-square matrices", "anchors": ["aegir/src/buffers/arrays/contraction_ops.rs", "aegir/src/buffers/mod.rs: Contract"]}
{"id": "C25", "title": "Dual number algebra", "statement": "Dual numbers behave as a + b*eps with eps^2 = 0: negation, addition, subtraction and multiplication with duals and with plain values give the value and derivative of the corresponding real operations; conj negates the adjoint.", "quantifier": "all duals over any commutative ring", "why_tests_cant": "algebraic law over all values", "anchors": ["aegir/src/dual.rs"]}
{"id": "C26", "title": "evaluate_dual pairs value and derivative", "statement": "evaluate_dual returns the value and the evaluated adjoint in that order, evaluating the value first; a failure of the value is reported Left, of the adjoint Right.", "quantifier": "all differentiable nodes, targets, contexts", "why_tests_cant": "all failure combinations", "anchors": ["aegir/src/lib.rs: Differentiable::evaluate_dual, evaluate_adjoint"]}
{"id": "C27", "title": "The aegir! macro preserves the meaning of arithmetic", "statement": "For every Rust expression built from paths, literals, parentheses and the operators + - * ^, the converted expression evaluates to the arithmetic value of the source under the reading ^ = power; conversion panics exactly on other binary operators.", "quantifier": "all source expressions", "why_tests_cant": "structural over unbounded syntax", "anchors": ["aegir_compile/src/lib.rs: ConvertToAegir::fold_expr"]}
{"id": "C28", "title": "Identifiers are distinguishable", "statement": "Two identifiers from one ids! list compare equal exactly when they are the same identifier, and distinct identifiers are displayed differently.", "quantifier": "all ids! lists with and without explicit symbols", "why_tests_cant": "pairs over arbitrary lists", "anchors": ["aegir_derive/src/ids.rs", "aegir/src/lib.rs: ids"]}
{"id": "C29", "title": "Zero/One simplification in rendering is sound", "statement": "If `to_expr` classifies an expression as Zero (One), then the expression evaluates to zero (one) for every input on which it is defined.", "quantifier": "all scalar trees, all inputs", "why_tests_cant": "soundness of a syntactic simplifier over all inputs", "anchors": ["aegir/src/fmt.rs: Expr, ToExpr", "aegir/src/ops/**: ToExpr"]}
{"id": "C30", "title": "Rendering is unambiguous", "statement": "Different expressions over variables are rendered differently: the printed text determines the expression (operators, nesting and identifiers).", "quantifier": "all pairs of trees", "why_tests_cant": "injectivity over infinitely many trees", "anchors": ["aegir/src/fmt.rs: PreWrap::to_safe_string", "aegir/src/ops/**: Display, ToExpr"]}
{"id": "C31", "title": "Variable adjoints are identity tensors", "statement": "The adjoint of a variable with respect to itself evaluates to the tensor with ones exactly where the value index equals the target index, and with respect to any other variable to all zeros; constants have all-zero adjoints of shape value ++ target.", "quantifier": "all shapes and ranks for which the adjoint type exists, all contents", "why_tests_cant": "all shapes and indices", "anchors": ["aegir/src/meta/variable.rs: VariableAdjoint", "aegir/src/meta/constant.rs: ConstantAdjoint"]}
{"id": "C32", "title": "Numerically stable sigmoid", "statement": "The two-branch sigmoid equals 1/(1+exp(-x)) for every real x, lies strictly between 0 and 1, satisfies s(-x) = 1 - s(x), never exponentiates a positive number, and its derivative is s(1-s).", "quantifier": "all real x", "why_tests_cant": "all reals", "anchors": ["aegir/src/ops/sigmoid.rs"]}
{"id": "C33", "title": "Zero short cuts under IEEE arithmetic", "statement": "With 64-bit floats the zero short cuts of Add, Sub and Mul return a result numerically equal to the dense computation whenever the other operand is finite.", "quantifier": "all f64 values", "why_tests_cant": "2^128 operand pairs including signed zeros, infinities and NaN", "anchors": ["aegir/src/ops/arithmetic/binary.rs: evaluate_spec of Add, Sub, Mul"]}
{"id": "C34", "title": "Plain evaluation is bit-exact pointwise evaluation", "statement": "For expressions without adjoint leaves, sums or contractions, evaluation performs exactly the scalar operations written, once per element and in the written argument order, for any scalar type including floats (no algebraic law is used).", "quantifier": "all such trees and contexts, all scalar types", "why_tests_cant": "all trees; a reordering or double application is invisible on symmetric samples", "anchors": ["aegir/src/ops/mod.rs: impl_unary!", "aegir/src/ops/arithmetic/binary.rs"]}
{"id": "C35", "title": "Linear regression gradient end to end", "statement": "For the README model sse = (x.dot(w) - y)^2 of any dimension n, evaluating sse.adjoint(W) returns the vector 2 (x.w - y) x_i for every context.", "quantifier": "all n and all real x, w, y", "why_tests_cant": "all dimensions and inputs", "anchors": ["README.md", "aegir/examples/linear.rs"]}
{"id": "C36", "title": "Class precedence", "statement": "The buffer class chosen for a combination of two classes is determined for every pair: combining with scalars keeps the other class, equal classes are kept, pairs combined with vectors or arrays give way; the choice does not depend on operand order.", "quantifier": "all pairs of classes", "why_tests_cant": "finite table but part of every adjoint's type", "anchors": ["aegir/src/meta/mod.rs: Precedence"]}
{"id": "C37", "title": "Error messages show the root cause", "statement": "The displayed message of an error nested under any number of Left/Right wrappers is the message of the innermost error.", "quantifier": "all error values", "why_tests_cant": "unbounded nesting", "anchors": ["aegir/src/errors.rs: Display for BinaryError, UnaryError"]}
{"id": "C38", "title": "Runtime index iterator restarts after the end", "statement": "The index iterator of a runtime shape is not fused: after yielding every index once it returns None, and the next call starts again from the first index, although count and size_hint say nothing is left; with zero dimensions it yields no index at all.", "quantifier": "all runtime shapes with at least one dimension and no zero extent (restart); the shape without dimensions (nothing yielded)", "why_tests_cant": "a test drains one iterator of one shape; the restart depends on the state reached after all carries, for every rank and extent", "anchors": ["aegir/src/buffers/shapes/runtime.rs", "aegir/src/buffers/shapes/multi_product.rs"]}
{"id": "C39", "title": "Vectors of different lengths are never combined", "statement": "Adding, subtracting or multiplying two sub-expressions that evaluate to Vec buffers of different lengths never produces a value, in any of the three evaluation modes: the outcome is a panic or an Output error carrying both shapes, left one first.", "quantifier": "all trees whose operands evaluate to Vecs of different lengths, all contexts, all scalar types, plain, lifted and shape evaluation", "why_tests_cant": "lengths are run-time values and each of the modes has its own code path", "anchors": ["aegir/src/ops/arithmetic/binary.rs", "aegir/src/buffers/vecs.rs"]}
{"id": "C40", "title": "Scalar against a matrix swaps the arguments", "statement": "Combining a scalar on the left with an array of rank two or more hands the function the array element first and the scalar second; as a consequence s - M and s / M evaluate to M - s and M / s at every index.", "quantifier": "all scalars, all arrays of rank >= 2, all functions, all contexts", "why_tests_cant": "the swap is invisible for commutative functions and for rank 1, where the code is written separately", "anchors": ["aegir/src/buffers/arrays/zip_ops.rs", "aegir/src/ops/arithmetic/binary.rs"]}
{"id": "C41", "title": "Rectangular matrix-vector products", "statement": "Contracting a matrix with n rows and m columns with a vector of length n (on either side, as the types demand) panics when m > n, and otherwise returns the m-vector obtained from the leading m by m block and the first m entries of the vector.", "quantifier": "all n, m, all contents, all scalar types", "why_tests_cant": "a square test case does not distinguish rows from columns; the behaviour depends on two unbounded dimensions", "anchors": ["aegir/src/buffers/arrays/contraction_ops.rs"]}
{"id": "C42", "title": "Order of differentiability", "statement": "No expression can be differentiated three times: the adjoint of an adjoint of an adjoint never exists. An expression in which a constant occurs can be differentiated only once.", "quantifier": "all expression trees and all sequences of targets", "why_tests_cant": "a negative statement about every tree and every choice of targets; a missing trait impl cannot be exercised by a test that compiles", "anchors": ["aegir/src/meta/constant.rs: ConstantAdjoint", "aegir/src/meta/variable.rs: impl Differentiable for VariableAdjoint", "aegir/src/lib.rs: Differentiable"]}
{"id": "C43", "title": "Dual numbers and plain values", "statement": "Multiplying a dual by a plain value multiplies the value and leaves the adjoint as it is, so it equals multiplication by a constant dual exactly when the factor does not change the adjoint; adding or subtracting a plain value equals adding or subtracting a constant dual.", "quantifier": "all duals and plain values over any commutative ring", "why_tests_cant": "algebraic characterisation over all values", "anchors": ["aegir/src/dual.rs: Mul<V>, Add<V>, Sub<V>"]}
{"id": "C44", "title": "Exactly which fields derive accepts and what they become", "statement": "The Context derive accepts a field exactly when it has a name, every attribute path is one identifier, id attributes have exactly one plain identifier, there is at most one id attribute, and a cache field has an id and a type whose first segment is Option<..> with nothing or a path between the brackets; a struct is accepted exactly when all its fields are. The accepted field keeps its name, type, identifier and cache mark, and its buffer type is the field type or the path between the brackets. Structs emitted by ctx_type! are accepted with the names, identifiers and cache marks written.", "quantifier": "all fields, attribute lists, types and ctx_type! token lists", "why_tests_cant": "exact decision procedure over unbounded syntax", "anchors": ["aegir_derive/src/ctx/derive.rs: parse_field, parse_attr, parse_id_attr, parse_ty_cache, ctx_struct_impl", "aegir_derive/src/ctx/ctx_type.rs: expand, normalise"]}
{"id": "C45", "title": "What ids! accepts, defines and displays", "statement": "ids! accepts exactly the non-empty comma-separated lists of T, T::sym or T::\"sym\" without a trailing comma; the generated items define nothing twice exactly when the type names are distinct; an identifier is displayed as its symbol used as a format string, or as the text type_id when it has none.", "quantifier": "all token lists", "why_tests_cant": "grammar equivalence over all token lists", "anchors": ["aegir_derive/src/ids.rs"]}
{"id": "C46", "title": "The linear regression example is least mean squares and approaches the true weights", "statement": "In exact arithmetic, for vectors of equal length, the training loop of the linear example never panics and computes the textbook least-mean-squares sequence. For any non-negative rate and inputs of squared length at most B, the squared distance to the true weights after the loop plus 4*rate*(1-rate*B) times the sum of the squared prediction errors met on the way is at most the initial squared distance. For the program as it stands (rate 0.01, inputs in the unit cube, up to 100 weights, starting at zero) the final weights are no further from the truth than the start and the total squared error is bounded whatever the number of iterations. If rate*B is at most 1, the number of predictions off by eps or more is at most the initial squared distance divided by 4*rate*(1-rate*B)*eps^2, however long the loop runs.", "quantifier": "all lengths, weights, rates and sequences of draws of any length", "why_tests_cant": "unbounded loop over real inputs", "anchors": ["aegir/examples/linear.rs", "aegir/benches/linear.rs"]}
{"id": "C47", "title": "The three linear regression benchmarks compute the same floats", "statement": "In 64-bit floating point, including infinities and NaN, the derived gradient (Auto), the gradient written by hand as a node (Manual) and the one written without the library (Raw) are identical arrays, so the three benchmark loops end with identical weights; the same holds for any scalars with a commutative product and a unit. The one written without the library panics if a variable is missing, and whatever computes the gradient, an error or panic there ends the training loops in a panic.", "quantifier": "all vectors, weights, rates and sequences of draws", "why_tests_cant": "bit-for-bit equality over all floats and all iterations", "anchors": ["aegir/benches/linear.rs", "aegir/examples/linear.rs"]}
{"id": "C48", "title": "The logistic regression example is gradient ascent on the likelihood, in exact arithmetic", "statement": "In exact arithmetic the derived gradient of the logistic example and the one written by hand in the benchmark are both (label - logistic(x.w)) x; the loop never panics and computes the textbook gradient ascent; a step with any non-negative rate never makes the label just seen less likely. In 64-bit floats the two gradients differ: there are finite inputs for which the derived one is NaN and the one written by hand is 1.", "quantifier": "all lengths, weights, rates, labels and sequences of draws", "why_tests_cant": "unbounded loop over real inputs", "anchors": ["aegir/examples/logistic.rs", "aegir/benches/logistic.rs"]}
{"id": "C49", "title": "Caching does not change the result of the caching example", "statement": "For every vector and scalar type the example's expression, eight copies of a sum added up, has the same value with and without the cached node; without it the context is unchanged, with it the cache afterwards holds the value of the sum and nothing else changes; in exact arithmetic the value is -16 times the sum of the vector.", "quantifier": "all vectors and scalar types", "why_tests_cant": "all vectors and all scalars, including rounding", "anchors": ["aegir/examples/caching.rs", "aegir/src/meta/cached.rs"]}
{"id": "C50", "title": "What derive(Contains) accepts and what it generates", "statement": "The Contains derive accepts exactly the structs with named or unnamed fields in which every field carries exactly one #[op] attribute, and panics on everything else. The impl has one call and one bound per field, in order, and one extra generic parameter I; its method has a body exactly when there is a field and returns true exactly when the method of some field does. For every operator struct of the crate the generated method computes the contains of the model (true exactly for the identifiers written in the tree, C07).", "quantifier": "all items, fields, attribute lists and generic parameters; all operator trees", "why_tests_cant": "exact decision procedure over unbounded syntax", "anchors": ["aegir_derive/src/ops.rs", "aegir/src/ops/mod.rs", "aegir/src/ops/arithmetic/binary.rs", "aegir/src/ops/arithmetic/unary.rs", "aegir/src/ops/linalg/mod.rs"]}
{"id": "C51", "title": "What ctx! builds", "statement": "For every non-empty list of keys ctx! expands to a struct that ctx_type! and the Context derive accept, with one plain field per key named by the lower-case key; it compiles exactly when the keys differ even in lower case (so ctx!{X = .., x = ..} does not); then every key reads the value written and no other identifier is readable.", "quantifier": "all lists of keys and values", "why_tests_cant": "all key sets; name clashes depend on the spelling of identifiers", "anchors": ["aegir/src/lib.rs: ctx!", "aegir_derive/src/ctx/ctx_type.rs"]}
{"id": "C52", "title": "Every operation of a plain expression, operand by operand", "statement": "For every expression built from variables, constant buffers, unary functions, sums, powers, + - * / and contractions other than that of two scalars, evaluation returns exactly the buffer obtained by applying the written scalar operations: elementwise (with the two operands exchanged when a scalar stands to the left of an array of rank 2 or more), sums from zero upwards in row-major order, contractions as sums of products over the shared axis (over the leading square block for a rectangular matrix against a vector). No law of arithmetic is assumed, so this fixes every bit of a floating-point result. The context is unchanged and lifted evaluation gives the same buffer, error or panic.", "quantifier": "all such trees, contexts and scalar types", "why_tests_cant": "all trees, shapes and scalar types; bit-exactness over all floats", "anchors": ["aegir/src/ops/arithmetic/binary.rs", "aegir/src/ops/arithmetic/unary.rs", "aegir/src/buffers/arrays/zip_ops.rs", "aegir/src/buffers/arrays/contraction_ops.rs"]}
{"id": "C53", "title": "Every outcome of a well-typed plain expression", "statement": "For every well-typed expression of the kind of C52 and every context of its type, evaluation returns the value of C52 unless something fails, and then exactly the first failure in evaluation order, left operand before right operand before the operation: an undefined variable, wrapped in the path to it; lengths that differ under + - * (a panic) or under / (an error with both shapes, left first); a product of a vector with a matrix that has more columns than rows (a panic). Nothing else fails and the context is unchanged.", "quantifier": "all well-typed such trees and contexts", "why_tests_cant": "exact outcome over unbounded trees, all shapes and all combinations of failures", "anchors": ["aegir/src/ops/arithmetic/binary.rs", "aegir/src/ops/linalg/mod.rs", "aegir/src/errors.rs", "aegir/src/buffers/vecs.rs", "aegir/src/buffers/arrays/contraction_ops.rs"]}
{"id": "C54", "title": "The gradient of a Sum", "statement": "`adjoint` of `Sum(f)` returns the adjoint of `f` unsummed (C04_sum_refuted). Over the reals, wherever the primitive operations of `f` are differentiable, adding the entries of what is returned over the indices of `f` gives exactly the partial derivatives of the sum.", "quantifier": "all well-typed trees f of the kind of C04, all contexts, all shapes", "why_tests_cant": "derivatives at every point of every such expression", "anchors": ["aegir/src/ops/arithmetic/unary.rs: Differentiable for Sum", "aegir/src/lib.rs: Differentiable::evaluate_adjoint"]}
{"id": "C55", "title": "Absent variables have zero adjoints in floating point too", "statement": "For every expression of variables, constants, unary operators other than ln, sums, powers, + - and *, the adjoint with respect to a variable that does not occur evaluates to zeros (of either sign), even where the values are infinite or NaN, because the zero short cuts fire before anything is multiplied. With a quotient, a logarithm or a contraction the result can be NaN.", "quantifier": "all such trees, all contexts, f64 and every scalar type whose zeros are closed under sums, differences, negation and doubling", "why_tests_cant": "depends on the short cuts firing through arbitrarily deep trees and on all special float values", "anchors": ["aegir/src/ops/arithmetic/binary.rs: Mul::evaluate_spec", "aegir/src/meta/variable.rs: VariableAdjoint", "aegir/src/meta/constant.rs: ConstantAdjoint"]}
{"id": "C56", "title": "Rounding error of evaluation in f64", "statement": "For every expression of variables, constants, + - *, x-1, 1-x, x+1, 2x, -x, |x|, x(1-x), Sum and contractions whose products do not underflow, each finite entry computed in f64 differs from the exact real value by at most ((1+2^-53)^k - 1) times the value of the same expression with all signs made positive, where k counts the roundings on the way (n-1 for a sum of n entries, n for a scalar product of length n). Without the condition on underflow the bound fails.", "quantifier": "all such trees, all shapes and lengths, all f64 inputs including infinities and NaN, any powf and library functions", "why_tests_cant": "a bound over all floating-point inputs and all expression trees", "anchors": ["aegir/src/buffers/mod.rs: Buffer::fold / sum", "aegir/src/ops/arithmetic/unary.rs: Sum", "aegir/src/ops/arithmetic/binary.rs: Add, Sub, Mul", "aegir/src/buffers/arrays/contraction_ops.rs"]}
{"id": "C57", "title": "Whole numbers up to 2^53 are exact in f64", "statement": "For the expressions of C56 on whole-number inputs, if in every subexpression the value with all signs made positive is at most 2^53, every entry computed in f64 is finite and equals the exact value. At 2^53 + 1 this fails.", "quantifier": "all such trees, all shapes, all whole-number f64 inputs within the bound", "why_tests_cant": "all inputs up to 2^53 and all expression trees", "anchors": ["aegir/src/ops/arithmetic/unary.rs", "aegir/src/ops/arithmetic/binary.rs", "aegir/src/buffers/arrays/contraction_ops.rs"]}
{"id": "C58", "title": "Factorial and complementary error function", "statement": "Factorial::factorial(m) evaluates entry by entry to gamma(x + 1), which over the reals is x! at natural numbers for any gamma satisfying its functional equation; Erfc::erfc(m) evaluates to 1 - erf(x), and over the reals op + op.complement() is 1. In f64 the documented equality op == 1 - op.complement() holds exactly wherever erf(x) is in [1/2, 1], and fails wherever erf(x) is in (0, 2^-54].", "quantifier": "all nodes, buffers and shapes, any scalars, any gamma and erf functions; all f64 values of erf in the two ranges", "why_tests_cant": "an exact equality over all floats of a range, and its failure over another", "anchors": ["aegir/src/ops/special.rs: Factorial, Erf::complement, Erfc"]}
{"id": "C59", "title": "Range and accuracy of the sigmoid in f64", "statement": "If exp returns a finite number in [0, 1] for every float <= 0, then sigmoid of every float except NaN, infinities included, is finite, in [1/2, 1] for x >= 0 and in [0, 1/2] for x < 0. If exp has relative error at most h < 1 at the point where it is called, and for negative x does not return less than 2^-1021, the relative error of sigmoid(x) against 1 / (1 + e^-x) is at most (1 + u) / ((1 - u)(1 - h)) - 1 with u = 2^-53.", "quantifier": "all f64 inputs, all implementations of exp meeting the stated condition, all buffers", "why_tests_cant": "all 2^64 floats and every libm", "anchors": ["aegir/src/ops/sigmoid.rs: sigmoid, Sigmoid"]}
{"id": "C60", "title": "Rounding error of gradients in f64", "statement": "For an expression whose adjoint by a variable consists of ring operations (+ - * dot outer, 1-x, x-1, x+1, 2x, -x, |x|, x(1-x)), variables, constants and derivatives of variables, every finite entry of the gradient computed in f64 is within ((1 + 2^-53)^k - 1) times the magnitude of the adjoint expression of the partial derivative of the expression over the reals at the numbers the floats stand for; k counts the roundings on the way to an entry. This holds for all mixtures of plain, constant and diagonal intermediate results and the short cuts taken for them, provided no product underflows.", "quantifier": "all such expressions, all f64 contexts, shapes and sizes, all entries", "why_tests_cant": "an error bound over all trees, all floats and all sizes against the exact derivative", "anchors": ["aegir/src/lib.rs: Differentiable::evaluate_adjoint", "aegir/src/ops/arithmetic/binary.rs: Add, Sub, Mul evaluate_spec", "aegir/src/buffers/arrays/contraction_ops.rs: contract_spec"]}
{"id": "C61", "title": "The regression gradient operation by operation", "statement": "The gradient by w of (x . w - y)^2 (README.md:51-56) has entry i equal to (2 (x . w - y)) * (x_i * 1), with the dot product summed from zero upwards, for any scalars whose zero is recognised by is_zero; no product with a zero and no addition of a zero of the adjoint tree is carried out. In f64 it is therefore bit for bit the computed 2 (x . w - y) times x_i, and its error is at most ((1 + 2^-53)^(n+2) - 1) * 2 (sum |x_k||w_k| + |y|) |x_i|, n being the number of weights.", "quantifier": "all n, all vectors x and w and all y; any scalars, respectively all f64", "why_tests_cant": "all lengths and all floats", "anchors": ["README.md:51-56", "aegir/src/buffers/arrays/contraction_ops.rs: dot products with diagonal and constant specs", "aegir/src/ops/arithmetic/binary.rs: Add, Sub with a zero"]}
{"id": "C62", "title": "How aegir! reads operators", "statement": "For every token sequence, aegir! reads its argument by one unambiguous grammar in which * / % bind tighter than + and -, these bind tighter than ^, and all group to the left; it reports a compile error exactly on sequences outside the grammar, panics exactly on readable ones in which / or % occurs at any depth, and otherwise yields a node with the arithmetic value of that reading. The conventional reading, in which a power binds tightest, is false.", "quantifier": "all token sequences of paths, literals, binary and prefix operators, method calls, parentheses and constant blocks", "why_tests_cant": "unbounded nesting and operator sequences; the precedence of ^ only shows where several operators meet", "anchors": ["aegir_compile/src/lib.rs: aegir", "aegir_compile/src/lib.rs: ConvertToAegir::fold_expr", "README.md:57-58"]}
{"id": "C63", "title": "The adjoint of a contraction, entry by entry", "statement": "For operands that C04 covers, the evaluated adjoint of an inner product with respect to a vector is, at entry j, sum_k l_k dr_k/dt_j + sum_k dl_j/dt_k r_k, while the derivative has dl_k/dt_j in the second sum; so it is the gradient exactly where both sums agree, and there are products where they do not. The adjoint of an outer product takes the target's index from directly behind the left operand's index.", "quantifier": "all operand trees, vectors of every length, outer products of all ranks and targets, over the reals", "why_tests_cant": "the examples in the repository have left operands that do not depend on the target or have symmetric Jacobians, where the transposition is invisible", "anchors": ["aegir/src/ops/linalg/mod.rs:80: Differentiable for Contract"]}
{"id": "C64", "title": "Machine integers", "statement": "For every expression built from additions, subtractions, products, squares, sums, contractions and the nodes for derivatives, over every integer type of at least 8 bits, signed or not: with overflow checks off, each entry returned is the exact integer result reduced into the range of the type, hence exact whenever that result fits, whatever overflowed in between; with checks on, each entry computed without an overflow is exact and equals the one of the unchecked build; and no overflow occurs on the way to an entry whose size (all signs made positive, products not smaller than their factors) is at most MAX, over unsigned types without subtractions. Divisions, which truncate, may occur in the claims about checked builds, with divisors other than zero for the last one; a release build with divisions is exact where the computation without short cuts stays in range and no divisor is zero, but not otherwise. If all operands are that small, no operand's evaluation contains an overflow. Fitting exact values of all parts are not enough, and a count above MAX panics.", "quantifier": "all such expression trees and their adjoints, all widths, both signs, all inputs in range, all array shapes", "why_tests_cant": "overflow depends on the values, on the short cuts taken for constant operands and on the length of the arrays; all types, trees and shapes at once", "anchors": ["aegir/src/buffers/scalars.rs:109-119", "aegir/src/ops/arithmetic/unary.rs: Sum::evaluate_spec", "aegir/src/buffers/arrays/contraction_ops.rs:138"]}
{"id": "C65", "title": "Counting in usize", "statement": "At every point of the iteration of a runtime shape's indices, count() is the number of indices still to be yielded if that fits in usize; otherwise it is that number modulo 2^64 in a release build and a panic in a debug build (a fresh iterator of a debug build also panics when the product of its first dimensions exceeds usize though a later dimension is zero). cardinality() of every shape is the number of indices modulo 2^64 in a release build; in a debug build it panics exactly when the product of some first dimensions exceeds usize. So is_equivalent can equate shapes of different cardinality in a release build.", "quantifier": "all runtime and compile-time shapes with dimensions in usize, every point of the iteration, both kinds of build", "why_tests_cant": "the counts at stake exceed 2^64; no iteration reaches them", "anchors": ["aegir/src/buffers/shapes/multi_product.rs: count", "aegir/src/buffers/shapes/runtime.rs:28", "aegir/src/buffers/shapes/compiled.rs:96-98", "aegir/src/buffers/shapes/mod.rs:136-138"]}
{"id": "C66", "title": "What the compiler reads from the tokens returned by aegir!", "statement": "For every token sequence that aegir! accepts, the macro returns tokens for the converted expression, and the compiler reads them as that expression exactly when no binary operator of the source has a left operand that begins with a prefix operator (- * ! &); otherwise the prefix operators end up before the whole method call. Every converted expression that builds a node is read as it stands and contains no prefix operator, so unary minus and negative literals never build a node.", "quantifier": "all token sequences of paths, literals, binary and prefix operators, method calls and parentheses", "why_tests_cant": "needs printing and reading to be inverse on unbounded nesting; the mismatch only shows for particular operand positions", "anchors": ["aegir_compile/src/lib.rs: aegir", "aegir_compile/src/lib.rs: ConvertToAegir::fold_expr", "aegir_compile/tests/tests.rs:22-34"]}
{"id": "C67", "title": "Rendered text means what the expression means", "statement": "Read as a formula with the usual conventions (powers bind tighter than signs, signs tighter than products and quotients, these tighter than sums; powers group to the right, the rest to the left), the text of an expression has exactly one reading, and the value of that reading is the value of the expression.", "quantifier": "all scalar trees with a text, all inputs; unique reading for all texts", "why_tests_cant": "brackets may be missing in any of infinitely many nestings of operators, and simplified parts change what is printed", "anchors": ["aegir/src/fmt.rs: PreWrap::to_safe_string, Expr, ToExpr", "aegir/src/ops/**: ToExpr, Display"]}
{"id": "C68", "title": "Which expressions can be differentiated", "statement": "An expression can be differentiated by t exactly when every part of it can: shape-derived constants and constants' adjoints never, thirteen named operators never, a cache only by its own key, everything else always. Without caches it can be differentiated twice exactly when it also contains no constant, adjoint of a variable, Sign, Gamma or LogGamma. The adjoint of an expression with caches is, caches removed, the adjoint of the expression with caches removed; differentiating a cache by a key that is not one of its variables gives zero.", "quantifier": "all trees, all identifiers (twice: cache-free trees; zero: real contexts)", "why_tests_cant": "the trait bounds are checked per instantiation; infinitely many trees", "anchors": ["aegir/src/meta/cached.rs: impl Differentiable for Cached", "aegir/src/ops/**: impl Differentiable", "aegir/src/meta/constant.rs, variable.rs: impl Differentiable"]}
{"id": "C69", "title": "Which gradients compile", "statement": "For an expression over scalars and arrays whose sums are of scalars, with adjoint by a target of dimensions T: the adjoint satisfies all trait bounds exactly when every part of the expression does its share. Variables have at most three dimensions and every leaf at most five together with the target; if the target is an array, products, quotients and non-affine functions need scalar operands, sums and differences operands of equal dimensions, and of the contractions only dot products of vectors (by a vector), outer products of scalars (by a vector or matrix), of a vector with a scalar (by a vector) and of a scalar with a vector of the target's length remain. By a scalar target only the leaves matter. Differentiated by arrays twice, both adjoints satisfy the bounds only for sums, differences and affine functions of variables and caches and outer products of scalars; the second gradient is then zero.", "quantifier": "all trees, all typings of variables by scalars and arrays of any dimensions, all targets", "why_tests_cant": "each instantiation is a separate compilation; infinitely many trees and dimensions", "anchors": ["aegir/src/meta/variable.rs, constant.rs: impl Function for adjoints", "aegir/src/buffers/shapes/compiled.rs: Concat", "aegir/src/buffers/arrays/contraction_ops.rs", "aegir/src/ops/**: impl Differentiable"]}
{"id": "C70", "title": "What the macros report when they reject their input", "statement": "derive(Context) is silent exactly when it succeeds. Otherwise it panics with the report of the first field that has a fault; in a field a missing name comes first, then the first attribute with a fault, then more than one id attribute, then a cache without id, then the type of a cache, and each fault has its own text (a field without a name is reported as a cache without id, whatever its attributes are). ctx_type! names the first unknown modifier; derive(Contains) and aegir! have one text for every fault of their fields and operators.", "quantifier": "all structs, attribute lists, types, token lists and source expressions", "why_tests_cant": "each input is a separate compilation; several faults can occur together in any order", "anchors": ["aegir_derive/src/ctx/derive.rs:27-59,107-128,158-201,277-279", "aegir_derive/src/ctx/ctx_type.rs:10-16,99-103", "aegir_derive/src/ops.rs:112-126", "aegir_compile/src/lib.rs:18-26"]}
{"id": "C71", "title": "Doc comments of identifiers", "statement": "The doc comment that ids! writes for an identifier names the text shown for it exactly when the identifier has a symbol without braces, or has no symbol and is called type_id.", "quantifier": "all identifier lists without duplicate type names, all symbols", "why_tests_cant": "infinitely many names and symbols; the comments are not visible to tests", "anchors": ["aegir_derive/src/ids.rs:11-47"]}
{"id": "C72", "title": "Positive expressions are computed to high relative accuracy in f64", "statement": "Expressions built with addition, multiplication, division, add_one, double, absolute values, sums and contractions of non-negative f64 inputs are computed with a small relative error: every finite entry and the exact real value are within (1 - 2^-53)^k of each other, where k bounds the roundings on the way, provided that no product or quotient underflows and no divisor is zero or infinite; the computed entry is zero exactly when the exact value is. A weighted mean x.dot(w) / w.sum() of m numbers has 2 m roundings.", "quantifier": "all expressions of this kind, all non-negative contexts, all sizes, all entries", "why_tests_cant": "infinitely many expressions and inputs; tests compare single values with a tolerance", "anchors": ["aegir/src/ops/arithmetic/binary.rs: Add, Mul, Div", "aegir/src/ops/arithmetic/unary.rs: AddOne, Double, Abs, Sum", "aegir/src/buffers/mod.rs: Buffer::fold / sum", "aegir/src/buffers/arrays/contraction_ops.rs"]}
{"id": "C73", "title": "Size of derivatives", "statement": "The expression tree of a derivative has at most 4 times (number of nodes) times (height) nodes, hence at most quadratically many, and at most 3 times the height; a second derivative gains one more factor of the height. The orders are reached: x * x * ... * x with 2k+1 nodes has a derivative with k^2 + 5k + 1 nodes and a second derivative with at least 2/3 k^3 nodes.", "quantifier": "all expressions that have a derivative, all targets, all k", "why_tests_cant": "asymptotic statement over all expressions; no test measures the size of derivatives", "anchors": ["aegir/src/ops/arithmetic/unary.rs", "aegir/src/ops/arithmetic/binary.rs:132-150,257-271,389-403,543-560,626-642", "aegir/src/ops/linalg/mod.rs:72-86", "aegir/src/meta/variable.rs:87-92,226-233"]}
{"id": "C74", "title": "Caches of computations on plain buffers are transparent bit for bit", "statement": "When every cached subexpression is built from variables, constant buffers and operators (without contractions of two scalars) and each cache identifier is reserved for one such subexpression, evaluation gives exactly the outcome (value, error or panic) of the expression without caches, for any scalar type including f64, and whatever sequence of earlier evaluations, lifted evaluations and shape queries filled the caches.", "quantifier": "all expressions with such caches, all contexts, all histories, all scalar types", "why_tests_cant": "all expressions, all interleavings of evaluations and all rounding behaviours; the repository has one caching example and no test of it", "anchors": ["aegir/src/meta/cached.rs:30-52", "aegir/src/lib.rs:251-285", "aegir/examples/caching.rs"]}
{"id": "C75", "title": "Absence of overflow in f64", "statement": "For expressions built from variables, constant buffers, ring operations, sums, contractions and absolute values, evaluated on finite inputs without underflow: if no part of the expression has a magnitude (its value with all signs made positive) above 2^1023 and there are fewer than 2^52 roundings on the way to an entry, then no entry of the result is infinite or NaN, and every entry satisfies the error bound of C56 unconditionally. More generally any bound b >= 2 on the magnitudes works as long as (1 + 2^-53)^k b < 2^1024 for k roundings.", "quantifier": "all such expressions, all finite inputs without underflow, all powf and library functions", "why_tests_cant": "all expressions and all doubles; overflow depends on intermediate results no test inspects", "anchors": ["aegir/src/ops/arithmetic/binary.rs", "aegir/src/ops/arithmetic/unary.rs", "aegir/src/buffers/mod.rs: Buffer::fold / sum", "aegir/src/buffers/arrays/contraction_ops.rs"]}
{"id": "C76", "title": "Evaluation in f64 is monotone despite rounding", "statement": "Where the rules of signs say that an expression goes up (or down) from one set of inputs to another - sums and differences, products and contractions of factors that are not negative or of a fixed factor that is not negative, quotients by positive divisors, absolute values, sums over entries, with parts that do not change being arbitrary - the computed f64 entries go up (or down) as well, as long as both are finite. For sums, products and contractions of inputs that are not negative, smaller inputs moreover never overflow where larger ones do not.", "quantifier": "all such expressions, all pairs of inputs, all powf and library functions", "why_tests_cant": "all pairs of doubles and all expressions; rounding could break the order at isolated inputs", "anchors": ["aegir/src/ops/arithmetic/binary.rs", "aegir/src/ops/arithmetic/unary.rs", "aegir/src/buffers/mod.rs: Buffer::fold / sum", "aegir/src/buffers/arrays/contraction_ops.rs"]}
{"id": "C77", "title": "Scaling inputs by powers of two scales f64 results exactly", "statement": "Let each input be multiplied by its own power of two and let the expression be homogeneous in these units (equal degrees under addition and subtraction, degrees added under products and contractions, subtracted under quotients, constants and additions of one of degree zero). Then, where no product or quotient underflows in either run, every pair of finite computed f64 entries differs by exactly the power of two that is the degree of the expression: rounding errors scale with the units and nothing else changes.", "quantifier": "all homogeneous expressions of the modelled arithmetic, all units, all pairs of inputs, all powf and library functions", "why_tests_cant": "all expressions, all doubles and all exponents; a rounding that depended on the unit would show only at isolated inputs", "anchors": ["aegir/src/ops/arithmetic/binary.rs", "aegir/src/ops/arithmetic/unary.rs", "aegir/src/buffers/mod.rs: Buffer::fold / sum", "aegir/src/buffers/arrays/contraction_ops.rs"]}
{"id": "C78", "title": "The floating-point guarantees hold in f32 and every other binary format", "statement": "For every binary floating-point format with rounding to nearest, at least two digits and more exponents than digits, evaluation with scalars of that format has the properties stated for f64: the forward error bound for ring expressions, sums, contractions and absolute values (with 2^-prec in place of 2^-53), exactness on whole numbers up to 2^prec, relative accuracy of expressions that do not subtract, absence of overflow where magnitudes leave room, monotonicity by the rules of signs, exact scaling by powers of two, the range and accuracy of the sigmoid, the complement of the error function, closeness of computed gradients to the partial derivatives over the reals, and the exact floats of the gradient of linear regression, which are the same for the three ways of computing it in the benchmark. In particular this holds for f32 with 24 digits and exponents below 128.", "quantifier": "all formats (prec, emax) with 2 <= prec < emax, all expressions and inputs of the f64 statements, all powf and library functions", "why_tests_cant": "the crate implements Scalar for f32 as well as f64, and its tests use f64 only; the bounds must hold for all inputs of either type", "anchors": ["aegir/src/buffers/scalars.rs: impl_scalar!(f32), impl_scalar!(f64)", "aegir/src/ops/arithmetic/binary.rs", "aegir/src/ops/arithmetic/unary.rs", "aegir/src/ops/sigmoid.rs", "aegir/src/buffers/arrays/contraction_ops.rs"]}
{"id": "C79", "title": "Identifiers display the letters they are named after", "statement": "Every identifier of aegir::ids is displayed as the small letter it is named after: the Latin ones as the letter itself, the Greek ones as the Unicode letter of that name.", "quantifier": "all 50 identifiers of the crate, the generated Display impls and all token lists leading to them", "why_tests_cant": "no test prints the identifiers; the symbols of three neighbouring letters are off by one, which only shows when the whole alphabet is compared", "anchors": ["aegir/src/lib.rs: ids", "aegir_derive/src/ids.rs: Display"]}
{"id": "C80", "title": "What every identifier of aegir::ids displays", "statement": "aegir::ids defines 50 identifiers. The Latin ones are displayed as their small letters. The Greek ones take the code points from U+03B1 on in order up to Upsilon, so Sigma, Tau and Upsilon are displayed as final sigma, sigma and tau, and from Phi on the code points of their letters.", "quantifier": "all identifiers of the crate", "why_tests_cant": "exact table for the whole list, including the letters that are off by one", "anchors": ["aegir/src/lib.rs: ids", "aegir_derive/src/ids.rs"]}
{"id": "C81", "title": "Expressions treat scalars abstractly", "statement": "The crate accepts any scalar type. If a relation between two scalar types is respected by their operations (related arguments give related results, and equality and order tests agree), then evaluating the same expression over both types, with related constants and contexts, gives related outcomes: the same kind of result, the same error or panic, values, specs and shapes of the same type and size with related entries, and related contexts afterwards; likewise for derivatives and dual evaluation. Consequently a set of scalars closed under the operations contains every number in a result; in particular f64 (or any binary format) evaluation yields only numbers of the format; and for expressions without division, powers other than squares, order tests or library functions, integer arithmetic without overflow gives exactly the real result.", "quantifier": "all pairs of scalar types and relations, all expressions including adjoints, specs and caches, all contexts", "why_tests_cant": "quantifies over all scalar types a user may supply", "anchors": ["aegir/src/buffers/scalars.rs: Scalar", "aegir/src/lib.rs: Function::evaluate, evaluate_spec, evaluate_shape, evaluate_adjoint, evaluate_dual"]}
{"id": "C82", "title": "Results in floating point with a certified error", "statement": "Evaluate an expression of variables, constant buffers and operators other than those that decide by a comparison (Dirac, Sign, XLnX, Sigmoid) on finite numbers of any binary floating-point format, with library functions (exp, ln, sin, cos, squares) that are accurate to a relative error a and an absolute error b. Carry along, operation by operation, the exact real result and a bound on the error; keep the bound only while the numbers it allows are in range, and divisors away from zero. Then the exact results are the value of the expression, and wherever there is a bound for an entry, the computed entry is finite and within the bound of the exact value. No condition on overflow, underflow or divisors is needed; without library functions nothing is assumed about them.", "quantifier": "all formats, accuracies, such expressions, contexts with finite numbers, entries of the result", "why_tests_cant": "real numbers, all inputs and all formats; the exact value is not computable in tests", "anchors": ["aegir/src/lib.rs: Function::evaluate", "aegir/src/ops", "aegir/src/buffers/scalars.rs"]}
{"id": "C83", "title": "Naming a sub-expression changes nothing", "statement": "Let i be an identifier used in an expression n as a variable only, and m an expression without caches. If m evaluates to v in a context c (and its specification is a plain buffer holding v, which for expressions of variables, constants and operators follows from the former), then n with m written out for i and n in the context with v stored under i have the same outcome (value, error or panic) under evaluate, evaluate_spec and evaluate_shape, and leave the same context behind apart from i; caches of n are filled with the same values even if m reads their keys. The type checker accepts the one exactly if it accepts the other, given i the type of m. For expressions of scalars over the reals, the derivative of n with m written out is, wherever all of them evaluate, the derivative of n in t (zero if t = i) plus the derivative of n in i times that of m in t.", "quantifier": "all expressions n and m, identifiers, contexts, scalar types; for the chain rule all scalar expressions and real contexts", "why_tests_cant": "a relation between all pairs of expressions and all contexts, including those in which evaluation fails; over the reals not computable", "anchors": ["aegir/src/lib.rs: Function", "aegir/src/meta/cached.rs", "aegir/src/meta/variable.rs"]}
{"id": "C84", "title": "What evaluation leaves in the caches", "statement": "Evaluate an expression, its specification or its shape. If this succeeds, the identifiers with a value afterwards are exactly those that had one before and the keys of the caches reached, going from left to right; a cache that has a value is not entered, the shape query does not enter Sum and Power, and the operand of the adjoint of a constant is entered by a shape query. If it fails, there are no others. After success, the same query in the context left behind, or in any context with more entries, has the same result and changes nothing. If no cache stands under a cache with the same key, every entry added, even by a failed evaluation, is the value of an expression cached under this key, in the context left behind.", "quantifier": "all expressions, contexts, outcomes and scalar types; all larger contexts", "why_tests_cant": "all nestings and orders of caches, shared keys, all ways to fail half-way", "anchors": ["aegir/src/meta/cached.rs", "aegir/src/meta/constant.rs: ConstantAdjoint", "aegir/src/lib.rs: Function, default methods"]}
{"id": "C85", "title": "Operators that decide by a comparison, at every floating-point number", "statement": "In every binary format and for values of every shape: Abs clears the sign bit and Negate flips it; Sign keeps zeros (with their sign) and NaN, and gives 1 or -1 with the sign of other numbers and infinities; Dirac is positive infinity at both zeros and positive zero at all other numbers, infinities and NaN; XLnX is positive zero at zeros, negative numbers and negative infinity, and x times ln x otherwise. The gradient of the absolute value of a scalar variable is its Sign (so zero at zero), that of the Sign is its Dirac.", "quantifier": "all formats, numbers (zeros of both signs, infinities, NaN), shapes, operands that evaluate, library functions", "why_tests_cant": "all bit patterns in all formats", "anchors": ["aegir/src/ops/arithmetic/unary.rs: Negate, Dirac, Sign, Abs", "aegir/src/ops/logarithmic.rs: SafeXlnX"]}
{"id": "C86", "title": "The order of differentiation does not matter", "statement": "Over the reals, where C05 describes both orders: differentiating an expression by t and then by u gives, at entry i ++ j ++ k, the number that differentiating by u and then by t gives at entry i ++ k ++ j. In particular (u = t) Hessians are symmetric. The code builds different trees for the two orders.", "quantifier": "all expressions, points, variables and entries to which C05 applies in both orders", "why_tests_cant": "all trees that can be differentiated twice, at all smooth points", "anchors": ["aegir/src/lib.rs: Differentiable", "aegir/src/ops/arithmetic/binary.rs: adjoint rules", "aegir/src/meta/variable.rs: VariableAdjoint"]}
{"id": "C87", "title": "Names of identifiers do not matter", "statement": "Replace the identifiers of an expression and of its context by others, different ones for different identifiers. All three evaluation methods give the same result under the new names (errors mention the new names), fill the same caches, and leave everything stored under other identifiers alone; differentiation and contains commute with the replacement; types and texts stay the same when the new identifiers have the types and symbols of the old ones.", "quantifier": "all expressions, contexts, and injective replacements of identifiers", "why_tests_cant": "infinitely many expressions and replacements; tests use a handful of names", "anchors": ["aegir/src/lib.rs: Identifier, Contains", "aegir/src/meta/variable.rs", "aegir/src/meta/cached.rs", "aegir/src/lib.rs: Context"]}
{"id": "C88", "title": "Exactly which expressions print alike", "statement": "Two expressions over variables are rendered (ToExpr and Display) as the same text if and only if one becomes the other by these replacements anywhere in the tree, in either direction: x+1 by 1-x, asin by acos, x ln x and x(1-x) by the products they abbreviate, (x^y)^z by x^(y^z), (-x)^z by -(x^z), (2x)^z by 2(x^z), exp(x)^z by exp(x^z). With sums and double contractions on the outside the same holds for Display.", "quantifier": "all trees over variables, all symbols that are distinct names", "why_tests_cant": "an equivalence over all pairs of trees", "anchors": ["aegir/src/fmt.rs", "aegir/src/ops/**: ToExpr, Display"]}
{"id": "C89", "title": "Debug output determines the expression", "statement": "Two expressions have the same Debug text if and only if they are the same tree over the same identifiers with constants whose buffers print the same. Hence an expression without constants is determined by its Debug text among all expressions, and one with constants among those of its Rust type if scalars are determined by their texts. Exactly the expressions with a constant of a Spec have no Debug text. Buffers, specs and dual numbers are determined by their texts within their type.", "quantifier": "all pairs of expressions, buffers, specs and dual numbers; all distinct identifier names that are words; all scalar texts that are words", "why_tests_cant": "an equivalence over all pairs of trees", "anchors": ["aegir/src/meta/variable.rs:40,115-122", "aegir/src/meta/constant.rs:93-100,118-125", "aegir/src/meta/cached.rs:11-15", "aegir/src/ops/mod.rs:5", "aegir/src/ops/arithmetic/binary.rs", "aegir/src/ops/linalg/mod.rs:88-99", "aegir/src/buffers/spec.rs:40", "aegir/src/dual.rs:29"]}
{"id": "C90", "title": "Debug output of errors", "statement": "Two evaluation errors have the same Debug text if and only if they take the same sequence of Left/Right to causes that print the same: the same missing identifier, or shapes of the same kind and rank, with the same dimensions if dynamic. The Debug and Display texts of an error together determine it; neither does alone.", "quantifier": "all pairs of evaluation errors, all distinct identifier names that are words", "why_tests_cant": "an equivalence over all pairs of errors of any depth", "anchors": ["aegir/src/errors.rs:27-34,63-73", "aegir/src/meta/mod.rs:42-46", "aegir/src/buffers/shapes/mod.rs:6-13", "aegir/src/buffers/shapes/compiled.rs:4,32,135-165", "aegir/src/buffers/shapes/runtime.rs:5-6"]}
{"id": "C91", "title": "Equality of expressions", "statement": "The derived == holds between two expressions of the same type exactly when their constants are equal entry by entry and, for specs, in the same form. It is equality if == of scalars is, symmetric if that is, and an expression equals itself exactly when every scalar in its constants does. Equal expressions have equal derivatives, and equal values when the scalar operations respect ==. For floating point, which does not, equal expressions built from sums, differences, products, contractions, negations and absolute values have the same outcomes up to the signs of zeros.", "quantifier": "all pairs of expressions of the same type, all scalar types, all contexts, all floating point formats", "why_tests_cant": "relates == to evaluation over all pairs of trees", "anchors": ["aegir/src/meta/variable.rs:40,115", "aegir/src/meta/constant.rs:41,118", "aegir/src/meta/cached.rs:11", "aegir/src/ops/mod.rs:5", "aegir/src/ops/arithmetic/unary.rs:227", "aegir/src/ops/arithmetic/binary.rs:81,197,333,469,588", "aegir/src/ops/linalg/mod.rs:30", "aegir/src/buffers/spec.rs:40", "aegir/src/dual.rs:29"]}
{"id": "C92", "title": "Whatever it is shown, the logistic regression example does about as well as the best fixed weights, in exact arithmetic", "statement": "In exact arithmetic, for the logistic regression loop run with either gradient, any non-negative rate r and any sequence of vectors of squared length at most B and labels (random or adversarial): r(2 - rB) times the surprise (minus log likelihood of the label, by the weights at the time) summed over the run, plus the squared distance of the final weights to any fixed weights u, is at most the squared distance of the initial weights to u plus 2r times the surprise that u would have met. For the program as it stands (rate 0.0005, five inputs in the unit cube, weights starting at zero) the loop does not panic and 799/800 of its surprise is at most that of u plus 1000 |u|^2, however long it runs. If rB is at most 2, the number of labels that the weights of the moment did not put on their side of one half, times r(2 - rB) ln 2, is at most the squared distance of the initial weights to u plus 2r times the surprise of u.", "quantifier": "all lengths, weights, comparison weights, rates, bounds, labels and sequences of draws of any length", "why_tests_cant": "unbounded loop over real inputs, compared with every fixed vector of weights", "anchors": ["aegir/examples/logistic.rs", "aegir/benches/logistic.rs"]}
{"id": "C93", "title": "When the gradient of an expression is as good as the expression", "statement": "For an expression that compiles, whose products of vectors with matrices are with square matrices and whose sums are of scalars, and a gradient that compiles: the gradient contains only products with square matrices if and only if either the target is not a vector or every dot product in the expression is of vectors of the target's length. In that case the gradient evaluates without panic to a buffer of its type whenever the variables are defined, and over the reals it is the Jacobian. Otherwise it can panic although the expression evaluates, and it can silently be wrong: the gradient of v.(w(x.y)) by x panics if v is shorter than x, and uses only the leading entries of v and w if it is longer.", "quantifier": "all expressions, types, contexts and scalar types", "why_tests_cant": "concerns every expression and every combination of dimensions; the wrong gradients need vectors of two lengths in one expression", "anchors": ["aegir/src/ops/linalg/mod.rs:80: Differentiable for Contract", "aegir/src/buffers/arrays/contraction_ops.rs"]}
{"id": "C94", "title": "The operands of sums and products may be exchanged", "statement": "Exchanging the operands of sums and element-wise products anywhere in an expression without caches does not change its value, lazy form, shape or type, nor whether it has them, provided addition and multiplication of scalars are commutative. The derivatives of the two expressions again differ only by such exchanges, so the gradients, of every order, are equal. In particular this holds bit for bit for floats of every format, including NaN, infinities, signed zeros and the short cuts for zero operands. Only errors may name the other side; regrouping, in contrast, does change floats.", "quantifier": "all expressions, exchanges, contexts, targets and scalar types with commutative addition and multiplication", "why_tests_cant": "concerns every expression and every set of exchanges in it, through short cuts that treat left and right operands in separate arms and, for arrays of rank two and more, pass the arguments swapped", "anchors": ["aegir/src/ops/arithmetic/binary.rs:230-244: Add::evaluate_spec", "aegir/src/ops/arithmetic/binary.rs:504-530: Mul::evaluate_spec", "aegir/src/buffers/arrays/zip_ops.rs"]}
{"id": "C95", "title": "On average the linear regression example converges geometrically, in exact arithmetic", "statement": "If the inputs of the linear regression loop are drawn independently and uniformly from a finite collection of vectors of squared length at most B whose mean squared extent in every direction is at least lam, then for any non-negative rate with rate*B at most 1 no run fails and the squared distance to the true weights, averaged over all sequences of n draws, is at most (1 - 4 rate (1 - rate B) lam)^n times the initial one. For the program as it stands (30 weights, rate 0.01, weights starting at zero, coordinates drawn from the multiples of 1/k in [0,1), k at least 2; k = 2^53 in rand) the factor is at most 1 - 7/4000 per draw, and the probability of ending at squared distance e or more is at most (1 - 7/4000)^n |w*|^2 / e. If all draws lie on a line, the distance need not fall.", "quantifier": "all collections of inputs, rates, true and initial weights, dimensions and numbers of draws", "why_tests_cant": "a statement about the average over all sequences of draws, of any length; a test sees one seed", "anchors": ["aegir/examples/linear.rs:18-52: main", "aegir/benches/linear.rs"]}
{"id": "C96", "title": "Rounding does not keep the linear regression example from the true weights", "statement": "In f64, with up to 30 weights, true weights and inputs in [-1,1], the rate 0.01 (rounded), starting weights no further than sqrt(30) from the true ones and n <= 2^42 draws, the linear regression loop never panics, every weight is finite, and the weights are within n 2^-42 (Euclidean distance) of what the same loop gives in exact arithmetic on the same numbers; so they are never further from the true weights than at the start, plus n 2^-42. For the program as it stands (30 weights from zero, ten million draws) every printed weight is within 2.3e-6 of the exact result, and, averaged over all sequences of draws of multiples of 2^-53, the squared distance of the printed from the true weights is at most 1.1e-11; the probability that the distance is 1e-4 or more is at most 0.0011. With a much larger rate the weights overflow.", "quantifier": "all true weights, starting weights, sequences of draws up to 2^42, dimensions up to 30; all library functions", "why_tests_cant": "a test sees one seed; the bound holds for every sequence of draws and, on average, for all of them at once", "anchors": ["aegir/examples/linear.rs:18-52: main", "aegir/benches/linear.rs"]}
{"id": "C97", "title": "Rounding keeps the logistic regression example close to its exact run while logits stay below 29", "statement": "In f64, with up to 30 weights starting in [-1,1], inputs in [-1,1], a rate up to 0.001, n <= 10^10 draws with n*rate <= 510 and an exp accurate to 8 units of rounding: as long as the exact run predicts no draw with a logit beyond 29, the logistic regression loop never panics, no weight is NaN or infinite, and the weights are within n 2^-41 (Euclidean distance) of what the same loop gives in exact arithmetic on the same numbers. With the gradient written by hand in the benchmark the same holds without any bound on the logits. Exact weights started at zero keep every logit below B as long as N n rate (0.6 + rate N) <= B^2, whatever is drawn; so for the program as it stands (5 weights from zero, rate 0.0005) every weight is within 2.6e-7 of the exact one for up to 550,000 draws of any kind, and within 4.6e-7 for all 1,000,000 with the gradient by hand. At a logit of 40 a contrary label turns the derived gradient, and so the weight, into NaN.", "quantifier": "all rates, starting weights, sequences of draws and labels, dimensions up to 30; all accurate exponentials", "why_tests_cant": "a test sees one seed and a few hundred thousand draws; NaN arises only on rare draws, and the distance from exact arithmetic is not observable by running the program", "anchors": ["aegir/examples/logistic.rs:18-57: main", "aegir/benches/logistic.rs:45-115", "aegir/src/ops/sigmoid.rs:44-55: sigmoid"]}
{"id": "C98", "title": "On average the logistic regression example learns the true probabilities, in exact arithmetic", "statement": "Let the inputs be drawn uniformly from any finite pool of vectors with |x|^2 <= m and the labels with probability sigmoid(x.w*), rate*m <= 8. Averaged over all that may be drawn in n steps, the squared distance of the weights from w* after the loop is at most the initial one plus n rate^2 m/4, and rate (8 - rate m) times the sum of the squared errors of the predicted probabilities sigmoid(x.w) (each with the weights learnt so far) is at most the same. For the program as it stands (5 weights from zero, true weights in [0,1], rate 0.0005, a million draws) the mean squared error of the predicted probabilities is at most 0.00133. The term of second order cannot be dropped.", "quantifier": "all true weights, starting weights, pools of inputs, rates and numbers of draws", "why_tests_cant": "a statement about the average over all sequences of inputs and labels; a test sees one seed", "anchors": ["aegir/examples/logistic.rs:18-57: main", "aegir/src/ops/sigmoid.rs:44-55: sigmoid"]}
{"id": "C99", "title": "The logistic regression example in f64 very likely tracks its exact run and on average learns the true probabilities", "statement": "Let the inputs be drawn uniformly from a finite pool and the labels with the probability that the program computes in f64 and hands to gen_bool. That probability is always in [0,1] (gen_bool does not panic) and within 262*2^-53 of sigmoid(x.w*). There is a set of rare draws outside of which, at every moment of the run, nothing panics, no weight is NaN or infinite and after k draws the weights are within k*2^-41 of those of the exact run; l times its probability is at most |w0-w*|^2 + n (rate^2 m/4 + rate 2^-36), for l as large as the logits allow. On the other draws the mean sum of the squared errors of the predicted probabilities obeys the bound of exact arithmetic but for n^2 2^-36. For the program as it stands (5 weights from zero, rate 0.0005, a million draws): probability of the exceptions at most 5%, weights within 4.6e-7 of the exact ones, mean squared error of the predicted probabilities at most 0.00135. With the gradient written by hand there are no exceptions.", "quantifier": "all true weights, starting weights, pools, rates, numbers of draws within the stated ranges; all exp functions of the stated accuracy; all sequences of draws", "why_tests_cant": "probabilities over all sequences of inputs and labels; a test sees one seed", "anchors": ["aegir/examples/logistic.rs:18-57: main", "aegir/benches/logistic.rs:86-112: solve_manual", "aegir/src/ops/sigmoid.rs:44-55: sigmoid"]}
{"id": "C100", "title": "Which expressions compile: the trait bounds are exactly these typing rules", "statement": "An expression satisfies the trait bounds of Function, with a given buffer type as Value, if and only if the following rules give it that type: variables have the type of their field; sums, differences, products and quotients need equal types or a scalar with anything but a pair; powers need two scalars; contraction over no axis takes scalars and arrays with at most two axes together and appends their dimensions; over one axis it takes scalars, vectors of the same length, a vector and a matrix with as many rows, matrices with matching inner dimensions, and a matrix with a vector as long as the matrix has rows, giving one as long as it has columns; a cache needs the type of its field; derivatives of variables and constants need static shapes, at most five axes together (and at most three for a variable), and are pairs only for a pair and a scalar. By these rules an expression has at most one type, and they reject nothing that the implementations can evaluate: if evaluating an expression built from variables and constants returns a value, the expression has the type of that value.", "quantifier": "all expressions, all context types, all contexts and scalars", "why_tests_cant": "tests that do not compile cannot be run, and acceptance concerns all combinations of types and dimensions", "anchors": ["aegir/src/ops/arithmetic/binary.rs: bounds of the Function impls", "aegir/src/ops/linalg/mod.rs: impl Function for Contract", "aegir/src/meta/variable.rs: impl Function for VariableAdjoint", "aegir/src/meta/constant.rs: impl Function for ConstantAdjoint", "aegir/src/buffers/arrays/contraction_ops.rs", "aegir/src/buffers/arrays/zip_ops.rs", "aegir/src/buffers/shapes/compiled.rs: Concat"]}
{"id": "C101", "title": "Which gradients compile, whatever buffers the expression mixes", "statement": "Whenever the gradient of an expression compiles, every variable, constant and derivative of a variable in it has a derivative by the target in the sense of the typing rules. So an expression that mentions a Vec anywhere has no gradient, nothing has a gradient by a Vec, and pairs have none by a pair. By a scalar nothing else is needed: provided sums are taken over scalars, the gradient compiles exactly if no leaf is a Vec, variables have at most three axes and the other leaves at most five, and then it has the type of the expression. By a pair, an expression whose leaves are all scalars has a gradient exactly if it is built without products, quotients, powers, contractions and unary functions that are not affine.", "quantifier": "all expressions, all context types (scalars, pairs, vectors and arrays of any dimensions), all targets", "why_tests_cant": "a gradient that does not compile cannot be run by a test, and the claim covers every tree and every assignment of buffer types", "anchors": ["aegir/src/meta/variable.rs: impl Function for VariableAdjoint", "aegir/src/meta/constant.rs: impl Function for ConstantAdjoint", "aegir/src/buffers/shapes/compiled.rs: Concat", "aegir/src/meta/mod.rs: Precedence", "aegir/src/buffers/mod.rs: Class", "aegir/src/ops/arithmetic/binary.rs: impl Differentiable", "aegir/src/buffers/tuples.rs"]}
{"id": "C102", "title": "Negating inputs negates odd expressions exactly, despite rounding", "statement": "Take an expression that changes sign, or does not, when the variables of a chosen set do, by the rules of signs (sums of terms with the same parity, products and contractions with combined parity, quotients with nonzero divisors, squares, absolute values and cosines even, sines and the other odd functions following their argument). Evaluating it in floating point with those variables negated gives the very same bits, with the sign flipped if the expression is odd, except that zeros may have any sign. This holds for every rounding, overflow to infinity, underflow and NaN on the way; so for instance negating weights and targets of the linear example negates the error exactly and leaves its square unchanged. The same holds of a whole run of the linear example: negating the true and the first weights negates every learned weight exactly, and negating any of the vectors drawn changes nothing.", "quantifier": "all expressions, all binary floating-point formats, all inputs including infinities and NaN, all libraries that respect signs", "why_tests_cant": "an identity between two runs over all floats and all trees; asymmetric rounding would show up on rare inputs only", "anchors": ["aegir/src/ops/arithmetic/binary.rs: impl Function", "aegir/src/ops/arithmetic/unary.rs: impl Function", "aegir/src/ops/linalg/mod.rs: impl Function for Contract", "aegir/src/buffers/arrays/contraction_ops.rs", "aegir/src/buffers/scalars.rs"]}
{"id": "C103", "title": "The order of the entries of arrays does not matter", "statement": "Reorder the entries of all inputs by the same permutation along every axis of a chosen length n. Then the result of an expression is reordered by that permutation along its own axes of length n and otherwise unchanged: broadcasts, elementwise operations, outer products, contractions and sums all respect it. This holds in exact arithmetic; it holds bit for bit in floating point for expressions that sum nothing. Matrices that meet vectors in a contraction must be square. Gradients are reordered in the same way. As a consequence the linear and the logistic regression example learn, in exact arithmetic, the same weight for every feature, in whatever order the features are listed.", "quantifier": "all expressions, all permutations, all inputs, all numbers of features, all sequences of draws", "why_tests_cant": "a relation between two runs for every permutation and every tree; a mistake in one index of one contraction shows up for particular shapes only", "anchors": ["aegir/src/ops/linalg/mod.rs: impl Function for Contract", "aegir/src/buffers/arrays/contraction_ops.rs", "aegir/src/ops/arithmetic/unary.rs: Sum", "aegir/src/ops/arithmetic/binary.rs: impl Function", "aegir/examples/linear.rs", "aegir/examples/logistic.rs"]}
{"id": "C104", "title": "A small step against the gradient lowers the value", "statement": "Over the reals, take a compiling expression without caches, with sums of scalars only and square matrix-vector products, at a point where its operators are differentiable (the conditions under which C04 is proved). For every entry i of its value and every entry j of the target: if entry i ++ j of the evaluated gradient is a number g other than zero, then moving entry j by -h*g lowers entry i of the value and moving it by h*g raises it, for every small enough h > 0. If entry i of the value has a local minimum or maximum along entry j, then entry i ++ j of the gradient is zero. If that gradient entry is zero and the evaluated second derivative along entry j is positive (negative), near a point where C05 applies, then every small step of entry j raises (lowers) entry i of the value. Along a whole step of one entry, small or not, on which the conditions hold throughout, the change of the value is the step times the gradient evaluated at some point between; so a positive gradient along the way means growth, a zero gradient no change, and a bounded gradient a bounded change. Where the second derivative is not negative along the way, the value lies above its tangent at steps of any size.", "quantifier": "all such expressions, contexts and targets, all entries of value and target, all small steps", "why_tests_cant": "the size of a small enough step depends on the expression and the point, and the claim is about every expression; a test sees one step of one expression in rounded arithmetic", "anchors": ["README.md: ctx.w[0] -= 0.01 * g[0]", "aegir/examples/linear.rs", "aegir/src/lib.rs: trait Differentiable"]}
