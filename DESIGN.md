# Formal model of google/arolla (C++ core): design

The source under study is `/repo/arolla` (pinned, read-only).  The model lives in
`/verif/rocq/theories` and is checked by Coq 8.16.1.  Only the standard library of
Coq is used.

## Method

* One group of files per area.  `*_Model.v` holds computable definitions that
  follow the C++ function by function, each with a comment citing file and lines.
  `*_Spec.v` holds the small, independent specification.  The remaining files hold
  lemmas; `*_Props.v` holds the property theorems, each with `Print Assumptions`
  and non-vacuity `Example`s on concrete, non-trivial cases.
* Memory is modelled by lists.  Reading or writing outside a list is a distinct
  outcome (`None` in an option monad), so "no out-of-bounds access" is part of each
  theorem.  New buffers have arbitrary content, universally quantified.
* What the C++ standard leaves open is universally quantified: the order in which
  hash maps are iterated, the result of `std::sort`, `std::nth_element` and
  `std::partition` among those allowed, the content of uninitialised fields, the
  interleaving of threads.
* Machine words are `N` or `Z` with an explicit width when the width matters;
  `int64_t` sizes and ids are `Z` or `nat` without overflow unless the property is
  about overflow or the code can reach it with small inputs.
* Hash functions and fingerprints are modelled by the stream of tokens given to
  the hasher; collisions of the hash function itself are outside the model.
* Where the faithful model violates the English claim, the violation is proved as
  `..._refuted` with a concrete witness, and the claim is proved under the exact
  guard that makes it true.
* Theorems are tested against wrong programs: `seeded/LOG.jsonl` lists every edit of
  a definition and the theorems that failed to prove afterwards.

## Plan per property

| id | what is modelled | how it is proved |
|----|------------------|------------------|
| C01 | `util/bits.h` over lists of words of width w | `N.testbit` reasoning, induction over words |
| C02 | `GetWordWithOffset`, `Intersect` (word loops of `util/algorithms.h`) | bit-level extensionality |
| C03 | `AreAllBits*`, `CountBits`, bitmap `Builder` | induction over words / appended groups |
| C04 | `AlmostFullBuilder`, `SimpleBuffer::Slice`, `RawSpan::subspan` | invariant over the AddMissed history; refuted for `Build(size)` with no missed id |
| C05 | `DenseArray` record (values, bitmap, bit offset) | element-wise abstraction function |
| C06 | `DenseArrayBuilder` | fold over the write history against an abstract map |
| C07 | dense pointwise op implementations | element-wise refinement for an arbitrary function |
| C08, C09 | `DenseArrayEdge`, `ComposeEdges` | abstraction to the relation child -> optional parent; iff statements |
| C10 | `DenseGroupOpsImpl` over an abstract accumulator | refinement to a fold per group |
| C11 | `IdFilter` | sorted list lemmas |
| C12-C14 | `Array` record, form conversions, slices, equivalence | abstraction to a list of optional values |
| C15 | `ArrayPointwiseOp`, `ArrayOpsUtil` | refinement to the element-wise specification |
| C16 | `ArrayGroupOpImpl`, all paths | refinement to a fold per group; hash map order is an arbitrary permutation |
| C17 | token streams given to the hasher by buffers, arrays, edges, expressions | injectivity of the stream, or a witness |
| C18 | `StringsBuffer` (offsets, characters, base offset), builders | read-back theorems; refuted for reshuffling with a base offset |
| C19 | `FrameLayout::Builder` | invariant over programs of slots and subframes |
| C20 | `UnsafeArenaBufferFactory` over abstract block memory | invariant over op histories |
| C21 | `binary_search.cc/.h`, `exp_lower_bound` | loop invariants by induction |
| C22 | `LruCache` | refinement to a recency list |
| C23 | `overflow.h` | arithmetic on Z with explicit ranges |
| C24 | `CancellationContext` as a transition system | invariant over all interleavings |
| C25 | `Refcount`/`RefcountPtr` as a transition system | invariant over all interleavings |
| C26, C27 | `util/string.cc` | iff proofs by induction on strings |
| C28 | `FingerprintHasher` | chunking, order and length sensitivity of the buffer |
| C29-C31 | `control_flow_graph.cc` | path-based specification of dominance |
| C32 | `SlotAllocator`, binding and execution of the program | liveness invariant over the node sequence |
| C33 | `PostOrder`, `VisitorOrder`, adjacency arrays | explicit stack machine against the recursive order |
| C34 | `Transform`, `TransformOnPostOrder`, `DeepTransform` | explicit stack machine against recursion and an inductive rewriting relation |
| C35 | `jagged_shape.h`, `qexpr/shape_operators.h` | sizes per dimension |
| C36 | `util/concat.h` for both array kinds | nested-list semantics |
| C37 | `CopyBits`, `InplaceLogicalAndWithOffsets`, `util/algorithms.h` | bit-level extensionality over word loops |
| C38 | `dense_array/util/concat.h` | element-wise |
| C39 | `CreateArray`, `SparseArrayBuilder` | write history against an abstract map, both forms |
| C40 | `ArrayOpsUtil::Iterate` and friends | row by row, all combinations of forms |
| C41 | `qexpr/operators/dense_array/edge_ops.h` | running sums over groups; refuted for negative sizes and overflow |
| C42 | `ArrayEdge` | reduction to C08, C09 through the forms of C12 |
| C43 | accumulators count, any, all, logical all/any, sum, product, join | one group at a time, lifted through C10 and C16 |
| C44 | accumulators min, max, argmin, argmax, median, inverse CDF, collapse | same, for any order with NaN and any lawful `nth_element` |
| C45 | accumulators ordinal and dense rank, inverse mapping, take, weighted CDF, mean, weighted average | same, for any lawful `std::sort` and `std::partition` |
| C46 | `FromTrees`, `ValidateInputSlots`, naive evaluation, interval and set conditions | trees unfolded to an inductive type; pigeonhole for termination |
| C47 | tree compiler, `SinglePredictor`, `BoostedPredictor`, `AddTree` of regular trees | invariant over calls; ranks of nodes; induction on fuel |
| C48 | `ToObliviousTree`, `BitmaskBuilder`, `BitmaskEval` | per-bit characterisation of the masks of all trees; induction on trees for exit leaves; IEEE order lemmas for the sorted thresholds |
| C49 | `SingleInputBuilder`, `PiecewiseConstantEvaluator`, split points, `SingleInputEval` | rounding of the midpoint by Flocq; same cell implies same truth of all conditions; library behaviours as in C48 |
| C50 | `ForestEvaluator::Compile` and `Eval`, `SplitTreesByGroups`, merging of constants, `SimpleForestEvaluator` | invariant over the loop on trees: the selected trees are a permutation of those given to the evaluators; C47-C49 for each |
| C51 | the integer cases of `math/arithmetic.h` | two's complement reduction as congruence; uniqueness of floor quotient and rest |
| C52 | `CastOp`: the limits as computed by float loops, range checks, static_cast | normalised mantissas decide the comparison with the limits; Flocq for casts to floats |
| C53 | the float cases of `FloorDivOp` and `ModOp` | Flocq: rounding of a quotient against the distance to the next whole number |
| C54 | `FrameIterator`, the input and output copiers of DenseArray and Array | last write per cell; induction over batches with copier positions and finished rows |
| C55 | the threads of `ForEachFrame`, `absl::Barrier` with its life time | invariant over all interleavings: which barrier is being filled, how many wait and leave, progress of the owner of each frame; a measure for termination |
| C56 | `BatchedForestEvaluator`: splitting of the forest, frame layout, `EvalBatch` over `FrameIterator`, addition of partial results | parts concatenate to the forest; evaluators agree on frames that agree on the inputs of their trees; C50 and C54 combined; permutation of partial sums |
| C57 | `Encoder`, `Decoder` with usage counts and hints, containers of version 1 and 2, Riegeli records with the stop record | invariant: decoding the steps so far yields what the encoder knows; rank of values for termination and uniqueness; the state with hints is a function of the state without |
| C58 | compilation and matching of patterns, substitution, keys of optimizations, `ApplyToNode`, `Apply`, `MakeOptimizer` | invariant of compilation: the plan so far holds exactly of memories that are assignments; substitution by induction over the post order of C33; loops by induction over rounds |
| C59 | `ExprDominatorTree`, `ExtractLambda`, `WhereOperatorTransformationImpl`, the traversal with aliases, evaluation of packed conditionals | dominators of the control flow graph area translated to paths of the expression; invariant of the traversal: what every node has become and which arguments its lambdas have; evaluation by induction over size, relative to the gates below a node |
| C60 | `RunBoundOperators`, signals of the evaluation context, `SkipEvalOp`/`SetEvalOp`, `CompileWhereOperator`, `WhileLoopBoundOperator`, the stack trace by instruction | layout of nested programs in the flat one; both directions by induction (over evaluations, over programs); loops with fuel, half a round at a time; time decreases to the moment of cancellation |
| C61 | `GetNode`, `InitNode`, `ExecuteNode`, `Coordinator::Run`, the registry and the two entry points | the graph described by names, initializers and edges (invariant of its construction); depth-first execution with the nodes done as a ghost list; cycles of the graph mapped back to the declarations; simulation by names for permuted batches; invariant of the process |
| C62 | `CommonScalarQType`, `CommonShapeQType`, `CommonQType`, `CanCastImplicitly`, `BroadcastQType`, `WithValueQType` of the shapes, `FindMatchingSignature` | scalar part by exhaustion, shapes by cases, least upper bounds componentwise; the frontier as the antichain of minimal candidates (invariant of the search), the in-place pass as a filter |
| C63 | the validation passes, `HasVariadicParameter`, `ValidateDepsCount`, `BindArguments`, `Make`, `GetExprOperatorSignatureSpec`, the auxiliary policy accessors, `MakeArgsN`, `MakeVariadicArgs` | shape of the parameter list from the passes; grammar of texts with white space, stripping and splitting as inverses of it; the two binding loops described by the parameters left over, then equivalence with a declarative meaning of calls |
| C64 | `AdjustIndexes`, `UTF8StringIndex`, find / rfind / substr / count / contains for bytes and texts, `ReplaceImpl`, the strip operators with their bit set, `ParseUtf8`, `DecodeOp`, `ParseIntT` over `from_chars`, `AsTextOp` on integers, `SplitOp`, join | UTF-8 is self-synchronising: occurrences in bytes are occurrences in code points; the loops are compared with relations on sequences that determine their result, then carried over to texts |
| C65 | records with parents, `LookupOrCreateRecordSingleton`, `Register`, `UnsafeUnregister`, `LookupOperatorOrNull`, `UpdateRevisionIds`, `DecayRegisteredOperator`, `CircularDependencyDetector`, `BuildSnapshot`, `GetSnapshot`, `GetOverload`; a machine of threads that register and take snapshots, one shared access per step | refinement to a directory with a history of changes; chains as relations; calls compared with an evaluation without the detector; an invariant of the machine that counts announced but unlisted changes, and one for the revision that each snapshot carries |
| C66 | the dense array encoder and decoder for units, values and strings, the array encoder and decoder, both edge codecs | what a message says is a relation with at most one solution; the scatter loops are compared with placing the values at the set bits; canonical bitmaps are determined by their bits; edges by the theorems about `FromSplitPoints` and `FromMapping` |
| C67 | `ExtractImmutables`, `MakeWhileLoop` and its helpers, lambda validation, `SubstitutePlaceholders`, `WhileLoopOperator::InferAttributes`, the bound operator that alternates between two state slots | one lemma about extraction for every fold over expressions, used for types and for values; the two-slot loop is compared with a relation that makes one step at a time, and that with the iteration of the specification |
| C68 | the representation functions of unary and binary operators, attribute access, items, slices and source locations, the canonical form, `ToDebugString` over the nodes in post order | a precedence-climbing parser for Python is the specification, with a relation from its trees to expressions; one invariant says for each text at which strength it may be read and which tokens may follow |
| C69 | `SelectStatementNodes`, `IsSafeStatementName`, `GenStatementNames` | depth at least three is having an operand that is an operation without a line; counters of a name only grow, and names with counters are cut at their last dot |
| C70 | paths, protopath ids, prefixes, parent indices, the single-underscore and leaf-only policies | a relation says what an id stands for; the parser's result is in the relation, which is a function; unique splitting at the first separator |
| C71 | checks, trimming and construction of curves, coefficients, search and evaluation, the four transformations with library functions as parameters | a relation says which values are on the curve; facts of accepted points are collected in one record, evaluation is compared with a recursive interpolation, one lemma per part of the curve |
| C72 | reading points, type names and curves from text by position, the choice of the separator, curves from coordinates, printing | a grammar as an inductive relation; the position-based functions are related to the rest of the text, which is shown to be read in one way only |
| C73 | Bind, PartialBind, the checks of slots, accessors, wildcard, filtering, chain, delegating and by-key loaders, the cache of loaders, name to key | a meaning of a loader (names, types, how to read) and a relation "implements"; one lemma per combinator from two facts, running a list of bound loaders with disjoint slots, and that map visiting only permutes |
| C74 | Bind, PartialBind, checks of slots, accessors, chain and delegating slot listeners | a sequence of hearers and an inductive relation of what they do to the output; checks are reduced to those of input loaders, one lemma per combinator |
| C75 | LambdaOperator::Make, its constructor, ToLowerLevel, InferAttributes, and ToLowerNode, over the model of PostOrder and WithNewDependencies | the loop over the post order computes a recursive visitor (first error included); substitution by induction on the body; attributes by a simulation between the two visitors |
| C76 | ResolvePlaceholders, the parsing operator, MakeInputQTypeSequence, MakeQTypeInferenceFn, GetOverload and the operators on top of them; OverloadedOperator | the parsed fields are the known types of the parameters by induction on the signature; resolved expressions evaluate to their meaning by induction; the loops compute first violations and lists of matches; stability by comparing meanings at the two sequences |
| C77 | Object, GetAttrOrNull, GetSortedAttributes, ArollaFingerprint, EncodeObject, DecodeObjectValue and the qexpr operators | objects as chains of maps; sorted lists with the same elements are equal; the token sequence is split uniquely because a name of an attribute is followed by a fingerprint; decoding by an invariant of the loop |
| C78 | ExtractSideOutputs, PrepareSideOutputsForListener, IsAnnotation, StripAnnotations, StripTopmostAnnotations and the readers of annotations | the loop over the post order keeps the results and outputs of a recursive cleaning; that is a relation given separately; values and absence of annotations by induction on the expression |
| C79 | seq.range (MakeRange and the operator), seq.repeat, MutableSequence::Make | the wrapping arithmetic equals the rounded quotient below 2^64; ranges are unique; the loop by induction with the overflow check on its last addition |
| C80 | PyFormatParser (Parse, Process, FormatTypeReference), FormatBoundOperator, WhereAllBoundOperator, the choice of the operator by types | the scanner finds exactly the lexemes of a grammar, kept grouped as texts and arguments; the map of names is the position in the list of names; rendering by induction on the items |
| C81 | dict._make_key_to_row_dict, dict._get_row, dict._contains, dict._keys | the map holds exactly the rows read so far; listing succeeds iff the entries are a permutation of the positions of a list, by counting |
| C82 | strings._findall_regex, array._interleave_to_dense_array | the split points are the partial sums of the numbers of matches; splitting a concatenation at partial sums gives its parts back; the builder is filled from left to right |
| C83 | bool.logical_and, logical_or, logical_not, logical_if; has, presence_or, presence_and, where, presence_and_or, presence_not on scalars | by cases over presence and booleans, against all completions of the missing inputs |

## Remarks and limits per property

* **C04** (partial): Build() is proved for all histories. Build(size) is proved when at least one id was missed and refuted (C04_build_size_refuted) when none was: the returned buffer claims words over a null pointer.
* **C08** (proved): FromUniformGroups(INT64_MAX, 0) overflows parent_size + 1 (C08_uniform_overflow_refuted); all other arguments are proved.
* **C10** (proved): Mapping and scalar edges: any accumulator. Split points: accumulators following the documented contract; without an OK initial status the two representations can differ (C10_representation_refuted).
* **C12** (proved): ToSparseForm(v) is proved exactly, including two exceptions that are refuted: a sparse array with default v whose bitmap marks no missing element yields a broken bitmap (C12_to_sparse_refuted), and a non-injective == such as -0.0 == 0.0 changes values (C12_to_sparse_negative_zero_refuted).
* **C14** (proved): Proved for non-empty arrays. Two empty arrays may be reported as different when their missing_id_value differ (C14_empty_refuted); C14_empty says exactly when.
* **C15** (proved): Proved exactly. An operator also fails if its function fails on the arguments' defaults although no row holds them (C15_default_error_refuted); C15_array_op_exact gives the guards under which only rows matter.
* **C16** (proved): All code paths of Apply for both kinds of edges and for the scalar edge, including the dense shortcut and the two paths for very sparse data (hash map iterated in any order). Split points need the accumulator contract and lawful AddN; a mapping needs nothing. Errors: an error is returned iff some group ends with one (which of several errors is not specified).
* **C17** (proved): Byte-level streams. False without the equal-shift guard for Array (C17_array_shift_refuted).
* **C18** (proved): Fails for ReshuffleBuilder on a buffer with a base offset (C18_reshuffle_default_refuted, C18_reshuffle_copy_refuted) and for the hashed stream of buffers with different base offsets (C18_stream_refuted); proved otherwise. Sizes up to 2^60.
* **C19** (proved): Nested programs of slots, subframes and registrations; the hash map iteration order of each subframe is an arbitrary permutation. Sizes are natural numbers (no 2^64 wrap).
* **C20** (proved): The base factory is the environment (fresh, 8-aligned memory); sizes and addresses up to 2^62, the need for a bound is C20_huge_request_refuted. Heap and protobuf factories not modelled.
* **C21** (proved): UpperBound on float arrays holding NaN elements differs from std::upper_bound (C21_upper_bound_float_nan_refuted) and exp_lower_bound moves an iterator past the end without dereferencing it (C21_exp_lower_bound_advance_refuted); the claims without these are proved.
* **C22** (proved): Proved for capacities and weights below 2^63. With larger weights the size_t sum wraps and entries above the capacity are kept (C22_weight_overflow_refuted).
* **C23** (proved): All formulas over safe_add, safe_mul and safe_abs, all mixes of integer types.
* **C24** (proved): All interleavings of any number of threads; atomics outside of the mutex are single steps, the relaxed load of the flag may be stale, the mutex is sequentially consistent. Node addresses are not reused.
* **C25** (proved): All interleavings; atomic counter operations are single steps, the counter is unbounded (fewer than 2^31 handles). The handles inside of an object are fixed at its creation, hence no cycles.
* **C26** (proved): IsWithinOneTypo is compared with an inductive definition of one edit (insert, delete, replace, swap of neighbours) on code point lists.
* **C27** (proved): Truncate is stated for limits of at least 3, as documented; the escaping function of ContainerAccessString is a parameter.
* **C28** (proved): CityHash128WithSeed is a parameter. Chunk independence beyond 256 bytes is false, as documented (C28_chunking_refuted).
* **C29** (proved): For every list of dependencies: Create accepts exactly valid graphs and its errors are about an actual defect; the tree of every accepted graph agrees with path based dominance.
* **C31** (proved): Both readings of the statement: empty dominance frontier, and dominance over everything reachable.
* **C32** (proved): SlotAllocator, the binding loop and running the program; from post-order nodes and, with the model of PostOrder, from expressions. Operators are arbitrary functions; where/while sub-programs and operator errors are not modelled. C32_shared_inputs_refuted: leaves sharing a slot that may be overwritten give a wrong result.
* **C33** (proved): Expressions as trees with structural equality for fingerprints; adjacency array, node_index and both key overloads included.
* **C34** (proved): PostOrderTraverse and TransformOnPostOrder equal their recursive descriptions including errors. DeepTransform: always ends, sound and complete against the inductive rewriting relation; the log function is not modelled.
* **C35** (proved): FromEdges/AddDims iff, FlattenDims, RemoveDims, equivalence, broadcasting and the operators on top, over sizes per dimension. FlattenDims and GetBroadcastEdge assume sizes < 2^63-1. C35_op_edge_at_refuted: the error path of edge_at overflows for dim = -2^63.
* **C36** (proved): Both array kinds, concat and stack, all ranks and dims, against nested lists. C36_one_array_refuted: one array is not checked against its shape's size.
* **C37** (proved): CopyBits is proved in full. InplaceLogicalAndWithOffsets is proved except for zero bits with lhs_skip > rhs_skip, where it reads a source word that need not exist (C37_inplace_and_empty_refuted).
* **C41** (proved): Proved for non-negative sizes whose totals fit int64. Negative sizes reach undefined behaviour in edge.pair_left, edge.pair_right and edge.resize_groups_child_side, and three unchecked sums or products may overflow (C41_*_refuted).
* **C42** (proved): Guard of IsEquivalentTo: at least one child or split points; the excluded case is refuted with a witness.
* **C43** (proved): End to end through C10 and C16. Sums of floating point Arrays depend on the form of the Array (AddN multiplies): C43_float_sum_form_refuted, with IEEE double arithmetic of the standard library. 64-bit counters are unbounded.
* **C44** (proved): End to end through C10 and C16, for any order satisfying ord_ok (proved for integers, IEEE floats and byte strings) and any function with the guarantees of std::nth_element. The floating point computation of the rank in inverse_cdf is arbitrary; an invalid cdf argument is not modelled.
* **C45** (proved): End to end through C10 and C16. Arithmetic of weights and sums is arbitrary (so holds for floating point). Means are covered on DenseArrays in any arithmetic, and on Arrays when multiplying by a count is exact (C45_mean_exact); otherwise AddN may round differently on Arrays, as in C43_float_sum_form_refuted. Weighted averages on DenseArrays only. Cancellation during ranking is not modelled.
* **C46** (proved): Values of leaves are an arbitrary type with arbitrary addition, multiplication and final rounding, so floats are covered. Split conditions of other kinds are arbitrary functions of the row.
* **C47** (proved): The order in which the boosted predictor adds is left open (a permutation); the exact result follows if additions commute. Tests with cached bound conditions are identified with the condition they are bound from.
* **C48** (proved): Guards: no NaN bounds, no shared subtrees (C48_nan_bound_refuted and C48_shared_refuted show that they are needed). Sums are in an order and grouping left open (sum_of); C48_exact gives the exact result for exact arithmetic. Completeness of the conversion assumes that conditions equal themselves. Indices fit into the 32-bit ids.
* **C49** (proved): The internal evaluator used for sampling is a parameter with internal_ok; C49_internal shows that naive evaluation meets it. C49_midpoint and C49_eval use the axioms of the real numbers of the standard library, through Flocq. All guards are shown to be needed by the *_refuted witnesses. Sums are in an order left open (sum_of).
* **C50** (proved): Input slots are assumed to have been validated (Compile itself checks none of them for the regular and bitmask evaluators) and output slots to be distinct. The internal evaluator of C49 is the modelled SimpleForestEvaluator itself. C50_eval, C50_unfit and C50_exact use the axioms of the real numbers through C49_eval. The merged constants need 1.0 to be a unit of the multiplication after rounding to float (unit_weight).
* **C52** (proved): C52_int_to_float, C52_round_trip and C52_widen use the axioms of the real numbers through Flocq. Which of two equally near floats is chosen (the even one) is not part of the theorem. Casts to bool are not instantiated by the library.
* **C53** (proved): All but C53_error and C53_sign use the axioms of the real numbers through Flocq. The guards are needed (C53_floor_refuted, C53_mod_refuted). Assumes that the compiler does not fuse the multiplication and subtraction in ModOp.
* **C54** (proved): Input slots must be different from each other and in the layout; scalar output slots must hold a value in every row (a scalar slot cannot express a missing one). buffer > 0 is needed (C54_zero_buffer_refuted). The ForEachFrame overload with threads is a separate property.
* **C55** (proved): absl::Barrier is modelled as documented (Block waits for all threads and returns true in the last to return). Preloading, saving and one call of the function are single steps; C55_safe proves that no other thread can access their memory meanwhile. The function is assumed to use nothing but its frame. thread_count >= 1 (a DCHECK in the code).
* **C56** (proved): C56_eval, C56_exact and C56_groups use the axioms of the real numbers through C50_eval, and functional extensionality. Evaluation with a threading interface is not repeated here: C55 shows that it ends as the one without. row_count is not negative.
* **C57** (proved): Codecs themselves are parameters: a value encoder is any program that calls the encoder and returns a message or an error. Values are identified by their fingerprints. Input/output errors and the text of errors are not modelled. The order of nodes is that of C33. C57_refs is about containers without a separate list of codecs.
* **C58** (proved): Builds with NDEBUG; the checks of debug builds and the default packs of optimizations are not modelled. Matchers are functions without effects. Hash functions, inference and the meaning of operators are arbitrary; C58_sound needs operators of one name to have one meaning (C58_name_refuted shows why).
* **C59** (proved): Annotations are not modelled (the code reports an error for annotations that are not on leaves). Attributes of a conditional are kept as they are. The two sub-programs of a packed conditional are the two lambda bodies; the jumps they are compiled to are C60.
* **C60** (proved): Operators other than jumps are arbitrary, as long as they request no jumps and leave no signals (C60_functor: operators made of functions are such; C60_tame, C60_loop_tame: so are bound programs and loops). Loads of the cancellation flag are answers of an arbitrary sequence. Slots are functions on frames. Literals, descriptions and source locations are not modelled.
* **C61** (proved): Functions of initializers may report failure depending on all that ran before; an initializer that loads a library (and so calls InitArollaSecondary while another batch runs) is not modelled, nor are threads (the code documents that race). LOG(FATAL) ends the process. C61_link_order needs names: with anonymous initializers the order of registration can be seen (C61_link_order_anonymous_refuted).
* **C62** (proved): Types are trees; the C++ compares addresses of registered objects. The types of a program are those of an arbitrary registry of optionals and arrays, without optionals of optionals and arrays of optionals. Null arguments are modelled for CommonQType of two types only (they give null). The conversions that the compiler inserts for a chosen signature are not modelled.
* **C63** (proved): Strings are lists of character codes; values and expressions are abstract, `literal` is the constructor of a literal node. The keyword map is a list of pairs with distinct keys in the order of its iteration. Error texts are kept as constructors with the names that they mention. The Make overloads with QValue packs only forward to the modelled one.
* **C64** (proved): ICU and utf8_range are trusted to read well-formed UTF-8 and to pass over ill-formed bytes by one byte and some trail bytes. Case mapping, regular expressions, printf-style formatting and floating-point conversion are not modelled. Texts that hold ill-formed UTF-8 are covered by the decode theorems only. Byte-string strip with explicit characters also removes backspace and throws on bytes above 127 where char is signed (C64_strip_backspace_refuted, C64_strip_signed_refuted); splitting a text by an empty separator yields parts that are no texts (C64_split_empty_refuted); more than 2^31-1 occurrences overflow the counter (C64_count_overflow_refuted).
* **C65** (proved): A record is its position; operators are plain, overloads or registered names. Atomics are sequentially consistent steps. Fingerprints are taken to be distinct for distinct tokens. UnsafeUnregister is modelled for one thread only. The compilation and evaluation of the dispatch expression is replaced by its results. Two concurrent registrations of one name both succeed and the first operator is lost (C65_register_race_refuted); a snapshot begun between the revision change and the listing stays stale (C65_stale_refuted); so does one with an alias to a name outside the namespace (C65_snapshot_alias_refuted).
* **C66** (proved): Messages are records of their fields; the wire format and the indices of codecs are not modelled. Elements are of an arbitrary type: conversions of element types (such as int32 fields for booleans) are not modelled. Bitmap words of a message are below 2^32 (their field is uint32). Ids, sizes and offsets do not overflow when the ids offset is subtracted. A size close to 2^63 with a bitmap overflows (C66_size_overflow_refuted); messages of strings depend on characters that belong to no element (C66_strings_canonical_refuted).
* **C67** (proved): Expressions are trees compared structurally (fingerprints are taken to be distinct for distinct expressions); operators are strict functions with a sound type function; only types, not literal values of attributes, are inferred. Lambda lowering of the condition and body before compilation is taken to keep their meaning. The iteration order of the maps is a parameter. A variable of the initial state named _while_loop_immutable_0 replaces a part of the body (C67_reserved_name_refuted), a placeholder of that name need not be initialised (C67_reserved_placeholder_refuted), and an error of a part without variables surfaces even if the body is never evaluated (C67_eager_refuted).
* **C68** (proved): The text is the list of its Python tokens: blanks, escaping and the digits of numbers are not modelled; a literal other than a number, a text or unspecified is one opaque token. The verbose mode, GetDebugSnippet and representation functions registered by users are not modelled. An operator is its display name. The literal -5 and the negation of the literal 5 have the same text (C68_negative_refuted).
* **C69** (proved): As for C68. The name of an annotation is a literal. Names a, a and a._1 collide (C69_clash_refuted); a name may equal the text of a leaf or an attribute access, so that different expressions are printed alike (C69_shadow_refuted).
* **C70** (proved): DoubleUnderscore and GoogleSQL policies, hashing and map access paths beyond their segments are not modelled. A trailing empty field is lost, a field ending with [:] becomes an index and a slash splits a field when written as an id and parsed (C70_roundtrip_refuted); a_b and a, b have the same single-underscore name (C70_underscore_refuted).
* **C71** (proved): Numbers are rationals, infinities and NaN; rounding and signed zeros are not modelled. The single-precision path (the same code over rounded points) and the text of errors are not modelled. NaN as the x of a control point is accepted (C71_nan_refuted); a constant start written with a point at -infinity is refused if a later segment is constant, though without that point it is accepted (C71_constant_start_refuted).
* **C72** (proved): SimpleAtod and ToShortest are parameters; the round trip is for curves whose numbers survive them (-0 prints as 0). Positions are unbounded (the code uses int). Which error is reported is modelled but not specified. A separator listed twice counts as two (C72_listed_twice_refuted).
* **C73** (proved): Buffer factories, custom InvokeBoundLoadersFn of chains, the texts of errors and locking are not modelled; a callback accessor calls back once or fails. On an error the requested slots may hold anything (other places are still unchanged). Dispatching by key assumes the loader of a key is fixed, which C73_kept shows for keys already made.
* **C74** (proved): An accessor that points to a part of the output is modelled as reading and replacing that part (it points to the same part on every call). Texts of errors are not modelled. The type a chain reports for a name need not be one it can be bound with (C74_reported_type_refuted).
* **C75** (proved): The claim on attributes is for operators that are monotone and whose known values are not lost, and needs it (C75_unstable_refuted). Release mode; names, docs, fingerprints and texts of errors are not modelled; of the checks of a signature only that of repeated names (the others are C63).
* **C76** (proved): Conditions are evaluated, not compiled; their static types are not modelled, so that they yield presences (and the output expression a type) is a hypothesis. A condition is evaluated also before it is ready, and an error then is an error of the operator (C76_unready_error_refuted). A condition that reads the whole sequence of types can change the overload later (C76_sequence_refuted). Texts of errors are not modelled.
* **C77** (proved): What is fed into the hasher is compared as a sequence of strings and fingerprints, not of bytes. TypedValue, its fingerprints and its encoding are parameters (what is needed of them is a hypothesis); std::sort by its specification. Repr is not modelled.
* **C78** (proved): Evaluation is any meaning of operators that ignores annotations; attributes come from any InferAttributes; texts of errors and source locations are not modelled. The header of PrepareSideOutputsForListener says that names the listener does not know are filtered out; they are kept (C78_prepare_filter_refuted). CoreCast is a parameter.
* **C79** (proved): Proved under the exact guard: near the ends of int64 the size wraps around and the sequence is too short (C79_wrap, C79_range_refuted), or the last y += step overflows (C79_overflow_refuted). Any allocator; memory is only a list of values.
* **C80** (proved): absl::FormatUntyped, absl::StrCat and TypedRef::Repr are parameters; texts of errors are not modelled, only their kind. strings.printf is not modelled.
* **C81** (proved): Missing keys are accepted when a dict is made, but then its keys cannot be listed if a key follows a missing one (C81_keys_refuted). Float keys are ruled out by the types and not modelled. The hash map is a list of entries in any order.
* **C82** (proved): The matches of a regular expression are any lists of the declared number of groups (what RE2 finds is not modelled). Iterating over rows and making edges are modelled in full for C54 and C08, here only in the form used. The counter of interleave is an int and overflows at 2^31 elements (C82_interleave).
* **C83** (proved): Scalars only; the lifting to arrays is C07 and C15. Overloads taking functions are not modelled (short circuits are C59), nor are the comparisons.

## Findings

Behaviour of the code that differs from the natural claim; each is a theorem named
`..._refuted` with a concrete witness.

* C04: `AlmostFullBuilder::Build(size)` without a missed id returns a buffer of
  words over a null pointer.
* C08: `FromUniformGroups(INT64_MAX, 0)` overflows `parent_size + 1`.
* C10: an accumulator whose initial status is an error is reported by one edge
  representation and not by the other.
* C12: `ToSparseForm(v)` of a sparse array whose default is `v` and whose bitmap marks
  nothing missing builds a broken bitmap; `-0.0 == 0.0` replaces values.
* C14: two empty arrays compare as different if their defaults differ; C42: the same
  for edges without children.
* C15: a pointwise operator fails if its function fails on the defaults of its
  arguments, although no row holds them.
* C17: `IdFilter` with a shifted buffer of ids hashes without the shift
  (`id_filter.cc:59-65`): two different arrays may have equal fingerprints.
* C18: `ReshuffleBuilder` ignores the base offset of its source, and the hashed
  stream of equal string buffers may differ.
* C20: one region must hold a request; sizes near 2^64 wrap.
* C21: `UpperBound` on floats disagrees with `std::upper_bound` if the array holds
  NaN; `exp_lower_bound` advances an iterator past the end.
* C22: total weights wrap at 2^64.
* C28: hashing is not independent of chunking beyond 256 bytes (documented).
* C32: leaves that share one slot that may be overwritten give a wrong result.
* C35: `edge_at` with dim = -2^63 overflows in its error path.
* C36: `concat` of a single array does not check it against its shape.
* C37: `InplaceLogicalAndWithOffsets` of zero bits reads a source word.
* C41: negative group sizes reach undefined behaviour in `edge.pair_left`,
  `edge.pair_right`, `edge.resize_groups_child_side`; three sums or products may
  overflow.
* C43: the floating point sum of an Array depends on its form.
* C46: `DecisionForest::FromTrees` accepts trees with cycles; evaluating them does not
  end.
* C47: `SetNode` marks ids before it fails, so `Compile` after an ignored error may read
  outside of a vector; a leaf with id 0 next to a cycle of other nodes is accepted and
  mispredicted.
* C48: an interval condition with a NaN bound is false in naive evaluation and true in
  bitmask evaluation; a tree with shared subtrees is accepted, and its masks lose bits
  until a bit is searched in a zero word.
* C49: the midpoint `(left + right) / 2` of two split points overflows to infinity for
  floats from 2^127 on and is undefined for large int64 values; the lowest and largest
  float as bounds are taken for the infinities; an interval with both bounds equal to
  one infinity gets no split point or an infinite midpoint; a present NaN is taken for
  a missing value where a set of floats is true for missing values; a custom condition
  over one optional input makes building fail although it can be evaluated.

* C53: `math.mod` of floats is outside of its range and differs from the documented
  identity as soon as `floor(x / y) * y` is rounded: 66099652 mod 3 is 4, 16777211
  negated mod 8388605 is 8388605; a negative intermediate result is made positive by
  `copysign` instead of being corrected.  `math.floordiv(9, 0.1f)` is 90 although
  9 / 0.1f is below 90.
* C54: `FrameIterator::Create` accepts `frame_buffer_count = 0`; with rows to process
  `ForEachFrame` then never ends.
* C56: `BatchedForestEvaluator::EvalBatch` with several evaluators reads an input slot
  again after the first evaluator has stored an output in it; a slot that is input and
  output is fine with one evaluator and gives wrong values with more.
  `optimal_splits_per_evaluator = INT64_MAX` ("do not split") overflows, 0 divides by
  zero.
* C57: in a Riegeli stream a decoding step that carries only hints (its type is not set)
  is taken for the stop record: decoding ends with OK and without the outputs that
  follow, while `ProcessContainerProto` accepts the same steps.  Expressions lose their
  attributes if `infer_attributes_for_operator_nodes` is off.
* C58: patterns compare operators by display name only (a comment in `PatternKey` promises
  an accurate `OperatorMatches()`, which does not exist): in release builds an operator of
  the same name with another meaning is rewritten.  Equal sub-patterns need nodes of equal
  fingerprints, so instances that differ only in attributes are not rewritten.  Constant
  parts of `to` are built without attributes, as only nodes above placeholders are
  inferred again.
* C59: `AddNodeAlias` keeps the first index of a node.  A short circuit conditional with
  nothing to skip becomes `core.where`; if the expression contains the same `core.where`,
  nodes above the two are confused, and a branch that is not selected may be evaluated (a
  division by zero then fails an expression whose value does not need it).
  `StrictlyDominates` compares depths only; this is dominance just for the nodes that
  `ExtractLambda` asks about, which is part of the proof.
* C60: the check "true branch of internal.packed_where compiled into no operators" cannot
  fail, as the distance includes the skipped instruction (an empty first branch works).
  If evaluation is cancelled between the two branches, the instruction pointer has moved
  already and the error names the last operator of the branch that was not run.
* C61: an initializer may name a reverse dependency that nobody defines (a typing error in
  a name that is not phony); unlike an undefined dependency, this is accepted silently
  (`C61_ex_unknown_reverse`). Anonymous initializers run in the order of registration.
* C62: a weak float argument counts as an exact match for a float64 parameter, so with
  overloads for float32 and float64 the latter is chosen although the documented cast goes
  to float32 (`C62_ex_weak`).  `BroadcastQType` returns null for `OPTIONAL_EXPR_QUOTE`, even
  without targets, and an `EXPR_QUOTE` does not cast to it: shapes accept scalars only
  (`C62_ex_quote`).
* C63: an auxiliary policy with white space around its name or options, set by the
  constructor of the signature, does not survive the text form
  (`C63_roundtrip_policy_refuted`); `ValidateSignature` accepts it.
* C64: `strings.lstrip`, `rstrip`, `strip` of byte strings with explicit characters build `std::bitset<256> char_set(256)`: the argument is an initial value, so bit 8 is set and the byte 8 (backspace) is always removed. Where `char` is signed, a byte above 127 becomes a huge index: `set` and `test` throw `std::out_of_range` (`C64_strip_backspace_refuted`, `C64_strip_signed_refuted`).
* C64: `strings.split` of a text by an empty separator splits between bytes, so parts of a non-ASCII text are ill-formed (`C64_split_empty_refuted`).
* C64: `strings.count` counts in an `int`; more than 2^31-1 occurrences are undefined behaviour (`C64_count_overflow_refuted`).
* C65: `ExprOperatorRegistry::Register` checks for an implementation and stores one in two steps without the lock: two threads that register the same name both succeed, the name is listed twice and the first operator is silently replaced (`C65_register_race_refuted`).
* C65: `Register` increments the revisions before it appends the name to the list that `GenericOperator::BuildSnapshot` reads: a snapshot begun in between is kept under the new revision without the overload, and later calls do not see the overload until the next change of the namespace. The comment in `GetOverload` takes this for harmless (`C65_stale_refuted`).
* C65: an overload that is an alias to an operator outside the namespace is not noticed when that operator is registered or changed later (`C65_snapshot_alias_refuted`).
* C66: the decoder of dense arrays computes `BitmapSize(size)` from the unchecked size of the message: for a size above `INT64_MAX - 31` and a non-empty bitmap this is signed overflow (`C66_size_overflow_refuted`).
* C66: a slice of an array of strings is serialized with the whole characters buffer: the message contains characters of strings outside the slice, and equal arrays have different messages (`C66_strings_canonical_refuted`).
* C67: `MoveImmutablesIntoInitialState` rejects reserved names in the body only: an initial-state variable called `_while_loop_immutable_0` that the body does not assign silently takes the place of a hoisted part of the body, since `merge` keeps the existing key (`C67_reserved_name_refuted`); a placeholder of that name passes the initialisation check although nothing initialises it (`C67_reserved_placeholder_refuted`).
* C67: parts of the body without variables are evaluated before the loop, so that their error surfaces even for zero iterations (`C67_eager_refuted`).
* C68: `ToDebugString` prints the literal -5 and the negation of the literal 5 alike (`C68_negative_refuted`).
* C69: statement names need not be unique: parts named `a`, `a` and `a._1` give two lines that define `a._1` (`C69_clash_refuted`); a name such as `L.x` passes `IsSafeStatementName` and equals the text of a leaf (`C69_shadow_refuted`).
* C70: `ParseColumnPath(ColumnPathToProtopathId(p))` loses a trailing empty field, turns a field whose name ends with `[:]` into an index and splits a field at a slash (`C70_roundtrip_refuted`); the single-underscore names of `a_b` and of `a`, `b` are equal (`C70_underscore_refuted`).
* C71: `NewCurve` accepts NaN as the x of a control point, and the curve is then NaN around it (`C71_nan_refuted`): the check for increasing x is written so that NaN passes. The points (-inf, 5), (0, 5), (1, 6), (2, 6), (3, 7) are refused as an asymptote next to a constant segment although the infinite point has been trimmed, while without it they are accepted (`C71_constant_start_refuted`).
* C72: `FindSeparatorUsed` counts an allowed separator that is listed twice as two separators in use (`C72_listed_twice_refuted`), contrary to its comment; no caller in the repository lists one twice.
* C74: a chain of slot listeners reports for a name the type of the first listener that knows it, but binding a slot of that type fails if a later listener knows the name with another type (`C74_reported_type_refuted`).
* C75: a lambda uses the value its body already knows without asking the operator again, while lowering asks it. An operator that knows its output for an unknown input and rejects the same input once known makes a call that has attributes but cannot be lowered (C75_unstable_refuted).
* C76: constraints of an operator are evaluated before they are ready, with NOTHING for all their parameters (known ones too); an error of that evaluation is an error of the operator, even if the constraint holds for all types (`C76_unready_error_refuted`).
* C76: readiness follows placeholders only; a condition that reads `L.input_qtype_sequence` is ready at once, and the overload can change when more types become known (`C76_sequence_refuted`).
* C78: `PrepareSideOutputsForListener` is documented (side_output.h:50-52) to leave only the names that the listener mentions; the code keeps all of them (`C78_prepare_filter_refuted`).
* C79: seq.range computes its size as `(stop - start + step - 1) / step` in uint64_t, which wraps around for large distances: `seq.range(INT64_MIN, INT64_MAX, INT64_MAX)` is empty, although it has three elements (`C79_range_refuted`, `C79_wrap`). The loop adds the step once more after the last element, which is signed overflow if that is not an int64, e.g. `seq.range(0, INT64_MAX, 2**62)` (`C79_overflow_refuted`).
* C81: a dict can be made of an array in which a key follows a missing one, but `dict._keys` of it is an internal error (`C81_keys_refuted`); the code has a TODO to prohibit missing keys.
* C82: `array._interleave_to_dense_array` counts the elements it writes with an `int`, which overflows if there are 2^31 or more (`C82_interleave`).

Noted while reading, not turned into theorems: the `IdFilter` constructor uses `ids`
after moving from it; `MemoryAllocation` self-move would destroy twice; `AddN` of
any/all/min/argmin is lawful only for n > 0; ordinal rank ignores tie breakers among
NaNs; dense rank gives every NaN its own rank in unspecified order; an output slot
equal to an input slot would break side outputs; scalars and arrays of Text are
decoded without checking that they are UTF-8.

## Trusted base

* The kernel of Coq 8.16.1 (with the `vm_compute` machine, used in `Example`s and in
  witnesses of refutations).
* That the definitions in `*_Model.v` say what the C++ code does.  They were written
  by reading the code; nothing is extracted or compiled from it.  Their comments cite
  the lines and say where they simplify.
* That the specifications say what the properties mean.

The theorems `C49_midpoint` and `C49_eval` (and those built on them, see the list
below) use axioms of the standard library, all through the real numbers:
`ClassicalDedekindReals.sig_not_dec`, `ClassicalDedekindReals.sig_forall_dec`,
`FunctionalExtensionality.functional_extensionality_dep` and `Classical_Prop.classic`.
Flocq is used for the rounding of the midpoint in `ForestSi_Mid.v` and for float
arithmetic in `SpecF_Real.v`, `Cast_Real.v` and `FloatDiv_Proofs.v`; it adds no axiom.

No axiom of our own, no `Admitted`, no open obligation, no functor or module type of our own, no
kernel check switched off.

### What is modelled

| code under /repo/arolla | model |
|-------------------------|-------|
| `util/bits.h`, `util/algorithms.h`, `util/overflow.h`, `util/binary_search.*`, `util/lru_cache.h`, `util/string.*`, `util/cancellation.*`, `util/refcount.h`, `util/refcount_ptr.h`, `util/fingerprint.*` | `Bits`, `Algo`, `Overflow`, `Search`, `Lru`, `Strings`, `Cancel`, `Ref`, `Fp` |
| `memory/frame.*`, `memory/raw_buffer_factory.*` (arena), `memory/strings_buffer.*`, `memory/simple_buffer.h` (slices) | `Frame`, `Arena`, `SBuf`, `Bitmap` |
| `dense_array/bitmap.*`, `dense_array.h`, `edge.*`, `ops/*.h` (pointwise, group), `util/concat.h` | `Bitmap`, `Dense`, `DenseOps`, `Edge`, `GroupOps`, `Jag` |
| `array/id_filter.*`, `array.h`, `pointwise_op.h`, `ops_util.h`, `group_op.h`, `edge.*`, `util/concat.h` | `IdFilter`, `Array`, `ArrOps`, `ArrGroup`, `ArrEdge`, `Jag` |
| `jagged_shape/*`, `qexpr/shape_operators.h` | `Jag` |
| `qexpr/operators/dense_array/edge_ops.h`, `qexpr/operators/aggregation/group_op_accumulators.h` | `EdgeOps`, `Accum`, `FullAcc` |
| `qexpr/operators/math/arithmetic.h`, `qexpr/operators/core/cast_operator.h` | `Arith`, `FloatDiv`, `Cast` |
| `qtype/array_like/frame_iter.*`, `dense_array/qtype/copier.h`, `array/qtype/copier.h` | `FrameIter`, `FrameThr` |
| `algorithm/control_flow_graph.*` | `Cfg` |
| `decision_forest/decision_forest.*`, `decision_forest/split_conditions/*`, `decision_forest/pointwise_evaluation/pointwise.h`, `oblivious.cc`, `bitmask_builder.*`, `bitmask_eval.*`, `single_input_eval.*`, `forest_evaluator.*`, `batched_evaluation/batched_forest_evaluator.*` | `Forest`, `ForestPt`, `ForestBm`, `ForestSi`, `ForestEv`, `ForestBt` |
| `expr/expr_visitor.*`, `expr/eval/slot_allocator.*`, the binding loop of `dynamic_compiled_expr.cc`, `executable_builder.cc` (running) | `Visit`, `Slots` |
| `expr/optimization/*.cc` (not the default packs and `peephole_optimizations`) | `Peephole` |
| `expr/eval/compile_where_operator.cc`, `ExtractLambda` (`expr/eval/expr_utils.cc`) | `Where` |
| `qexpr/bound_operators.*`, `executable_builder.cc`, `compile_where_operator.cc` (jumps), `compile_while_operator.cc`, `expr_stack_trace.cc` (light) | `Jump` |
| `util/init_arolla.*`, `util/init_arolla_internal.*` | `Init` |
| `qtype/standard_type_properties/common_qtype.cc`, `properties.cc` (in part), `qtype/shape_qtype.cc`, `qexpr/casting.cc` | `Ovl` |
| `expr/expr_operator_signature.*` | `OpSig` |
| `qexpr/operators/strings/{find,strings,split,join}.*` | `Text` |
| `expr/registered_expr_operator.*`, `expr/operator_loader/generic_operator.cc` | `OpReg` |
| `serialization_codecs/dense_array/*`, `serialization_codecs/array/*` | `Codec` |
| `expr/operators/while_loop/*`, `expr/eval/compile_while_operator.cc` (`Run`) | `While` |
| `expr/operator_repr_functions.cc`, `expr/expr_debug_string.cc` (not verbose) | `Repr` |
| `naming/{table,protopath_id,policy}.cc` | `Naming` |
| `pwlcurve/curves.cc` (double precision) | `Curve`, `CurveText` |
| `io/input_loader.*`, `io/accessors_input_loader.h`, `io/wildcard_input_loader.*`, `io/delegating_input_loader.h` | `Loader` |
| `io/slot_listener.*`, `io/{accessors,chain,delegating}_slot_listener.h` | `Listener` |
| `expr/lambda_expr_operator.cc`, `expr/expr.cc` (ToLowerNode) | `Lambda` |
| `expr/operator_loader/{helper,qtype_inference,dispatch_operator,restricted_lambda_operator}.cc`, `expr/overloaded_expr_operator.cc`, `qexpr/operators/bootstrap/qtype_operator.cc` (ParseInputQTypeSequenceOp) | `OpPick` |
| `objects/object_qtype.{h,cc}`, `objects/s11n/s11n.cc`, `objects/operators/qexpr_operators.cc` | `Object` |
| `expr/eval/side_output.cc`, `expr/annotation_utils.cc` (without source locations) | `SideOut` |
| `qexpr/operators/seq/sequence_operators.h` (range, repeat), `MutableSequence::Make` | `SeqRange` |
| `qexpr/operators/strings/format.cc` (strings.format), `WhereAllBoundOperator` | `Format` |
| `qexpr/operators/dict/dict_operators.h` | `Dict` |
| `qexpr/operators/strings/findall_regex.h`, `qexpr/operators/dense_array/interleave.cc` | `Flat` |
| `qexpr/operators/bool/logic.h`, `qexpr/operators/core/logic_operators.h` (scalars, presence) | `Logic` |
| `serialization_base/*`, `serialization/encode.cc`, `decode.cc`, `riegeli.cc` | `Serial` |

### What is not modelled

* Template and type machinery: C++ element types are replaced by one arbitrary type
  (or a sum type); `QType` registration, type inference of operators.
* Ownership of buffers, allocation failure, exceptions, destructors (except in C19,
  C20, C25).
* Text of error messages; only which error is reported, or that one is.
* Wrap-around of 64-bit sizes and counters where no theorem mentions it.
* Weak memory: atomics are single sequentially consistent steps (C24 lets the relaxed
  load of the flag be stale).
* Everything not in the table above, among others: `codegen`,
  `derived_qtype`, the rest of `io`, `lazy`, `objects`, the rest of `operator_loader`, `pwlcurve/curve_operator.h`,
  the rest of `qtype`, `sequence`, the other `serialization_codecs`, `serving`, the Python bindings, and the
  parts of `expr` and `qexpr` not listed.

### What Print Assumptions lists

Every `*_Props.v` runs `Print Assumptions` on each of its theorems while it is
compiled.  For the 651 theorems below the answer is `Closed under the global context`
(no axiom, of the standard library or otherwise, is used), except for
`C49_midpoint`, `C49_eval`, `C50_eval`, `C50_unfit`, `C50_exact`, `C52_int_to_float`, `C52_round_trip`, `C52_widen`, `C53_integers`, `C53_near`, `C53_floor_refuted`, `C53_mod_refuted`, `C56_eval`, `C56_exact`, `C56_groups`.
For these it lists the four axioms of the standard library named above:
`ClassicalDedekindReals.sig_not_dec`, `ClassicalDedekindReals.sig_forall_dec`,
`FunctionalExtensionality.functional_extensionality_dep`, `Classical_Prop.classic`.

* C01: `C01_set_bit`, `C01_set_bits_in_range`, `C01_get_ones_count_in_range`, `C01_find_next_set_bit`
* C02: `C02_get_word_with_offset`, `C02_get_bit`, `C02_intersect`
* C03: `C03_are_all_bits_set`, `C03_are_all_bits_unset`, `C03_count_bits`, `C03_iterate_by_groups`, `C03_iterate`, `C03_builder`
* C04: `C04_build`, `C04_build_size_partial`, `C04_build_size_refuted`
* C05: `C05_denotes`, `C05_slice`, `C05_force_no_offset`, `C05_present_count`, `C05_flags`, `C05_to_mask`, `C05_for_each`, `C05_for_each_present`, `C05_equivalent`, `C05_create`, `C05_create_const_empty`
* C06: `C06_builder`
* C07: `C07_dense_op`, `C07_size_mismatch`, `C07_iterate`, `C07_iterate_from_zero`
* C08: `C08_from_split_points`, `C08_from_mapping`, `C08_from_uniform_groups`, `C08_uniform_overflow_refuted`, `C08_to_mapping`, `C08_to_split_points`, `C08_is_equivalent`, `C08_split_size`
* C09: `C09_compose`, `C09_incompatible`, `C09_empty`
* C10: `C10_mapping`, `C10_split_points`, `C10_representation`, `C10_scalar`, `C10_size_mismatch`, `C10_scalar_mismatch`, `C10_inverse_mapping_contract`, `C10_representation_refuted`
* C11: `C11_constructor`, `C11_ids_ascending`, `C11_id_to_offset`, `C11_index_of`, `C11_offset_round_trip`, `C11_for_each_common`, `C11_merge`, `C11_intersect`
* C12: `C12_with_ids`, `C12_to_dense`, `C12_to_sparse`, `C12_to_sparse_exact`, `C12_to_sparse_spurious`, `C12_to_sparse_refuted`, `C12_to_sparse_negative_zero_refuted`
* C13: `C13_slice`, `C13_present_count`, `C13_for_each`, `C13_for_each_fn`, `C13_for_each_present`, `C13_for_each_present_fn`
* C14: `C14_equivalent`, `C14_empty`, `C14_empty_refuted`
* C15: `C15_array_op`, `C15_array_op_exact`, `C15_size_mismatch`, `C15_default_error_refuted`
* C16: `C16_mapping`, `C16_split_points`, `C16_scalar`, `C16_size_mismatch`, `C16_scalar_mismatch`, `C16_representation`, `C16_dense`, `C16_sum_lawful`
* C17: `C17_scalar`, `C17_dense`, `C17_array`, `C17_array_shift_refuted`, `C17_array_representation_refuted`, `C17_edge`, `C17_shape`, `C17_array_edge`
* C18: `C18_builder`, `C18_slice`, `C18_deep_copy`, `C18_uninitialized`, `C18_equal`, `C18_reshuffle`, `C18_reshuffle_no_default`, `C18_reshuffle_default_refuted`, `C18_reshuffle_copy_refuted`, `C18_stream`, `C18_stream_refuted`
* C19: `C19_layout`, `C19_lifetime`, `C19_array`, `C19_registered`, `C19_register`
* C20: `C20_disjoint`, `C20_contents`, `C20_reset`, `C20_one_region`, `C20_one_region_refuted`, `C20_huge_request_refuted`
* C21: `C21_lower_bound_int`, `C21_upper_bound_int`, `C21_lower_bound_float`, `C21_upper_bound_float`, `C21_lower_bound_float_nan`, `C21_upper_bound_float_nan_refuted`, `C21_galloping`, `C21_bound_unique`, `C21_exp_lower_bound`, `C21_exp_lower_bound_advance_refuted`
* C22: `C22_history`, `C22_lookup_fresh`, `C22_put_found`, `C22_weight_overflow_refuted`
* C23: `C23_safe_add_mul`, `C23_safe_abs`, `C23_formula`, `C23_sticky`, `C23_abs_min`
* C24: `C24_safe`, `C24_first_error`, `C24_status`, `C24_poll`, `C24_poll_settled`, `C24_call_once`, `C24_call_after`, `C24_call_all`, `C24_drop`, `C24_call_unlocked`, `C24_progress`, `C24_no_leak`, `C24_scope`
* C25: `C25_safe`, `C25_alive`, `C25_once`, `C25_count`, `C25_no_leak`, `C25_all_freed`, `C25_progress`, `C25_terminates`
* C26: `C26_one_typo`, `C26_symmetric`
* C27: `C27_identifier`, `C27_qualified`, `C27_starts_with`, `C27_join`, `C27_truncate`, `C27_container_access`
* C28: `C28_blocks`, `C28_small`, `C28_collision`, `C28_chunking_refuted`, `C28_array`
* C29: `C29_create`, `C29_tree`, `C29_unique`
* C30: `C30_externalize`
* C31: `C31_frontier`
* C32: `C32_binds`, `C32_run`, `C32_init`, `C32_types`, `C32_expression`, `C32_shared_inputs_refuted`
* C33: `C33_post_order`, `C33_visitor_order`, `C33_pre_post`, `C33_leaf_keys`, `C33_placeholder_keys`, `C33_keys_post_order`
* C34: `C34_traverse`, `C34_transform`, `C34_deep_run`, `C34_deep_errors`, `C34_deep_complete`, `C34_deep_limit`, `C34_deep_unique`, `C34_deep_fixed`, `C34_deep_identity`, `C34_deep_preserves`
* C35: `C35_from_edges`, `C35_add_dims`, `C35_flat_from_size`, `C35_size`, `C35_remove_dims`, `C35_flatten`, `C35_equivalent`, `C35_fast_check`, `C35_broadcastable`, `C35_broadcast_edge`, `C35_op_remove_dims`, `C35_op_flatten`, `C35_op_edge_at`, `C35_op_edge_at_refuted`
* C36: `C36_nested`, `C36_nested_unique`, `C36_concat_dense`, `C36_concat_array`, `C36_stack_dense`, `C36_stack_array`, `C36_rejects`, `C36_count_mismatch`, `C36_size_mismatch_dense`, `C36_size_mismatch_array`, `C36_one_array_refuted`
* C37: `C37_copy_bits`, `C37_inplace_and`, `C37_inplace_and_empty_refuted`
* C38: `C38_concat`
* C39: `C39_create_array`, `C39_create_array_ids`, `C39_sparse_builder`
* C40: `C40_iterate`, `C40_iterate_simple`, `C40_arrays_iterate`
* C41: `C41_from_sizes`, `C41_sizes`, `C41_round_trip`, `C41_pairs`, `C41_pairs_meaning`, `C41_pairs_errors`, `C41_pair_left_negative_refuted`, `C41_pair_right_negative_refuted`, `C41_pair_count_overflow_refuted`, `C41_expand`, `C41_expand_scalar`, `C41_resize_child`, `C41_resize_child_one`, `C41_resize_child_scalar`, `C41_resize_rejects`, `C41_resize_negative_refuted`, `C41_resize_one_overflow_refuted`, `C41_resize_parent_one`, `C41_resize_parent`, `C41_resize_parent_errors`, `C41_resize_parent_overflow_refuted`
* C42: `C42_from_split_points`, `C42_from_mapping`, `C42_from_uniform_groups`, `C42_to_dense`, `C42_from_dense`, `C42_to_mapping`, `C42_to_split_points`, `C42_compose`, `C42_incompatible`, `C42_is_equivalent`, `C42_is_equivalent_refuted`, `C42_split_size`
* C43: `C43_count`, `C43_any`, `C43_all`, `C43_logical_all`, `C43_logical_any`, `C43_sum`, `C43_prod`, `C43_prod_any`, `C43_sum_any`, `C43_join`, `C43_float_sum_form_refuted`
* C44: `C44_orders`, `C44_min`, `C44_max`, `C44_argmin`, `C44_argmax`, `C44_collapse`, `C44_median`, `C44_inverse_cdf`
* C45: `C45_ordinal_rank`, `C45_ordinal_rank_permutation`, `C45_dense_rank`, `C45_inverse_mapping`, `C45_take`, `C45_weighted_cdf`, `C45_mean`, `C45_mean_exact`, `C45_weighted_average`
* C46: `C46_accepts`, `C46_slots`, `C46_safe`, `C46_naive`, `C46_filter`, `C46_terminates`, `C46_cycle_refuted`
* C47: `C47_calls`, `C47_accepts`, `C47_predict`, `C47_boosted`, `C47_forest`, `C47_ignored_error_refuted`, `C47_leaf_root_refuted`
* C48: `C48_eval`, `C48_exact`, `C48_no_trees`, `C48_oblivious_ends`, `C48_oblivious_sound`, `C48_oblivious_complete`, `C48_nan_bound_refuted`, `C48_shared_refuted`
* C49: `C49_midpoint`, `C49_eval`, `C49_internal`, `C49_overflow_refuted`, `C49_lowest_refuted`, `C49_neg_inf_refuted`, `C49_pos_inf_refuted`, `C49_nan_refuted`, `C49_int_overflow_refuted`, `C49_custom_refuted`
* C50: `C50_eval`, `C50_unfit`, `C50_outputs`, `C50_exact`
* C51: `C51_wraps`, `C51_ring`, `C51_abs`, `C51_zero`, `C51_divmod`, `C51_identity`, `C51_order`
* C52: `C52_integral_part`, `C52_float_to_int`, `C52_int_to_int`, `C52_int_to_float`, `C52_round_trip`, `C52_widen`
* C53: `C53_error`, `C53_integers`, `C53_near`, `C53_sign`, `C53_floor_refuted`, `C53_mod_refuted`
* C54: `C54_create`, `C54_for_each`, `C54_zero_buffer_refuted`
* C55: `C55_safe`, `C55_progress`, `C55_terminates`, `C55_result`, `C55_frame_iterator`
* C56: `C56_eval`, `C56_exact`, `C56_groups`, `C56_checks`, `C56_no_limit_refuted`, `C56_alias_refuted`
* C57: `C57_round_trip`, `C57_records`, `C57_encodes`, `C57_once`, `C57_total`, `C57_hints`, `C57_refs`, `C57_meaning`, `C57_stop`, `C57_attributes_refuted`, `C57_hint_record_refuted`
* C58: `C58_compile`, `C58_pattern`, `C58_unique`, `C58_instance`, `C58_key`, `C58_node`, `C58_defined`, `C58_keeps`, `C58_nothing_missed`, `C58_rounds`, `C58_sound`, `C58_name_refuted`, `C58_sharing_refuted`, `C58_attributes_refuted`
* C59: `C59_total`, `C59_same`, `C59_value`, `C59_lazy`, `C59_once`, `C59_merge_refuted`
* C60: `C60_binds`, `C60_runs`, `C60_tame`, `C60_functor`, `C60_loop_tame`, `C60_loop`, `C60_stops`, `C60_cancel`, `C60_operator`
* C61: `C61_total`, `C61_order`, `C61_accepts`, `C61_errors`, `C61_link_order`, `C61_process`, `C61_flush`
* C62: `C62_cast`, `C62_order`, `C62_common`, `C62_common_list`, `C62_common_set`, `C62_broadcast`, `C62_with_value`, `C62_decay`, `C62_overload`, `C62_overload_order`
* C63: `C63_valid`, `C63_make`, `C63_roundtrip`, `C63_bind`, `C63_bind_errors`, `C63_keyword_order`, `C63_keyword`, `C63_default`, `C63_deps`, `C63_args_n`
* C64: `C64_find_bytes`, `C64_find_text`, `C64_contains`, `C64_contains_text`, `C64_substr_bytes`, `C64_substr_text`, `C64_substr_unique`, `C64_count_bytes`, `C64_count_text`, `C64_count_exists`, `C64_replace_bytes`, `C64_replace_text`, `C64_replace_unique`, `C64_strip_bytes`, `C64_strip_text`, `C64_decode_strict`, `C64_decode_repair`, `C64_decode_valid`, `C64_parse_int`, `C64_as_text`, `C64_split_bytes`, `C64_split_text`, `C64_split_unique`, `C64_split_space`, `C64_split_space_text`, `C64_split_bytes_empty`, `C64_split_array`, `C64_join`, `C64_join_text`
* C65: `C65_sequential`, `C65_encloses`, `C65_decay`, `C65_select`, `C65_detector_right`, `C65_detector_ends`, `C65_detector_restores`, `C65_snapshot`, `C65_visit`, `C65_namespace`, `C65_snapshot_alias_refuted`, `C65_threads`, `C65_fresh`, `C65_register_race_refuted`, `C65_stale_refuted`
* C66: `C66_encode_values`, `C66_encode_unit`, `C66_decode_values`, `C66_decode_unit`, `C66_no_amplification`, `C66_values_roundtrip`, `C66_unit_roundtrip`, `C66_size_overflow_refuted`, `C66_encode_strings`, `C66_decode_strings`, `C66_strings_roundtrip`, `C66_strings_canonical_refuted`, `C66_decode_array`, `C66_array_roundtrip`, `C66_array_through`, `C66_decode_edge`, `C66_edge_roundtrip`, `C66_decode_array_edge`, `C66_array_edge_roundtrip`, `C66_size`
* C67: `C67_loop`, `C67_value`, `C67_ill_typed`, `C67_deterministic`, `C67_accepted`, `C67_types`, `C67_infer`, `C67_reserved_name_refuted`, `C67_reserved_placeholder_refuted`, `C67_eager_refuted`
* C68: `C68_reads`, `C68_injective`, `C68_negative_refuted`
* C69: `C69_lines`, `C69_names`, `C69_clash_refuted`, `C69_shadow_refuted`
* C70: `C70_parse`, `C70_parse_error`, `C70_parse_total`, `C70_roundtrip`, `C70_reformat`, `C70_ids_injective`, `C70_roundtrip_refuted`, `C70_child`, `C70_prefix`, `C70_prefix_error`, `C70_column_parent`, `C70_table_parent`, `C70_debug_name`, `C70_full_name`, `C70_leaf`, `C70_underscore`, `C70_underscore_refuted`
* C71: `C71_total`, `C71_value`, `C71_everywhere`, `C71_unique`, `C71_control_point`, `C71_accept`, `C71_infinite`, `C71_hooks`, `C71_all`, `C71_nan_refuted`, `C71_constant_start_refuted`
* C72: `C72_total`, `C72_accept`, `C72_other_separator`, `C72_round_trip`, `C72_injective`, `C72_separator`, `C72_either`, `C72_neither`, `C72_coordinates`, `C72_listed_twice_refuted`, `C72_value`, `C72_made`
* C73: `C73_accessors`, `C73_wildcard`, `C73_wildcard_callback`, `C73_key`, `C73_wrapped`, `C73_filter`, `C73_filter_names`, `C73_chain`, `C73_delegating`, `C73_by_key`, `C73_kept`, `C73_partial_bind`, `C73_suggestions`
* C74: `C74_accessors`, `C74_wrapped`, `C74_chain`, `C74_delegating`, `C74_partial`, `C74_determined`, `C74_suggestions`, `C74_reported_type_refuted`
* C75: `C75_make`, `C75_make_one`, `C75_lower`, `C75_value`, `C75_count`, `C75_attributes`, `C75_lower_node`, `C75_checked`, `C75_unstable_refuted`
* C76: `C76_accepted`, `C76_types`, `C76_parameters`, `C76_constraints`, `C76_constraints_accepted`, `C76_constraints_stable`, `C76_dispatch`, `C76_dispatch_accepted`, `C76_dispatch_stable`, `C76_dispatch_infer`, `C76_dispatch_lower`, `C76_restricted`, `C76_overloaded`, `C76_overloaded_stable`, `C76_overloaded_lower`, `C76_unready_error_refuted`, `C76_sequence_refuted`, `C76_parse`
* C77: `C77_get`, `C77_make`, `C77_read`, `C77_sorted`, `C77_fingerprint`, `C77_same`, `C77_decode`, `C77_round_trip`
* C78: `C78_extract`, `C78_complete`, `C78_clean`, `C78_values`, `C78_same`, `C78_read`, `C78_read_name`, `C78_read_qtype`, `C78_topmost`, `C78_strip`, `C78_strip_same`, `C78_prepare`, `C78_prepare_filter_refuted`
* C79: `C79_defined`, `C79_range`, `C79_zero`, `C79_small`, `C79_wrap`, `C79_range_refuted`, `C79_overflow_refuted`, `C79_operator`, `C79_repeat`
* C80: `C80_format`, `C80_unambiguous`, `C80_escape`, `C80_insert`, `C80_concat`, `C80_names`, `C80_malformed`, `C80_operator`, `C80_types`
* C81: `C81_make`, `C81_get_row`, `C81_keys`, `C81_keys_made`, `C81_keys_refuted`
* C82: `C82_findall`, `C82_findall_sizes`, `C82_interleave`
* C83: `C83_and`, `C83_or`, `C83_not`, `C83_if`, `C83_presence`, `C83_fuse`
