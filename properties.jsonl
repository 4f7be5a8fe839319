{"id": "C01", "title": "Bit-range operations touch exactly the requested bits", "statement": "For a word vector used as a bit set: after SetBit(i) bit i is 1 and every other bit is unchanged; after SetBitsInRange(from,to) exactly the bits in [from,to) are forced to 1 and every bit outside is unchanged, and no word outside the range is read or written; GetOnesCountInRange(from,to) equals the number of set bits in [from,to); FindNextSetBitInVector(first,n) returns the smallest set index in [first,n) or n when there is none.", "quantifier": "every word vector, every pair of bounds 0<=from<=to<=capacity, every word alignment of the bounds", "why_tests_cant": "The loops special-case bounds inside one word, on word boundaries and across words; tests sample a few alignments out of unboundedly many.", "anchors": ["arolla/util/bits.h: Bits<Word>::SetBit, GetBit, SetBitsInRange, GetOnesCountInRange, FindNextSetBitInVector, CountOnes"]}
{"id": "C02", "title": "Presence bitmaps with arbitrary bit offsets read and intersect correctly", "statement": "Reading word w of a bitmap with bit offset o yields the 32 presence bits starting at o+32*w, with bits beyond the stored words reported as missing only where the array has no elements; an empty bitmap reads as all-present; intersecting two bitmaps that carry different bit offsets yields a bitmap whose bit (at the smaller offset plus i) is set iff both inputs are set at element i, for every element of the array.", "quantifier": "every bitmap, every bit offset 0..31 on each side, every element count", "why_tests_cant": "Correctness depends on the combination of two offsets, the number of words and the tail length; a unit test fixes a handful of combinations.", "anchors": ["arolla/dense_array/bitmap.h: GetWord, GetWordWithOffset, Intersect, GetBit", "arolla/dense_array/bitmap.cc: Intersect, AreAllBitsSet, AreAllBitsUnset, CountBits"]}
{"id": "C03", "title": "Bitmap predicates and counters agree with the bits", "statement": "AreAllBitsSet(p,n) is true iff each of the first n bits is 1; AreAllBitsUnset(p,n) iff each of the first n bits is 0; CountBits(bitmap,offset,size) equals the number of elements reported present in [0,size); a bitmap produced by the bit-by-bit builder contains exactly the appended sequence of bits, and is the empty bitmap only if all of them are 1.", "quantifier": "every bitmap, offset, size and every sequence of appended groups", "why_tests_cant": "Tail masks and partially filled words make behaviour depend on n mod 32 and on history of appended groups.", "anchors": ["arolla/dense_array/bitmap.cc: AreAllBitsSet, AreAllBitsUnset, CountBits, AlmostFullBuilder::CreateFullBitmap", "arolla/dense_array/bitmap.h: Builder::AddByGroups, Builder::AddForEach, Builder::Build, AlmostFullBuilder"]}
{"id": "C04", "title": "AlmostFullBuilder produces exactly the complement of the missed ids", "statement": "After any sequence of AddMissed(id) calls, the bitmap obtained from Build() or Build(size) reports element i present iff i was never reported missed, for every i below the requested size, and the returned buffer can be read at all of its words.", "quantifier": "every bit_count, every sequence of AddMissed calls (including none), every size <= bit_count", "why_tests_cant": "The no-missed-id case leaves the internal buffer unallocated; whether a slice of it is readable depends on the history.", "anchors": ["arolla/dense_array/bitmap.h: AlmostFullBuilder::AddMissed, Build", "arolla/dense_array/bitmap.cc: AlmostFullBuilder::CreateFullBitmap", "arolla/memory/simple_buffer.h: SimpleBuffer::Slice", "arolla/util/raw_span.h: RawSpan::subspan"]}
{"id": "C05", "title": "DenseArray slicing and bitmap normalisation preserve elements", "statement": "For every valid DenseArray a and 0<=start, start+count<=a.size(): a.Slice(start,count) is a valid DenseArray of size count and its element i equals a[start+i] (presence and value); nested slices compose; ForceNoBitmapBitOffset returns an array with bitmap_bit_offset 0 and the same elements; PresentCount equals the number of present elements; ToMask has the same presence.", "quantifier": "every array contents, every representation of presence (no bitmap, bitmap with any bit offset), every slice chain", "why_tests_cant": "Slice keeps the same words and moves the bit offset, so repeated slicing reaches states no single test constructs.", "anchors": ["arolla/dense_array/dense_array.h: DenseArray::Slice, ForceNoBitmapBitOffset, PresentCount, present, operator[], ToMask, CheckBitmapMatchesValues"]}
{"id": "C06", "title": "DenseArrayBuilder last-write semantics", "statement": "After any sequence of Set/SetNConst/Add calls on a builder and Build(n), element i of the result is present iff some call wrote a present value at i, and its value is the last present value written there; elements never written are missing; the result has exactly n elements and its bitmap, if any, covers them.", "quantifier": "every max size, every history of writes, every final size <= max size", "why_tests_cant": "Histories of overlapping writes of present and missing values are unbounded.", "anchors": ["arolla/dense_array/dense_array.h: DenseArrayBuilder"]}
{"id": "C07", "title": "Dense pointwise operators are independent of representation", "statement": "A pointwise operator created from a function f and applied to dense arrays of one size returns, at every index, f of the elements when all required arguments are present (optional arguments being passed as optionals), and missing otherwise; if f returns an optional the result is missing where f says so; the result depends only on the elements of the arguments and never on whether their bitmaps are empty, shifted or shared; arguments of different sizes are rejected.", "quantifier": "every function f, every argument contents, every combination of presence representations, every size", "why_tests_cant": "Different implementations are selected by flags, number of arguments and bitmaps; tests cannot cover all combinations of offsets and tails.", "anchors": ["arolla/dense_array/ops/dense_ops.h: UnaryOpImpl, BinaryOpImpl, SimpleOpImpl, OpWithSizeValidation, ImplChooser", "arolla/dense_array/ops/universal_dense_op.h: UniversalDenseOp", "arolla/dense_array/ops/util.h: DenseOpsUtil"]}
{"id": "C08", "title": "Edge constructors validate and edge conversions preserve the child-to-parent relation", "statement": "DenseArrayEdge::FromSplitPoints succeeds iff the array is non-empty, full, starts with 0 and is non-decreasing; FromMapping succeeds iff parent_size>=0 and every present value is in [0,parent_size); FromUniformGroups yields exactly group_size children per parent; ToMappingEdge represents the same child-to-parent function; ToSplitPointsEdge succeeds iff the mapping is full and non-decreasing, and then represents the same function; IsEquivalentTo is true iff sizes and child-to-parent functions coincide.", "quantifier": "every split point array, every mapping, every parent size", "why_tests_cant": "Claims are 'iff' over unbounded arrays and mix two representations.", "anchors": ["arolla/dense_array/edge.cc", "arolla/dense_array/edge.h"]}
{"id": "C09", "title": "Edge composition is composition of the child-to-parent functions", "statement": "ComposeEdges on a non-empty list of edges with matching sizes (parent of the next = child of the previous) returns an edge from the first parent space to the last child space in which a child maps to parent p iff following all edges leads to p, and to nothing if any step is missing; it fails on an empty list or on a size mismatch; mixed mapping and split point edges give the same relation as converting all to mappings first.", "quantifier": "every list of edges of every length, every mix of representations", "why_tests_cant": "Runs of split point edges are composed separately from mapping edges; the number of interleavings of kinds grows with the length.", "anchors": ["arolla/dense_array/edge.cc: ComposeEdges, ComposeMappingEdge, ComposeSplitPointsEdge"]}
{"id": "C10", "title": "Dense group aggregation folds exactly the rows of each group, in order", "statement": "Applying an accumulator over an edge gives, for each parent with all required parent values present, the accumulator state after Reset with the parent's values followed by Add of exactly the children mapped to that parent whose required values are present, in increasing child order; parents with missing required values give missing. Partial and full accumulators give, for each such child, respectively the result after that child and the result after the whole group. If a group ends with an error status, an error is returned. Split point and mapping edges that denote the same relation give equal results (the same elements, or an error in both cases) for accumulators that follow the interface contract: the initial status is OK, Reset keeps the status and otherwise forgets the past; size mismatches are errors.", "quantifier": "every accumulator (as an abstract state machine), every edge, every parent and child contents", "why_tests_cant": "Separate code paths exist for split points, mappings and scalar edges for three accumulator kinds; equality between them is a claim over all accumulators.", "anchors": ["arolla/dense_array/ops/dense_group_ops.h: DenseGroupOpsImpl::Apply"]}
{"id": "C11", "title": "IdFilter lookup and set operations", "statement": "IdToOffset(id) returns the position of id among the filter's ids and nothing iff the id is absent; UpperBoundMerge contains every id contained in any argument; UpperBoundIntersect contains every id contained in all arguments; ForEachCommonId visits exactly the common ids in increasing order with the correct offsets in both filters; a filter built from (size, ids) is empty, full or partial consistently with the ids.", "quantifier": "every pair (and list) of filters, every ids_offset, every size", "why_tests_cant": "Galloping/binary search and early exits depend on the relative density of the two id lists.", "anchors": ["arolla/array/id_filter.h: IdFilter", "arolla/array/id_filter.cc: UpperBoundMergeImpl"]}
{"id": "C12", "title": "Converting an Array between forms preserves its elements", "statement": "WithIds(ids, v) agrees with the original on every id in ids and has value v on every other id; ToDenseForm has the same elements and is in dense form; ToSparseForm(v) has the same elements, has missing-id value v, and contains only ids whose element differs from v; every result can be read at every index.", "quantifier": "every Array in every form (dense, sparse with or without missing-id value, const, empty), every target id set and every missing-id value", "why_tests_cant": "There are at least nine (source form, target form) pairs times bitmap variants; each has separate code.", "anchors": ["arolla/array/array.h: Array::WithIds, WithIdsFromSparse, WithIdsDenseToSparse, ToDenseForm, ToSparseForm, ToSparseFormWithChangedMissedIdValue, ToSparseFormWithMissedIdValue, ToSparseFormWithoutMissedIdValue"]}
{"id": "C13", "title": "Array slicing, counting and iteration agree with element access", "statement": "For every Array a: a.Slice(s,n)[i] = a[s+i]; PresentCount equals the number of i with a[i] present; ForEach visits each index exactly once in increasing order with a[i]; ForEachPresent visits exactly the present indices; ForEach with a repeated callback covers every index exactly once.", "quantifier": "every Array form, slice bounds, chains of slices", "why_tests_cant": "Slices of sparse arrays accumulate an ids_offset; chains and gaps are unbounded.", "anchors": ["arolla/array/array.h: Array::Slice, PresentCount, ForEach, ForEachPresent, operator[]"]}
{"id": "C14", "title": "ArraysAreEquivalent decides element-wise equality", "statement": "ArraysAreEquivalent(a,b) returns true iff a and b have the same size and equal elements at each index, for arrays in any forms.", "quantifier": "every pair of arrays in every pair of forms", "why_tests_cant": "An 'iff' over all pairs of representations.", "anchors": ["arolla/array/array.h: ArraysAreEquivalent", "arolla/dense_array/dense_array.h: ArraysAreEquivalent"]}
{"id": "C15", "title": "Array pointwise operators equal the element-wise lift in every form", "statement": "A pointwise Array operator applied to arrays of the same size returns an array whose element i is the lifted function applied to elements i of the arguments, whatever the forms (dense, sparse, const, with missing-id values) of the arguments; sizes that differ are rejected.", "quantifier": "every function, argument contents and form of each argument", "why_tests_cant": "Form selection (same filter, intersect, merge) gives combinatorially many cases.", "anchors": ["arolla/array/pointwise_op.h: ArrayPointwiseOp::operator()"]}
{"id": "C16", "title": "Array group operators agree with the dense group operators in every form", "statement": "ArrayGroupOp::Apply gives the same elements as applying the accumulator group by group on the element-wise contents of its arguments, for each combination of dense/sparse/const inputs and split point, mapping or scalar edges; in particular the very-sparse-data paths agree with the general ones and with the operator on DenseArrays. For split points this needs an accumulator whose Reset discards everything but errors, and AddN(n,x) equal to n times Add(x); for a mapping edge it holds for every accumulator. Arguments of wrong size give an error.", "quantifier": "every accumulator with lawful AddN, every edge and every form of every argument", "why_tests_cant": "Seven code paths chosen by densities; equality over all inputs.", "anchors": ["arolla/array/group_op.h: ArrayGroupOpImpl", "arolla/array/ops_util.h: ArrayOpsUtil"]}
{"id": "C17", "title": "Equal fingerprint input streams imply equal values", "statement": "If two DenseArrays, dense edges or jagged shapes feed the same bytes to the fingerprint hasher, whatever is fed afterwards, then they are equal element-wise; the bytes of a DenseArray depend on its elements only. The same holds for Arrays and array edges whose stored ids have the same shift (the shift itself is not hashed, so without this condition the claim is false).", "quantifier": "every pair of values and representations", "why_tests_cant": "Collisions due to fields that are not hashed only show for special pairs of representations.", "anchors": ["arolla/array/id_filter.cc: FingerprintHasherTraits<IdFilter>", "arolla/array/array.h: FingerprintHasherTraits<Array<T>>", "arolla/dense_array/dense_array.h: FingerprintHasherTraits<DenseArray<T>>", "arolla/memory/strings_buffer.cc: FingerprintHasherTraits<StringsBuffer>"]}
{"id": "C18", "title": "StringsBuffer operations preserve strings", "statement": "Strings written by StringsBuffer::Builder are read back unchanged after Build regardless of buffer growth; Slice, ShallowCopy and DeepCopy preserve the strings; equality is element-wise; ReshuffleBuilder yields at each copied position the source string and elsewhere the default value (or an empty string), provided that the source buffer has no base offset (it has one after slicing and deep copying; then reshuffling is wrong, which is proved with witnesses).", "quantifier": "every sequence of writes, every slice/deep copy chain, every default value", "why_tests_cant": "base_offset only becomes non-zero after particular slice + deep copy histories.", "anchors": ["arolla/memory/strings_buffer.h", "arolla/memory/strings_buffer.cc"]}
{"id": "C19", "title": "FrameLayout slots are aligned, disjoint and inside the frame", "statement": "For every sequence of AddSlot/AddSubFrame/(registered) calls on a frame layout builder, each returned slot is aligned to its type's alignment, lies inside the final allocation, and non-empty slots do not overlap; every field of an embedded subframe is initialised and destroyed at its shifted offset exactly once.", "quantifier": "every sequence of slot sizes/alignments and nested sub-frames", "why_tests_cant": "Overlap would need particular sequences of sizes and alignments.", "anchors": ["arolla/memory/frame.h: FrameLayout::Builder", "arolla/memory/frame.cc: FieldInitializers"]}
{"id": "C20", "title": "Arena buffer factory hands out disjoint live memory and reallocation preserves content", "statement": "For every sequence of CreateRawBuffer/ReallocRawBuffer/Reset calls on the arena factory, buffers handed out since the last Reset and not reallocated are pairwise disjoint and lie inside memory owned by the arena; ReallocRawBuffer returns a buffer of the new size whose first min(old,new) bytes equal the old ones, without changing any other live buffer; total memory is retained across Reset.", "quantifier": "every page size, every history of requests of every size", "why_tests_cant": "Depends on history: page switches, big allocations, realloc of the last and of older buffers.", "anchors": ["arolla/memory/raw_buffer_factory.cc: UnsafeArenaBufferFactory", "arolla/memory/raw_buffer_factory.h"]}
{"id": "C21", "title": "Binary search helpers return the exact bound", "statement": "LowerBound/UpperBound on a sorted array return the number of elements < v / <= v for any size, including float arrays with NaN value per their documentation; GallopingLowerBound and exp_lower_bound equal std::lower_bound; no element outside the array is read.", "quantifier": "every sorted array, every size, every value", "why_tests_cant": "The search is split into a power-of-two prefix and suffix; sizes are unbounded.", "anchors": ["arolla/util/binary_search.h", "arolla/util/binary_search.cc", "arolla/util/algorithms.h: exp_lower_bound"]}
{"id": "C22", "title": "LRU cache never returns a stale value and respects its capacity", "statement": "For every sequence of Put/LookupOrNull/Clear: a lookup returns either null or the value of the most recent Put for that key since the last Clear; total weight is at most the capacity unless a single entry is stored; the entries kept are a most-recently-used prefix of the history; an entry just inserted is found by the next lookup.", "quantifier": "every history of operations, every capacity and weight", "why_tests_cant": "Eviction order depends on the entire history.", "anchors": ["arolla/util/lru_cache.h: LruCache"]}
{"id": "C23", "title": "Checked integer arithmetic reports overflow exactly", "statement": "SafeAdd/SafeMul/SafeAbs return the exact mathematical result iff it fits the type and an error otherwise.", "quantifier": "all pairs of 64-bit (32-bit) integers", "why_tests_cant": "2^128 pairs.", "anchors": ["arolla/util/overflow.h"]}
{"id": "C24", "title": "Cancellation is sticky and each subscriber is called exactly once", "statement": "For every interleaving of Cancel, Subscribe, subscription destruction/Detach and status polls from any number of threads: the status goes from OK to one fixed error at most once and never back; a poll observing cancellation is never followed by an OK status; each callback is invoked at most once, exactly once (when all operations have returned) unless its subscription started to be destroyed before the cancellation, and never if that destruction returned before the cancellation; no callback runs under the mutex; every subscription node is freed exactly once; the operations cannot deadlock; nested scope guards restore the previous current context.", "quantifier": "every interleaving of every number of threads and operations", "why_tests_cant": "Schedules cannot be enumerated by tests.", "anchors": ["arolla/util/cancellation.h: CancellationContext", "arolla/util/cancellation.cc"]}
{"id": "C25", "title": "Reference-counted pointers destroy the object exactly once, after the last owner", "statement": "For every interleaving of copies, moves, assignments, resets and destructions of RefcountPtr handles by any number of threads, the object is destroyed exactly once, and only when no handle refers to it; no increment happens on a destroyed object.", "quantifier": "every schedule and every handle history", "why_tests_cant": "Interleavings of atomic increments and decrements are unbounded.", "anchors": ["arolla/util/refcount.h: Refcount", "arolla/util/refcount_ptr.h: RefcountPtr"]}
{"id": "C26", "title": "IsWithinOneTypo decides Damerau-Levenshtein distance at most one", "statement": "The typo check returns true iff one string can be obtained from the other by at most one insertion, deletion, substitution or transposition of adjacent characters.", "quantifier": "every pair of strings", "why_tests_cant": "An iff over all pairs of strings.", "anchors": ["arolla/util/string.cc: IsWithinOneTypo", "arolla/util/string.h"]}
{"id": "C27", "title": "Identifier predicates match their grammar", "statement": "IsIdentifier accepts exactly [A-Za-z_][A-Za-z0-9_]*; IsQualifiedIdentifier accepts exactly the non-empty dot-separated sequences of identifiers; ContainerAccessString and Truncate obey their documented shapes (a truncated string is never longer than max length, a short string is unchanged).", "quantifier": "every byte string", "why_tests_cant": "All strings.", "anchors": ["arolla/util/string.h", "arolla/util/string.cc"]}
{"id": "C28", "title": "The fingerprint hasher consumes every byte once, for any chunk sizes", "statement": "For any sequence of appends of any sizes FingerprintHasher hashes the seed, the salt and every appended byte exactly once and in order, never leaves its internal array, and the result does not depend on uninitialised memory. Up to 256 bytes in total the result does not depend on the sizes of the appends. Two hashers with equal salts and different appended bytes have equal fingerprints only if the underlying hash function collides on the hashed blocks.", "quantifier": "every partition of every byte stream", "why_tests_cant": "The internal buffer boundary interacts with every possible chunk size.", "anchors": ["arolla/util/fingerprint.h: FingerprintHasher", "arolla/util/fingerprint.cc"]}
{"id": "C29", "title": "Dominator tree is correct for every acyclic control flow graph", "statement": "AcyclicCFG::Create accepts exactly the graphs whose edges go to larger existing ids and in which each non-root node has a predecessor; for an accepted graph, the tree parent of node v is its immediate dominator: it lies on each path from the entry to v, differs from v, and every other strict dominator of v dominates it; depth counts the strict dominators and children lists the inverse relation in increasing order.", "quantifier": "every acyclic graph", "why_tests_cant": "Statement quantifies over all graphs and all paths.", "anchors": ["arolla/algorithm/control_flow_graph.cc: AcyclicCFG::Create, DominatorTree, Lca"]}
{"id": "C30", "title": "Externalizing nodes keeps the dominator tree", "statement": "ExternalizeNodes never fails on a valid graph and its dominator tree, and the dominator tree of the returned graph is the original one; incoming edges of every non-global node are unchanged and each global node's only incoming edge comes from its dominator.", "quantifier": "every graph and every set of global nodes", "why_tests_cant": "All graphs, all subsets.", "anchors": ["arolla/algorithm/control_flow_graph.cc: ExternalizeNodes"]}
{"id": "C31", "title": "Empty dominance frontier detection", "statement": "FindVerticesWithEmptyDominanceFrontier reports true for node d iff there is no node n such that d dominates a predecessor of n without strictly dominating n; equivalently every node reachable from d is reachable only through d.", "quantifier": "every graph", "why_tests_cant": "All graphs, all paths.", "anchors": ["arolla/algorithm/control_flow_graph.cc: FindVerticesWithEmptyDominanceFrontier"]}
{"id": "C32", "title": "Slot reuse never clobbers a value that is still needed", "statement": "For every expression (in post order) and every choice per node of allocate / allocate permanently / inherit a dependency's slot, binding succeeds and running the bound program through the assigned slots leaves the value of the expression in the output slot and the value of every named output in its slot, whether or not input slots may be overwritten (if they may, leaves need distinct slots). Literals stay in place, so that the program can be run again; no slot of the caller other than the output slot (and inputs, if allowed) changes; a slot is given only to nodes of its type, and no operator writes to a slot it reads.", "quantifier": "every expression DAG, every allocation strategy, every meaning of operators, every frame", "why_tests_cant": "Liveness depends on global structure of the DAG; duplicates in dependencies and chains of inheritance are unbounded.", "anchors": ["arolla/expr/eval/slot_allocator.cc: SlotAllocator", "arolla/expr/eval/dynamic_compiled_expr.cc: EvalVisitor, DynamicCompiledExpr::BindToExecutableBuilder", "arolla/expr/eval/executable_builder.cc: ExecutableBuilder::Build"]}
{"id": "C33", "title": "PostOrder lists every sub-expression once, dependencies first", "statement": "PostOrder of an expression contains each distinct sub-expression exactly once, every dependency before its users, and the root last; dep_indices of node i are the positions of its dependencies in order; VisitorOrder gives the same sequence; PreAndPostVisitorOrder contains each node exactly once as a pre-visit and once as a post-visit, properly nested; GetLeafKeys is sorted and contains exactly the leaf keys.", "quantifier": "every expression DAG", "why_tests_cant": "All DAG shapes, with sharing.", "anchors": ["arolla/expr/expr_visitor.cc: PostOrder::PostOrder, VisitorOrderImpl, PreAndPostVisitorOrder, GetLeafKeys", "arolla/expr/expr_visitor.h"]}
{"id": "C34", "title": "Transform and DeepTransform compute the documented rewriting", "statement": "Transform(root, f) equals the bottom-up recursive application of f; DeepTransform, when it succeeds, returns an expression on each of whose sub-expressions f is the identity, the result equals the root when f is the identity on all of its sub-expressions (and they are not more than the limit), preserves any denotation that f and re-application of an operator to equivalent arguments preserve, and calls f at most once per distinct node; it always ends, succeeds whenever exhaustive rewriting has a result and the limit covers the nodes to process, and reports a loop only if exhaustive rewriting has none.", "quantifier": "every expression and every transformation function", "why_tests_cant": "The memoised non-recursive algorithm has to agree with the recursive description for all rewriting functions.", "anchors": ["arolla/expr/expr_visitor.cc: DeepTransform", "arolla/expr/expr_visitor.h: TransformOnPostOrder"]}
{"id": "C35", "title": "Jagged shape operations keep shapes sound and mean what they say", "statement": "FromEdges succeeds iff dimensions chain from 1 and each edge is representable by split points; any shape obtained through AddDims, RemoveDims, FlattenDims is sound; size after FlattenDims is unchanged, its flattened dimension is the composition of the original edges; IsEquivalentTo is true iff all edges denote the same split points; IsBroadcastableTo and GetBroadcastEdge agree with prefix and composition (FlattenDims and GetBroadcastEdge: sizes below 2^63 - 1). The shape operators read negative and out-of-range bounds as Python does; edge_at reports an error for a dimension out of range, except the least int64, for which building the message overflows.", "quantifier": "every shape of every rank and every range of dimensions", "why_tests_cant": "All ranks, all ranges.", "anchors": ["arolla/jagged_shape/jagged_shape.h: JaggedShape"]}
{"id": "C36", "title": "Concatenating and stacking jagged arrays equals nested-list concatenation", "statement": "ConcatJaggedArraysAlongDimension(arrays, shapes, dim) succeeds iff the inputs are non-empty, dim is valid, ranks and prefixes agree and each array matches its shape's size (a single array is returned without the size check); the result read as a nested list is the element-wise concatenation of the nested lists at depth dim (stack: the list of the sub-lists), and the result array has the size of the result shape.", "quantifier": "every number of inputs, every rank, every dim, every contents", "why_tests_cant": "All ranks/dims/contents.", "anchors": ["arolla/jagged_shape/util/concat.h"]}
{"id": "C37", "title": "Copying and intersecting bit ranges at arbitrary bit positions", "statement": "CopyBits(n, src, src_skip, dst, dst_skip) makes bits [dst_skip, dst_skip+n) of the destination equal to bits [src_skip, src_skip+n) of the source, preserves every other destination bit and touches no word outside the two ranges; InplaceLogicalAndWithOffsets intersects the same ranges in place and does not change words beyond the range.", "quantifier": "every word width, every n, every pair of skips below the word width, every contents of both buffers", "why_tests_cant": "The functions have eight code paths chosen by alignment of both sides and the tail; correctness is a statement about all alignments and all lengths.", "anchors": ["arolla/util/algorithms.h: CopyBits, InplaceLogicalAndWithOffsets, InPlaceLogicalAnd"]}
{"id": "C38", "title": "Concatenation of dense arrays", "statement": "Concatenating two dense arrays yields an array whose size is the sum of the sizes and whose elements are those of the first followed by those of the second, with exact presence, whatever the bitmaps and bit offsets of the arguments (including full arguments without bitmap).", "quantifier": "every pair of arrays, every size, every bitmap representation and bit offset of both", "why_tests_cant": "Presence bits are copied with word-level shifts at an arbitrary bit position; alignments of both sides and lengths are unbounded.", "anchors": ["arolla/qexpr/operators/dense_array/array_ops.h: DenseArrayConcatOp", "arolla/util/algorithms.h: CopyBits"]}
{"id": "C39", "title": "Building arrays from ids and values", "statement": "CreateArray(size, ids, values) and SparseArrayBuilder give an array of the requested size whose element at ids[j] is values[j] (possibly missing) and whose every other element is missing, whether the dense or the sparse form is chosen.", "quantifier": "every size, every ascending list of ids below the size (including none and all), every list of optional values, every interleaving of Add, AddId and SetByOffset", "why_tests_cant": "The form is chosen by a ratio of sizes and the two forms are built by different code; the claim ranges over all id sets and all builder call sequences.", "anchors": ["arolla/array/array.h: CreateArray, SparseArrayBuilder"]}
{"id": "C40", "title": "Iterating over the rows of several arrays", "statement": "ArrayOpsUtil::Iterate(from, to) reports every row of the range exactly once and in order: rows with all required values with exactly the values the arrays hold at that row, all others as missing. ArraysIterate, ArraysIterateDense and IterateSimple call the function exactly for the rows holding all required values, and PresentCountUpperEstimate is never below their number nor above the size.", "quantifier": "every number of arrays, every combination of constant, dense and sparse forms with and without defaults, shared or distinct id buffers, every range, both values of ConvertToDense", "why_tests_cant": "Rows come from three sources (stored elements, runs between ids, trailing defaults) whose interleaving depends on all id lists; form combinations and sizes are unbounded.", "anchors": ["arolla/array/ops_util.h: ArrayOpsUtil, ArraysIterate, ArraysIterateDense"]}
{"id": "C41", "title": "Edge operators: from_sizes, sizes, pairs, expand, resize", "statement": "For DenseArray edges: edge.from_sizes builds exactly the edge with the given group sizes or reports an error, and edge.sizes inverts it and counts the children of every parent of any edge; edge.pair_left and edge.pair_right enumerate all pairs of children of the same parent exactly once; array.expand gives every child the value of its parent; edge.resize_groups_child_side places exactly the children whose offset is below the new size of their group, at that offset, rejecting negative and duplicate offsets; edge.resize_groups_parent_side has exactly the new group sizes. Invalid arguments are reported as errors without undefined behaviour.", "quantifier": "every array of sizes, every edge in split point or mapping form, every array of values or offsets with any missing elements, every previous content of newly allocated memory", "why_tests_cant": "Positions are running sums over unboundedly many groups; correctness depends on all earlier sizes and on buffers whose initial content is arbitrary, which tests cannot control; overflow cases need sizes near 2^63.", "anchors": ["arolla/qexpr/operators/dense_array/edge_ops.h: DenseArrayEdgeFromSizesOp, DenseArrayEdgePairLeftOp, DenseArrayEdgePairRightOp, DenseArrayExpandOp, DenseArrayEdgeSizesOp, DenseArrayEdgeResizeGroupsChildSide, DenseArrayEdgeResizeGroupsParentSide"]}
{"id": "C42", "title": "ArrayEdge: constructors validate and conversions keep the child-to-parent relation", "statement": "ArrayEdge::FromSplitPoints and FromMapping accept exactly what the DenseArrayEdge constructors accept, whatever the form of the Array (dense, sparse with a default, constant); ToDenseArrayEdge, FromDenseArrayEdge, ToMappingEdge, ToSplitPointsEdge keep the relation, and ToSplitPointsEdge succeeds iff it is full and non-decreasing; ComposeEdges follows the chain and rejects sizes that do not fit; IsEquivalentTo is true iff the sizes and relations coincide, unless both edges are mappings without children (then defaults of empty arrays are compared, proved with a witness).", "quantifier": "every Array in every form, every chain of edges", "why_tests_cant": "The forms multiply the cases of the dense edges; empty arrays with different defaults are never constructed in tests.", "anchors": ["arolla/array/edge.cc", "arolla/array/edge.h"]}
{"id": "C43", "title": "Counting, logical, integer and string aggregations over groups", "statement": "For every group of an edge, the operators count, any, all, logical all/any (three-valued), integer sum (with optional initial value) and product, and string join return exactly the mathematical value over the group's participating children in order: the count, three-valued conjunction/disjunction, the 32/64-bit integer congruent to the sum or product (missing for an empty group without initial value), the strings joined with separators; cumulative variants return for each child the value over the children of its group up to it. The results are the same for DenseArrays and Arrays, for mapping, split-point and scalar edges, and for constant, sparse and dense arguments. For floating point this holds for products, and for sums of DenseArrays (left to right).", "quantifier": "every list of values of any length, every edge, every form and representation of the arguments, every uninitialised content of the accumulator, every integer width", "why_tests_cant": "Constant and sparse arguments take a different path (AddN) from dense ones and one accumulator object is reused across groups; agreement for all lengths, overflow wrap-arounds and forms cannot be enumerated by tests.", "anchors": ["arolla/qexpr/operators/aggregation/group_op_accumulators.h: SimpleCountAccumulator, AnyAccumulator, AllAccumulator, LogicalAllAccumulator, LogicalAnyAccumulator, SumAccumulator, FunctorAccumulator, StringJoinAggregator", "arolla/qexpr/operators/math/arithmetic.h: AddOp, MultiplyOp"]}
{"id": "C44", "title": "Min, max, argmin, argmax, median, inverse CDF and collapse over groups", "statement": "For every group: min and max return the first NaN if there is one and otherwise the first of the smallest/largest values, argmin and argmax return its position among all children of the group (missing if no value is present), median and inverse_cdf return the first NaN or the value of the requested rank (the lower median; the rank clamped to the group), collapse returns the first value iff all values are equal or all NaN. Same for all forms and edges as C43; never reads outside of the buffered values.", "quantifier": "every totally ordered element type with optional NaN (integers, IEEE floats by their bits, byte strings), every list of values, every result std::nth_element is allowed to produce, every edge and form", "why_tests_cant": "Needs all permutations and all positions of NaN and of equal values such as -0.0 and 0.0, and all outcomes of an unspecified library algorithm.", "anchors": ["arolla/qexpr/operators/aggregation/group_op_accumulators.h: FunctorAccumulator, ArgMinAggregator, ArgMaxAggregator, MedianAggregator, InverseCdfAccumulator, CollapseAccumulator", "arolla/qexpr/operators/math/arithmetic.h: MinOp, MaxOp"]}
{"id": "C45", "title": "Ordinal and dense ranks, inverse mapping, take, weighted CDF and means over groups", "statement": "For every group: ordinal_rank gives each value the number of values that come before it (smaller - or larger when descending - then lower tie breaker, then earlier position; NaNs last, in order), so the ranks are a permutation of 0..n-1; dense_rank gives equal values equal ranks, better values lower ranks, NaNs the last ranks, one each, and skips no rank; inverse_mapping returns for every position the index holding it and an error unless the present values are distinct indices into the group; array.take returns for every offset the value at that offset of the group and an error iff an offset is outside of it; weighted_cdf returns the cumulated weight of all values not larger divided by the total (NaN for a group with NaN); mean and weighted average on DenseArrays are the left-to-right sums divided. Nothing depends on what std::sort and std::partition leave open, nor on earlier groups, nor on memory outside of the vectors.", "quantifier": "every totally ordered element type with optional NaN, every list of values, tie breakers, weights and offsets, every behaviour std::sort and std::partition may show, every edge, every form and representation of the arguments, any arithmetic for the weights", "why_tests_cant": "Results go through index vectors that are reused between groups and are written in sorted order; correctness for all lengths, all ties and all outcomes of unspecified library algorithms cannot be covered by examples.", "anchors": ["arolla/qexpr/operators/aggregation/group_op_accumulators.h: OrdinalRankAccumulator, DenseRankAccumulator, InverseMappingAccumulator, ArrayTakeOverAccumulator, WeightedCDFAccumulator, MeanAccumulator, WeightedAverageAccumulator"]}
{"id": "C46", "title": "Decision forests: which are accepted, and what naive evaluation computes", "statement": "DecisionForest::FromTrees accepts a list of trees exactly when tags are not negative, each tree has one leaf more than split nodes, child ids are in range and every input is used with one type; ValidateInputSlots accepts exactly the slots that give every used input a slot of that type. Naive evaluation of an accepted forest never reads out of bounds; if no split node has two parents and no root has one it terminates, and the result is the sum, in the order of the trees, of weight times the leaf value the row reaches, over exactly the trees the filter selects. (Acceptance does not exclude cycles: proved with a witness.)", "quantifier": "every list of trees, every split condition (intervals with IEEE floats including NaN and infinities, sets of integers or floats, arbitrary others), every row with missing values, every filter, every arithmetic of values", "why_tests_cant": "Trees of any shape and size and arbitrary ids are accepted as input; absence of out-of-bounds reads and termination are statements about all of them.", "anchors": ["arolla/decision_forest/decision_forest.cc: DecisionForest::FromTrees, ValidateInputSlots, NaiveEvaluation", "arolla/decision_forest/decision_forest.h: DecisionTree, TreeFilter", "arolla/decision_forest/split_conditions"]}
{"id": "C47", "title": "Pointwise tree compiler and boosted predictor", "statement": "SetNode and SetLeaf calls all succeed exactly when every id is in range, defined at most once and the child of at most one node (the root of none); then Compile succeeds exactly when every id is defined and reached from a parent, and if the root is a split node (or the only node) the predictor returns the value of the leaf the tests lead to and terminates. BoostedPredictor adds the predictions of exactly the trees its filter selects, each once. A tree of an accepted forest is compiled exactly if it is a tree, and then predicts the weighted value of the leaf that the row reaches. (Ignored errors lead to undefined behaviour; a leaf root next to a cycle is mispredicted: proved with witnesses.)", "quantifier": "every sequence of calls with any ids, tests and values, every outcome of the tests, every number and depth of trees, every filter, every reduction function", "why_tests_cant": "The batch of sixteen trees advances all trees in lock step and finishes them in any order; acceptance depends on all calls together.", "anchors": ["arolla/decision_forest/pointwise_evaluation/pointwise.h: SinglePredictor, BoostedPredictor, SinglePredictorCompiler, BoostedPredictorCompiler", "arolla/decision_forest/pointwise_evaluation/forest_evaluator.cc: AddTree"]}
{"id": "C48", "title": "Bitmask evaluation of decision trees", "statement": "ToObliviousTree converts exactly the trees in which all leaves have the same depth and all conditions of a depth are equal, and the conditions of the layers read as a binary number give the leaf that the row reaches. Building a BitmaskEvaluator from any sequence of supported trees never fails, and IncrementalEval adds to the output slot of each group the values of exactly the leaves that the row reaches in the trees of the group, each once, without out-of-bounds access and without searching a bit in a zero word - provided that no bound of an interval is NaN and that no leaf of a tree is reached on two ways. (Both conditions are needed and not checked: proved with witnesses.)", "quantifier": "every sequence of small trees (at most 64 leaves) and oblivious trees (at most 64 layers) with interval and integer-set conditions, every row with missing, NaN and infinite values and signed zeros, every number of groups, every behaviour that std::sort, std::upper_bound and the iteration order of hash maps may show, every arithmetic of values", "why_tests_cant": "The evaluator merges the conditions of all trees into sorted tables per input; whether one tree is evaluated correctly depends on the thresholds and masks of all others, and the result is found by bit tricks in 32- or 64-bit words.", "anchors": ["arolla/decision_forest/pointwise_evaluation/oblivious.cc: ToObliviousTree", "arolla/decision_forest/pointwise_evaluation/bitmask_builder.cc: BitmaskBuilder", "arolla/decision_forest/pointwise_evaluation/bitmask_eval.cc: BitmaskEval::IncrementalEval"]}
{"id": "C49", "title": "Trees over a single input as piecewise constant functions", "statement": "Building the single-input evaluator from any sequence of trees of an accepted forest, each using one optional float or int64 input, never fails, and IncrementalEval adds to the output of each group exactly the values of the leaves that the row reaches in the trees of the group, each once - for bounds and set values below 2^127 (floats; interval bounds may be infinite outwards) or 2^62 (integers), and rows without NaN where a float set is true for missing values. The midpoint of two such floats, as rounded by IEEE arithmetic, lies strictly between them whenever any float does. (Each guard is needed and not checked: proved with witnesses, among them an overflowing midpoint and a custom condition that makes building fail.)", "quantifier": "every sequence of trees and groups, every row with missing and infinite values and signed zeros, every pair of floats, every behaviour of sorting, binary search and hash map iteration, every correct internal evaluator, every arithmetic of values", "why_tests_cant": "The tree is sampled once per interval at a floating point midpoint; that the sample lies in the intended cell is a statement about the rounding of all pairs of floats.", "anchors": ["arolla/decision_forest/pointwise_evaluation/single_input_eval.cc: AddSplitPoints, GetSplitPoints, PiecewiseConstantCompiler::Build, SingleInputBuilder::AddTree, SingleInputBuilder::Build, SingleInputEval::IncrementalEval", "arolla/decision_forest/pointwise_evaluation/single_input_eval.h: PiecewiseConstantEvaluator"]}
{"id": "C50", "title": "The forest evaluator: every tree evaluated once, by whichever evaluator", "statement": "ForestEvaluator::Compile rejects an empty list of outputs and outputs that select a common tree. Otherwise, whichever of the regular, bitmask and single-input evaluators are switched on, it succeeds for every accepted forest whose selected trees meet the guards of C47-C49 - without the regular evaluator exactly if every selected tree uses a single float or int64 input or has only supported conditions and at most 64 leaves or equal conditions per depth, and reports the tree otherwise - and Eval sets every output slot to a sum of the values of exactly the leaves that the row reaches in the trees selected by this output, each once: constant trees merged per submodel, oblivious, small, single-input and regular trees alike. With exact arithmetic that is the value of NaiveEvaluation.", "quantifier": "every forest, every list of outputs with any filters, all eight settings of the compilation parameters, every row, every behaviour of sorting, binary search and hash map iteration, every arithmetic of values", "why_tests_cant": "Whether a tree is lost, evaluated twice or added to another output depends on how all trees of the forest are distributed to five kinds of evaluation; tests only compare a few forests numerically.", "anchors": ["arolla/decision_forest/pointwise_evaluation/forest_evaluator.cc: ForestEvaluator::Compile, ForestEvaluator::Eval, SplitTreesByGroups, GetSingleInputSignature, RegularPredictorsBuilder", "arolla/decision_forest/pointwise_evaluation/forest_evaluator.h: CompilationParams, Output, RegularPredictors, SimpleForestEvaluator"]}
{"id": "C51", "title": "Integer arithmetic operators", "statement": "For int32 and int64: math.add (any number of arguments), subtract, multiply, neg and abs return the exact result reduced to the range of the type, hence the exact result whenever it is a value of the type; math.floordiv and math.mod report an error exactly for the divisor zero, otherwise they return the quotient rounded towards minus infinity and the rest with the sign of the divisor (only the least value divided by -1 wraps); x = floordiv(x, y) * y + mod(x, y) holds for all x and all y other than zero when computed with these operators; sign, maximum and minimum agree with the order. No operand leads to undefined behaviour.", "quantifier": "every width, all operands, any number of summands", "why_tests_cant": "2^128 pairs of operands; the undefined cases are single points (the least value divided by -1) of hand-written sign tricks.", "anchors": ["arolla/qexpr/operators/math/arithmetic.h: AddOp, SubtractOp, MultiplyOp, FloorDivOp, ModOp, NegOp, AbsOp, SignOp, MaxOp, MinOp"]}
{"id": "C52", "title": "Casts between numeric types", "statement": "Casting a float or double to int32, int64 or uint64 succeeds exactly if the float is finite and its integral part is a value of the target type (for uint64 also: the float is not below zero), and returns the integral part; casting between integer types succeeds exactly if the value is one of the target type and keeps it; otherwise an error is returned, and no conversion is undefined. Casting an integer to a float returns a nearest float, exactly and reversibly up to 2^24 (float) and 2^53 (double); float to double is exact and reversible.", "quantifier": "every float and double including subnormals, infinities, NaN and signed zeros; every integer of the three types; all combinations of types", "why_tests_cant": "The limits are computed by loops of float arithmetic at compile time, and only the floats next to them tell a wrong limit from the right one.", "anchors": ["arolla/qexpr/operators/core/cast_operator.h: CastOp"]}
{"id": "C53", "title": "Floor division and modulo of floats", "statement": "math.floordiv and math.mod on floats and doubles report an error exactly for the divisor zero of either sign. On whole numbers A and B with |A| + |B| <= 2^24 (float) or 2^53 (double) they return exactly the floor quotient and its rest, so that A = floordiv * B + mod with mod between 0 and B. For any finite operands with a quotient of at most 2^24 (2^53), floordiv returns the quotient rounded down, or up if it is so close below a whole number that float division returns that number. mod returns NaN or a float with the sign of the divisor. (Beyond the guard the documented identity and the range of mod fail even for whole numbers: proved with witnesses, e.g. 66099652 mod 3 = 4.)", "quantifier": "all pairs of floats and doubles including subnormals, signed zeros, infinities and NaN, subject to the stated guards", "why_tests_cant": "Rounding of a quotient up to the next whole number happens for rare pairs only; no test enumerates pairs of floats.", "anchors": ["arolla/qexpr/operators/math/arithmetic.h: FloorDivOp, ModOp"]}
{"id": "C54", "title": "Iterating over the rows of arrays with frames", "statement": "FrameIterator::Create succeeds exactly if there are as many arrays as slots, every value type matches (an Array only with an optional slot), and all sizes agree with each other and with the requested row count. ForEachFrame and StoreOutput then give, for every output, an array of the requested kind and size whose element in row i is what the function computed from row i of all inputs - missing values included, with unchanged contents of the slots that are not inputs left over from earlier rows - without any access out of bounds, whatever the number of frames in the buffer, the representation of the inputs (bitmaps with offsets, sparse arrays with default values, constant arrays) and the mix of dense and sparse inputs. (A buffer of zero frames is accepted, and the iteration then never ends: proved.)", "quantifier": "all arrays, types, sizes, slots, buffer sizes, iteration orders of the hash maps of copiers; every function that computes a row of outputs from a row of inputs for all frames it may find", "why_tests_cant": "A wrong element shows only for certain combinations of batch size, bitmap offset and ids of sparse arrays across a batch boundary.", "anchors": ["arolla/qtype/array_like/frame_iter.cc: FrameIterator::Create, CreateInputCopiers, CreateOutputCopiers, PreloadFrames, SaveOutputsOfProcessedFrames, StoreOutput", "arolla/qtype/array_like/frame_iter.h: ForEachFrame, CustomFrameInitialization", "arolla/dense_array/qtype/copier.h: ArrayToFramesCopier, ArrayFromFramesCopier", "arolla/array/qtype/copier.h: ArrayToFramesCopier, ArrayFromFramesCopier"]}
{"id": "C55", "title": "Iterating over rows with several threads", "statement": "ForEachFrame with any number of threads ends in every interleaving, without deadlock, with the state in which ForEachFrame without threads ends; so all outputs are as in C54. In no interleaving is a barrier used after it was destroyed or by more threads than it counts, and never can two threads access the same frame, the copiers, a barrier pointer, or a barrier that is being destroyed, at the same time.", "quantifier": "all interleavings of all steps, every number of threads, rows and frames (also fewer frames than threads), every function and every pair of copiers for which the loop without threads ends", "why_tests_cant": "Two barriers are replaced by whichever thread leaves last while others may already be on the way to the next one; a wrong order shows up once in millions of schedules.", "anchors": ["arolla/qtype/array_like/frame_iter.h: ForEachFrame (with ThreadingInterface)"]}
{"id": "C56", "title": "Batched evaluation of a forest, whole or in parts", "statement": "BatchedForestEvaluator::Compile rejects an empty list of groups and groups that share a tree, also when the forest is split into several evaluators. Otherwise, for accepted forests that meet the guards of C50, EvalBatch stores in every output slot an array of the requested kind, as long as the inputs and without missing values, whose element in row i is a sum of the values of exactly the leaves that row i of the inputs reaches in the trees of the group, each once, for every limit of splits per evaluator - with exact arithmetic the value of NaiveEvaluation - and changes nothing else in the frame. It succeeds only if all used inputs have the required types and one common size equal to a given row count and there is one output slot per group. Guards that are needed and not checked, proved with witnesses: output slots must not be slots of used inputs if there is more than one evaluator, and the limit plus the number of splits must fit into int64.", "quantifier": "every forest, groups, limit, input arrays (dense and sparse, missing values, shared slots), row count, every row of C50, every allocation content and hash map order, every arithmetic of values", "why_tests_cant": "Whether a tree falls between two parts or an output is added twice depends on the sizes of all trees; tests use one or two forests per limit, with separate slots.", "anchors": ["arolla/decision_forest/batched_evaluation/batched_forest_evaluator.cc: Compile, CreatePointwiseEvaluators, EvalBatch, AddFullFloatArrays, GetInputsFromSlots", "arolla/decision_forest/batched_evaluation/batched_forest_evaluator.h: BatchedForestEvaluator"]}
{"id": "C57", "title": "Serialization of values and expressions", "statement": "For all codecs that decode what they encode, Decode(Encode(values, exprs)) returns exactly these values and expressions in order, and so does reading the records of EncodeAsRiegeliData, whatever follows them; an expression is read back if inference gives its operator nodes the attributes that they had. Encode succeeds if values are made of smaller values and codecs do not fail, and writes every value, expression and codec once, however often it is used. Decoding any container or record stream returns a result or an error, never reading outside of its tables; the result is what the steps say: each makes the value or expression at its index from those it refers to, by the codec it names or by the first codec declared before that does not decline, and the outputs are those of the output steps and of the lists of version 1; a record stream needs a stop record and means the container of the records before it; a container that is decoded refers only to earlier steps, of the needed kind. Decoder hints (expected usage counts) never change the result: decoding with them succeeds exactly if it does without, there is only one list, and no count is below the actual number of references nor zero for a stored value. (Attributes are lost if the decoder does not infer them, and a record with hints only ends a record stream although it is an ordinary step of a container: proved with witnesses.)", "quantifier": "all lists of values and expressions, all codecs (programs that call the encoder, and decoders), all containers and record streams, including malformed ones and those of version 1", "why_tests_cant": "Nested values and quoted expressions that share parts give endless interleavings of steps and references; tests cover hand-written containers.", "anchors": ["arolla/serialization_base/encoder.cc: Encoder", "arolla/serialization_base/decoder.cc: Decoder", "arolla/serialization_base/container_proto.cc: ContainerProtoBuilder, ProcessContainerProto", "arolla/serialization/riegeli.cc: EncodeAsRiegeliData, DecodeFromRiegeliData", "arolla/serialization/encode.cc: Encode", "arolla/serialization/decode.cc: Decode"]}
{"id": "C58", "title": "Peephole optimizations rewrite exactly the instances of their patterns", "statement": "CreatePatternBasedOptimization(from, to, matchers) never fails in another way than for the reasons it documents (from is a placeholder, leaves, placeholders of `to` or of the matchers that are not in from, inference failing for `to`). An accepted optimization changes a node exactly if there is one assignment of nodes to the sub-patterns of from under which operator nodes correspond to operator nodes of the same name and as many arguments, literals to equal literals, placeholders to nodes that their matchers accept, equal sub-patterns to equal nodes; the assignment is unique, and the result is `to` with these nodes for placeholders and attributes inferred anew. For nodes in which equal names mean equal operators this holds if and only if the node is an instance of from. PeepholeOptimizer::ApplyToNode applies the optimizations with the key of the node in the order given until the key changes, then those without key, and whatever relation all optimizations respect is respected by ApplyToNode, by Apply and by the repeated MakeOptimizer; if the optimizations are laws of an interpretation of operators by name, all three keep the meaning of every expression. A node that MakeOptimizer returns without error is changed by none of the optimizations if each strictly decreases a measure, and has the same type; at most 100 rounds are made. (Proved with witnesses: operators are compared by name only; not every instance is found if equal names are used for different operators; constant parts of `to` get no attributes.)", "quantifier": "all patterns, matchers, expressions, lists of optimizations, hash functions, inference functions and interpretations", "why_tests_cant": "Patterns with repeated sub-patterns and hash keys interact with the order of rules; tests apply single rules to single expressions.", "anchors": ["arolla/expr/optimization/pattern_based_optimization.cc: CreatePatternBasedOptimization", "arolla/expr/optimization/peephole_optimizer.cc: PeepholeOptimizer::Create, ApplyToNode, Apply", "arolla/expr/optimization/optimizer.cc: MakeOptimizer"]}
{"id": "C59", "title": "Conditionals evaluate only the branch they select", "statement": "Compiling any expression with short circuit conditionals succeeds unless a conditional does not have three arguments, and never reads outside of its tables. Whatever the compiled expression returns is the value of the expression in which each conditional yields the selected branch. If the expression does not contain core.where itself: the compiled expression stands for the same expression, attributes included; a node that is only used through a branch which is not selected (the branch being a computed node with the conditional as only user) cannot fail the evaluation, that is, if all other nodes have values, so has the compiled expression; and an operator is applied inside of a branch only if its result is only used through that branch, so nothing shared is copied. (With core.where in the expression a conditional that has nothing to skip may be merged with it, and a branch that is not selected may be evaluated: proved with a witness.)", "quantifier": "all expressions with any sharing and nesting of conditionals, all operators (any of which may fail), inputs and literals", "why_tests_cant": "Which nodes may be skipped is a property of all paths through a graph with sharing, tests cover a few graphs with one or two conditionals.", "anchors": ["arolla/expr/eval/compile_where_operator.cc: ExprDominatorTree, WhereOperatorTransformationImpl, WhereOperatorGlobalTransformation", "arolla/expr/eval/expr_utils.cc: ExtractLambda", "arolla/algorithm/control_flow_graph.cc: AcyclicCFG, DominatorTree"]}
{"id": "C60", "title": "Bound programs: jumps, loops, errors and cancellation", "statement": "Binding the operators of an expression succeeds exactly if no conditional has an alternative without operators, and then no operator is missing. Running the bound program, with its relative jumps, is evaluating the nested one: one operator after the other, of each conditional only the selected branch; it ends if that ends, with the same frame, and with the first error, which names the operator that failed if there is a stack trace. It breaks no check of the evaluation loop and leaves no signal behind, so bound programs nest. A loop applies its body to the initial state while the condition holds, although its state alternates between two slots; it ends if that ends, and fails as that fails. The cancellation context is asked after every operator: a cancelled program that has operators does not succeed, and a loop ends once it is cancelled, even if its condition always holds. (Cancelled between the branches, the error names the last operator of the branch that was not run: proved with a witness.)", "quantifier": "all programs with conditionals and loops nested in any way, operators, frames, errors and moments of cancellation", "why_tests_cant": "Jump distances depend on the sizes of nested branches, and cancellation can come at any moment; tests run a few programs.", "anchors": ["arolla/qexpr/bound_operators.cc: RunBoundOperators, JumpBoundOperator, JumpIfNotBoundOperator", "arolla/expr/eval/executable_builder.cc: SkipEvalOp, SetEvalOp, AddEvalOp, Build, Execute", "arolla/expr/eval/compile_where_operator.cc: CompileWhereOperator", "arolla/expr/eval/compile_while_operator.cc: WhileLoopBoundOperator", "arolla/expr/eval/expr_stack_trace.cc: LightweightBoundExprStackTrace"]}
{"id": "C61", "title": "Initializers run once, after what they need, in any link order", "statement": "A batch of initializers is carried out without undefined behaviour. Whatever the status, what ran is a part of the batch, each initializer at most once, and none ran before one that must precede it: one named among its dependencies, one that names it among its reverse dependencies, or one that shares a phony name with it. OK is returned exactly if the batch is feasible (no phony or repeated name, no reverse dependency that completed before, all dependencies phony, completed or in the batch, no cycle of requirements) and the functions report success; then all ran. Every error describes something wrong in the declarations (a reported cycle is one) or a function that failed. If all initializers have names, the order of registration changes nothing, except which of several wrong declarations is reported. Over all registrations, InitArolla() and late batches of a process, every initializer runs once, what is asked by name holds across batches, nothing runs before InitArolla(), and the first InitArolla() and every late batch leave nothing waiting.", "quantifier": "all batches of initializers (named, anonymous, with any dependencies, reverse dependencies, phony names), all functions, all orders of registration, all histories of a process", "why_tests_cant": "Link order is not under control of a test, and the requirements of hundreds of libraries interact through shared phony names.", "anchors": ["arolla/util/init_arolla_internal.cc: Coordinator::Run, InitNode, ExecuteNode, GetNode", "arolla/util/init_arolla.cc: InitArolla, InitArollaSecondary, Registration", "arolla/util/init_arolla.h: AROLLA_INITIALIZER"]}
{"id": "C62", "title": "Implicit casts form an order, and overload resolution picks the best signature", "statement": "CanCastImplicitly is exactly the reflexive and transitive closure of the documented casts (int32 to int64 to float32 to float64, weak float to float32), combined with the change of a scalar into an optional and, with broadcasting, of both into arrays; on the types of a program it is a partial order. CommonQType is symmetric and returns the least type that both types cast to, nothing only if there is none (for a program in which optionals and arrays of the four number types are registered); for a list it depends only on the set of the types, not on their order. BroadcastQType keeps the type of the values and takes the least shape above all shapes (it declines for optionals of non-scalars). FindMatchingSignature never reads outside its frontier and returns a signature that equals the requested types up to derived types or, if none does, the signature that fits and casts to every other one that fits; it reports that nothing fits only if so, and an ambiguity, with exactly the minimal signatures that fit, only if there is no best one. The order and repetition of the registered overloads do not matter. WithValueQType of a shape and a scalar type, or its optional, is the type of that shape over the scalar, when it is registered.", "quantifier": "all types (scalars, optionals, any number of array kinds, others with and without values), all registries, all lists of types, all sets of signatures in any order", "why_tests_cant": "The types of arguments and the overloads linked into a program come in too many combinations; tests try a few and one order of registration.", "anchors": ["arolla/qtype/standard_type_properties/common_qtype.cc: CommonQType, CanCastImplicitly, BroadcastQType", "arolla/qtype/standard_type_properties/properties.cc: GetScalarQTypeOrNull, GetShapeQTypeOrNull", "arolla/qtype/shape_qtype.cc: WithValueQType", "arolla/qexpr/casting.cc: FindMatchingSignature"]}
{"id": "C63", "title": "Operator signatures: validation, their texts, and the binding of arguments", "statement": "ValidateSignature accepts a signature exactly if its parameter names are distinct identifiers, at most one parameter is variadic, it is the last one and has no default, no parameter without a default follows one with a default, and the name of the auxiliary policy has no colon. ExprOperatorSignature::Make accepts exactly the texts of such signatures, with white space anywhere between the parts, with exactly the default values that the text announces, and the text determines the signature; what GetExprOperatorSignatureSpec writes is read back as the same signature (white space around an auxiliary policy, which Make never leaves, is lost). BindArguments accepts exactly the calls in which every parameter gets one value - positional, by keyword or the literal of its default - and every keyword names a parameter that no positional argument fills; it returns the values in the order of the parameters followed by the remaining positional arguments. A rejection names a true reason and the complete list of missing or unexpected names; the order of keywords (or of the hash map) does not show in results or errors. Passing the next argument by keyword, or writing out a default, changes nothing. A bound call has a number of dependencies that ValidateDepsCount accepts. The signatures of MakeArgsN and MakeVariadicArgs are valid and bind positional arguments to themselves.", "quantifier": "all signatures, texts, default values, positional and keyword arguments (distinct keywords), all orders of iteration over the keyword map", "why_tests_cant": "Tests try a few texts and calls; the interplay of defaults, keywords, variadic parameters and hash order cannot be enumerated.", "anchors": ["arolla/expr/expr_operator_signature.cc: ValidateSignature, ValidateDepsCount, BindArguments, ExprOperatorSignature::Make, GetExprOperatorSignatureSpec, MakeArgsN, MakeVariadicArgs"]}
{"id": "C64", "title": "String operators on bytes and texts: search, slices, counting, replacing, stripping, decoding, numbers, splitting and joining", "statement": "On byte strings positions are bytes, on texts they are code points. find / rfind return the least / greatest position at which the substring occurs within the range given by start and end (negative positions count from the end; a missing bound means the whole string), and missing if there is none; contains says whether there is one; count is the number of all positions at which the substring occurs, overlapping ones included (up to the largest 32-bit integer; beyond that the counter overflows). substr returns exactly the elements in the range. replace replaces the leftmost non-overlapping occurrences, at most max_subs of them if that is present and not negative; for an empty substring the replacement goes before each element and at the end. lstrip / rstrip / strip of a text remove the longest prefix / suffix of the given characters (or of Unicode white space), nothing else; on byte strings the same holds without given characters, and with given characters if backspace is counted among them and the bytes are below 128 or char is unsigned. decode accepts exactly well-formed UTF-8 in strict mode and otherwise reports the end of the longest well-formed prefix; the other modes always yield a well-formed text, the input itself if it was well-formed, and otherwise the input with each ill-formed part dropped or replaced by U+FFFD. parse_int32 / parse_int64 accept exactly decimal literals with an optional sign whose value is in range, and read back what as_text writes. split returns the parts between successive occurrences of a non-empty separator (for texts: parts that are texts), or the words between white space, with the split points that group them by string; joining the parts with the separator gives the string back; join is missing exactly if a part is missing.", "quantifier": "all byte strings and all texts over Unicode scalar values, all bounds, limits and separators; both signednesses of char; all white space predicates of the Unicode library; all ways in which the decoder passes over ill-formed bytes", "why_tests_cant": "Tests use short, mostly ASCII strings; the mapping between byte offsets and code points, overlapping matches, negative and out-of-range bounds and ill-formed input have unboundedly many combinations.", "anchors": ["arolla/qexpr/operators/strings/find.cc", "arolla/qexpr/operators/strings/strings.cc: ReplaceImpl, ParseUtf8, DecodeOp", "arolla/qexpr/operators/strings/strings.h: LStripOp, RStripOp, StripOp, ParseIntT, AsTextOp", "arolla/qexpr/operators/strings/split.h", "arolla/qexpr/operators/strings/join.cc"]}
{"id": "C65", "title": "The operator registry, generic operators and the detection of circular operators", "statement": "Register, UnsafeUnregister, LookupOperator and ListRegisteredOperators behave as a directory: Register accepts exactly qualified identifiers that mean nothing yet, an operator is found under exactly its name, and the list holds every registered name once, in the order of registration. The revision of a namespace grows by one with every change of an operator inside it (or of that name) and with no other. DecayRegisteredOperator always ends: with the operator at the end of the chain of names, with not-found for the first name that means nothing, or with a circularity error exactly if the chain has no end. The methods of a registered operator give the answer of its implementation whenever that would end, report circularity otherwise, end always when finitely many calls occur, and leave the thread's bookkeeping as it was. A generic operator picks the only matching overload if all are ready, defers if one is not ready, and reports several or no matches (naming all). Its kept snapshot of overloads, when served again, is what would be built anew, if the overloads do not go through names outside the namespace. With several threads registering different names, nothing undefined happens, every successful registration stays listed and found, refusals are for listed names, and once no registration is running the list, the names and the revisions agree; a snapshot has every overload that was listed when it was asked for and only registered ones, if no snapshot is begun between the change of the namespace's revision and the listing.", "quantifier": "all sequences of registry calls, all chains of names, all call structures and depths, all readiness and condition results, all interleavings of any number of threads", "why_tests_cant": "Tests run one thread, a short history and chains of a few names; interleavings and depths beyond 24 are not enumerable.", "anchors": ["arolla/expr/registered_expr_operator.cc: ExprOperatorRegistry::Register, UnsafeUnregister, LookupOperatorOrNull, ListRegisteredOperators, LookupOrCreateRecordSingleton, UpdateRevisionIds, DecayRegisteredOperator, CircularDependencyDetector", "arolla/expr/operator_loader/generic_operator.cc: GenericOperator::BuildSnapshot, GetSnapshot, GetOverload"]}
{"id": "C66", "title": "Serialized arrays and edges: decoding returns what the message says, or an error", "statement": "A dense array message says a size, which elements are present and the present values in order; an array message says a size and either nothing (size 0), all the elements, or the elements at increasing ids together with a value for all the others; an edge message says split points or a parent for every child. Encoding an array gives a message that says exactly its elements, without anything undefined; for values and units the message depends on the elements only, not on the layout in memory. Decoding a message yields an error exactly if the message says nothing consistent (wrong counts, sizes, offsets, ids or input values), and otherwise a valid array with the elements that it says, whatever was in the new buffers, if size + 31 does not exceed the largest 64-bit integer or there is no bitmap; an array of values is no larger than its message. Hence arrays, arrays of strings, sparse and constant arrays and edges come back from decode(encode(x)) with the same elements; non-empty arrays also with the same form, ids and default; edges with the same kind and mapping.", "quantifier": "all messages with any field contents and input values; all arrays, layouts of their buffers and bitmaps, and edges; all contents of new buffers", "why_tests_cant": "Tests serialize a handful of arrays; malformed messages and bitmap layouts cannot be enumerated, and reading past a buffer often goes unnoticed.", "anchors": ["arolla/serialization_codecs/dense_array/encoders/dense_array_encoder.cc: GenBitmapProto, EncodeDenseArrayUnitValue, EncodeDenseArrayValue, DenseArrayStringEncoder, EncodeDenseArrayEdgeValue", "arolla/serialization_codecs/dense_array/decoders/dense_array_decoder.cc: DecodeDenseArrayValueProto*, CheckStringsOffsets, DecodeDenseArrayEdge", "arolla/serialization_codecs/array/encoders/array_encoder.cc: EncodeArrayValue, EncodeArrayEdge", "arolla/serialization_codecs/array/decoders/array_decoder.cc: DecodeArraySize, DecodeArrayIds, DecodeArrayValue, DecodeArrayEdge"]}
{"id": "C67", "title": "While loops: the node computes the loop that was written", "statement": "MakeWhileLoop(initial_state, condition, body) accepts exactly the inputs whose body assigns and mentions only initialised variables and whose constant variables are identifiers other than the parameter of the state, if no name begins with the reserved prefix. Evaluating the node gives the final values of the assigned variables, as a named tuple with the fields in increasing order, of the loop that starts from the initial values converted to the types which the body gives them and replaces all variables at once while the condition holds; an error exactly if an initial value, a conversion, or an evaluated condition or body is an error; and no result exactly if the loop does not end. This holds if the parts of the condition and body that use no variable are not errors; without that, a value is still the value of the loop. A loop is an error without an iteration exactly if its types do not fit: the types of the variables then never change, the condition is a condition, and the result has the inferred type.", "quantifier": "all initial states, conditions and bodies; all languages of operators with sound types; all values of leaves; all numbers of iterations, including infinitely many", "why_tests_cant": "Tests run a few loops with a few iterations; hoisting of constant parts, renaming, conversion and the alternation of two state slots interact for every expression shape and parity of the iteration count.", "anchors": ["arolla/expr/operators/while_loop/while_loop.cc: MakeWhileLoop, MoveImmutablesIntoInitialState, AddImplicitCastsToInitialState, CheckAllStateFieldsAreInitialized, WhileLoopOperator::InferAttributes", "arolla/expr/operators/while_loop/while_loop_impl.cc: ExtractImmutables", "arolla/expr/eval/compile_while_operator.cc: WhileLoopBoundOperator::Run", "arolla/expr/visitors/substitution.cc: SubstitutePlaceholders"]}
{"id": "C68", "title": "The printed form of an expression stands for that expression", "statement": "ToDebugString of an expression always succeeds. Every line it prints is an expression of the Python grammar - with the strength and grouping of Python's operators, which is where parentheses are needed - that stands for the part which the line defines, given the lines before it; the last line stands for the whole expression. Symbols stand for their operators, x.name and x[i:j:k] for attribute access and slices, M.name(...) for a registered operator and name(...) for another one. Two expressions with the same one-line text are equal, if they hold no negative number literal, no source location and no unregistered operator whose name starts with M.", "quantifier": "all expressions over leaves, placeholders, literals and operators with any number of dependencies, registered or not; all names and keys", "why_tests_cant": "Tests print a few dozen expressions; the interplay of left and right precedence of nested operators has unboundedly many combinations, and a missing pair of parentheses changes the meaning silently.", "anchors": ["arolla/expr/operator_repr_functions.cc: UnaryReprFn, BinaryReprFn, GetAttrReprFn, MakeSliceRepr, GetItemReprFn, SourceLocationReprFn", "arolla/expr/expr_debug_string.cc: FormatOperatorCanonical, FormatPretty, ToDebugString", "arolla/util/repr.h: ReprToken"]}
{"id": "C69", "title": "Printed statements: which parts get a line of their own, and under which name", "statement": "In the text of ToDebugString a part of the expression gets a line of its own exactly if it is annotated with a name, or if it occurs at two places and one of its operands is an operation without a line of its own; it gets one line, before its first use. Different lines define different names, if no name given by an annotation is another such name followed by ._ and a number.", "quantifier": "all expressions, all annotated names, any number of repeated names and shared parts", "why_tests_cant": "Tests print a few expressions with one or two names; whether generated names can collide is a question about all sets of names.", "anchors": ["arolla/expr/expr_debug_string.cc: SelectStatementNodes, IsSafeStatementName, GenStatementNames, ToDebugString"]}
{"id": "C70", "title": "Naming: paths to tables and columns, and the names made of them", "statement": "A protopath id is accepted exactly if it is empty or starts with a slash, and then stands for one path: segments between slashes, \"[:]\" marking an index, one slash at the end being ignored. Writing a path as an id and parsing it returns the path exactly if no field name has a slash, no non-index field name ends with \"[:]\" and the last segment is not an empty field; writing what was parsed returns the text, up to one slash at the end. Child concatenates, RemovePrefix returns the rest exactly if the prefix is one and an error otherwise. The parent index path of a column is the longest prefix that is empty or ends with an index; that of a table is the longest such proper prefix, and only the root has none. Full names of paths without slashes in the fields are equal exactly if the field names are; the leaf-only name is the last field, or the full name if that ends with \"@size\"; single-underscore names of non-empty paths are equal exactly if the field names are, if no field has a slash or an underscore.", "quantifier": "all texts, all paths of any length with any field names", "why_tests_cant": "Tests name a few well-formed paths; empty segments, markers inside names and colliding names are corner cases over all strings.", "anchors": ["arolla/naming/protopath_id.cc", "arolla/naming/table.cc: FormatSegments, Child, Size, ParentIndexPath, RemovePrefixSegments", "arolla/naming/policy.cc: SingleUnderscorePolicyImpl, LeafOnlyPolicyImpl"]}
{"id": "C71", "title": "Piecewise linear curves: the constructor accepts the right points and evaluation interpolates them", "statement": "A curve given by control points, evaluated in double precision, is in exact arithmetic: the y of the first / last point at and beyond it; between two points the line through them on the transformed x axis (identity, log, log1p, symmetric log1p); next to an infinite end the extension of the adjacent segment, or if there is no such segment, the line of slope 1 or -1 towards the infinite value. Every number but NaN is in one of these cases and where several apply they agree; at a control point with finite coordinates the value is its y. Points without infinities are accepted exactly if their x increase strictly and the first is in the domain of the transformation or all y are equal. In an accepted curve that is not constant an infinite y is only at an end, where the transformed x is infinite. The constructor and evaluation never read outside the points. This holds for points without NaN whose transformed x are distinct.", "quantifier": "all lists of control points, all arguments including infinities, all monotone transformations, all lower-bound searches", "why_tests_cant": "Tests evaluate a few curves at a few arguments; trimming of constant ends, infinite ends, single interior points and the search for a segment interact for every shape of curve.", "anchors": ["arolla/pwlcurve/curves.cc: TrimDuplicateYPointsAtEnds, CommonChecks, FindCoefficients, PWLCoefficientsFor, PWLCurveTmpl::Eval, ConstantCurve, PWLCurveBuilder, Log1pHook, Symlog1pHook, LogHook"]}
{"id": "C72", "title": "Texts of piecewise linear curves are read and written faithfully", "statement": "With separator ; or | exactly the texts Name({{x;y};{x;y};...}) with a known name (old names included), at least one point and readable numbers are accepted, and give the type and the points written; other separators are refused; reading any text is defined. A curve built from points whose numbers survive printing and reading is rebuilt, identical, from its own text, so different such curves have different texts. NewCurveWithAllowedSeparators chooses the separator that is used, the first if none is, and refuses if several are (separators listed once); with ; and | allowed a text is read with the one it is written with. Lists of coordinates of equal length give the curve through the paired points, others are refused. The curve of a text evaluates to the values of the piecewise linear curve (C71) through its points on the axis of its type, and with finite points it is made exactly if the x increase and the first is in the domain of the type or all y are equal.", "quantifier": "all texts, separators, lists of allowed separators, curves, and all number readers that refuse separators and braces", "why_tests_cant": "Tests check some accepted and refused texts; that nothing outside the grammar is accepted and every curve is rebuilt is a statement about all of them.", "anchors": ["arolla/pwlcurve/curves.cc: ParseType, ParsePoint, Parse, FindSeparatorUsed, NewCurveWithSeparator, NewCurveWithAllowedSeparators, NewCurve, PointToString, Curve::ToString"]}
{"id": "C73", "title": "Input loaders put exactly the requested values into the slots", "statement": "A loader knows a set of names, each with a type and a way to read its value from the input. Binding distinct names to distinct slots succeeds exactly if all names are known and the slots have their types. Running the bound loader then puts each value into its slot and changes no other place of the frame; it reports an error exactly if some requested value cannot be read. This holds for loaders made from accessors (made exactly if the names differ), for wildcard loaders over keys, plain or with a callback (a value of another type than promised is an error), and is kept by wrapping, filtering, chaining (the first loader that knows a name reads it), delegating under a prefix, and dispatching by key, in whatever order hash maps are visited. PartialBind binds the known names and returns the others. The loader of a key, once made, is used ever after. The key of a name is the text at the place of the name in the format. The suggested names of loaders from accessors are the known names, and stay so under wrapping, filtering, chaining and delegating.", "quantifier": "all loaders built this way, all slot maps with distinct names and places, all inputs and frames, all visiting orders", "why_tests_cant": "Tests bind a few loaders to a few slots; that no other place is touched, that each name is served by exactly one loader of a chain and that all combinators compose is a statement about all of them.", "anchors": ["arolla/io/input_loader.h", "arolla/io/input_loader.cc", "arolla/io/accessors_input_loader.h", "arolla/io/wildcard_input_loader.h", "arolla/io/wildcard_input_loader.cc: MakeNameToKeyFn", "arolla/io/delegating_input_loader.h", "arolla/qtype/typed_slot.cc: VerifySlotTypes, MaybeFindSlotsAndVerifyTypes"]}
{"id": "C74", "title": "Slot listeners pass every value to everyone who hears it, in order", "statement": "A slot listener is a sequence of hearers, each with a name, the type it takes given the type of the slot, and what it does to the output. Binding distinct names to slots succeeds exactly if every slot is heard by someone and everyone who hears a slot takes its type. Running then lets each hearer in turn hear the value of the slot of their name, until one fails; nothing else is done to the output, which leaves exactly one result. The type reported for a name is that of the first hearer that knows it. Listeners from accessors (made exactly if the names differ) are the accessors in order; wrapping keeps the hearers; a chain has those of all its listeners one after the other; a delegating listener those of its delegate, under the prefix and acting on the part of the output the accessor points to. PartialBind binds nothing if no slot is heard, fails exactly if someone hears a slot with another type. Suggested names are those of the accessors, and of the listeners a chain or delegating listener is made of.", "quantifier": "all listeners built this way, all slot maps with distinct names, all frames and outputs, all visiting orders of hash maps", "why_tests_cant": "Tests bind a few listeners to a few slots; who hears which slot in chains with overlapping names and which combinations are refused is a statement about all of them.", "anchors": ["arolla/io/slot_listener.h", "arolla/io/slot_listener.cc", "arolla/io/accessors_slot_listener.h", "arolla/io/chain_slot_listener.h", "arolla/io/delegating_slot_listener.h"]}
{"id": "C75", "title": "Lambda operators: a call means the body with the parameters standing for the arguments", "statement": "A lambda operator is made exactly if its parameters have different names, its body has no leaves and every placeholder of the body is a parameter (without a signature: exactly one placeholder); an error says what is wrong. Lowering a call needs exactly the right number of arguments and gives the body with every parameter replaced by its argument, all at once, a variadic parameter by the tuple of the remaining arguments; operators, literals and the order of dependencies stay. So the lowered expression evaluates to what the body does when its parameters have the values of the arguments. What InferAttributes says of a call, attributes or an error, is what lowering gives; it makes no difference whether lowering reuses the attributes of the node; every node of the result has the attributes its operator infers; and ToLowerNode does not complain, provided that operators keep what they know when they are told more about their inputs.", "quantifier": "all bodies, signatures, arguments, attribute inference functions and interpretations of operators", "why_tests_cant": "Tests lower a few lambdas; that shared subexpressions, unused, repeated and variadic parameters and partially known types never make lowering differ from substitution or from the inferred attributes is a statement about all of them.", "anchors": ["arolla/expr/lambda_expr_operator.cc", "arolla/expr/expr.cc: ToLowerNode, MakeOpNode, WithNewDependencies", "arolla/expr/expr_attributes.h", "arolla/expr/tuple_expr_operator.cc: MakeTupleOperator"]}
{"id": "C76", "title": "Operators that are chosen or allowed by the types of their inputs", "statement": "An expression about the types of the parameters of an operator is accepted exactly if it mentions only these parameters (and the sequence of input types). It is ready exactly when the types of the parameters that it mentions are known (of a variadic parameter: all its types), and then evaluates to its meaning at these types, a variadic parameter standing for the type of the tuple; other parameters do not matter. If conditions evaluate without error, also for NOTHING: inferring the type of an operator fails at the first ready constraint that is violated, gives no type while a constraint or the output expression is not ready, and otherwise gives the type named by the output expression. A dispatch operator with all conditions ready is the one case whose condition holds, the default operator if none holds, and an error if several hold; it gives the attributes and the lowering of the chosen operator, the same one in both. A restricted operator asks its operator only when all constraints are ready and hold. An overloaded operator is the first implementation that does not reject the inputs, is undecided if that one is, and is lowered to the implementation that gave the type. For expressions that do not read the whole sequence, a choice, a type or a violation does not change when more types become known; for overloaded operators, if the implementations do not change their minds.", "quantifier": "all signatures, constraints, conditions, sequences of known and unknown types, and interpretations of the operators in the conditions", "why_tests_cant": "Tests try a few operators with a few types; that partially known types never lead to a choice that fuller knowledge would revoke is a statement about all conditions and all sequences.", "anchors": ["arolla/expr/operator_loader/helper.cc", "arolla/expr/operator_loader/qtype_inference.cc", "arolla/expr/operator_loader/dispatch_operator.cc", "arolla/expr/operator_loader/restricted_lambda_operator.cc", "arolla/qexpr/operators/bootstrap/qtype_operator.cc: ParseInputQTypeSequenceOp", "arolla/expr/overloaded_expr_operator.cc"]}
{"id": "C77", "title": "Objects: attributes come from the nearest object of the prototype chain", "statement": "Reading an attribute of an object gives its value in the nearest object of the chain of prototypes that has it, and nothing if none has it. A new object has the given fields and, of the others, what its prototype has. The operator that reads an attribute with a type succeeds exactly if the attribute exists with that type, which is the type that the type operator reports; the latter reports NOTHING exactly if there is no such attribute. Sorted attributes are all own attributes by increasing names. Two objects feed the same into their fingerprints exactly if they are the same chains of maps with values of the same fingerprints; neither the order of iteration of a map nor the difference between an empty and a default object matters. Encoding and decoding gives the same object if its values and its prototype do; a message is decoded to exactly the pairs and the prototype it has, and is refused exactly if sizes do not match, a key is repeated or the prototype is not an object.", "quantifier": "all objects, chains, names, orders of iteration and messages", "why_tests_cant": "Tests build a few objects; the order of iteration of a hash map, names that look like markers and chains of any length cannot be enumerated.", "anchors": ["arolla/objects/object_qtype.cc", "arolla/objects/object_qtype.h", "arolla/objects/s11n/s11n.cc", "arolla/objects/operators/qexpr_operators.cc"]}
{"id": "C78", "title": "Removing annotations and extracting side outputs loses nothing", "statement": "Extracting side outputs replaces every export annotation of an expression by what it annotates and returns the exported expressions, cleaned in the same way, under different names. No export annotation is left, neither in the result nor in a side output; the result evaluates to what the expression evaluates to, and each side output to the exported part of the original. It fails exactly if an operator refuses its cleaned dependencies or two different parts export under one name; an expression without exports is returned as it is. Stripping annotations leaves none and does not change the value; stripping the topmost ones gives exactly what is under them. The tag, value, name and type read from a node are those of an annotation of the right form. Preparing side outputs for a listener keeps the names and casts those that the listener knows.", "quantifier": "all expressions, attributes, registered operators, meanings of operators, and listeners", "why_tests_cant": "Tests compare a few expressions; that values are preserved under any nesting and sharing of annotations, and that nothing is exported twice or lost, quantifies over all expressions.", "anchors": ["arolla/expr/eval/side_output.cc", "arolla/expr/annotation_utils.cc", "arolla/expr/expr_visitor.h"]}
{"id": "C79", "title": "A range is exactly the numbers from start before stop", "statement": "seq.range(start, stop, step) is the sequence start, start + step, ... of the numbers that have not reached stop, in order, for positive and negative steps and with 0 for a missing start; it is empty if start has reached stop, and the error about the step is reported exactly if that is 0. This holds whenever |stop - start| + |step| <= 2^64 and the first number that is left out is an int64 (in particular whenever all three are at most 2^61 in absolute value); otherwise a signed addition overflows or what is returned, if it is a sequence, is too short. seq.repeat gives max(n, 0) copies. A sequence too large for memory is an error, also if its size in bytes is not a size_t.", "quantifier": "all int64 values of start, stop and step, all sizes of elements, and any allocator", "why_tests_cant": "Tests use small bounds; the size is computed by wrapping unsigned arithmetic, and the cases where it is wrong are near the ends of int64.", "anchors": ["arolla/qexpr/operators/seq/sequence_operators.h", "arolla/sequence/mutable_sequence.cc"]}
{"id": "C80", "title": "Filling values into a format by name", "statement": "strings.format copies the format, writing { for {{ and } for }}, and puts the text of the value of that name in place of each {name} or {name:fmt}; braces in values are not read again. Without fmt (or with v) bytes are copied; numbers take printf formats, with f (floats) or d (integers) added if fmt does not end in a letter. The names are a comma-separated list of distinct names, one per value; every other input is an error and never a wrong text. A format with braces doubled gives the text back, and a format can be read in one way only. If any optional input is missing the result is missing, whatever the format is; the result type is optional exactly if an input type is.", "quantifier": "all formats, lists of names, values and presences, and all ways of showing a value", "why_tests_cant": "Tests check a few formats; this covers every string, including nested and unbalanced braces.", "anchors": ["arolla/qexpr/operators/strings/format.cc", "arolla/qexpr/bound_operators.h"]}
{"id": "C81", "title": "Dicts from keys to rows", "statement": "A dict made of an array of keys is an error exactly if a present key is at two rows; otherwise looking up a key gives exactly the row it is at, and missing if it is at none, and contains agrees. The keys of a dict are listed in the order of their rows if the rows are exactly 0, 1, ..., n-1, and in every other case there is an error and never a wrong list. For a dict made of an array that is the array, without missing keys at its end; a present key after a missing one makes listing the keys fail. None of this depends on the order in which the hash map keeps its entries.", "quantifier": "all arrays of keys with any of them missing, all dicts, all key types with an equality, and every order of the entries", "why_tests_cant": "Tests use small arrays, one hash function and one order of the entries.", "anchors": ["arolla/qexpr/operators/dict/dict_operators.h", "arolla/qtype/dict/dict_types.h"]}
{"id": "C82", "title": "Flat arrays of arrays: all matches of a regular expression, and interleaved arrays", "statement": "The flat array that strings._findall_regex returns, split by its two edges, is for every row the list of its matches in order, each the list of its groups, and no match for a missing row; both edges fit the arrays, also for regular expressions without groups. array._interleave_to_dense_array of n arrays of equal sizes has the element i of array j at the position i * n + j and nothing else, if there are fewer than 2^31 elements; with that many or more an int overflows. Arrays of different sizes are an error.", "quantifier": "all arrays with any rows missing, all regular expressions (any matches with the same number of groups), any number of arrays", "why_tests_cant": "Tests use a few short rows and small arrays; the overflow needs 2^31 elements.", "anchors": ["arolla/qexpr/operators/strings/findall_regex.h", "arolla/qexpr/operators/dense_array/interleave.cc", "arolla/qtype/strings/regex.cc"]}
{"id": "C83", "title": "Logic with missing values", "statement": "bool.logical_and, logical_or and logical_not return b exactly if the result would be b whatever the missing inputs were, and missing exactly if it depends on them; negation exchanges and and or. bool.logical_if returns the second, third or fourth input for true, false and missing. presence_or, presence_and, where, and presence_and_or return the first present value that the masks allow, for every combination of optional and full inputs, and the fused operator equals the two it replaces. No result depends on the value kept inside a missing input.", "quantifier": "all values of any type, present or missing, with anything kept inside missing values", "why_tests_cant": "Tests fill missing values with defaults; here the value kept inside a missing input is arbitrary, and results are compared with all the values that missing inputs could have had.", "anchors": ["arolla/qexpr/operators/bool/logic.h", "arolla/qexpr/operators/core/logic_operators.h"]}
