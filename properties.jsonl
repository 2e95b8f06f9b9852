{"id": "C01", "title": "flatiter visits every element once, in row-major order", "statement": "Iterating an array with flatiter() yields exactly shape-product many items; the k-th item is the element at the k-th multi-index in row-major (last axis fastest) order, whatever the strides are (contiguous, transposed, sliced, broadcast). It never reads an address that no valid multi-index denotes, and its internal counters never underflow.", "quantifier": "for every shape of at most 32 (collapsed) axes, every stride vector of the same length, and every buffer in which all valid multi-indices are in range", "why_tests_cant": "the carry/borrow logic of the iterator is exercised differently by every combination of axis lengths and strides; tests sample a handful of shapes", "anchors": ["src/ndarray/iterator/flat_iterator.rs", "src/ndarray/iterator/flat_index_generator.rs: FlatIndexGenerator::from, next", "src/ndarray/iterator/collapse_contiguous.rs: collapse_to_uniform_stride"]}
{"id": "C02", "title": "Merging axes does not change which elements are visited", "statement": "Collapsing adjacent axes of a layout before looping yields a layout that visits the same addresses in the same order, and never has more axes than the original.", "quantifier": "for every shape/stride pair of equal length, including zero strides and axes of length 0 or 1", "why_tests_cant": "the merge rule has special cases for stride 0 and length 1; only an induction over the axis list covers every interaction", "anchors": ["src/ndarray/iterator/collapse_contiguous.rs: collapse_to_uniform_stride"]}
{"id": "C03", "title": "A freshly built array stores its data in row-major order", "statement": "An array built from a flat buffer of product(shape) values has, at multi-index (i0,..,ik), the buffer value at the row-major position of that index; distinct valid indices address distinct cells and every cell of the buffer is addressed.", "quantifier": "for every shape and every buffer of the matching length", "why_tests_cant": "a bijection between indices and positions is a statement about all shapes of all ranks", "anchors": ["src/ndarray/constructors.rs: stride_from_shape, from_contiguous_owned_buffer", "src/common/constructors.rs: full, zeros, ones, scalar"]}
{"id": "C04", "title": "Nested literal data is accepted exactly when it is rectangular", "statement": "NdArray::new on nested Vec data either panics or returns an array whose shape describes the data: ragged input is rejected, rectangular non-empty input is accepted and element (i0,..,ik) equals data[i0]..[ik].", "quantifier": "for every nested list of every depth", "why_tests_cant": "raggedness can hide at any depth and any position", "anchors": ["src/common/constructors.rs: new", "src/util/homogenous.rs", "src/util/shape.rs", "src/util/flatten.rs"]}
{"id": "C05", "title": "reshape keeps the row-major sequence of elements", "statement": "If reshape(new_shape) succeeds then the result has the requested shape and the same elements in the same row-major order, sharing memory with the source; it panics when the element counts differ, and succeeds on every contiguous or uniformly strided array when they agree.", "quantifier": "for every array, every source layout, every target shape", "why_tests_cant": "depends on all pairs of shapes and on how the source strides came about", "anchors": ["src/common/reshape.rs: reshape", "src/ndarray/reshape.rs", "src/ndarray/slice.rs: update_flags_with_contiguity"]}
{"id": "C06", "title": "transpose swaps two axes and nothing else", "statement": "transpose(i,j) (including negative axes) returns a view whose element at an index equals the source element at the index with positions i and j swapped; doing it twice gives back the original view; an axis outside [-n,n) panics.", "quantifier": "for every array, every pair of axes, every index", "why_tests_cant": "covers all ranks, axis pairs and stride patterns", "anchors": ["src/common/reshape.rs: T, transpose", "src/util/axis.rs: as_absolute"]}
{"id": "C07", "title": "squeeze and unsqueeze only add or drop unit axes", "statement": "squeeze removes exactly the length-1 axes and unsqueeze inserts exactly one length-1 axis at the requested (possibly negative) place; the row-major element sequence is unchanged in both cases, and every element keeps its address.", "quantifier": "for every array and every axis", "why_tests_cant": "holds for all ranks and all positions, including at the end where the stride is made up", "anchors": ["src/common/reshape.rs: squeeze, unsqueeze", "src/util/axis.rs"]}
{"id": "C08", "title": "slice selects the requested sub-box", "statement": "For in-range indices and ranges, slice/slice_along return a view whose shape is the list of range lengths (single indices drop their axis) and whose element at an index is the source element at (start + index) on every axis; omitted trailing axes are kept whole.", "quantifier": "for every array, every tuple of in-range indexers of every kind, every index of the view", "why_tests_cant": "combinations of indexer kinds across any number of axes and any layout", "anchors": ["src/ndarray/slice.rs: slice, slice_along", "src/util/index.rs: Indexer"]}
{"id": "C09", "title": "Slicing outside an axis is rejected", "statement": "A slice whose index or range reaches beyond the axis length panics instead of returning a view onto memory outside the source array.", "quantifier": "for every array, axis and indexer that is not contained in the axis", "why_tests_cant": "requires showing the absence of an accepting path for every out-of-range request", "anchors": ["src/ndarray/slice.rs: slice, slice_along", "src/util/index.rs"]}
{"id": "C10", "title": "Broadcast views repeat elements exactly as NumPy does", "statement": "broadcast_to(shape) returns a read-only view of that shape whose element at an index is the source element obtained by dropping the new leading axes and clamping stretched axes to 0; it panics exactly when the source shape is not broadcastable to the target.", "quantifier": "for every array, target shape and index", "why_tests_cant": "all rank differences and all placements of unit axes", "anchors": ["src/ndarray/broadcast.rs: broadcast_to, broadcast_shape, broadcast_stride"]}
{"id": "C11", "title": "The common broadcast shape follows the NumPy rule", "statement": "The shape of a binary operation is the axis-wise maximum after left-padding with 1s (with the 0/1 case giving 0); it is defined exactly when aligned axes agree or one is 1; it does not depend on the order of operands, is idempotent and associative, and both operands broadcast to it.", "quantifier": "for every pair (and triple) of shapes of any rank", "why_tests_cant": "algebraic laws quantified over all shapes", "anchors": ["src/ndarray/broadcast.rs: broadcast_shapes, broadcast_shape", "src/util/functions.rs: pad"]}
{"id": "C12", "title": "Binary operators are pointwise on the broadcast shape", "statement": "For each of + - * / % & | << >> on two arrays, the result is a fresh contiguous array of the common broadcast shape whose element at an index is op(lhs element, rhs element) at the broadcast indices, in operand order; neither operand nor any other buffer changes, no address outside the operands is read; incompatible shapes panic.", "quantifier": "for every element type and binary function, all shapes and stride patterns of both operands, including aliasing operands", "why_tests_cant": "the dispatcher chooses among five kernels based on how both layouts collapse; tests cannot cover every pair of layouts", "anchors": ["src/ndarray/binary_ops.rs", "src/ops/binary_ops.rs: all kernels and the dispatcher", "src/ndarray/broadcast.rs"]}
{"id": "C13", "title": "Scalar operators and negation are pointwise", "statement": "array op scalar and -array give a fresh array of the same shape with the operation applied to each element; the source is unchanged.", "quantifier": "for every element type, scalar, shape and stride pattern", "why_tests_cant": "several specialised kernels chosen by stride", "anchors": ["src/ndarray/binary_ops.rs", "src/ndarray/unary_ops.rs", "src/ops/unary_ops.rs", "src/ops/binary_ops.rs: _scalar"]}
{"id": "C14", "title": "Compound assignment updates every element in place", "statement": "a op= b leaves a with each element replaced by op(old a element, old broadcast b element), and leaves every memory cell that is not an element of a unchanged; for arrays and for scalars on the right.", "quantifier": "for every writable array a (including views), every broadcastable b, every element type", "why_tests_cant": "depends on the stride pattern of the destination and on aliasing between the two sides", "anchors": ["src/ndarray/assign_ops.rs", "src/ops/binary_ops.rs"]}
{"id": "C15", "title": "Read-only (broadcast) views are never written", "statement": "Every public mutating operation applied to a broadcast view panics and leaves memory unchanged.", "quantifier": "for every broadcast view and every mutating operation (op=, fill, zero, index assignment)", "why_tests_cant": "absence of any write path for all layouts", "anchors": ["src/ndarray/assign_ops.rs", "src/ndarray/fill.rs", "src/ndarray/index_impl.rs", "src/ndarray/broadcast.rs: broadcast_to"]}
{"id": "C16", "title": "fill sets exactly the elements of the array", "statement": "After fill(v) (or zero()) every element of the array or view equals v and every memory cell that is not one of its elements is unchanged.", "quantifier": "for every array or view whose elements are in range and whose axes longer than 1 have non-zero stride", "why_tests_cant": "recursion over axes with three stride cases; frame condition is over all other cells", "anchors": ["src/ndarray/fill.rs", "src/ops/fill.rs"]}
{"id": "C17", "title": "clone is an equal, independent, contiguous copy", "statement": "clone() returns an array with the same shape and the same elements, in a new buffer that no other array refers to, leaving the source untouched and reading only its elements; flatten() likewise with shape [size].", "quantifier": "for every array or view, including broadcast views", "why_tests_cant": "copy strategy depends on layout flags derived from how the view was produced", "anchors": ["src/ndarray/clone.rs", "src/ndarray/reshape.rs: flatten"]}
{"id": "C18", "title": "Array equality is extensional", "statement": "a == b is true exactly when the shapes are equal and all corresponding elements are equal, independently of memory layout; with an equivalence on elements it is reflexive, symmetric and transitive.", "quantifier": "for every pair/triple of arrays with any strides", "why_tests_cant": "quantifies over all layouts of both operands", "anchors": ["src/ndarray/equals.rs"]}
{"id": "C19", "title": "Whole-array sum and product fold over all elements", "statement": "sum()/product() return a scalar equal to folding + / * over the elements in row-major order starting from 0 / 1, and read nothing but the elements of the array.", "quantifier": "for every array or view with elements in range", "why_tests_cant": "kernel choice depends on the stride pattern; a wrong pattern reads other memory", "anchors": ["src/ndarray/reduce.rs: sum, product", "src/ops/reduce_sum.rs", "src/ops/reduce_product.rs", "src/ndarray/iterator/collapse_contiguous.rs: has_uniform_stride"]}
{"id": "C20", "title": "Reductions along axes aggregate exactly the matching elements", "statement": "sum_along/product_along/min_along/max_along(axes) return an array whose shape drops the given axes and whose element at an index is the row-major fold over precisely the source elements agreeing with that index on the remaining axes; order of the axes list and negative spelling do not matter; repeated or out-of-range axes panic.", "quantifier": "for every array, layout, and axis list", "why_tests_cant": "all ranks and all axis subsets", "anchors": ["src/ndarray/reduce.rs: reduced_shape_and_stride, reduce_along, *_along"]}
{"id": "C21", "title": "min and max return an attained bound", "statement": "For a non-empty array over a totally ordered element type, max() is an element of the array and no element exceeds it; dually for min(); magnitude variants do the same for absolute values.", "quantifier": "for every non-empty array and layout, including floating-point infinities", "why_tests_cant": "the start value and comparison direction must be right for every content", "anchors": ["src/ndarray/reduce.rs: max, min, max_magnitude, min_magnitude", "src/ops/reduce_max.rs", "src/ops/reduce_min.rs", "src/util/partial_ord.rs"]}
{"id": "C22", "title": "mean is sum divided by count", "statement": "mean() is sum()/size and mean_along(axes) divides each sum_along element by the number of elements aggregated into it.", "quantifier": "for every array, layout and non-negative axis list", "why_tests_cant": "the divisor must match the number of aggregated elements for all axis subsets", "anchors": ["src/ndarray/reduce.rs: mean, mean_along"]}
{"id": "C23", "title": "Indexing reads the addressed element", "statement": "a[[i0,..,ik]] for an in-range index returns the element at that index without panicking.", "quantifier": "for every array or view and every in-range index", "why_tests_cant": "views carry a derived length against which the offset is checked; must be right for all view chains", "anchors": ["src/ndarray/index_impl.rs", "src/ndarray/slice.rs: calculate_strided_buffer_length", "src/ndarray/reshape.rs"]}
{"id": "C24", "title": "Out-of-range indices are rejected", "statement": "a[[i0,..,ik]] panics whenever some index is not below its axis length or the number of indices differs from the number of axes, for reads and for writes.", "quantifier": "for every array or view and every index tuple", "why_tests_cant": "requires excluding acceptance for infinitely many bad indices", "anchors": ["src/ndarray/index_impl.rs"]}
{"id": "C25", "title": "Safe view chains never reach outside the source buffer", "statement": "Every array obtainable from constructors by any sequence of view, reshape, transpose, squeeze, unsqueeze, in-range slicing, diagonal and broadcasting only denotes addresses inside its allocation.", "quantifier": "for every finite chain of view operations of any length on any array", "why_tests_cant": "invariant over all histories of view operations", "anchors": ["src/common/reshape.rs", "src/ndarray/slice.rs", "src/ndarray/broadcast.rs", "src/linalg/matrix_ops.rs: diagonal", "src/ndarray/reshape.rs"]}
{"id": "C26", "title": "Matrix products follow their definition", "statement": "dot, matmul (matrix-vector and matrix-matrix) and bmm return the arrays defined by sums of products over the shared index; mismatched inner or batch dimensions panic.", "quantifier": "for every commutative semiring of elements (in particular wrapping integers), every operand size and stride pattern", "why_tests_cant": "loop order and kernel are chosen from the strides; needs algebra, not examples", "anchors": ["src/linalg/matrix_ops.rs: dot, matmul, bmm, matrix_vector_product", "src/linalg/einsum.rs", "src/linalg/specialized_einsum.rs", "src/linalg/sum_of_products.rs", "src/ops/dot_product.rs"]}
{"id": "C27", "title": "einsum computes the Einstein summation", "statement": "einsum(operands, (inputs, output)) returns, at every output index, the sum over all values of the remaining labels of the product of the operand elements addressed by the labels; repeated labels take diagonals.", "quantifier": "for every number of operands, every label assignment without ellipsis, every shape and stride pattern, over every commutative semiring", "why_tests_cant": "axis sorting and inner-kernel selection depend on all strides at once", "anchors": ["src/linalg/einsum.rs", "src/linalg/specialized_einsum.rs", "src/linalg/sum_of_products.rs", "src/ndarray/iterator/multi_flat_index_generator.rs"]}
{"id": "C28", "title": "Ill-formed einsum requests panic", "statement": "einsum panics when a label is used with two different axis lengths, when an operand has more or fewer axes than labels, when the output repeats a label or uses one absent from the inputs, or when the number of subscripts differs from the number of operands.", "quantifier": "for every request violating the rule", "why_tests_cant": "must exclude acceptance of all malformed requests", "anchors": ["src/linalg/einsum.rs: parse_operand_subscripts, parse_output_subscripts, prepare_einsum"]}
{"id": "C29", "title": "Loop-order optimisation is a permutation", "statement": "The axis order chosen for multi-operand loops is always a permutation of the axes, so every multi-index is visited exactly once with each operand at its own address.", "quantifier": "for every number of operands and axes and all strides", "why_tests_cant": "the sort compares several operands with early exit; its result must be a permutation for all inputs", "anchors": ["src/ndarray/iterator/multi_flat_index_generator.rs: find_best_axis_ordering, from, increment_flat_indices, next", "src/util/functions.rs: permute_array"]}
{"id": "C30", "title": "diagonal and trace", "statement": "offset_diagonal_along returns the view whose element (rest, i) is source element with axis1 = i + max(-offset,0), axis2 = i + max(offset,0), of the maximal length; trace is the sum of that diagonal; bad axes or offsets panic.", "quantifier": "for every array of rank >= 2, every pair of distinct axes, every signed offset", "why_tests_cant": "all offsets, ranks and axis pairs", "anchors": ["src/linalg/matrix_ops.rs: diagonal family, trace family"]}
{"id": "C31", "title": "Summing a gradient over broadcast axes is the adjoint of broadcasting", "statement": "The gradient passed to an operand that was broadcast has the operand's shape, and its inner product with any perturbation of the operand equals the inner product of the incoming gradient with the broadcast perturbation; computing it never panics for broadcastable shapes.", "quantifier": "for every operand shape, every shape it broadcasts to, every gradient", "why_tests_cant": "all broadcast patterns; equality of bilinear forms", "anchors": ["src/autograd/util.rs: reduce_gradient", "src/ndarray/broadcast.rs: get_broadcasted_axes", "src/autograd/gradient_function.rs: call_next_backward!"]}
{"id": "C32", "title": "Each operator's backward rule is the transpose of its derivative", "statement": "For + - * / neg, scalar variants, dot, matrix-vector, matrix-matrix, batched product, reshape and transpose, the gradients handed to the operands pair with any perturbation of the operands exactly as the incoming gradient pairs with the first-order change of the result.", "quantifier": "for every operand value and shape, every incoming gradient and perturbation, over every field (commutative ring where no division occurs)", "why_tests_cant": "identity of linear maps", "anchors": ["src/autograd/{add,sub,mul,div,neg,dot,matrix_vec,matrix_product,bmm,reshape,transpose}_backwards.rs", "src/tensor/ops.rs", "src/tensor/matrix_ops.rs"]}
{"id": "C33", "title": "backward computes the full gradient of any expression graph", "statement": "After y.backward_with(g), every leaf that requires a gradient has had added to its gradient the vector-Jacobian product of g with the derivative of y with respect to that leaf, summed over all paths through shared sub-expressions.", "quantifier": "for every expression DAG of any size built from the differentiable operators", "why_tests_cant": "the set of graphs (with sharing) is infinite; contributions along all paths must be summed", "anchors": ["src/tensor/autograd.rs: backward_with, backward", "src/autograd/*", "src/tensor/ops.rs"]}
{"id": "C34", "title": "Gradients accumulate additively and can be reset", "statement": "Successive backward calls add up; the order of backward calls does not matter; zero_gradient sets exactly this tensor's gradient to zero; the gradient always has the tensor's shape.", "quantifier": "for every sequence of backward and zero_gradient calls on any graph", "why_tests_cant": "history property", "anchors": ["src/autograd/accumulate_grad.rs", "src/tensor/autograd.rs"]}
{"id": "C35", "title": "Only tensors that require a gradient are tracked", "statement": "A result requires a gradient iff some operand does; tensors that do not require one report no gradient before and after any backward call, and backward never fails on such tensors.", "quantifier": "for every expression graph and every assignment of requires_grad flags", "why_tests_cant": "propagation over arbitrary graphs", "anchors": ["src/tensor/ops.rs", "src/tensor/autograd.rs: requires_grad, set_requires_grad, gradient", "src/autograd/none_backwards.rs"]}
{"id": "C36", "title": "backward never panics on a well-formed graph", "statement": "Calling backward() on any tensor built by successful operations terminates without panicking (no failed reshape, no double borrow of a shared node).", "quantifier": "for every graph of successful forward operations", "why_tests_cant": "panic freedom over all graphs", "anchors": ["src/autograd/*", "src/common/reshape.rs: reshape", "src/tensor/autograd.rs"]}
{"id": "C37", "title": "Each tensor has its own gradient", "statement": "gradient() and zero_gradient() on a computed tensor do not observe or modify the gradient of another tensor.", "quantifier": "for every pair of distinct tensors in any graph", "why_tests_cant": "aliasing through shared graph nodes", "anchors": ["src/autograd/identity_backwards.rs", "src/tensor/ops.rs", "src/tensor/autograd.rs"]}
{"id": "C38", "title": "iter/iter_along/nditer enumerate sub-arrays", "statement": "Iterating over a set of axes yields, in row-major order of those axes, one sub-array per index combination, each containing exactly the elements with those axes fixed.", "quantifier": "for every array and every set of axes", "why_tests_cant": "pointer stepping across several axes must be right for every shape", "anchors": ["src/ndarray/iterator/tensor_iterator.rs", "src/ndarray/iterator/iterators.rs", "src/ndarray/iterator/util.rs: split_by_indices"]}
{"id": "C39", "title": "Every buffer is freed exactly once", "statement": "Whatever sequence of constructing, viewing, consuming reshapes, cloning and dropping is performed, no buffer is freed twice or used after being freed, and after all arrays are dropped no buffer remains allocated.", "quantifier": "for every finite history of operations", "why_tests_cant": "memory-safety over all histories", "anchors": ["src/ndarray/constructors.rs: Drop", "src/ndarray/reshape.rs", "src/ndarray/methods.rs: into_data_vector", "src/ndarray/astype.rs: lifetime_cast"]}
{"id": "C40", "title": "arange and linspace produce the documented points", "statement": "arange_with_step(start, stop, step) yields start, start+step, ... up to but excluding stop; linspace(start, stop, num) yields exactly num points with both endpoints.", "quantifier": "for every start, stop, step/num of the element type", "why_tests_cant": "the count goes through floating-point division; only exhaustive reasoning covers all values", "anchors": ["src/common/constructors.rs: arange, arange_with_step, linspace, linspace_exclusive", "src/util/dtype.rs: to_float"]}
{"id": "C41", "title": "randint stays in its half-open range", "statement": "randint(shape, low, high) returns an array of the shape whose entries are integers in [low, high).", "quantifier": "for every seed, low < high and shape", "why_tests_cant": "probability-zero corner values are invisible to sampling", "anchors": ["src/common/random.rs: randint"]}
{"id": "C42", "title": "Contiguity information is truthful", "statement": "When is_contiguous() reports true, the first `size` cells from the data pointer are exactly the elements in row-major order (so data_slice() is the element sequence); when has_uniform_stride() reports s, the k-th element sits s*k cells after the first.", "quantifier": "for every array or view reachable through the API", "why_tests_cant": "flag must be correct for all layouts produced by all view chains", "anchors": ["src/ndarray/slice.rs: update_flags_with_contiguity", "src/ndarray/iterator/collapse_contiguous.rs: has_uniform_stride", "src/common/methods.rs: is_contiguous, has_uniform_stride", "src/ndarray/methods.rs: data_slice"]}
{"id": "C43", "title": "Negative axes are equivalent to counting from the end", "statement": "Every axis argument k in [-n, n) denotes axis k mod n and every other value panics.", "quantifier": "for every rank n and signed axis k", "why_tests_cant": "all integers", "anchors": ["src/util/axis.rs: as_absolute"]}
{"id": "C44", "title": "Element writes are local", "statement": "a[[i..]] = v for an in-range index on an array with distinct element addresses changes exactly that element: reading it back gives v, every other element and every cell of every other buffer is unchanged.", "quantifier": "for every array, index and value", "why_tests_cant": "frame property over all other cells", "anchors": ["src/ndarray/index_impl.rs: IndexMut"]}
{"id": "C45", "title": "Tensors stay valid as long as a graph needs them", "statement": "backward() only reads memory that is still allocated, whatever tensors have been dropped since the graph was built.", "quantifier": "for every construction and drop order accepted by the borrow checker", "why_tests_cant": "use-after-free depends on drop order", "anchors": ["src/tensor/reshape.rs", "src/tensor/ops.rs", "src/ndarray/astype.rs: lifetime_cast", "src/autograd/mul_backwards.rs"]}
{"id": "C46", "title": "Views are live aliases", "statement": "A write through an array is visible through every view of the same elements and vice versa; a write to a clone is never visible through the original.", "quantifier": "for every chain of views and every written element", "why_tests_cant": "aliasing over all chains", "anchors": ["src/ndarray/reshape.rs", "src/ndarray/slice.rs", "src/ndarray/index_impl.rs", "src/ndarray/clone.rs"]}
{"id": "C47", "title": "View operations by value do not depend on sharing", "statement": "view, reshape, squeeze, unsqueeze and transpose called on an owned tensor give the same shape and elements (or both panic) whether the tensor's data is held by nobody else (it is moved) or is shared with a graph node (it is copied first).", "quantifier": "for every tensor layout reachable by view operations, every operation and argument", "why_tests_cant": "depends on the combination of layout, operation and hidden reference count", "anchors": ["src/tensor/reshape.rs: reshaped_view, into_ndarray paths", "src/common/reshape.rs", "src/tensor/methods.rs: into_ndarray"]}
{"id": "C48", "title": "rand stays below one", "statement": "rand(shape) returns an array of the shape whose entries are at least 0 and less than 1.", "quantifier": "for every shape and every sequence of samples drawn by the generator, for f32 and f64", "why_tests_cant": "the offending sample is one of 2^52 values, so random testing practically never draws it", "anchors": ["src/common/random.rs: rand"]}
{"id": "C49", "title": "Vectorised elementwise operators", "statement": "With the NEON kernels enabled, binary operators, operators with a scalar, negation and compound assignment on f32/f64 arrays give at every index the scalar operation applied to the operands' original elements (right operand broadcast), write nothing else, and panic exactly on incompatible shapes.", "quantifier": "for every scalar operation, every number of lanes in {2,4}, all heaps, all pairs of valid arrays of any rank, size, stride and offset", "why_tests_cant": "eight kernels times stride patterns times block remainders; results depend on the length modulo 4L and on overlap between operands", "anchors": ["src/ops/simd_binary_ops.rs", "src/ops/simd_neg.rs", "src/ops/binary_ops.rs: SIMD specializations", "src/acceleration/simd.rs"]}
{"id": "C50", "title": "Vectorised reductions", "statement": "With the NEON kernels enabled, sum and product use every element exactly once and otherwise only units, and equal the portable left-to-right fold; min and max return an element that bounds all elements.", "quantifier": "for every element operation, every number of lanes in {2,4}, all heaps and all valid arrays of any rank, size and stride", "why_tests_cant": "a lane dropped or counted twice shows only for particular lengths modulo 4L, and float rounding hides small errors", "anchors": ["src/ops/simd_reduce_ops.rs", "src/ops/reduce_sum.rs", "src/ops/reduce_product.rs", "src/ops/reduce_min.rs", "src/ops/reduce_max.rs"]}
{"id": "C51", "title": "Vectorised sums of products", "statement": "With the NEON kernels enabled, einsum, matmul and bmm return the same sums of products as the mathematical definition, with every product counted exactly once.", "quantifier": "for every commutative semiring, every number of lanes in {2,4}, all heaps, all operands and subscripts accepted by einsum", "why_tests_cant": "kernel choice depends on strides of all operands, block structure on the extents", "anchors": ["src/ops/simd_sum_of_products.rs", "src/linalg/sum_of_products.rs", "src/ops/dot_product.rs"]}
{"id": "C52", "title": "Matrix products through BLAS", "statement": "With the BLAS back end enabled, dot, matrix-vector, matrix-matrix and batched products return the same sums of products as the portable code, and every call passes parameters the BLAS standard allows.", "quantifier": "for every commutative semiring, all heaps, all operands of any extent and stride", "why_tests_cant": "the library is called with strides as leading dimensions; which strides are legal depends on how the view was made, and extents of 2^31 and above cannot be allocated in a test", "anchors": ["src/ops/dot_product.rs", "src/linalg/matrix_ops.rs", "src/acceleration/cblas.rs"]}
{"id": "C53", "title": "Elementwise operators and reductions through vDSP", "statement": "With the vDSP back end enabled, +, -, *, / (also in place and with a scalar) and sum, max, min, max_magnitude, min_magnitude return what the portable code returns, for every layout of the operands.", "quantifier": "for all element types and operations, all heaps, all operands of any shape and stride, all libraries meeting the documented contract", "why_tests_cant": "only some layouts go to the library and the back end exists on one platform; whether the two paths agree depends on overflow, on the order of summation and on values beyond the start value of the portable loop", "anchors": ["src/acceleration/vdsp.rs", "src/ops/binary_op_add.rs", "src/ops/binary_op_sub.rs", "src/ops/binary_op_mul.rs", "src/ops/binary_op_div.rs", "src/ops/reduce_sum.rs", "src/ops/reduce_max.rs", "src/ops/reduce_min.rs", "src/ops/reduce_max_magnitude.rs", "src/ops/reduce_min_magnitude.rs"]}
{"id": "C54", "title": "einsum_view", "statement": "For subscripts made of letters, einsum_view returns a view whose element at an output index is the operand's element at the index its labels select (a repeated label selects a diagonal), returns None exactly when an operand label is missing from the output, panics on subscripts that fit no view, and shows the elements einsum would copy.", "quantifier": "for all arrays of any shape and stride, all subscripts of letters, all heaps, all semirings", "why_tests_cant": "permutations and diagonals of any number of axes with any strides; tests try a few fixed subscripts on fresh arrays", "anchors": ["src/linalg/einsum.rs"]}
{"id": "C55", "title": "Spaces in einsum subscripts", "statement": "Spaces in einsum and einsum_view subscripts are ignored: adding or removing them does not change the result.", "quantifier": "for all subscripts, operands and positions of the space", "why_tests_cant": "the effect depends on where the space is, on which side of the arrow, and on the entry point; no test uses spaces", "anchors": ["src/linalg/einsum.rs"]}
{"id": "C56", "title": "Debug text", "statement": "The Debug text of an array or tensor, without its spaces, is the nested literal of its elements in index order. Two non-empty arrays have the same text exactly when they have the same shape and the same elements, whatever their layouts. Printing panics only when more than 32 axes remain after merging.", "quantifier": "for all heaps, arrays of any shape and stride up to 32 axes, and all element types whose text contains no brackets, commas or spaces", "why_tests_cant": "the printer consumes an iterator over collapsed strides while recursing over the shape; tests print nothing", "anchors": ["src/ndarray/print.rs", "src/tensor/print.rs"]}
{"id": "C57", "title": "collapse_contiguous keeps addresses", "statement": "The shape and stride returned by collapse_contiguous enumerate the same addresses in the same order as the original ones, with no more axes.", "quantifier": "for all shapes and strides of equal length", "why_tests_cant": "covers overlapping, zero and repeated strides and empty axes in any combination", "anchors": ["src/ndarray/iterator/collapse_contiguous.rs"]}
{"id": "C58", "title": "Skipping elements of an index generator", "statement": "FlatIndexGenerator::advance_by(n) leaves the generator where n calls of next would leave it.", "quantifier": "for all shapes, strides, positions and n", "why_tests_cant": "the function is not called by any test and the error depends on the position", "anchors": ["src/ndarray/iterator/flat_index_generator.rs"]}
{"id": "C59", "title": "Size arithmetic on machine words", "statement": "Sizes, strides and offsets computed with usize arithmetic are those of unbounded arithmetic, or the call panics; in particular no construction, reshape or index reaches outside the allocation because a product wrapped. Claimed for builds with overflow checks and for the release profile, which switches them off.", "quantifier": "for all word sizes, shapes, heaps, reachable arrays and indices, in both build profiles", "why_tests_cant": "the shapes concerned have more than 2^64 elements, and tests run with overflow checks on", "anchors": ["Cargo.toml", "src/common/constructors.rs", "src/common/reshape.rs", "src/ndarray/constructors.rs", "src/ndarray/index_impl.rs"]}
{"id": "C60", "title": "What compound assignment does to any reachable array", "statement": "On any reachable array that is not a broadcast, a op= b and a op= scalar read and write only live memory, panic only if op does, and change at most the size(a) consecutive cells that start at a's first element. If no element of a lies before the cell its row-major rank would give it and b is not read from cells already written, the cell at place k of that run receives exactly op of the k-th elements as they were before the call.", "quantifier": "for all heaps, reachable non-broadcast arrays, valid operands, element types and operations", "why_tests_cant": "the claim covers every stride pattern and every aliasing between the two sides, including those where the result is not an in-place update", "anchors": ["src/ndarray/assign_ops.rs", "src/ops/binary_ops.rs"]}
{"id": "C61", "title": "Element access with arbitrary indices", "statement": "On any reachable array that is not a broadcast, a[[i..]] panics if the number of indices differs from the number of axes or the strided sum of the indices is at least len, and otherwise reads exactly the live cell at that strided offset, whether or not the single indices are in range. a[[i..]] = v behaves the same, except that fewer indices than axes are accepted, and it changes exactly that cell.", "quantifier": "for all heaps, reachable non-broadcast arrays, index lists and values", "why_tests_cant": "the bound is on one sum and not on each index; that it never admits an access outside the allocation depends on an invariant of len over all chains of views", "anchors": ["src/ndarray/index_impl.rs", "src/ndarray/constructors.rs"]}
{"id": "C62", "title": "Programs of array operations never leave memory", "statement": "A program that starts with no arrays and runs, in any order and on any of the arrays made so far, the constructors, views, element-wise operations, in-place operations, element access, comparison, clone, flatten, reductions, trace, dot, matmul, bmm and einsum never reads or writes outside a live allocation: every step returns or panics, and afterwards every array is still readable at each of its indices. The program must keep slices within their axes, must not reshape, fill, index or data_slice a broadcast array, must not clone, flatten or reduce one that is flagged contiguous or uniform, and must pass well-formed einsum requests and rectangular nested data.", "quantifier": "for all programs of any length, all element types (a commutative semiring where dot, matmul, bmm or einsum are used), and element operations, including ones that panic", "why_tests_cant": "it is about every sequence of calls with every aliasing between the arrays involved; a test fixes one sequence", "anchors": ["src/ndarray", "src/ops", "src/common", "src/linalg"]}
{"id": "C63", "title": "Programs behave like a reference machine without layouts", "statement": "A program of array operations that starts with no arrays reads the values, and leaves arrays with the shapes and elements, that a reference machine computes. The machine knows no strides, flags, lengths or pointers: an array is a shape and a list of cells, a view selects cells by the NumPy rule, every other operation is computed from the elements. The program must satisfy the conditions of C62, index inside the arrays, slice non-empty arrays, and use compound assignment only on contiguous arrays without reading overwritten cells. If moreover no command is rejected because of the layout of its array, library and machine reject the same programs. The outcome depends on the initial arrays only through their cells and contents.", "quantifier": "for all programs of any length over 24 commands, all aliasing between arrays, all element types and element operations, including ones that panic", "why_tests_cant": "equivalence with a second implementation for every sequence of calls; a test compares one sequence", "anchors": ["src/ndarray", "src/ops", "src/common", "src/linalg"]}
{"id": "C64", "title": "Extremes of floating-point arrays with infinities and NaN", "statement": "On an array of floats (in the portable build) max, whole or along axes, returns its start value if no element compares greater than it, and otherwise the first of the greatest elements; min is the mirror image. NaN elements are passed over. The magnitude variants treat NaN differently: without NaN the result is the start value or the magnitude of an element, and neither the start value nor any magnitude lies beyond it; with NaN, only the elements after the last NaN count, the start value does not, and the result is NaN if the last NaN is the last element. For max and min this leaves exactly one possible result.", "quantifier": "for all arrays of floats of any format (finite, infinite, signed zeros, NaN), all layouts without repeated cells, all axes, all start values other than NaN", "why_tests_cant": "the order of floats with NaN is not total, so the result depends on the order of the elements; tests would have to try all orders and all lengths", "anchors": ["src/util/partial_ord.rs", "src/ops/reduce_max.rs", "src/ops/reduce_min.rs", "src/ops/reduce_max_magnitude.rs", "src/ops/reduce_min_magnitude.rs", "src/ndarray/reduce.rs"]}
{"id": "C65", "title": "What reductions, copies and fill do on broadcast views", "statement": "The layout test used by total reductions, clone and fill accepts strides in which each is 0 or the next length times the next stride, so stretched axes can pass it. On every reachable view: if the strides pass, a total reduction folds over a run of cells whose step is the last stride, and otherwise over the elements. The run is the sequence of elements exactly when no axis is stretched or all strides are 0; it goes out of bounds exactly when it leaves the buffer. clone, flatten and data_slice copy consecutive cells when the strides pass and the last is 0 or 1; these are the elements exactly when no axis is stretched and the recorded length is the number of elements. fill strips leading axes until the strides pass and then writes a run for each position of the stripped axes, and nothing else. In particular, repeating a new array (no axis of length 1) along new leading axes makes all of them leave the buffer.", "quantifier": "for all element types, step functions, buffers, views reachable by any chain of view operations with or without broadcast_to, fill values", "why_tests_cant": "whether the wrong cells are visible depends on the position of the view in its buffer and on the contents of cells it does not cover; only specific layouts go out of bounds", "anchors": ["src/ndarray/iterator/collapse_contiguous.rs", "src/ops/reduce_sum.rs", "src/ndarray/clone.rs", "src/ops/fill.rs", "src/ndarray/slice.rs", "src/ndarray/broadcast.rs"]}
{"id": "C66", "title": "What compound assignment writes, and exactly when it is the expected result", "statement": "a op= b visits the indices of a in row-major order; the k-th value written is op applied to what the k-th element of a and the k-th broadcast element of b hold after the first k writes, and it lands in the k-th cell after the first element of a whatever the strides of a. Nothing else changes, the buffer is never left, and the operation panics exactly when one of these applications of op does (same with a scalar on the right). Every element gets the expected value op(old a, old b), for all operations and contents, exactly when the elements of a are consecutive in memory in row-major order and b never reads an element of a that was written earlier.", "quantifier": "for all element types, operations including panicking ones, buffers, writable views reachable by any chain of view operations, right-hand sides that may share memory with the left", "why_tests_cant": "the result depends on the stride pattern, on how the two sides overlap, and on the order of the writes", "anchors": ["src/ndarray/assign_ops.rs", "src/ops/binary_ops.rs", "src/ndarray/broadcast.rs"]}
{"id": "C67", "title": "Accuracy of float sums and means in every build", "statement": "For f32 and f64, with u = 2^-24 resp. 2^-53: the result s of sum over n elements satisfies |s - exact sum| <= ((1+u)^(n-1) - 1) * (sum of magnitudes) whenever s is finite, and then every element was finite; if all elements are finite and (1+u)^(n-1) times the sum of magnitudes is below the overflow threshold, s is finite. The same bound holds for every output of a sum along axes, for the SIMD sum with its partial sums, and for vDSP under the assumption that the library adds every element once in some order, so two builds differ by at most twice the bound. The mean of fewer than 2^24 resp. 2^53 elements satisfies the bound with one more factor plus half the smallest subnormal. Sums of integers whose magnitudes add up to less than 2^24 resp. 2^53 are exact in all builds.", "quantifier": "for all f32/f64 contents including infinities, NaN and subnormals, all lengths, all reachable views without broadcast axes (broadcast ones included for sums along axes), all axis lists, all orders of addition a build may use", "why_tests_cant": "tests compare a few sums with a tolerance; the bound is about every content, every length and every order of addition, including cancellation and overflow", "anchors": ["src/ndarray/reduce.rs", "src/ops/reduce_sum.rs", "src/ops/simd_reduce_ops.rs"]}
{"id": "C68", "title": "Accuracy of dot, matmul, bmm and einsum on floats, portable and SIMD", "statement": "For f32 and f64, with u = 2^-24 resp. 2^-53: every element r of dot, matrix-vector, matrix-matrix, batched product and einsum of any number d of operands is a sum of n products of d factors up to rounding: r is finite only if all factors are, and then |r - exact| <= ((1+u)^(n+d-2) - 1) * (sum of magnitudes of the products), plus a stated term for products below the normal range (zero for one operand, of order n times half the smallest subnormal for two). If the products stay clear of overflow, r is finite. The portable and the SIMD build satisfy the same bound, so they differ by at most twice that. Integer contents give the exact result when the sum of the magnitudes, counting 0 as 1, is below 2^24 resp. 2^53.", "quantifier": "for all f32/f64 contents including infinities, NaN, subnormals and signed zeros, all extents, all strided views (transposed, sliced, broadcast), all well-formed subscripts over up to 15 operands, 2 and 4 lanes", "why_tests_cant": "tests compare a few products with a tolerance; the bound covers every content, extent, stride pattern and kernel choice, and the different association and fusing of products in the two builds", "anchors": ["src/linalg/sum_of_products.rs", "src/linalg/einsum.rs", "src/linalg/matrix_ops.rs", "src/ops/simd_sum_of_products.rs"]}
{"id": "C69", "title": "Arrays without elements: what every operation does", "statement": "Constructors given a shape and a value refuse an extent of zero, but arange, the random constructors and broadcast_to produce arrays without elements. On these: views and diagonals stay empty; a slice either panics or selects cells outside the array, so reading it leaves the allocation; elementwise operations, copies and conversions return a new empty array without calling the operator; compound assignment and fill leave memory alone (assignment panics on read-only or incompatible operands); element access panics; equality is equality of shapes; a reduction returns its start value in every cell (the extreme value of the type for min and max) and a mean is zero divided by zero; dot and matrix-vector products are zero. The product of an n by 0 and a 0 by m matrix, and einsum with one or two operands, at most three labels and an extent of zero, execute assert_unchecked on a false condition: undefined behaviour reachable from safe code. Batched products panic.", "quantifier": "for all shapes with an extent of zero, all strides, all element types and operators, all heaps, and every well-formed subscript list", "why_tests_cant": "the outcome depends on which of the specialised loops is chosen, which depends on shape, strides and labels; undefined behaviour need not show in a test run", "anchors": ["src/common/constructors.rs", "src/ndarray/broadcast.rs", "src/linalg/specialized_einsum.rs", "src/linalg/sum_of_products.rs", "src/ndarray/slice.rs", "src/ops/fill.rs"]}
{"id": "C70", "title": "View operations and iteration on machine words", "statement": "View operations (view, reshape, transpose, squeeze, unsqueeze, slice, slice_along, diagonal, einsum_view, broadcast_to) and the flat index generator compute lengths, strides and offsets in usize. With overflow checks every request gives the result of unbounded arithmetic or panics. For an array reached from an allocation of at most half the address space by allowed requests, both builds give exactly the unbounded result when strides and the number of elements of the view are words, and iteration visits the same offsets. The number of elements can only fail to be a word through broadcast_to; strides only on axes of length 1, where repeated unsqueeze and diagonal double the stride until the checked build panics. Release builds reject what unbounded arithmetic rejects, except in slice, slice_along and reshape: slice there panics only when there are more indexers than axes, so a reversed range gives an array of 2^64 - k elements and an empty range of a strided axis gives an empty array whose length field lets indexing read outside the allocation.", "quantifier": "for all word sizes, all arrays, all requests, both builds", "why_tests_cant": "tests run with overflow checks and on small sizes; the difference between builds and the products near the word size are not exercised", "anchors": ["src/ndarray/slice.rs", "src/ndarray/reshape.rs", "src/common/reshape.rs", "src/util/index.rs", "src/linalg/matrix_ops.rs", "src/ndarray/broadcast.rs", "src/linalg/einsum.rs", "src/ndarray/iterator/flat_index_generator.rs", "src/ndarray/iterator/collapse_contiguous.rs", "Cargo.toml"]}
{"id": "C71", "title": "How many points arange and linspace of floats return, and how accurate they are", "statement": "For f32 and f64 within the range of f32, arange_with_step(start, stop, step) with Q = (stop - start)/step between 0 and 2^20 returns between ceil(Q - e) and ceil(Q + e) items, e = 2^-20 (1 + Q), and item i is within 4 * 2^-p (|start| + i|step|) of start + i*step, p the precision of the element type. linspace and linspace_exclusive with at most 2^19 points return num or num + 1 items, never fewer, each within 8 * 2^-p of the exact point relative to the magnitudes involved, as long as the end is not larger than 2^20 steps (linspace only; beyond that fewer items come back). A step of zero, an end that is not finite, and a range walked the wrong way by two steps or more panic. f64 values outside the range of f32 panic although the range is short.", "quantifier": "for all finite floats of both formats in the stated ranges, all counts", "why_tests_cant": "the number of items jumps by one for isolated inputs decided by rounding; tests compare a few round numbers", "anchors": ["src/common/constructors.rs", "src/util/dtype.rs"]}
{"id": "C72", "title": "What slice, slice_along and reshape do with arbitrary requests", "statement": "For every array reached from an allocation by views, slice accepts exactly the lists of at most ndims indexers whose box has no empty axis and panics otherwise; upper bounds are not compared with the shape, and the result denotes at every index the cell the address formula of the source gives, inside the source or not. slice_along is the same with the axis in -ndims..ndims. Such a result stays inside the allocation exactly when its last index does, and otherwise reading that index leaves the allocation. reshape to the same shape is the same array; to another shape it is accepted exactly when the strides are evenly spaced, the element counts agree and the array has an axis, the cells are then equally spaced by the last stride, and the elements are the same in the same order exactly when nothing is broadcast or all strides are zero.", "quantifier": "for all reachable arrays, all indexer lists, axes and shapes, all heaps", "why_tests_cant": "tests check requests inside the array and a few panics; what an unchecked bound reaches depends on the allocation", "anchors": ["src/ndarray/slice.rs", "src/common/reshape.rs", "src/util/index.rs"]}
{"id": "C73", "title": "What nditer returns for arbitrary axes", "statement": "For any set of distinct axes of any array, item j of nditer consists of the cells at distance walk(j) from the first element, where walk counts every axis in base length + 1 and moves back one stride too few at each carry; the iterator reads only allocated cells exactly when these cells are allocated, and otherwise reads outside. For arrays reached by views the items are the sub-arrays on every heap exactly when walk(rank c) equals the address of c for all c and the remaining axes are not a stretched run. Nested strides suffice; for two axes this is necessary too unless the first has length one, and for any number of axes of at least two entries each it is necessary.", "quantifier": "for all arrays, axis sets, heaps", "why_tests_cant": "the repository tests iterate axes for which the two errors cancel", "anchors": ["src/ndarray/iterator/tensor_iterator.rs", "src/ndarray/iterator/util.rs", "src/ndarray/clone.rs"]}
{"id": "C74", "title": "What ellipses and dots in einsum subscripts do", "statement": "With no or at least two operands, a subscript \"pre..post\" of distinct letters behaves exactly as \"prepost\" on the part of the operand at index 0 of the axes under the ellipsis, where the lengths of the letters after the ellipsis are taken from the axes at the position of the letter in the string (right only when the ellipsis stands for two axes or nothing follows it). Letters after an ellipsis over fewer than two axes panic. With one operand the same holds if some letter before the ellipsis is absent from the output, and otherwise einsum panics. \"..\" in the output panics if some ellipsis stands for an axis, and is otherwise ignored; a single dot at the end of the output drops the last output letter. Some requests read outside the allocation.", "quantifier": "for all heaps, operands, subscripts with an ellipsis, element operations", "why_tests_cant": "tests use only a few subscripts, and the wrong lengths go unnoticed when the axes have the same length", "anchors": ["src/linalg/einsum.rs", "src/linalg/specialized_einsum.rs"]}
{"id": "C75", "title": "Every combination of features computes the same as the portable build", "statement": "Run the same program of creations, views, element-wise operations, assignments, sums, products, dot products, matmuls, batched matmuls and einsums in the portable build and in a build with any combination of neon_simd, blas and apple_vdsp, for f32 or f64. Every operation the portable build accepts is accepted by the other build with the same elements, and every operation the portable build rejects is rejected, under conditions stated per operation: element-wise operations need nothing but that + and * commute where vDSP swaps the operands; sums, products and contractions need exact arithmetic (a commutative semiring); BLAS also needs extents and strides below 2^31 and legal leading dimensions. So any two builds agree.", "quantifier": "for all programs, builds, lane counts, BLAS and vDSP libraries, element operations and data", "why_tests_cant": "tests run one build at a time, on one machine, with a few sizes; the combinations of features interact (a feature takes precedence over another in some functions and not in others)", "anchors": ["src/ops/dot_product.rs", "src/ops/reduce_sum.rs", "src/ops/reduce_product.rs", "src/ops/binary_ops.rs", "src/ops/simd_binary_ops.rs", "src/ops/unary_ops.rs", "src/linalg/matmul.rs", "src/linalg/specialized_einsum.rs"]}
{"id": "C76", "title": "Which operations form pointers outside the allocation", "statement": "Rust makes it undefined behaviour to move a raw pointer beyond one past the end of its allocation, even if the result is never read. The loops move their pointers once more after the last element. For arrays of any layout: arithmetic, negation and compound assignment are undefined exactly when an operand (after stretching) lies on one line of step s and its n elements satisfy first + n*s > size of the allocation; whole-array reductions exactly when this holds for an operand with even strides; dot, matrix-vector, batched matrix products, fill and iter_along exactly when the pointer after the last element, row, matrix, sub-block or item is outside; einsum never, and slices exactly when the first cell is outside. Nothing else changes. Operands of step 0 or 1 never overrun. Any column but the first of any fresh matrix overruns, as do the diagonal of a square matrix, the transpose of a matrix times a vector, and fill or iteration over the columns from the second on.", "quantifier": "for all element types and operations, heaps, shapes, strides, offsets and allocation sizes", "why_tests_cant": "the pointer is never read, so compiled code usually gives the right values and no test fails; only an interpreter such as Miri would report single cases", "anchors": ["src/ops/binary_ops.rs:56-133", "src/ops/unary_ops.rs:17-36", "src/ops/reduce_sum.rs:21-30", "src/ops/fill.rs:27-60", "src/ops/dot_product.rs:34-45", "src/linalg/sum_of_products.rs:100-153", "src/linalg/matrix_ops.rs:362-417", "src/ndarray/iterator/tensor_iterator.rs:50-69", "src/ndarray/slice.rs:65-111"]}
{"id": "C77", "title": "Integer arrays with and without overflow checks", "statement": "The release profile of the library has no overflow checks and the debug profile has them. For every integer type and every program of creations, views, arithmetic, negation, assignments, reductions, traces, products and einsums: a debug run panics, or it computes what exact arithmetic computes and the release run computes the same. Release results are the exact result wrapped once: element by element, for sums and products (also along axes), traces, dot, matrix-vector, matrix, batched products and einsum. Debug runs panic exactly when an element of an element-wise result does not fit; for sums, products, traces, exactly when a partial result in index order does not fit, so the transpose of an array can panic where the array does not; for dot and matrix-vector exactly when a product or a partial sum does not fit; for negation and magnitudes exactly when the smallest value of a signed type occurs. No product or einsum overflows if for each output the sum of the products of the magnitudes, with 0 counted as 1, is at most the largest value; 0 has to count as 1, since \"j,j,j->\" can overflow on a result of 0.", "quantifier": "for all signed and unsigned ranges, programs, shapes, strides, layouts and element values", "why_tests_cant": "tests run one profile with small numbers; the claims compare two profiles on all values, for every kernel einsum can choose", "anchors": ["Cargo.toml:36-37", "src/ops/binary_ops.rs:56-133", "src/ops/unary_ops.rs:17-36", "src/ops/reduce_sum.rs:14-40", "src/ops/reduce_product.rs:14-40", "src/util/absolute.rs:7-48", "src/ops/reduce_max_magnitude.rs:14-60", "src/ops/dot_product.rs:16-45", "src/linalg/sum_of_products.rs:30-267", "src/linalg/matrix_ops.rs:300-417"]}
{"id": "C78", "title": "Exactly which nested data and types `new` accepts", "statement": "For data of any nesting of Vecs around fixed-size arrays, `new` succeeds exactly when the lengths along first children (d, d[0], d[0][0], ...) are the same for every child of the outermost level and there is at least one element; otherwise it panics. The array has these lengths as shape and all leaves, left to right, as buffer, also when deeper levels are ragged: then the element at an index is the leaf at its row-major rank or, if there are too few leaves, lies outside the buffer; every element is readable exactly when the shape has at most as many elements as there are leaves; for rectangular data it is the element at the index. Types of up to four levels are taken with exactly one D. Because Nested<5> for Vec asks for Nested<6>, a deeper type is taken with D (5 to 8) exactly when from level D-5 on every second level is a Vec until an array at the fifth level from the inside: no type with a Vec there is taken, pure arrays are taken up to eight levels, and some types are taken with two values of D.", "quantifier": "for all element types, nestings, depths and data, ragged or not", "why_tests_cant": "tests construct a few rectangular literals and one ragged one; the claims decide every ragged shape and every type", "anchors": ["src/common/constructors.rs:40-52", "src/util/nested.rs:3-23", "src/util/homogenous.rs:1-35", "src/util/shape.rs:4-36", "src/util/flatten.rs:12-66"]}
{"id": "C79", "title": "Array programs treat elements as black boxes", "statement": "Every program of array operations of the portable build (constructors, views, element access and assignment, arithmetic, compound assignment, fill, reductions, trace, dot, matmul, bmm, einsum, comparison, clone, iteration) is parametric in its elements: for any relation R between two element types that the elements and functions of two programs respect, the programs both panic, both leave their allocations, or end in states with the same arrays (pointers, shapes, strides, flags) and related elements. Consequences: without comparisons and partial functions, the outcome and every array of a program are those of the same program over a type with one value; running a program on images under a homomorphism gives the images of the results; and every element of every result is generated from the program's elements by the program's operations, so no uninitialised, stale or made-up value ever shows up.", "quantifier": "for all element types, operations, relations, homomorphisms, programs and initial states", "why_tests_cant": "tests run a few element types on a few values; independence of values, and of the element type, is a claim about pairs of executions over all of them", "anchors": ["src/ops/*", "src/ndarray/*", "src/common/*", "src/linalg/*"]}
{"id": "C80", "title": "Tensor programs and backward treat elements as black boxes", "statement": "Every program of tensor operations, including backward, backward_with and zero_gradient, is parametric in its numbers in the sense of C79. Its outcome, the shapes, flags and graph nodes do not depend on the numbers; in particular whether backward panics never depends on values. Computing gradients commutes with homomorphisms. For arbitrary numbers without any law, such as floats with rounding and NaN: an admissible program (C33) panics or ends with the tensors, requires_grad flags, shapes and gradient shapes of the reference machine, never leaving its allocations; backward of an untracked tensor changes nothing (C35); and backward succeeds under the conditions of C36.", "quantifier": "for all number types and operations without laws, all programs of tensor operations", "why_tests_cant": "tests use a few float values; NaN, infinities and rounding on every path cannot be enumerated", "anchors": ["src/autograd/*", "src/tensor/*"]}
{"id": "C81", "title": "Whole programs on machine words", "statement": "With usize arithmetic on words of any size, every program of array operations in a build with overflow checks ends exactly as with unbounded numbers or panics; where it does not panic, the release build (overflow checks off) ends the same way. A program in the scope of C62 in which every array has fewer axes than words, a positive number of elements that fits a word and strides whose sum fits a word, no allocation has more elements than half the words, and the index combinations of every einsum fit a word, ends in both builds exactly as with unbounded numbers. So programs in the scope of C62 never leave memory in a build with overflow checks. In the release build they do: for all m, n >= 2 and words of m*n values, the outer product by einsum of two broadcast vectors of m and n elements (both views of one cell) writes outside its empty output, and a row of the sum of a broadcast column and a broadcast row reads outside it, where the build with checks panics.", "quantifier": "for all word sizes, element types, operations, programs and initial states", "why_tests_cant": "tests run on 64-bit words with small arrays, so no size ever overflows, and mostly in a build with overflow checks", "anchors": ["Cargo.toml", "src/ops/*", "src/ndarray/*", "src/common/*", "src/linalg/*"]}
{"id": "C82", "title": "Exactly which tensor programs panic", "statement": "Whether a program of tensor operations (with calls of backward) panics depends only on which tensors require a gradient, on shapes and strides, and on the journeys of gradients, all computed by a small machine without memory, nodes or numbers: the program panics exactly when the machine stops, and otherwise its tensors have the flags, shapes and strides of the machine. A gradient gets stuck only where it is summed away entirely on its way to an operand that keeps axes, or has to be reshaped without being evenly spaced.", "quantifier": "for all admissible programs and all numbers, with no laws assumed", "why_tests_cant": "whether backward panics depends on the strides of arrays made in the middle of the backward pass; no set of sample graphs covers the combinations of views, broadcasts and shared tensors", "anchors": ["src/tensor/*", "src/autograd/*", "src/common/reshape.rs", "src/autograd/util.rs: reduce_gradient"]}
{"id": "C83", "title": "Tensor programs and gradients in every build", "statement": "A program of tensor operations with calls of backward does exactly the same in every combination of the features neon_simd, blas and apple_vdsp: the same panics, or the same tensors, nodes, memory and gradients, which are those of the reference machine. With blas, operands and results of matrix products must have no axis of length 1 and fewer than 2^31 elements; a column times a row then backward gives a zero gradient with a library that rejects a leading dimension by returning.", "quantifier": "for all admissible programs, fields, builds, vector widths, and reactions of the library to illegal parameters that do not write", "why_tests_cant": "the test-suite is compiled for one build at a time, and the calls a library receives during backward have strides that depend on the whole graph", "anchors": ["src/tensor/*", "src/autograd/*", "src/kernels/*", "src/ndarray/ops/*", "Cargo.toml: features"]}
{"id": "C84", "title": "Certified rounding errors of tensor programs and gradients", "statement": "In f32 and f64, a tensor program with calls of backward, run by the portable kernels (matrix products fused, sums from left to right), panics exactly when the layout machine of C82 says so; otherwise every element of every tensor and of every gradient lies within a computable bound of its true value, the element of the reference machine on exact rationals (for a gradient, the true derivative). The bound is the running error of the same operations, and it is present unless a value may overflow, a divisor may be zero, or an input is not finite.", "quantifier": "for all admissible programs and all input floats, f32 and f64", "why_tests_cant": "the rounding errors of a gradient depend on every value along every path of the graph; a test compares with a tolerance picked by hand", "anchors": ["src/tensor/*", "src/autograd/*", "src/linalg/sum_of_products.rs: mul_add", "src/ndarray/ops/*"]}
{"id": "C85", "title": "Tensor programs on numbers that fit are not rounded", "statement": "In f32 and f64, if every number met by a tensor program (portable kernels, backward included) fits in the significand and the exponent range, then every element of every tensor and gradient is exactly its true value: the float results are the rational results, and gradients are the true derivatives. Whether every number fits is decided by running the program on certified numbers.", "quantifier": "for all admissible programs and all input floats, f32 and f64", "why_tests_cant": "tests with small integers compare floats with ==, which is sound only if no intermediate value of the engine is rounded; the intermediate values of backward are not visible to a test", "anchors": ["src/tensor/*", "src/autograd/*", "src/linalg/sum_of_products.rs: mul_add"]}
{"id": "C86", "title": "The example programs have the gradients of calculus at every size", "statement": "The program of README.md with an m x n matrix (divide a by b, scale by c + 5, multiply by b, backward) never panics and leaves the gradient c + 5 in every entry of a and zero in every entry of b. backward0 of src/bin/backwards.rs has, in every round, the gradients b/(c+1), a/(c+1) and -ab/(c+1)^2, and zero after each round however many there are; backward1 has x in every row of the gradient of a, and ones for b. No round panics.", "quantifier": "for all fields, all non-zero sizes, all data (entries of b invertible in the README program), any number of rounds", "why_tests_cant": "the examples are run at one size with one set of numbers, and the benchmark does not look at its gradients at all", "anchors": ["README.md:157-175", "src/bin/backwards.rs:10-65"]}
{"id": "C87", "title": "assert_almost_eq! accepts exactly the arrays within the tolerance", "statement": "The exported macro assert_almost_eq!(left, right, tol) passes when the arrays have one shape and all elements differ by at most tol, and panics otherwise.", "quantifier": "for all valid arrays of every layout, all ordered element types and all tolerances", "why_tests_cant": "the macro is what the tests use to compare floats: a comparison that lets errors through cannot be noticed by tests that rely on it", "anchors": ["src/macros.rs:149-159", "src/ndarray/reduce.rs: max", "src/ndarray/equals.rs"]}
{"id": "C88", "title": "Compiled with neon_simd, the rounding errors of tensor programs and gradients stay within certified bounds", "statement": "A tensor program in f32 or f64 compiled with neon_simd panics exactly when the layout machine of C82 says so; otherwise every element of every tensor and gradient with a certified bound is a finite float within that bound of the exact value, and where every bound is zero it is the exact value. The build without the feature has the same layouts, and an element with bounds in both builds differs by at most their sum.", "quantifier": "for all admissible tensor programs, both float formats, all lane counts and remainders", "why_tests_cant": "with vector lanes sums are reordered and fused, so results differ from the portable build; a test with a tolerance samples a few sizes and cannot tell a reordered sum from a dropped or doubled lane at other sizes", "anchors": ["src/ops/simd_binary_ops.rs", "src/ops/simd_neg.rs", "src/ops/simd_sum_of_products.rs", "src/acceleration/simd.rs", "src/autograd"]}
{"id": "C89", "title": "astype converts every element exactly as documented, or panics", "statement": "astype returns a new array of the same shape whose elements are the converted elements in order: to an integer type the integer part, to a float type the value rounded to nearest with its sign. It panics exactly when some element's integer part does not fit the new type or the element is NaN or infinite. Converting to a type that contains the old one and back gives the original elements; for every other pair of types some value does not come back.", "quantifier": "for all valid arrays of every layout and all pairs of the fourteen numeric types", "why_tests_cant": "196 pairs of types, each with values at the edges of both ranges and around the float precision; the tests convert 0 to 4", "anchors": ["src/ndarray/astype.rs", "src/util/dtype.rs"]}
{"id": "C90", "title": "einsum and the named functions give the same answer", "statement": "einsum with \"i,i->\", \"ij,j->i\", \"ij,jk->ik\", \"ik,jk->ij\", \"bij,bjk->bik\", \"ii->\", distinct labels and no output, or the same labels everywhere returns the same array as dot, matmul, matmul by the transpose, bmm, trace, sum and the elementwise product; einsum_view \"ii->i\" shows the cells of diagonal. For matmul of two matrices the two run the same steps, so the results are identical bit for bit even in floating point; for dot in f32 they are not.", "quantifier": "for all sizes, layouts and elements of every commutative semiring; for matmul for all element types and arithmetic, also arithmetic that panics", "why_tests_cant": "each pair has its own kernels chosen by shape and strides; tests compare a few contiguous sizes and the benchmarks only time them", "anchors": ["src/linalg/einsum.rs", "src/linalg/matrix_ops.rs", "src/bin/einsum.rs"]}
{"id": "C91", "title": "What a tensor says about itself", "statement": "After any program, requires_grad of a tensor is what its operands said when it was made (false for a constructor), or the argument of the last set_requires_grad on it. is_leaf is true exactly for tensors that require no gradient or were made by a constructor. A tensor that requires no gradient shows none; a leaf that requires one shows one, of its own shape. detach returns a new array in a block that no tensor and no gradient uses, with the tensor's shape and elements, leaves the rest of memory alone, and compares equal to the tensor. value returns the only element and panics if there are several. Tensors compare equal exactly if shapes and elements do.", "quantifier": "for all programs of tensor operations over any numbers, with no laws assumed; for detach, value and == all admissible programs (C33)", "why_tests_cant": "the flags depend on the whole history of a tensor: what made it, and every set_requires_grad on it and on its operands before and after; the tests read is_leaf and requires_grad in a few one-step programs", "anchors": ["src/tensor/autograd.rs", "src/tensor/constructors.rs", "src/tensor/methods.rs", "src/tensor/equals.rs"]}
{"id": "C92", "title": "uniform stays in its range and randn keeps what it draws", "statement": "uniform(shape, low, high) with finite low < high whose difference does not overflow returns a new array of the shape whose elements are the values drawn, all in [low, high), and panics when the ends are not finite or not in order. randn(shape) never panics: every element is the f64 drawn, rounded to the element type with its sign, the very value for f64, and finite below the overflow threshold.", "quantifier": "for both float types, all bounds, all shapes and every sequence of values the sampler may return", "why_tests_cant": "the tests draw a few thousand values between ordinary bounds; an end that rounds into the range is a corner of measure zero (rand has one, C48), and nothing is drawn near the largest float", "anchors": ["src/common/random.rs: uniform", "src/common/random.rs: randn"]}
{"id": "C93", "title": "What the benchmark programs compute", "statement": "Each program of binary_ops.rs returns an array of the expected shape whose element (r, c) is the sum of the two values drawn at the positions its slices select, and each program of reduce.rs returns one value, the left-to-right combination of exactly the values its slice selects, starting from the neutral value.", "quantifier": "for every size (the programs use one million), all data, all element types and operations, every program number", "why_tests_cant": "the programs only measure time and throw the results away, and at their size nobody looks at the values", "anchors": ["src/bin/binary_ops.rs", "src/bin/reduce.rs"]}
{"id": "C94", "title": "Vectorised compound assignment between operands that share memory", "statement": "With the NEON kernels, if the elements of a and the elements of b as a op= b walks through them each lie on one line, the values written are determined by a recurrence: the k-th is op applied to the old k-th element of a and to what the k-th element of b holds once the earlier blocks of 4L elements have been written, or all earlier elements in the scalar loop at the end; a b that stands still keeps its first value in all blocks. The values land in consecutive cells, nothing else changes, no panic. On all other layouts, and with a scalar on the right, the result is that of the portable loop. Every element gets the expected value, for all operations and contents, exactly when the elements of a are consecutive and no read sees an earlier block.", "quantifier": "for every scalar operation, 2 or 4 lanes, all heaps, all writable views reachable by any chain of view operations, all right-hand sides that may share memory with the left", "why_tests_cant": "the outcome depends on the distance between the operands compared with the block size and on the length modulo the block size", "anchors": ["src/ops/simd_binary_ops.rs", "src/ops/binary_ops.rs", "src/ndarray/assign_ops.rs"]}
{"id": "C95", "title": "Which vectorised operations form pointers outside the allocation", "statement": "Rust's rule for moving raw pointers (C76) applied to the NEON kernels, whose loops move their pointers by four registers at a time and once more after the last element. The vectorised arithmetic, negation and compound assignment are undefined exactly when an operand (after stretching) lies on one line of step s and its n elements satisfy first + n*s > size of the allocation; the vectorised sum, product, min and max exactly when this holds for an operand with even strides. Otherwise the result is that of the kernels with checked accesses only. The vectorised einsum and product of two matrices never form such a pointer; the batched product does exactly when the place after the last matrix of either operand is outside. So the vectorised and the portable build are undefined on the same arrays. Any column but the first of any fresh matrix is an example.", "quantifier": "for 2 and 4 lanes, all element operations, heaps, shapes, strides, offsets, allocation sizes and lengths modulo the block size, also when operands share memory", "why_tests_cant": "the pointer is never read, so compiled code gives the right values and no test fails; the length decides whether the unrolled or the scalar loop makes the last move", "anchors": ["src/ops/simd_binary_ops.rs:9-308", "src/ops/simd_neg.rs:6-68", "src/ops/simd_reduce_ops.rs:7-205", "src/ops/simd_sum_of_products.rs:12-166", "src/linalg/matrix_ops.rs:362-392"]}
{"id": "C96", "title": "Exactly when a NaN reaches the vectorised minimum and maximum", "statement": "On every view with even strides whose run of n cells stays in the buffer, the NEON min and max of floats with L lanes return NaN exactly if one of the first b*(n/b) cells of the run is NaN, where b is 4*L if the step is one and L otherwise. In every other case the result is the start value or one of the cells, and bounds the start value and all cells that are not NaN, wherever in the tail the NaN cells are. So for the same values the answer depends on their order, on the step of the view and on the number of lanes. The portable loop never returns NaN, and the two answers are equal as floats exactly if no cell in a whole block is NaN. On views with uneven strides NaN never reaches the result. On runs shorter than a block the result is that of the portable loop bit by bit.", "quantifier": "for 2 and 4 lanes, all float values, heaps, views (broadcast ones included), lengths, steps and start values that are not NaN", "why_tests_cant": "the outcome changes with the position of the NaN relative to the last whole block, with the length modulo the block size and with the stride; tests put a NaN at a few positions of one array at most", "anchors": ["src/ops/simd_reduce_ops.rs:108-205"]}
