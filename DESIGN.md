# Formal model of redstone-ml: design

The model is written in Rocq (Coq 8.16.1) under `rocq/theories`. The source
under `/repo` was read as text only; nothing was built or executed.

## Approach

* **Values and failure.** Every modelled function is a total Gallina function
  returning `res A = Ok a | Panic | Oob`. `Panic` is a Rust panic (failed
  assertion, `Vec` index out of range, checked subtraction). `Oob` is an access
  through a raw pointer to a cell that is not part of a live allocation, i.e.
  undefined behaviour in the Rust program. Totalised defaults are not used to
  hide failures.
* **Memory.** A heap is a list of blocks, a block is `Some cells` or `None`
  (freed). An array is the record of the Rust struct: block, offset, `len`,
  `capacity`, shape, stride, flags. All kernels read and write this heap, so
  aliasing between views is part of the model.
* **Element types.** Element types are abstract; the operations a kernel uses are
  arguments. Where an algebraic law is needed (einsum, autograd) it is an explicit
  premise of the theorem, and instances (integers, wrapping integers) are given.
  Statements about order of evaluation are exact folds, so they also hold for
  floating point. Statements specific to floating point use the axiom-free
  `SpecFloat` of the standard library.
* **Specification.** `Spec.v` is the independent specification: row-major
  enumeration of multi-indices, inner product of an index with strides, element
  lookup, NumPy broadcasting of one index, sums over index lists. `SpecGrad.v` is
  the specification of differentiation: a machine that evaluates a program over
  dual numbers. `SpecRef.v` is a reference machine for whole programs of array
  operations, without strides, flags or pointers (C63). `SpecFlow.v` is a machine
  that knows only shapes, strides and the journeys of gradients, and says which
  tensor programs panic (C82). `SpecCert.v` has the rules of running error analysis
  (C84). Theorems relate model functions to these few definitions.

## Trusted base

* Coq's kernel (with `vm_compute`, used for witnesses and examples).
* What `Print Assumptions` lists beside each theorem. Every theorem named in
  `MANIFEST.json` prints "Closed under the global context": no axiom is used, not
  even of the standard library. (`vcheck` lists axioms of `Coq.ssr.ssrunder` as
  loaded, because a library file mentions them; no theorem uses them.)
* The reading of the Rust source into Gallina. Each model definition cites the file
  and lines it models and says what it leaves out.

## What is modelled

| model file | source |
|------------|--------|
| `Base.v` | failure monad, heap, array record (`src/ndarray.rs`) |
| `Layout.v` | strides, axis arithmetic, `collapse_contiguous.rs`, `flat_index_generator.rs`, `util/axis.rs`, `util/functions.rs` |
| `Views.v` | `reshape.rs`, `slice.rs`, `util/index.rs`, `broadcast.rs`, diagonals of `matrix_ops.rs`, `common/reshape.rs`, constructors from buffers |
| `Kernels.v` | `ops/binary_ops.rs`, `ops/unary_ops.rs`, `binary_ops.rs`, `assign_ops.rs`, `unary_ops.rs` |
| `Access.v` | `index_impl.rs`, `methods.rs`, `clone.rs`, `equals.rs`, `fill.rs`, `astype.rs`, `flat_iterator.rs`, `buffer_iterator.rs` |
| `Reduce.v` | `reduce.rs`, `ops/reduce_*.rs`, `util/partial_ord.rs`, trace |
| `Einsum.v` | `linalg/einsum.rs`, `specialized_einsum.rs`, `sum_of_products.rs`, `multi_flat_index_generator.rs`, `dot_product.rs`, products of `matrix_ops.rs` |
| `Iter.v` | `tensor_iterator.rs`, `iterator/util.rs` |
| `Nested.v` | `util/flatten.rs`, `homogenous.rs`, `shape.rs`, `NdArray::new` |
| `Autograd.v` | `src/autograd/*.rs`, `src/tensor/*.rs` |
| `Observe.v` | `is_leaf`, `requires_grad`, `gradient`, `detach` (`src/tensor/autograd.rs`), `value` (`methods.rs`), `==` (`equals.rs`); the UserCreated flag (`constructors.rs`) |
| `Numeric.v` | `arange`, `linspace`, `randint`, `rand` of `common/constructors.rs`, `common/random.rs` |
| `Simd.v` | `acceleration/simd.rs`, `ops/simd_*.rs` and the functions that select them (`neon_simd`) |
| `Vendor.v` | `acceleration/cblas.rs` and its callers in `dot_product.rs`, `matrix_ops.rs` (`blas`) |
| `Vdsp.v` | `acceleration/vdsp.rs` and its callers in `ops/*.rs` (`apple_vdsp`) |
| `Builds.v` | the `cfg` attributes that select between the versions above, for every combination of features |
| `BuildsGrad.v` | `Autograd.v` with the array operators of a build as parameters (the engine itself has no `cfg` attributes) |
| `FloatCert.v` (first section) | the engine on f32 and f64: `Autograd.v` with `mul_add` in the matrix kernels |
| `NeonGrad.v` (first definitions) | the engine on f32 and f64 with `neon_simd`: `BuildsGrad.v` with the vector kernels of `Simd.v` and fused multiply-add |
| `Almost.v` | the macro `assert_almost_eq!` of `src/macros.rs` |
| `Random.v` | `uniform`, `randn`, and `randint` for float types, of `common/random.rs` |
| `Align.v` | `Flatten` and `Constructors::new` with the alignment assertion of `util/flatten.rs` |
| `Bench.v` | the programs of `bin/binary_ops.rs` and `bin/reduce.rs` |
| `Cast.v` | `astype` with the conversions between the fourteen numeric types |
| `Pointers.v` | the loops that move raw pointers, with Rust's rule for `ptr.add` and `offset` (portable build) |
| `SimdPointers.v` | the same for the vectorised elementwise kernels, reductions, einsum and matrix products |
| `Ints.v` | arithmetic of the integer types with and without overflow checks (`[profile.release]` in Cargo.toml), and the operations on integer arrays |
| `Print.v` | `print.rs` of arrays and tensors, `collapse_contiguous` |
| `Word.v` | size arithmetic of `full`, `reshape` and indexing on machine words, checked and wrapping |
| `WordViews.v` | every view operation and the flat index generator on machine words |
| `WordOps.v` | the operations that read, write and allocate, and programs of them, on machine words |
| `Owner.v` | `Drop` and ownership of `ndarray.rs`, consuming views, `lifetime_cast`, sharing of arrays between tensors and graph nodes |

`Chain.v` is not code: it defines which arrays a user can reach by view operations.
The `*Facts*.v` and `Blackbox*.v` files and `GradMath.v` hold lemmas; the `Props*.v` files hold the
theorems, each with `Print Assumptions` and an example that meets its premises.

### Simplifications that apply everywhere

* `usize` is `nat`: additions and multiplications of sizes, strides and offsets
  do not wrap. Subtractions are checked (`Panic` on underflow), as in a build
  with overflow checks; in a release build they would wrap. `Word.v`, `WordViews.v`
  and `WordOps.v` (C59, C70, C81) treat array programs on words.
* Fixed arrays `[usize; MAX_DIMS]` are lists of the used length; the panic when
  more than 32 axes are stored is kept.
* Pointers are (block, offset) pairs; pointer arithmetic itself never fails (except in `Pointers.v` and `SimdPointers.v`, C76 and C95), only
  loads and stores do. Rust's aliasing rules for references are not modelled.
* Allocation never fails, and values of the element type are `Copy` and have no
  destructors, as in the code.
* A panic ends the modelled computation; unwinding and catching are not modelled.

### Simplifications of single parts

* Elementwise kernels, reductions and products (C12-C30): the portable code. The
  `neon_simd` kernels are modelled separately (C49-C51) and related to the portable
  ones. A vector register is a list of L lanes, L = 4 for `f32` and 2 for `f64`. An
  intrinsic is the scalar operation applied lane by lane; horizontal operations combine
  lanes in the order Arm documents. The lanes of vminq and vmaxq (C50, C96) follow Arm's
  FMIN and FMAX: NaN if an operand is NaN, and -0 below +0.
* The `blas` back end (C52): each cblas routine is represented by its documented
  contract. Legal parameters give the sum of products; what happens with illegal ones is
  a parameter of the theorems. `as i32` keeps the low 32 bits.
* The `apple_vdsp` back end (C53): vDSP routines are represented by their documentation.
  Inputs are read before outputs are written. Reductions are a library function given
  as an argument with a contract. A contract says nothing about NaN.
* Autograd (C31-C37): arithmetic of an arbitrary field, so rounding is not modelled
  there; C84 and C85 add it for the portable build.
  Temporaries are not dropped in this part (memory safety of dropping is C45). The
  macro `call_next` evaluates its gradient argument twice when both operands are
  tracked; the model evaluates it once, which gives the same values.
* Tensor programs of C33-C36 leave out consuming view operations; they are treated by
  C47.
* Numeric constructors: `SpecFloat` arithmetic with rounding to nearest even;
  integer arithmetic is checked. The random generator is an oracle that returns an
  arbitrary value of the documented range.
* Ownership (C39, C45): a machine over programs whose instructions are constructing,
  viewing, moving, cloning, reading and dropping. Only the sizes of buffers are
  kept. The borrow checker is represented by a type system read off the signatures;
  theorems quantify over all programs it accepts. Capacity equals length for every
  fresh buffer. Empty arrays are not constructed. Dropping counts as a use.
* Nested data (C04): `Nested.v` leaves out the alignment assertion on fixed-size arrays;
  `Align.v` has it, and C04_alignment_* say when it makes a difference.

### Not modelled

Profiling: the timing and repetition of `profiler.rs` and the command lines of the binaries under
`src/bin`. The programs they time are modelled: `backwards.rs` (C86), the pairs of calls of
`einsum.rs` (C90), `binary_ops.rs` and `reduce.rs` (C93).

### The repository's tests on the model

`Conform.v`, `ConformOps.v`, `ConformLinalg.v` and `ConformGrad.v` translate the
tests under `tests/` and evaluate them on the model, `ConformUnits.v` does the same for the
unit tests inside `src/`, and `ConformDocs.v` for the examples in documentation comments. They are tests, not proofs, and
no property rests on them; they check that the model computes what the authors
expect of the code. Random data is replaced by fixed data, and some loops run over fewer
sizes or fewer element types; the comments say where. The tests of random
constructors, of arrays of `bool`, the einsum tests on scaled floats and the compile-error test are left out. Every
assertion translated holds in the model. Three remarks came out of it:

* `println` (tests/ndarray.rs 73-77) builds an array of vectors, which reads the
  headers of the vectors as data (C02).
* `iterate` (tests/ndarray.rs 330-361) passes although the fourth sub-array it visits
  is wrong (C38); `test_float_arange` (tests/constructors.rs 169-179) passes although
  its expected values are wrong (C87).
* `test_autograd_view` and `test_autograd_moved_reshape` (tests/autograd.rs 468-516)
  lack the `#[test]` attribute and would fail.

## Checks against wrong programs

`seeded/LOG.jsonl` lists edits of model definitions, made in a scratch copy, and the
theorems that fail because of them. An edit that no theorem noticed led to a new or
stronger theorem, recorded in the same line.

## Properties: model, method, result

Statements are in `properties.jsonl`, theorem names in `MANIFEST.json`; names ending in
`_partial` carry premises beyond the statement, names ending in `_refuted` are
counterexamples computed from the model.

### C01 flatiter visits every element once, in row-major order

*Model and method.* `fig_list` models the generator state machine of flat_index_generator.rs. Induction on axes: the state is a mixed-radix counter.

*Result (proved).* Any array whose element cells are live, any strides; more than 32 collapsed axes panic.

*Theorems.* `C01_flatiter_row_major`, `C01_flat_indices`

### C02 Merging axes does not change which elements are visited

*Model and method.* `collapse` models collapse_to_uniform_stride. Induction on axes: equal offset lists.

*Result (proved).* All layouts.

*Theorems.* `C02_collapse_same_addresses`

### C03 A freshly built array stores its data in row-major order

*Model and method.* Fresh arrays; row-major position is a bijection between indices and cells.

*Result (proved).* from_buffer (new/clone/operators end here), full/zeros/ones/scalar.

*Theorems.* `C03_buffer_row_major`, `C03_full`

### C04 Nested literal data is accepted exactly when it is rectangular

*Model and method.* `nest` values with a type of nested Vec and fixed-size arrays; homogeneity check, shape and flattening by mutual recursion. Induction on the nesting.

*Result (partial).* Accepted inputs: proved for every rectangular input of any nesting of arrays and Vecs (shape and row-major content) and, conversely, that accepted inputs with at most two Vec levels are rectangular; empty inputs panic. The full statement (every accepted input is rectangular) is false: a ragged three-level Vec passes the homogeneity check, and an array of ragged Vecs is not checked at all; both witnesses are computed. The alignment assertion of flatten.rs 34 is modelled in Align.v: it never fires for elements aligned to at most 8 bytes or without a fixed-size array around a Vec, and for i128 and u128 it turns the bad read into a panic.

*Theorems.* `C04_alignment_small`, `C04_alignment_vecs_outside`, `C04_alignment_large`, `C04_alignment_panics`, `C04_rectangular_partial`, `C04_accepted_is_rectangular_partial`, `C04_empty_panics`, `C04_ragged_refuted`, `C04_array_of_vec_refuted`

### C05 reshape keeps the row-major sequence of elements

*Model and method.* `nd_reshape`; offset lists of uniformly strided layouts.

*Result (partial).* Proved for chains without broadcast_to; success only for arrays flagged uniformly strided and not scalar. Refuted: reshape of a broadcast view leaves the buffer; reshape of a scalar to [1] panics.

*Theorems.* `C05_reshape_partial`, `C05_reshape_refuted`, `C05_scalar_reshape_refuted`

### C06 transpose swaps two axes and nothing else

*Model and method.* `nd_transpose`; element maps.

*Result (proved).* All reachable arrays, consuming and borrowing.

*Theorems.* `C06_transpose`, `C06_transpose_panics`

### C07 squeeze and unsqueeze only add or drop unit axes

*Model and method.* `nd_squeeze`, `nd_unsqueeze`; element maps and offset lists.

*Result (proved).* All reachable arrays, consuming and borrowing.

*Theorems.* `C07_squeeze`, `C07_unsqueeze`

### C08 slice selects the requested sub-box

*Model and method.* `nd_slice`, `nd_slice_along` with the indexers of util/index.rs.

*Result (proved).* In-range, non-empty requests on every reachable non-empty array, broadcast or not.

*Theorems.* `C08_slice`, `C08_slice_along`

### C09 Slicing outside an axis is rejected

*Model and method.* Same model; the counterexamples are computed.

*Result (partial).* Refuted: upper bounds are never checked. Proved: too many indexers and reversed ranges panic (the latter only with overflow checks, see C70).

*Theorems.* `C09_slice_rejects_partial`, `C09_slice_refuted`, `C09_slice_along_refuted`

### C10 Broadcast views repeat elements exactly as NumPy does

*Model and method.* `nd_broadcast_to`; strides of stretched axes are 0.

*Result (proved).* All reachable arrays.

*Theorems.* `C10_broadcast_to`

### C11 The common broadcast shape follows the NumPy rule

*Model and method.* `broadcast_shapes`; induction on aligned shapes.

*Result (proved).* All shapes.

*Theorems.* `C11_broadcast_shapes`, `C11_broadcast_shapes_algebra`

### C12 Binary operators are pointwise on the broadcast shape

*Model and method.* `k_binary` with all of its specialised branches; every kernel is shown to be one loop over address lists, then compared with the element map.

*Result (proved).* Arbitrary element operator that may panic; any live layouts incl. overlapping and broadcast operands; at most 32 axes.

*Theorems.* `C12_binary`, `C12_incompatible_shapes_panic`

### C13 Scalar operators and negation are pointwise

*Model and method.* `k_scalar`, `k_unary`, `nd_astype`; as C12.

*Result (proved).* As C12; astype included.

*Theorems.* `C13_scalar_op`, `C13_negation`, `C13_astype`

### C14 Compound assignment updates every element in place

*Model and method.* `nd_assign`; the loop writes the elements in order, so the premise is that no step reads a cell written earlier.

*Result (partial).* Proved for contiguous left sides without feedback; refuted for strided left sides and overlapping operands.

*Theorems.* `C14_assign_partial`, `C14_no_feedback`, `C14_assign_scalar_partial`, `C14_assign_shape_panics`, `C14_strided_refuted`, `C14_overlap_refuted`

### C15 Read-only (broadcast) views are never written

*Model and method.* Write flags of views in `nd_assign`, `nd_fill`, `nd_index_set`.

*Result (partial).* op= rejects broadcast views; fill and element assignment do not (refuted).

*Theorems.* `C15_assign_readonly_partial`, `C15_fill_readonly_refuted`, `C15_index_set_readonly_refuted`, `C15_fill_outside_refuted`

### C16 fill sets exactly the elements of the array

*Model and method.* `k_fill`, recursion over axes.

*Result (partial).* Proved for all reachable views that were not broadcast; refuted for broadcast ones.

*Theorems.* `C16_fill_partial`, `C16_fill_broadcast_refuted`

### C17 clone is an equal, independent, contiguous copy

*Model and method.* `clone_data` with its three copying strategies, `nd_flatten`.

*Result (partial).* Proved unless the source is a broadcast view flagged contiguous; refuted there.

*Theorems.* `C17_clone_partial`, `C17_clone_broadcast_refuted`, `C17_clone_broadcast_wrong_refuted`

### C18 Array equality is extensional

*Model and method.* `nd_eq`; via C01.

*Result (proved).* Any element comparison, any layouts.

*Theorems.* `C18_equality`, `C18_equivalence`

### C19 Whole-array sum and product fold over all elements

*Model and method.* `k_reduce`; folds over address lists.

*Result (partial).* Any step function (may panic). Proved without broadcasting and for layouts that are not flagged uniform; refuted for broadcast views.

*Theorems.* `C19_fold_partial`, `C19_fold_total_partial`, `C19_broadcast_sum_refuted`, `C19_broadcast_sum_wrong_refuted`

### C20 Reductions along axes aggregate exactly the matching elements

*Model and method.* `nd_reduce_along` writes through a strided view of the output; the fold over a fibre is extracted from the interleaved loop.

*Result (proved).* Any live layout, any step function, any start value; at most 32 axes.

*Theorems.* `C20_reduce_along`, `C20_axes_order_and_sign_irrelevant`, `C20_bad_axes_panic`

### C21 min and max return an attained bound

*Model and method.* `partial_max` and friends as folds; order theory.

*Result (partial).* Proved for strict total orders whose start value is beyond all elements (integer types), whole and along axes; refuted for infinite floats and broadcast views.

*Theorems.* `C21_max_partial`, `C21_min_partial`, `C21_max_magnitude_partial`, `C21_min_magnitude_partial`, `C21_max_infinity_refuted`, `C21_min_infinity_refuted`, `C21_broadcast_refuted`

### C22 mean is sum divided by count

*Model and method.* `nd_mean`, `nd_mean_along` on top of sums and scalar division.

*Result (partial).* Proved for non-broadcast mean and non-negative axes; negative axes panic (refuted). Conversion of the count is a parameter.

*Theorems.* `C22_mean_partial`, `C22_mean_along_partial`, `C22_negative_axis_refuted`

### C23 Indexing reads the addressed element

*Model and method.* `nd_index` with its length check.

*Result (partial).* Proved for contiguous arrays and in-range slices; refuted for diagonals and views of slices.

*Theorems.* `C23_index_partial`, `C23_index_slice_partial`, `C23_diagonal_refuted`, `C23_view_of_slice_refuted`, `C23_value`

### C24 Out-of-range indices are rejected

*Model and method.* Same model; counterexamples computed.

*Result (partial).* Only rank and one-axis bounds are enforced; refuted otherwise.

*Theorems.* `C24_index_rejects_partial`, `C24_index_refuted`, `C24_index_set_refuted`, `C24_index_outside_refuted`

### C25 Safe view chains never reach outside the source buffer

*Model and method.* Invariant over the inductive set `chain` of view sequences.

*Result (partial).* All chains except reshape after broadcast_to (refuted).

*Theorems.* `C25_view_chains_partial`, `C25_view_chains_live_partial`, `C25_reshape_after_broadcast_refuted`, `C25_distinct_cells`

### C26 Matrix products follow their definition

*Model and method.* `nd_dot`, `nd_matmul`, `nd_bmm` over commutative semirings; sums over index boxes.

*Result (proved).* Any commutative semiring (wrapping integers are shown to be one), any operand strides, non-empty sizes. Inner and batch mismatches panic.

*Theorems.* `C26_dot`, `C26_matvec`, `C26_matmul`, `C26_bmm`, `C26_mismatch_panics`, `C26_wrapping_integers`, `C26_bmm_inner_mismatch_panics`

### C27 einsum computes the Einstein summation

*Model and method.* `nd_einsum` with parsing of subscripts, strides for labels, axis ordering and all specialised loops.

*Result (partial).* Proved for every label assignment with at least one label, at most 15 operands, 32 axes per operand and 32 labels. Refuted: a request without labels (scalars) panics.

*Theorems.* `C27_einsum_partial`, `C27_too_many_operands_panic`, `C27_scalar_refuted`

### C28 Ill-formed einsum requests panic

*Model and method.* Same model; each malformed request is followed to its panic.

*Result (partial).* Ellipsis-free requests: label length conflict, rank mismatch, bad output labels panic. Refuted: subscript count is not checked; ellipsis axes are ignored.

*Theorems.* `C28_ill_formed_panics_partial`, `C28_extra_subscript_refuted`, `C28_missing_subscript_refuted`, `C28_ellipsis_refuted`

### C29 Loop-order optimisation is a permutation

*Model and method.* `find_best_axis_ordering` and the multi-operand generator.

*Result (proved).* Every number of operands up to 16 and axes up to 32.

*Theorems.* `C29_order_is_permutation`, `C29_generator_visits_all`, `C29_reordered_visits_same`

### C30 diagonal and trace

*Model and method.* `nd_diagonal`, `nd_trace`.

*Result (proved).* Diagonal views on every reachable array; trace with any addition that may panic, at most 32 axes.

*Theorems.* `C30_trace`, `C30_trace_panics`, `C30_diagonal`, `C30_diag_index_meaning`, `C30_diagonal_panics`

### C31 Summing a gradient over broadcast axes is the adjoint of broadcasting

*Model and method.* `reduce_gradient`; adjointness of summation and broadcasting over a field.

*Result (partial).* Over every field: the reduced gradient has the operand's shape and is the adjoint of broadcasting, and reduce_gradient panics exactly when every axis of a non-scalar operand is stretched. Refuted in that case ([1] broadcast to [3]).

*Theorems.* `C31_reduce_gradient_partial`, `C31_failure_partial`, `C31_all_axes_stretched_refuted`

### C32 Each operator's backward rule is the transpose of its derivative

*Model and method.* One step function per node type; inner products of increments and perturbations.

*Result (partial).* One theorem per node type, over every field, for arbitrary layouts of operands and gradient: the increments of the operands' gradients pair with every perturbation like the incoming gradient with the explicit first-order change. Refuted: reshape of a transposed gradient panics. Rounding is not modelled.

*Theorems.* `C32_add_partial`, `C32_sub_partial`, `C32_mul_partial`, `C32_div_partial`, `C32_div_by_tracked_partial`, `C32_neg`, `C32_mul_scalar`, `C32_div_scalar`, `C32_dot`, `C32_matrix_vector`, `C32_matrix_product`, `C32_batched_product`, `C32_reshape_partial`, `C32_transpose`, `C32_reshape_refuted`

### C33 backward computes the full gradient of any expression graph

*Model and method.* The engine and the dual-number machine are run side by side; a simulation relation is kept by every instruction.

*Result (partial).* For every admissible program of any length (all operators, shared sub-expressions, set_requires_grad, several backward calls) the run panics or ends with all values and gradients equal to those of a reference machine that evaluates over dual numbers; never out of bounds. Refuted for seeds that alias a gradient (wrong sum) and broadcast seeds (out of bounds).

*Theorems.* `C33_programs_partial`, `C33_backward_with_partial`, `C33_backward_partial`, `C33_aliased_seed_refuted`, `C33_broadcast_seed_refuted`

### C34 Gradients accumulate additively and can be reset

*Model and method.* Consequences of the simulation and of the model of zero_gradient. `PropsGradOrder.v` has lists of calls: rearranging them does not change the reference machine.

*Result (partial).* Order of any number of backward calls (C34_any_order_partial, when both orders run to the end), zero_gradient and gradient shape. Order is refuted when a seed is itself a gradient (C34_gradient_seed_refuted) and missing for broadcast seeds.

*Theorems.* `C34_order_partial`, `C34_gradient_seed_refuted`, `C34_zero`, `C34_shape`, `C34_any_order_partial`

### C35 Only tensors that require a gradient are tracked

*Model and method.* Invariant on programs.

*Result (proved).* Flags and absence of gradients for every program; backward on an untracked tensor succeeds and changes nothing.

*Theorems.* `C35_flags`, `C35_no_gradient`, `C35_backward_untracked`

### C36 backward never panics on a well-formed graph

*Model and method.* Invariant that makes every step of a backward pass succeed.

*Result (partial).* No panic when one-element tensors are scalars and the program does not both transpose and reshape. Refuted in three ways: broadcast [1] operand, reshape then transpose, squeeze of [1]. C36_exact_partial: exactly which calls panic, in terms of the layout machine of C82.

*Theorems.* `C36_exact_partial`, `C36_backward_partial`, `C36_unit_operand_refuted`, `C36_reshape_transpose_refuted`, `C36_squeeze_refuted`

### C37 Each tensor has its own gradient

*Model and method.* Sharing of AccumulateGrad nodes between tensors.

*Result (partial).* Results of operators with a node of their own show no gradient. Refuted for x + c, x - c, views and no-op reshapes, which share the operand's gradient.

*Theorems.* `C37_computed_partial`, `C37_identity_refuted`

### C38 iter/iter_along/nditer enumerate sub-arrays

*Model and method.* `nditer_next` with the offset arithmetic and carry of tensor_iterator.rs.

*Result (partial).* Proved for one axis (iter, iter_along), no axes, and several axes nested without gaps; bad or repeated axes panic. Refuted for axes with a gap: the carry test compares with the length instead of the length minus one.

*Theorems.* `C38_iter_along_partial`, `C38_nditer_partial`, `C38_bad_axes_panic`, `C38_two_axes_refuted`

### C39 Every buffer is freed exactly once

*Model and method.* Ownership machine with freed blocks, type system for the borrow checker.

*Result (partial).* No buffer is freed twice: proved for every accepted program. Use after free is possible: consuming a view, or data_slice of an owned array, gives a value that outlives the buffer (refuted); excluded otherwise. A buffer whose owner is consumed by reshape, transpose, squeeze, unsqueeze or view is never freed (refuted, with a proof that it always happens); otherwise nothing leaks.

*Theorems.* `C39_no_double_free`, `C39_no_use_after_free_partial`, `C39_use_after_free_refuted`, `C39_data_slice_refuted`, `C39_no_leak_partial`, `C39_consumed_buffer_leaks`, `C39_leak_refuted`

### C40 arange and linspace produce the documented points

*Model and method.* `arange_count`, `linspace` in SpecFloat; exactness of division on small integers.

*Result (partial).* Proved for integer types when |stop-start| and |step| are below 2^24, and for f32/f64 values that are integers in that range (count through SpecFloat division is exact); linspace likewise when the step is an integer. Refuted beyond: arange_with_step(0i32,16777217,16777216) misses an element, arange_with_step(0f64,0.3,0.1) has an extra one, linspace(0f64,1,6) has 7 points, linspace(x,x,3) panics, linspace_exclusive(0f64,1,25) has 26.

*Theorems.* `C40_arange_int_partial`, `C40_arange_int_wrong_way`, `C40_arange_int_refuted`, `C40_arange_float_partial`, `C40_arange_float_refuted`, `C40_linspace_partial`, `C40_linspace_count_refuted`, `C40_linspace_f32_refuted`, `C40_linspace_equal_ends_refuted`, `C40_linspace_exclusive_refuted`

### C41 randint stays in its half-open range

*Model and method.* Sampler as oracle; rounding of the sample.

*Result (partial).* Entries proved to lie in [low, high] for every value the sampler can draw, for bounds below 2^24. Half-open upper bound refuted: randint(0,1) can return 1 because samples are rounded to nearest. Adjacent bounds above 2^24 panic. Sampler is an oracle. C41_attained_partial: the integers randint can return are exactly low..high-1, and high itself unless it is above 2^(p-1) or at most -2^(p-2), p = 24 or 53. Float element types: entries are integers in [low, high] when the bounds are integers; refuted for other bounds, randint(0.25, 0.5) returns 0. Above 2^24 an entry can also lie below low (C41_below_low_refuted).

*Theorems.* `C41_randint_partial`, `C41_upper_bound_refuted`, `C41_large_bounds_refuted`, `C41_empty_range`, `C41_attained_partial`, `C41_randint_float_partial`, `C41_float_bounds_refuted`, `C41_below_low_refuted`

### C42 Contiguity information is truthful

*Model and method.* Flags along view chains.

*Result (partial).* Proved without broadcasting; refuted with it.

*Theorems.* `C42_flags_truthful_partial`, `C42_broadcast_flags_refuted`

### C43 Negative axes are equivalent to counting from the end

*Model and method.* `as_absolute`.

*Result (proved).* Proved as stated.

*Theorems.* `C43_axes`

### C44 Element writes are local

*Model and method.* `nd_index_set`; frame lemma.

*Result (proved).* Index within the recorded length (always so for contiguous arrays).

*Theorems.* `C44_write_local`, `C44_contiguous_in_length`

### C45 Tensors stay valid as long as a graph needs them

*Model and method.* Ownership machine for tensors whose graph nodes hold reference-counted arrays.

*Result (partial).* Refuted: the node of a product or quotient keeps a view operand but not the owner of its buffer; into_ndarray of a view gives a 'static array. Proved without these two uses.

*Theorems.* `C45_no_use_after_free_partial`, `C45_no_double_free`, `C45_view_operand_refuted`, `C45_view_quotient_refuted`, `C45_consumed_view_refuted`

### C46 Views are live aliases

*Model and method.* Address maps of views.

*Result (proved).* Element writes through views; clone independence.

*Theorems.* `C46_views_alias`, `C46_clone_independent`

### C47 View operations by value do not depend on sharing

*Model and method.* Both branches of the by-value view operations of tensor/reshape.rs. `PropsShared.v`: the copy is the row-major sequence, read at the addresses of the unshared result; data with a single marked cell shows that other addresses give other values.

*Result (partial).* view and transpose: always. reshape, squeeze, unsqueeze: for row-major data. Refuted for a shared transposed tensor: the strides of the original are applied to a row-major copy. C47_shared and C47_shared_iff: what a shared tensor gives in general, and that sharing makes no difference for any data exactly when the result without sharing lies row by row in memory.

*Theorems.* `C47_view_transpose`, `C47_reshape_partial`, `C47_shared_transposed_refuted`, `C47_program_refuted`, `C47_shared`, `C47_shared_iff`

### C48 rand stays below one

*Model and method.* As C41.

*Result (partial).* Proved for f64; for f32 entries are proved to be at most 1, and the strict bound is refuted: the f64 sample 1-2^-52 rounds to 1.0.

*Theorems.* `C48_rand_partial`, `C48_one_refuted`

### C49 Vectorised elementwise operators

*Model and method.* `snd_binary`, `snd_scalar_op`, `snd_unary`, `snd_assign` in `Simd.v`. Each block of 4L elements is shown to be the portable loop over the same elements, given that stores of a block are not loaded again by it; induction over blocks, then C12-C14.

*Result (partial).* Binary, scalar and unary operators are proved as stated. Compound assignment is proved for contiguous left sides without feedback, as in C14. Refuted: x[1..] += x[..n-1] and x += x[0..1] give neither the elementwise result on old values nor the result of the portable loop. C94 says what the result is for overlapping operands.

*Theorems.* `C49_binary`, `C49_incompatible_shapes_panic`, `C49_scalar_op`, `C49_negation`, `C49_assign_partial`, `C49_assign_scalar_partial`, `C49_overlap_refuted`, `C49_constant_alias_refuted`

### C50 Vectorised reductions

*Model and method.* `snd_sum` etc. The lanes are described by binary trees whose leaves are the elements read so far; each iteration adds one node per lane. The order on floats is shown to be lexicographic on (class, exponent, mantissa).

*Result (partial).* For every addition, floats included, sum and product combine each element exactly once with 1 to L units, in some order. With an associative and commutative operation this is the portable fold. min and max are proved for floats without NaN (C96 has NaN). The C50_run theorems treat every reachable view whose strides pass has_uniform_stride, broadcast ones included: the cells of a run with the last stride are combined, and the call leaves the buffer exactly when the run does. Refuted: the f64 sum is not bit-for-bit the portable one; with NaN the minimum depends on the position of the NaN; a broadcast view is summed over other cells or out of bounds.

*Theorems.* `C50_sum_partial`, `C50_product_partial`, `C50_monoid_partial`, `C50_float_sum_refuted`, `C50_min_partial`, `C50_max_partial`, `C50_min_nan_refuted`, `C50_run_sum`, `C50_run_product`, `C50_run_min`, `C50_run_max`, `C50_broadcast_sum_refuted`

### C51 Vectorised sums of products

*Model and method.* `ssop_muladd`, `ssop_scaled`, `sdot` against `Einsum.v` as results including failures, then `snd_einsum`, `snd_matmul`, `snd_bmm` through the same loops, then C26 and C27.

*Result (partial).* The scalar-times-row kernel equals the portable loop for every fused operation. Einsum, matmul and bmm are proved to give the mathematical sum in every commutative semiring. Refuted for f64: the reordering changes the rounded result.

*Theorems.* `C51_muladd`, `C51_matmul_partial`, `C51_bmm_partial`, `C51_einsum_partial`, `C51_float_refuted`

### C52 Matrix products through BLAS

*Model and method.* `b_dot`, `b_matmul`, `b_bmm` in `Vendor.v`. The cblas routines are modelled by their documented contract: legal parameters give the sum of products, others give `bad h`, a parameter of every theorem. The order of summation inside the library is immaterial because the element type is a semiring. `C52_rejects` lists the shapes that panic.

*Result (partial).* dot is proved in full. matvec, matmul and bmm are proved when the strides passed as leading dimensions are legal and sizes are below 2^31; row-major operands always are. C52_illegal states exactly what happens otherwise: a panic or all zeros. Refuted in general: the transpose of a column, a broadcast vector, and bmm with different inner dimensions (read out of bounds, or a number instead of a panic). Missing from the full statement: nothing else for matmul; the claim is false there.

*Theorems.* `C52_dot`, `C52_matvec_partial`, `C52_matmul_partial`, `C52_bmm_partial`, `C52_matmul_row_major`, `C52_illegal`, `C52_rejects`, `C52_transposed_column_refuted`, `C52_broadcast_vector_refuted`, `C52_bmm_mismatch_refuted`

### C53 Elementwise operators and reductions through vDSP

*Model and method.* `vnd_binary`, `vnd_assign`, `vnd_scalar_op`, `vnd_assign_scalar`, `vnd_reduce` in `Vdsp.v`. The vDSP routines are modelled by their documentation; the reductions take the library routine as an argument with a contract (`sums_once`, `picks_bound`), which `C53_ex_lib` shows can be met.

*Result (partial).* Elementwise: proved for all layouts when the library operation agrees with the portable one on the operands met (always for floats). Sums: the library adds every element once in some order, so the result equals the portable one when addition is associative and commutative with unit zero. Extrema: proved for floats without NaN, with a premise on the start value only for layouts the library does not handle. C53_run: on broadcast views that pass has_uniform_stride the library is handed a run of cells with the last stride, possibly outside the buffer. Refuted in general: i32/u32 addition that overflows wraps on some layouts and panics on others; max of infinities is -infinity or f32::MIN depending on the layout. Missing from the full statement: nothing else; with NaN the library contract says nothing.

*Theorems.* `C53_run`, `C53_binary_partial`, `C53_binary_float`, `C53_incompatible_shapes_panic`, `C53_scalar_op_partial`, `C53_assign_partial`, `C53_assign_scalar_partial`, `C53_i32_add_partial`, `C53_u32_as_i32`, `C53_i32_overflow_refuted`, `C53_sum_partial`, `C53_sum_monoid_partial`, `C53_max_partial`, `C53_min_partial`, `C53_max_magnitude_partial`, `C53_min_magnitude_partial`, `C53_layout_refuted`

### C54 einsum_view

*Model and method.* `einsum_view` in `Einsum.v`; parsing lemmas in `EinsumParse.v`. The specification is `lookup` of `Spec.v`: the index given to a label.

*Result (proved).* Proved in full for subscripts of letters. C54_view gives the elements, the None case and the write flag; C54_ill_formed_panics the rejected requests; C54_agrees_with_einsum the relation to einsum. Arrays made by einsum_view are among the reachable arrays (Ch_einsum) of all other theorems.

*Theorems.* `C54_view`, `C54_ill_formed_panics`, `C54_agrees_with_einsum`

### C55 Spaces in einsum subscripts

*Model and method.* Same model functions. The parser counts a space as an axis position but gives it no label.

*Result (partial).* Refuted in general. Proved: spaces at the end of an operand's subscripts are ignored (C55_trailing_partial); a space before a letter panics; a space in the output panics in einsum and gives an empty array in einsum_view. Missing from the full statement: nothing else; it is false for the remaining positions.

*Theorems.* `C55_trailing_partial`, `C55_space_before_letter_panics`, `C55_output_space_panics`, `C55_view_space_empty`, `C55_space_refuted`

### C56 Debug text

*Model and method.* `nd_fmt` in `Print.v`, over characters; the text of an element is a parameter. The specification `literal` recurses over the shape and indexes the array; the proof of injectivity reads a literal from left to right.

*Result (proved).* Proved in full. C56_literal gives the text up to spaces, C56_faithful its injectivity and independence of layout, C56_too_many_axes_panics the only panic. Emptiness is excluded in C56_faithful because arrays of shape [0] and [0, 3] print alike (C56_ex).

*Theorems.* `C56_literal`, `C56_too_many_axes_panics`, `C56_faithful`

### C57 collapse_contiguous keeps addresses

*Model and method.* `collapse_contiguous` in `Print.v`; the specification enumerates all indices.

*Result (proved).* Proved in full. The helper is only used by tests of the repository.

*Theorems.* `C57_collapse_contiguous`

### C58 Skipping elements of an index generator

*Model and method.* `fig_advance_by` in `Layout.v`; the mixed-radix addition is related to `rank`.

*Result (partial).* Refuted: the flat index is not moved (flat_index_generator.rs 60 subtracts a value from itself), so a generator skips to the right position but continues from the old address, and may panic. Proved: what does move (C58_position_partial) and that the next item of a new generator is always 0 (C58_next_item_partial). The function has no caller outside its own module.

*Theorems.* `C58_position_partial`, `C58_next_item_partial`, `C58_skip_refuted`

### C59 Size arithmetic on machine words

*Model and method.* `Word.v` repeats full, reshape and indexing with additions and multiplications of an arbitrary word size, checked or wrapping. Theorems compare them with the unbounded model. Witnesses exist for every even number of bits.

*Result (partial).* With overflow checks: proved for full, reshape, sizes, offsets and indexing. Release profile: proved when the requested number of elements is a word; refuted otherwise. full and reshape then return arrays whose elements lie outside the allocation, and indexing accepts indices far out of range. Strides of the given array are assumed to be words. C70 treats the view operations and iteration, C81 the operations that read, write and allocate and whole programs of them; autograd, SIMD and vendor code are modelled with unbounded sizes only.

*Theorems.* `C59_full_checked`, `C59_full_release_partial`, `C59_reachable`, `C59_index`, `C59_reshape_checked`, `C59_reshape_release_partial`, `C59_full_release_refuted`, `C59_reshape_release_refuted`, `C59_index_release_refuted`

### C60 What compound assignment does to any reachable array

*Model and method.* `PropsAssign.v`: `nd_assign` is a loop that stores at consecutive places; the run fits in the allocation because a non-broadcast array has distinct cells; reads stay valid because a store changes no set of readable cells.

*Result (proved).* Proved in full. Gives the true effect where the in-place claim C14 is refuted: the results are stored densely from the first element on, whatever the strides of the destination.

*Theorems.* `C60_assign_safe`, `C60_assign_scalar_safe`, `C60_assign_exact`, `C60_assign_scalar_exact`

### C61 Element access with arbitrary indices

*Model and method.* `PropsProg.v`: for chains without a broadcast, `a_off + a_len` stays within the allocation (`chain_extent`), so the single comparison with len is enough.

*Result (proved).* Proved in full: the exact behaviour where the per-index claims C23 and C24 are refuted.

*Theorems.* `C61_index`, `C61_index_valid`

### C62 Programs of array operations never leave memory

*Model and method.* `Prog.v`: commands, states and `exec`; `PropsProg.v`: the invariant `sound` says every array is a view chain of a live block. Each command is shown to panic, to return a fresh array (from C04 C12 C13 C17 C19 C20 C26 C27), or to keep every cell (C16 C60 C61); induction over the program.

*Result (proved).* Proved in full. The restrictions are those under which the single operations were refuted (C04 C05 C09 C15-C17 C19 C24 C28); C62_unrestricted_ex shows that dropping them lets programs leave memory.

*Theorems.* `C62_programs`

### C63 Programs behave like a reference machine without layouts

*Model and method.* `SpecRef.v`: the machine, one equation per command. `RefFacts.v`, `RefFacts2.v`: `abs` forgets strides, flags, lengths and pointers of a state; views against `ref_view` (from C05-C10, C29); new arrays and writes as changes of the machine's buffers. `PropsRef.v`: one simulation step per command, induction over the program.

*Result (proved).* Proved in full. The conditions exclude the behaviour refuted in C05 C09 C14 C15 C19 C23 C24; C63_unsupported_ex shows the library departing from the machine without them.

*Theorems.* `C63_programs`, `C63_rejects`, `C63_layout_independent`

### C64 Extremes of floating-point arrays with infinities and NaN

*Model and method.* `PropsFloatMax.v`: `greatest`, `least`, `greatest_mag`, `least_mag` state the result on a list; `SFltb` is the lexicographic order of `key` on numbers other than NaN; induction over the list, lifted to arrays and fibres by C19 and C20.

*Result (proved).* Proved in full for IEEE comparison (SpecFloat.SFltb) at any precision. Complements C21, which is refuted for infinite floats.

*Theorems.* `C64_max`, `C64_min`, `C64_max_magnitude`, `C64_min_magnitude`, `C64_max_determined`, `C64_min_determined`

### C65 What reductions, copies and fill do on broadcast views

*Model and method.* `PropsBcast.v`: `evenly` states the accepted strides, `run` a run of cells, `fill_cells` the cells fill writes. `has_uniform_stride` decides `evenly`; a stretched axis of length above 1 gives an index of positive rank at distance 0, so a run with positive step cannot be the elements; fill by induction over the axes with an effect predicate that also says when it is out of bounds.

*Result (proved).* Proved in full for every reachable view. Complements C16, C17 and C19, which are refuted for broadcast views. Reductions along axes do not use the layout test (C20).

*Theorems.* `C65_reduce_run`, `C65_reduce_elements`, `C65_reduce_right`, `C65_copy_flag`, `C65_copy_run`, `C65_copy_right`, `C65_fill`, `C65_repeated`

### C66 What compound assignment writes, and exactly when it is the expected result

*Model and method.* `PropsAssign2.v`: `now` is what a cell holds after a list of writes, `turn` the value of one write, `history` a run of writes; all three use only addresses and the old heap. The kernel is one loop (`k_binary_loop`), which follows the history by induction. For the equivalence the heap is filled with terms that name their cell and `op` builds a new term, so the final contents reveal which cells were read and when.

*Result (proved).* Proved in full for every writable reachable view. Complements C14, which is refuted for strided left sides and for overlap. Covers the portable kernels; the SIMD kernels read a block before writing it (C49).

*Theorems.* `C66_assign`, `C66_assign_scalar`, `C66_unique`, `C66_right`

### C67 Accuracy of float sums and means in every build

*Model and method.* `FloatErr.v` proves the error of one rounding against exact rationals, for add, subtract, multiply and divide (`add_q`, `mul_q`, `div_q`), from the rounding function of the standard library. `FloatSum.v` does induction on an arbitrary tree of additions (`tree_err`); zeros used as start values cost nothing. `PropsFloatSum.v` combines this with the trees that C19, C20, C50 and C53 give. `sum_within` uses only rational arithmetic.

*Result (proved).* Proved in full over the IEEE semantics of Coq's SpecFloat (round to nearest even, gradual underflow, overflow to infinity). The mean is covered in the portable build, for fewer than 2^prec elements. The vDSP result assumes only that the library adds every element once. Broadcast views are excluded for total sums because C19 is refuted there.

*Theorems.* `C67_sum`, `C67_sum_along`, `C67_sum_simd`, `C67_sum_vdsp`, `C67_builds_agree`, `C67_bound`, `C67_relative`, `C67_mean`, `C67_integers`

### C68 Accuracy of dot, matmul, bmm and einsum on floats, portable and SIMD

*Model and method.* `Param.v` proves that dot, matmul, bmm and einsum, portable and SIMD, run in lockstep on two related element types: the kernels chosen depend only on shapes and strides. `Exact.v` combines this with C26, C27 and C51 in an exact algebra. `FloatDot.v` takes as algebra formal sums of products (value, magnitude, number of terms, degree, finiteness) and shows that one float addition, multiplication or fused multiply-add preserves `close`. `PropsFloatDot.v` reads off the bound (`products_within`, rational arithmetic only); the integer theorem uses a second algebra, integers with a magnitude.

*Result (proved).* Proved in full over the IEEE semantics of SpecFloat, with fused multiply-add defined as one rounding of the exact x*y+z (SFfma). Covers letter subscripts without repeated output letters, positive extents, and operands whose elements are bit patterns of the format. BLAS and vDSP products are not covered: what they may do to rounding is not specified.

*Theorems.* `C68_dot`, `C68_matvec`, `C68_matmul`, `C68_bmm`, `C68_einsum`, `C68_bound`, `C68_builds_agree`, `C68_integers`, `C68_einsum_integers`

### C69 Arrays without elements: what every operation does

*Model and method.* `PropsEmpty.v`. `hollow a` says that an axis has length 0 and `len` is 0. No heap invariant is needed since nothing is read. The loop lemmas of the elementwise and reduction kernels hold for any shape; with no offsets they do nothing. For einsum the prepared loop shape contains 0, and the specialised loops begin with `assert_unchecked(n > 0)`, modelled as `Oob`.

*Result (proved).* Every operation on arrays without elements: which are refused, which do nothing, and where the code has undefined behaviour (matrix product over an empty inner axis, einsum with an extent of zero).

*Theorems.* `C69_constructors`, `C69_broadcast_to`, `C69_views`, `C69_diagonal`, `C69_slices`, `C69_binary`, `C69_elementwise`, `C69_assign`, `C69_copies`, `C69_index`, `C69_equals`, `C69_fill`, `C69_reduce`, `C69_reduce_along`, `C69_mean`, `C69_dot`, `C69_matvec`, `C69_matvec_no_rows`, `C69_einsum_ub`, `C69_einsum_general`, `C69_matmul`, `C69_bmm`

### C70 View operations and iteration on machine words

*Model and method.* `WordViews.v` repeats the view operations and the generator with the arithmetic of `Word.v`; `PropsWordViews.v`. The checked build is compared by a relation `x = Panic \/ x = y` that is preserved by bind. For agreement, `fits` collects what reachable arrays satisfy (each (d - 1) * s is below the allocation size, half the word range), which bounds every intermediate product and sum. Release counterexamples are constructed for every word size. Not modelled: scaling of offsets by the element size, and the parser's positions in the subscript string.

*Result (proved).* Every view operation and the flat index generator on words of any size, both builds: refinement with overflow checks, agreement on reachable arrays, what release builds accept that checked builds reject.

*Theorems.* `C70_checked`, `C70_checked_iteration`, `C70_agree`, `C70_agree_plain`, `C70_iteration`, `C70_release_rejects`, `C70_release_slice`, `C70_release_reversed`, `C70_release_empty`, `C70_stride_overflow`

### C71 How many points arange and linspace of floats return, and how accurate they are

*Model and method.* `PropsFloatRange.v`. The bounds of `FloatErr.v` are composed over the operations: subtraction, the conversion through f32 and back, division, ceiling; then multiplication and addition for each item. The ceiling of the model is proved to be the rational ceiling. The conversion through f32 is why the bound on the count is 2^-20 in both formats while the points of f64 are accurate to its own precision. `C71_large_ends` and `C71_f64_beyond_f32` show that the hypotheses on magnitudes are needed.

*Result (proved).* Rounding-error bounds for the count and for every point of arange and linspace on floats; the count can be one too large, never too small unless the end swamps the step.

*Theorems.* `C71_arange`, `C71_wrong_way`, `C71_zero_step`, `C71_infinite_ends`, `C71_linspace`, `C71_linspace_exclusive`, `C71_large_ends`, `C71_f64_beyond_f32`

### C72 What slice, slice_along and reshape do with arbitrary requests

*Model and method.* `PropsRequests.v`. Induction over the indexers computes offset, shape and strides for any bounds; an empty axis makes the computation of the length underflow, which is the only rejection besides too many indexers. The last index has the largest address, which decides whether the view stays in the allocation. For reshape the evenly spaced strides give the rank times the last stride.

*Result (proved).* Exact acceptance and exact addresses for every request, including requests outside the array, which slice does not reject.

*Theorems.* `C72_slice`, `C72_slice_along`, `C72_memory`, `C72_reshape`, `C72_reshape_right`

### C73 What nditer returns for arbitrary axes

*Model and method.* `PropsNdIter.v`. `walk` is the closed form of the carry loop: an axis advanced c times has been reset c/(n+1) times and is c mod (n+1) + c/(n+1) strides from its start. Induction over the axes shows that one call of the carry loop goes from walk j to walk (j+1). Copying an item is reduced to reading a list of cells, valid or not. A heap whose cells hold their own addresses gives the necessity.

*Result (proved).* Exact positions, exact condition for staying inside the allocation, and exact condition for the items to be the sub-arrays.

*Theorems.* `C73_nditer`, `C73_right`, `C73_nested`, `C73_two_axes`, `C73_all_axes`

### C74 What ellipses and dots in einsum subscripts do

*Model and method.* `PropsEllipsis.v`. `seen p q a` is the operand einsum takes instead of `a`. The parser is run over a block of distinct letters in one step (`parse_run`, `out_run`), which gives the labels, counts and lengths of the original request and of the plain one; the label strides agree because label 0 never occurs in an accepted loop nest. `C74_ellipsis` is an equality of complete results, panics included; `C74_value` combines it with C27. `C74_outside_memory` is a read outside the allocation.

*Result (proved).* Subscripts with an ellipsis and a repeated letter are outside the statement.

*Theorems.* `C74_ellipsis`, `C74_seen`, `C74_value`, `C74_position_panics`, `C74_short_panics`, `C74_output_dots_ignored`, `C74_output_dot_drops`, `C74_output_ellipsis_panics`, `C74_single`, `C74_outside_memory`

### C75 Every combination of features computes the same as the portable build

*Model and method.* `Builds.v` selects for every function the version the cfg attributes select, for all combinations (`build`); `BuildsFacts.v` shows each selected kernel equal to the portable one on the operands it can be called with; `PropsBuilds.v` lifts this to programs by following the machine of C63 (`run_same`), so the layout of intermediate buffers may differ. `fine` lists the conditions per command, all on the portable run.

*Result (proved).* Maximum and minimum are not commands of these programs (see C50 and C53 for their kernels); the conditions on BLAS are needed, see C52.

*Theorems.* `C75_operation`, `C75_programs`, `C75_rejects`, `C75_builds_agree`

### C76 Which operations form pointers outside the allocation

*Model and method.* `Pointers.v` repeats the loops that move pointers with `move`, which fails when the result is beyond one past the end. `PointersFacts.v` shows each loop equal to the one of the model up to its last move (`cut`, `early`). `PropsPointers.v` states the condition on shape, stride and offset (`straight`, `evenly`, `past`), and shows everyday programs that meet it.

*Result (proved).* Portable build. The other theorems check accesses only, as DESIGN.md says; this property says where the stricter rule of the language makes a difference. C95 is the same for the vectorised elementwise kernels and reductions.

*Theorems.* `C76_binary`, `C76_scalar_op`, `C76_neg`, `C76_assign`, `C76_assign_scalar`, `C76_reduce`, `C76_dot`, `C76_matvec`, `C76_bmm`, `C76_einsum`, `C76_fill`, `C76_iter_along`, `C76_slice`, `C76_unit_step`, `C76_columns`, `C76_diagonal`, `C76_transposed_matvec`, `C76_column_range`

### C77 Integer arrays with and without overflow checks

*Model and method.* `Ints.v` gives + - * and unary minus of an integer type in a build with and without checks, `IntsProg.v` programs over an arithmetic. `IntsFacts.v`: replacing an operation by one that panics more often only adds panics (`ref`), for every kernel. Wrapped results come from the relation of `Param.v` with x = wrap of the exact value. The bound for products (`IntsGrow.v`) runs the same kernel on the magnitudes: its memory only grows, so if the final values fit then every intermediate value fits. `PropsInts.v` has the theorems and examples on i8 and u8.

*Result (proved).* Portable build. The exact condition for a panic of matrix, batched products and einsum depends on the kernel chosen; for these the release result is exact and a sufficient bound for the debug run is proved.

*Theorems.* `C77_wrap`, `C77_programs`, `C77_elementwise`, `C77_scalar_op`, `C77_negation`, `C77_sum_product`, `C77_sum_product_along`, `C77_trace`, `C77_magnitudes`, `C77_wraps`, `C77_no_overflow`, `C77_dot_checked`, `C77_matvec_checked`

### C78 Exactly which nested data and types `new` accepts

*Model and method.* `PropsNew2.v`: `spine` are the lengths along first children, `fair` says every child of the outermost level has the same ones; the model's checks are shown to decide it. `nested` in `Nested.v` lists the sixteen impls of the trait; induction on the levels turns it into positions of Vecs and arrays.

*Result (proved).* C78_accepts is about Vecs around arrays; fixed-size arrays around Vecs are the subject of C04. That a type with two values of D needs an annotation is a fact about the Rust compiler and is not modelled.

*Theorems.* `C78_accepts`, `C78_elements`, `C78_types`

### C79 Array programs treat elements as black boxes

*Model and method.* `Blackbox.v`: one lemma per function of the model says that related memories and arguments give related outcomes; `BlackboxProg.v` lifts this to commands and programs. The consequences in `PropsParam.v` choose R: the full relation with unit, the graph of the homomorphism, and equality restricted to a predicate.

*Result (proved).* Programs of Prog.v, portable build. A comparison shows a boolean, so C79_shapes_decide leaves comparisons out; C79_equal_reads shows that this is needed. C79_division_panics shows that a function that may panic must be left out too.

*Theorems.* `C79_related`, `C79_shapes_decide`, `C79_homomorphism`, `C79_elements_generated`

### C80 Tensor programs and backward treat elements as black boxes

*Model and method.* `BlackboxGrad.v` does the same for graph nodes, backward and tensor instructions. In `PropsParam2.v` a program over any numbers is compared, through the type with one value, with the program over the integers in which every element is 0; the theorems of C33, C35 and C36 apply to that one, and the reference machine's shapes do not depend on elements.

*Result (proved).* C80_any_numbers, C80_backward_untracked and C80_backward_succeeds are the parts of C33, C35 and C36 that do not mention values, for numbers without laws.

*Theorems.* `C80_related`, `C80_homomorphism`, `C80_shapes_decide`, `C80_any_numbers`, `C80_backward_untracked`, `C80_backward_succeeds`

### C81 Whole programs on machine words

*Model and method.* `WordOps.v` repeats the operations and programs of the model with word arithmetic. `PropsWordOps.v`: one lemma per function says that the checked version panics or agrees with the nat version, and one that it panics or agrees with the wrapping version; both are closed under bind. The two unsafe programs are run symbolically for all m and n. `PropsWordRoom.v` (C81_room): for layouts that fit (every reachable offset inside a block of at most half the words) each word operation equals the nat one; in the loops of an einsum every computed offset is bounded because the access it leads to succeeds in nat.

*Result (proved).* Programs of Prog.v, portable build. Moving pointers, loop counters, numbers of axes and positions in strings stay in nat; allocations succeed. The flat indices of a loop are computed before the loop starts, so a panic in the middle of one is placed before its first access; it follows that in the build with checks a program outside the scope of C62 that leaves memory and then overflows is shown as panicking.

*Theorems.* `C81_checked`, `C81_release`, `C81_safe`, `C81_release_outer_product`, `C81_release_table`, `C81_room`

### C82 Exactly which tensor programs panic

*Model and method.* `SpecFlow.v`: the layout machine. `FlowFacts.v`: the node graph unfolds to a tree of gradient journeys, and running backward on it panics exactly when the journey is stuck (induction on the depth of nodes, one case per node kind). `FlowFacts2.v`: programs over a field follow the machine in lockstep with the simulation of C33. `PropsFlow.v`: any numbers, by C80.

*Result (proved).* Programs of C33 (admissible: at most 32 axes; shared tensors that are consumed by reshape, squeeze or unsqueeze are row-major; seeds of backward_with are new arrays or tensors of the program).

*Theorems.* `C82_programs`, `C82_panics`

### C83 Tensor programs and gradients in every build

*Model and method.* `BuildsGrad.v`: the engine of Autograd.v with the array operators as parameters. `BuildsGradFacts.v`: with the portable operators it is Autograd.v; no operator changes the set of live blocks. `BuildsGradFacts2.v`: each operator of a build equals the portable one on arrays without gaps. `BuildsGradFacts3.v`: backward (induction on fuel, one case per node). `BuildsGradFacts4.v`: programs, in lockstep with the simulation of C33.

*Result (proved).* Exact equality of results over a field. With BLAS: wide shapes in matrix products (C83_unit_axes shows what happens otherwise). NEON and vDSP alone ask nothing (C83_without_blas).

*Theorems.* `C83_programs`, `C83_without_blas`, `C83_reference`, `C83_panics`, `C83_unit_axes`

### C84 Certified rounding errors of tensor programs and gradients

*Model and method.* `SpecCert.v`: a number with a bound on its error, and the rules of running error analysis. `FloatCert.v`: each float operation respects the rules (from the facts on rounding of FloatErr.v and FloatDot.v). `BlackboxKern.v`: the engine respects any relation its operations respect. So the float run, the certified run and the exact run are related, and C33 gives the meaning of the last.

*Result (proved).* Portable build. Exact operands with a representable result leave no error. The bound is computed along with the program (C84_ex: a layer with a division, bounds below 1e-4 of the derivative; C84_overflow: no bound where the float is infinite).

*Theorems.* `C84_programs`

### C85 Tensor programs on numbers that fit are not rounded

*Model and method.* `exacts_of_aux` (FloatErr.v): rounding keeps a number of at most `prec` digits within range, for sums, products, fused products and quotients alike. Then a special case of C84.

*Result (proved).* Portable build. The premise (no bound above zero in memory at the end of the certified run) is decidable and computed in C85_ex.

*Theorems.* `C85_exact`

### C86 The example programs have the gradients of calculus at every size

*Model and method.* C82 with the layout machine evaluated at symbolic sizes (and by induction on the rounds) shows there is no panic; C33 reduces the gradients to sums over unit perturbations, which collapse to one term (`total_single`, `inner_unit`).

*Result (proved).* Over any field. Tensors of earlier rounds are kept in the model, where the program drops them.

*Theorems.* `C86_readme`, `C86_backward0`, `C86_backward1`

### C87 assert_almost_eq! accepts exactly the arrays within the tolerance

*Model and method.* Composition of C12 (difference), C21 (max) and C18 (equality); the test (x as f64).abs() > tol is an arbitrary predicate.

*Result (partial).* Proved: exactly what is accepted (C87_exact_partial), that arrays within the tolerance are accepted, and that accepted arrays have left <= right + tol. Refuted: only the largest signed difference is compared, so [0, 0] and [0, 100] are almost equal; operands are broadcast, so shapes may differ; a NaN beside an equal element is ignored. Missing from the full statement: nothing else; it is false.

*Theorems.* `C87_exact_partial`, `C87_near_partial`, `C87_above_partial`, `C87_below_refuted`, `C87_shape_refuted`, `C87_nan_refuted`

### C88 Compiled with neon_simd, the rounding errors of tensor programs and gradients stay within certified bounds

*Model and method.* BlackboxSimd.v: the vector kernels respect any relation between element types; used from floats to certified numbers and from these to rationals, where C83 says the build does not matter.

*Result (proved).* C88_programs is C84 for the neon_simd build, C88_exact is C85 for it, C88_between compares the two builds, C88_same says when they agree. C88_differs shows a product and a gradient on which they do not. Of the features only neon_simd: the libraries behind blas and apple_vdsp do not document their rounding.

*Theorems.* `C88_programs`, `C88_exact`, `C88_between`, `C88_same`

### C89 astype converts every element exactly as documented, or panics

*Model and method.* Cast.v models the conversions on Z and SpecFloat; CastFacts.v: rounding keeps the sign, a valid float is determined by its value and sign, truncation is the integer part. For pairs that lose something, witnesses by computation over the 196 pairs.

*Result (proved).* C89_astype gives shape, order, value and the exact panic condition; C89_round_trip and C89_only_those say which pairs of types lose nothing; C89_integer_part follows a float through an integer type. NumCast itself belongs to the num crate, which is not in the repository: its documented behaviour is modelled.

*Theorems.* `C89_astype`, `C89_round_trip`, `C89_only_those`, `C89_integer_part`, `C89_ranges`

### C90 einsum and the named functions give the same answer

*Model and method.* Both sides are sums over the same index set by C26, C27, C30, C19 and C12; for matmul, filling a zero block with zeros changes nothing and prepare_einsum gives both the same loops.

*Result (proved).* One theorem per pair. same_answer: both calls return, the same array record, the same elements. C90_matmul is an equation between the two calls for arbitrary operations. C90_f32_dot_differs shows why dot needs the semiring laws.

*Theorems.* `C90_dot`, `C90_matvec`, `C90_matmul`, `C90_matmul_transposed`, `C90_bmm`, `C90_trace`, `C90_sum`, `C90_product`, `C90_diagonal`, `C90_f32_dot_differs`

### C91 What a tensor says about itself

*Model and method.* An invariant of every step (flags, node references, shape of the accumulator) for any arithmetic. For detach, value and ==, the arrays of the program are those of the same program over Z with zeros (C80), where C33 says that they are readable and can be copied.

*Result (proved).* The specification reads the answers off the text of the program: made_by counts the instructions that make tensors, last_set finds the last set_requires_grad. The converse of the third sentence is not claimed and C91_example shows it fails: an untracked result that is told to require a gradient, and x + 5, show a gradient although they are not leaves.

*Theorems.* `C91_requires_grad`, `C91_is_leaf`, `C91_gradient`, `C91_detach`, `C91_value`, `C91_equality`

### C92 uniform stays in its range and randn keeps what it draws

*Model and method.* Comparison of floats is comparison of the rationals they stand for; converting a float to its own type is the identity; the subtraction in Uniform::new by the rounding lemma of C84.

*Result (proved).* The sampler is an oracle with the documented contract of rand 0.8.5. C92_wide_ex: uniform(-f32::MAX, f32::MAX) panics although both ends are floats.

*Theorems.* `C92_uniform`, `C92_uniform_refuses`, `C92_randn`

### C93 What the benchmark programs compute

*Model and method.* Positions of the slices from C08, the sum from C12, the fold from C19.

*Result (proved).* Portable kernels. The operation is any total function, so that the statement covers floats, where the order of the fold matters.

*Theorems.* `C93_binary`, `C93_reduce`

### C94 Vectorised compound assignment between operands that share memory

*Model and method.* `SimdAssign.v`: induction over the blocks with the heap described by the list of values written so far (`patched` of C66); the scalar loop by the lemma of C66. `PropsSimdAssign.v`: which layouts reach the vector loops by `collapse_straight` of C76; exactness on values that remember how they were computed, as in C66.

*Result (proved).* Complements C49, where overlapping operands are refuted: the exact result for them. The element operation is total, as it is for floats.

*Theorems.* `C94_run`, `C94_unique`, `C94_other`, `C94_scalar`, `C94_right`

### C95 Which vectorised operations form pointers outside the allocation

*Model and method.* `SimdPointers.v` repeats the loops of `Simd.v` with checked moves. `PropsSimdPointers.v`: by induction over blocks, a strict loop is the plain one that may fail at its last move only, since a forbidden earlier move is followed by a forbidden access; the conditions on arrays are those of C76. The sums of products have step 1, so a successful load or store of a block already shows that the move past it is allowed.

*Result (proved).* The vectorised counterpart of C76, for elementwise operations, reductions, einsum and matrix products. Element operations are total, as they are for floats.

*Theorems.* `C95_binary`, `C95_scalar_op`, `C95_neg`, `C95_assign`, `C95_assign_scalar`, `C95_sum`, `C95_product`, `C95_min`, `C95_max`, `C95_einsum`, `C95_matmul`, `C95_bmm`, `C95_columns`

### C96 Exactly when a NaN reaches the vectorised minimum and maximum

*Model and method.* `PropsSimdNan.v`: by induction over blocks the vector loop takes exactly the whole blocks, in some bracketing; a lane result is NaN exactly if an operand is, the scalar step keeps a NaN accumulator and passes over a NaN cell; the rest is the order argument of C50 on the cells that are not NaN.

*Result (proved).* Completes C50, whose min and max theorems exclude NaN cells. The portable loops are in C64.

*Theorems.* `C96_min`, `C96_max`, `C96_min_agrees`, `C96_max_agrees`, `C96_min_uneven`, `C96_max_uneven`, `C96_min_short`, `C96_max_short`
