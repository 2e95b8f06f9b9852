{
 "claims": [
  {
   "property": "C01",
   "status": "proved",
   "theorems": [
    "C01_flatiter_row_major",
    "C01_flat_indices"
   ],
   "note": "Any array whose element cells are live, any strides; more than 32 collapsed axes panic."
  },
  {
   "property": "C02",
   "status": "proved",
   "theorems": [
    "C02_collapse_same_addresses"
   ],
   "note": "All layouts."
  },
  {
   "property": "C03",
   "status": "proved",
   "theorems": [
    "C03_buffer_row_major",
    "C03_full"
   ],
   "note": "from_buffer (new/clone/operators end here), full/zeros/ones/scalar."
  },
  {
   "property": "C04",
   "status": "partial",
   "theorems": [
    "C04_alignment_small",
    "C04_alignment_vecs_outside",
    "C04_alignment_large",
    "C04_alignment_panics",
    "C04_rectangular_partial",
    "C04_accepted_is_rectangular_partial",
    "C04_empty_panics",
    "C04_ragged_refuted",
    "C04_array_of_vec_refuted"
   ],
   "note": "Accepted inputs: proved for every rectangular input of any nesting of arrays and Vecs (shape and row-major content) and, conversely, that accepted inputs with at most two Vec levels are rectangular; empty inputs panic. The full statement (every accepted input is rectangular) is false: a ragged three-level Vec passes the homogeneity check, and an array of ragged Vecs is not checked at all; both witnesses are computed. The alignment assertion of flatten.rs 34 is modelled in Align.v: it never fires for elements aligned to at most 8 bytes or without a fixed-size array around a Vec, and for i128 and u128 it turns the bad read into a panic."
  },
  {
   "property": "C05",
   "status": "partial",
   "theorems": [
    "C05_reshape_partial",
    "C05_reshape_refuted",
    "C05_scalar_reshape_refuted"
   ],
   "note": "Proved for chains without broadcast_to; success only for arrays flagged uniformly strided and not scalar. Refuted: reshape of a broadcast view leaves the buffer; reshape of a scalar to [1] panics."
  },
  {
   "property": "C06",
   "status": "proved",
   "theorems": [
    "C06_transpose",
    "C06_transpose_panics"
   ],
   "note": "All reachable arrays, consuming and borrowing."
  },
  {
   "property": "C07",
   "status": "proved",
   "theorems": [
    "C07_squeeze",
    "C07_unsqueeze"
   ],
   "note": "All reachable arrays, consuming and borrowing."
  },
  {
   "property": "C08",
   "status": "proved",
   "theorems": [
    "C08_slice",
    "C08_slice_along"
   ],
   "note": "In-range, non-empty requests on every reachable non-empty array, broadcast or not."
  },
  {
   "property": "C09",
   "status": "partial",
   "theorems": [
    "C09_slice_rejects_partial",
    "C09_slice_refuted",
    "C09_slice_along_refuted"
   ],
   "note": "Refuted: upper bounds are never checked. Proved: too many indexers and reversed ranges panic (the latter only with overflow checks, see C70)."
  },
  {
   "property": "C10",
   "status": "proved",
   "theorems": [
    "C10_broadcast_to"
   ],
   "note": "All reachable arrays."
  },
  {
   "property": "C11",
   "status": "proved",
   "theorems": [
    "C11_broadcast_shapes",
    "C11_broadcast_shapes_algebra"
   ],
   "note": "All shapes."
  },
  {
   "property": "C12",
   "status": "proved",
   "theorems": [
    "C12_binary",
    "C12_incompatible_shapes_panic"
   ],
   "note": "Arbitrary element operator that may panic; any live layouts incl. overlapping and broadcast operands; at most 32 axes."
  },
  {
   "property": "C13",
   "status": "proved",
   "theorems": [
    "C13_scalar_op",
    "C13_negation",
    "C13_astype"
   ],
   "note": "As C12; astype included."
  },
  {
   "property": "C14",
   "status": "partial",
   "theorems": [
    "C14_assign_partial",
    "C14_no_feedback",
    "C14_assign_scalar_partial",
    "C14_assign_shape_panics",
    "C14_strided_refuted",
    "C14_overlap_refuted"
   ],
   "note": "Proved for contiguous left sides without feedback; refuted for strided left sides and overlapping operands."
  },
  {
   "property": "C15",
   "status": "partial",
   "theorems": [
    "C15_assign_readonly_partial",
    "C15_fill_readonly_refuted",
    "C15_index_set_readonly_refuted",
    "C15_fill_outside_refuted"
   ],
   "note": "op= rejects broadcast views; fill and element assignment do not (refuted)."
  },
  {
   "property": "C16",
   "status": "partial",
   "theorems": [
    "C16_fill_partial",
    "C16_fill_broadcast_refuted"
   ],
   "note": "Proved for all reachable views that were not broadcast; refuted for broadcast ones."
  },
  {
   "property": "C17",
   "status": "partial",
   "theorems": [
    "C17_clone_partial",
    "C17_clone_broadcast_refuted",
    "C17_clone_broadcast_wrong_refuted"
   ],
   "note": "Proved unless the source is a broadcast view flagged contiguous; refuted there."
  },
  {
   "property": "C18",
   "status": "proved",
   "theorems": [
    "C18_equality",
    "C18_equivalence"
   ],
   "note": "Any element comparison, any layouts."
  },
  {
   "property": "C19",
   "status": "partial",
   "theorems": [
    "C19_fold_partial",
    "C19_fold_total_partial",
    "C19_broadcast_sum_refuted",
    "C19_broadcast_sum_wrong_refuted"
   ],
   "note": "Any step function (may panic). Proved without broadcasting and for layouts that are not flagged uniform; refuted for broadcast views."
  },
  {
   "property": "C20",
   "status": "proved",
   "theorems": [
    "C20_reduce_along",
    "C20_axes_order_and_sign_irrelevant",
    "C20_bad_axes_panic"
   ],
   "note": "Any live layout, any step function, any start value; at most 32 axes."
  },
  {
   "property": "C21",
   "status": "partial",
   "theorems": [
    "C21_max_partial",
    "C21_min_partial",
    "C21_max_magnitude_partial",
    "C21_min_magnitude_partial",
    "C21_max_infinity_refuted",
    "C21_min_infinity_refuted",
    "C21_broadcast_refuted"
   ],
   "note": "Proved for strict total orders whose start value is beyond all elements (integer types), whole and along axes; refuted for infinite floats and broadcast views."
  },
  {
   "property": "C22",
   "status": "partial",
   "theorems": [
    "C22_mean_partial",
    "C22_mean_along_partial",
    "C22_negative_axis_refuted"
   ],
   "note": "Proved for non-broadcast mean and non-negative axes; negative axes panic (refuted). Conversion of the count is a parameter."
  },
  {
   "property": "C23",
   "status": "partial",
   "theorems": [
    "C23_index_partial",
    "C23_index_slice_partial",
    "C23_diagonal_refuted",
    "C23_view_of_slice_refuted",
    "C23_value"
   ],
   "note": "Proved for contiguous arrays and in-range slices; refuted for diagonals and views of slices."
  },
  {
   "property": "C24",
   "status": "partial",
   "theorems": [
    "C24_index_rejects_partial",
    "C24_index_refuted",
    "C24_index_set_refuted",
    "C24_index_outside_refuted"
   ],
   "note": "Only rank and one-axis bounds are enforced; refuted otherwise."
  },
  {
   "property": "C25",
   "status": "partial",
   "theorems": [
    "C25_view_chains_partial",
    "C25_view_chains_live_partial",
    "C25_reshape_after_broadcast_refuted",
    "C25_distinct_cells"
   ],
   "note": "All chains except reshape after broadcast_to (refuted)."
  },
  {
   "property": "C26",
   "status": "proved",
   "theorems": [
    "C26_dot",
    "C26_matvec",
    "C26_matmul",
    "C26_bmm",
    "C26_mismatch_panics",
    "C26_wrapping_integers",
    "C26_bmm_inner_mismatch_panics"
   ],
   "note": "Any commutative semiring (wrapping integers are shown to be one), any operand strides, non-empty sizes. Inner and batch mismatches panic."
  },
  {
   "property": "C27",
   "status": "partial",
   "theorems": [
    "C27_einsum_partial",
    "C27_too_many_operands_panic",
    "C27_scalar_refuted"
   ],
   "note": "Proved for every label assignment with at least one label, at most 15 operands, 32 axes per operand and 32 labels. Refuted: a request without labels (scalars) panics."
  },
  {
   "property": "C28",
   "status": "partial",
   "theorems": [
    "C28_ill_formed_panics_partial",
    "C28_extra_subscript_refuted",
    "C28_missing_subscript_refuted",
    "C28_ellipsis_refuted"
   ],
   "note": "Ellipsis-free requests: label length conflict, rank mismatch, bad output labels panic. Refuted: subscript count is not checked; ellipsis axes are ignored."
  },
  {
   "property": "C29",
   "status": "proved",
   "theorems": [
    "C29_order_is_permutation",
    "C29_generator_visits_all",
    "C29_reordered_visits_same"
   ],
   "note": "Every number of operands up to 16 and axes up to 32."
  },
  {
   "property": "C30",
   "status": "proved",
   "theorems": [
    "C30_trace",
    "C30_trace_panics",
    "C30_diagonal",
    "C30_diag_index_meaning",
    "C30_diagonal_panics"
   ],
   "note": "Diagonal views on every reachable array; trace with any addition that may panic, at most 32 axes."
  },
  {
   "property": "C31",
   "status": "partial",
   "theorems": [
    "C31_reduce_gradient_partial",
    "C31_failure_partial",
    "C31_all_axes_stretched_refuted"
   ],
   "note": "Over every field: the reduced gradient has the operand's shape and is the adjoint of broadcasting, and reduce_gradient panics exactly when every axis of a non-scalar operand is stretched. Refuted in that case ([1] broadcast to [3])."
  },
  {
   "property": "C32",
   "status": "partial",
   "theorems": [
    "C32_add_partial",
    "C32_sub_partial",
    "C32_mul_partial",
    "C32_div_partial",
    "C32_div_by_tracked_partial",
    "C32_neg",
    "C32_mul_scalar",
    "C32_div_scalar",
    "C32_dot",
    "C32_matrix_vector",
    "C32_matrix_product",
    "C32_batched_product",
    "C32_reshape_partial",
    "C32_transpose",
    "C32_reshape_refuted"
   ],
   "note": "One theorem per node type, over every field, for arbitrary layouts of operands and gradient: the increments of the operands' gradients pair with every perturbation like the incoming gradient with the explicit first-order change. Refuted: reshape of a transposed gradient panics. Rounding is not modelled."
  },
  {
   "property": "C33",
   "status": "partial",
   "theorems": [
    "C33_programs_partial",
    "C33_backward_with_partial",
    "C33_backward_partial",
    "C33_aliased_seed_refuted",
    "C33_broadcast_seed_refuted"
   ],
   "note": "For every admissible program of any length (all operators, shared sub-expressions, set_requires_grad, several backward calls) the run panics or ends with all values and gradients equal to those of a reference machine that evaluates over dual numbers; never out of bounds. Refuted for seeds that alias a gradient (wrong sum) and broadcast seeds (out of bounds)."
  },
  {
   "property": "C34",
   "status": "partial",
   "theorems": [
    "C34_order_partial",
    "C34_gradient_seed_refuted",
    "C34_zero",
    "C34_shape",
    "C34_any_order_partial"
   ],
   "note": "Order of any number of backward calls (C34_any_order_partial, when both orders run to the end), zero_gradient and gradient shape. Order is refuted when a seed is itself a gradient (C34_gradient_seed_refuted) and missing for broadcast seeds."
  },
  {
   "property": "C35",
   "status": "proved",
   "theorems": [
    "C35_flags",
    "C35_no_gradient",
    "C35_backward_untracked"
   ],
   "note": "Flags and absence of gradients for every program; backward on an untracked tensor succeeds and changes nothing."
  },
  {
   "property": "C36",
   "status": "partial",
   "theorems": [
    "C36_exact_partial",
    "C36_backward_partial",
    "C36_unit_operand_refuted",
    "C36_reshape_transpose_refuted",
    "C36_squeeze_refuted"
   ],
   "note": "No panic when one-element tensors are scalars and the program does not both transpose and reshape. Refuted in three ways: broadcast [1] operand, reshape then transpose, squeeze of [1]. C36_exact_partial: exactly which calls panic, in terms of the layout machine of C82."
  },
  {
   "property": "C37",
   "status": "partial",
   "theorems": [
    "C37_computed_partial",
    "C37_identity_refuted"
   ],
   "note": "Results of operators with a node of their own show no gradient. Refuted for x + c, x - c, views and no-op reshapes, which share the operand's gradient."
  },
  {
   "property": "C38",
   "status": "partial",
   "theorems": [
    "C38_iter_along_partial",
    "C38_nditer_partial",
    "C38_bad_axes_panic",
    "C38_two_axes_refuted"
   ],
   "note": "Proved for one axis (iter, iter_along), no axes, and several axes nested without gaps; bad or repeated axes panic. Refuted for axes with a gap: the carry test compares with the length instead of the length minus one."
  },
  {
   "property": "C39",
   "status": "partial",
   "theorems": [
    "C39_no_double_free",
    "C39_no_use_after_free_partial",
    "C39_use_after_free_refuted",
    "C39_data_slice_refuted",
    "C39_no_leak_partial",
    "C39_consumed_buffer_leaks",
    "C39_leak_refuted"
   ],
   "note": "No buffer is freed twice: proved for every accepted program. Use after free is possible: consuming a view, or data_slice of an owned array, gives a value that outlives the buffer (refuted); excluded otherwise. A buffer whose owner is consumed by reshape, transpose, squeeze, unsqueeze or view is never freed (refuted, with a proof that it always happens); otherwise nothing leaks."
  },
  {
   "property": "C40",
   "status": "partial",
   "theorems": [
    "C40_arange_int_partial",
    "C40_arange_int_wrong_way",
    "C40_arange_int_refuted",
    "C40_arange_float_partial",
    "C40_arange_float_refuted",
    "C40_linspace_partial",
    "C40_linspace_count_refuted",
    "C40_linspace_f32_refuted",
    "C40_linspace_equal_ends_refuted",
    "C40_linspace_exclusive_refuted"
   ],
   "note": "Proved for integer types when |stop-start| and |step| are below 2^24, and for f32/f64 values that are integers in that range (count through SpecFloat division is exact); linspace likewise when the step is an integer. Refuted beyond: arange_with_step(0i32,16777217,16777216) misses an element, arange_with_step(0f64,0.3,0.1) has an extra one, linspace(0f64,1,6) has 7 points, linspace(x,x,3) panics, linspace_exclusive(0f64,1,25) has 26."
  },
  {
   "property": "C41",
   "status": "partial",
   "theorems": [
    "C41_randint_partial",
    "C41_upper_bound_refuted",
    "C41_large_bounds_refuted",
    "C41_empty_range",
    "C41_attained_partial",
    "C41_randint_float_partial",
    "C41_float_bounds_refuted",
    "C41_below_low_refuted"
   ],
   "note": "Entries proved to lie in [low, high] for every value the sampler can draw, for bounds below 2^24. Half-open upper bound refuted: randint(0,1) can return 1 because samples are rounded to nearest. Adjacent bounds above 2^24 panic. Sampler is an oracle. C41_attained_partial: the integers randint can return are exactly low..high-1, and high itself unless it is above 2^(p-1) or at most -2^(p-2), p = 24 or 53. Float element types: entries are integers in [low, high] when the bounds are integers; refuted for other bounds, randint(0.25, 0.5) returns 0. Above 2^24 an entry can also lie below low (C41_below_low_refuted)."
  },
  {
   "property": "C42",
   "status": "partial",
   "theorems": [
    "C42_flags_truthful_partial",
    "C42_broadcast_flags_refuted"
   ],
   "note": "Proved without broadcasting; refuted with it."
  },
  {
   "property": "C43",
   "status": "proved",
   "theorems": [
    "C43_axes"
   ],
   "note": ""
  },
  {
   "property": "C44",
   "status": "proved",
   "theorems": [
    "C44_write_local",
    "C44_contiguous_in_length"
   ],
   "note": "Index within the recorded length (always so for contiguous arrays)."
  },
  {
   "property": "C45",
   "status": "partial",
   "theorems": [
    "C45_no_use_after_free_partial",
    "C45_no_double_free",
    "C45_view_operand_refuted",
    "C45_view_quotient_refuted",
    "C45_consumed_view_refuted"
   ],
   "note": "Refuted: the node of a product or quotient keeps a view operand but not the owner of its buffer; into_ndarray of a view gives a 'static array. Proved without these two uses."
  },
  {
   "property": "C46",
   "status": "proved",
   "theorems": [
    "C46_views_alias",
    "C46_clone_independent"
   ],
   "note": "Element writes through views; clone independence."
  },
  {
   "property": "C47",
   "status": "partial",
   "theorems": [
    "C47_view_transpose",
    "C47_reshape_partial",
    "C47_shared_transposed_refuted",
    "C47_program_refuted",
    "C47_shared",
    "C47_shared_iff"
   ],
   "note": "view and transpose: always. reshape, squeeze, unsqueeze: for row-major data. Refuted for a shared transposed tensor: the strides of the original are applied to a row-major copy. C47_shared and C47_shared_iff: what a shared tensor gives in general, and that sharing makes no difference for any data exactly when the result without sharing lies row by row in memory."
  },
  {
   "property": "C48",
   "status": "partial",
   "theorems": [
    "C48_rand_partial",
    "C48_one_refuted"
   ],
   "note": "Proved for f64; for f32 entries are proved to be at most 1, and the strict bound is refuted: the f64 sample 1-2^-52 rounds to 1.0."
  },
  {
   "property": "C49",
   "status": "partial",
   "theorems": [
    "C49_binary",
    "C49_incompatible_shapes_panic",
    "C49_scalar_op",
    "C49_negation",
    "C49_assign_partial",
    "C49_assign_scalar_partial",
    "C49_overlap_refuted",
    "C49_constant_alias_refuted"
   ],
   "note": "Binary, scalar and unary operators are proved as stated. Compound assignment is proved for contiguous left sides without feedback, as in C14. Refuted: x[1..] += x[..n-1] and x += x[0..1] give neither the elementwise result on old values nor the result of the portable loop. C94 says what the result is for overlapping operands."
  },
  {
   "property": "C50",
   "status": "partial",
   "theorems": [
    "C50_sum_partial",
    "C50_product_partial",
    "C50_monoid_partial",
    "C50_float_sum_refuted",
    "C50_min_partial",
    "C50_max_partial",
    "C50_min_nan_refuted",
    "C50_run_sum",
    "C50_run_product",
    "C50_run_min",
    "C50_run_max",
    "C50_broadcast_sum_refuted"
   ],
   "note": "For every addition, floats included, sum and product combine each element exactly once with 1 to L units, in some order. With an associative and commutative operation this is the portable fold. min and max are proved for floats without NaN (C96 has NaN). The C50_run theorems treat every reachable view whose strides pass has_uniform_stride, broadcast ones included: the cells of a run with the last stride are combined, and the call leaves the buffer exactly when the run does. Refuted: the f64 sum is not bit-for-bit the portable one; with NaN the minimum depends on the position of the NaN; a broadcast view is summed over other cells or out of bounds."
  },
  {
   "property": "C51",
   "status": "partial",
   "theorems": [
    "C51_muladd",
    "C51_matmul_partial",
    "C51_bmm_partial",
    "C51_einsum_partial",
    "C51_float_refuted"
   ],
   "note": "The scalar-times-row kernel equals the portable loop for every fused operation. Einsum, matmul and bmm are proved to give the mathematical sum in every commutative semiring. Refuted for f64: the reordering changes the rounded result."
  },
  {
   "property": "C52",
   "status": "partial",
   "theorems": [
    "C52_dot",
    "C52_matvec_partial",
    "C52_matmul_partial",
    "C52_bmm_partial",
    "C52_matmul_row_major",
    "C52_illegal",
    "C52_rejects",
    "C52_transposed_column_refuted",
    "C52_broadcast_vector_refuted",
    "C52_bmm_mismatch_refuted"
   ],
   "note": "dot is proved in full. matvec, matmul and bmm are proved when the strides passed as leading dimensions are legal and sizes are below 2^31; row-major operands always are. C52_illegal states exactly what happens otherwise: a panic or all zeros. Refuted in general: the transpose of a column, a broadcast vector, and bmm with different inner dimensions (read out of bounds, or a number instead of a panic). Missing from the full statement: nothing else for matmul; the claim is false there."
  },
  {
   "property": "C53",
   "status": "partial",
   "theorems": [
    "C53_run",
    "C53_binary_partial",
    "C53_binary_float",
    "C53_incompatible_shapes_panic",
    "C53_scalar_op_partial",
    "C53_assign_partial",
    "C53_assign_scalar_partial",
    "C53_i32_add_partial",
    "C53_u32_as_i32",
    "C53_i32_overflow_refuted",
    "C53_sum_partial",
    "C53_sum_monoid_partial",
    "C53_max_partial",
    "C53_min_partial",
    "C53_max_magnitude_partial",
    "C53_min_magnitude_partial",
    "C53_layout_refuted"
   ],
   "note": "Elementwise: proved for all layouts when the library operation agrees with the portable one on the operands met (always for floats). Sums: the library adds every element once in some order, so the result equals the portable one when addition is associative and commutative with unit zero. Extrema: proved for floats without NaN, with a premise on the start value only for layouts the library does not handle. C53_run: on broadcast views that pass has_uniform_stride the library is handed a run of cells with the last stride, possibly outside the buffer. Refuted in general: i32/u32 addition that overflows wraps on some layouts and panics on others; max of infinities is -infinity or f32::MIN depending on the layout. Missing from the full statement: nothing else; with NaN the library contract says nothing."
  },
  {
   "property": "C54",
   "status": "proved",
   "theorems": [
    "C54_view",
    "C54_ill_formed_panics",
    "C54_agrees_with_einsum"
   ],
   "note": "Proved in full for subscripts of letters. C54_view gives the elements, the None case and the write flag; C54_ill_formed_panics the rejected requests; C54_agrees_with_einsum the relation to einsum. Arrays made by einsum_view are among the reachable arrays (Ch_einsum) of all other theorems."
  },
  {
   "property": "C55",
   "status": "partial",
   "theorems": [
    "C55_trailing_partial",
    "C55_space_before_letter_panics",
    "C55_output_space_panics",
    "C55_view_space_empty",
    "C55_space_refuted"
   ],
   "note": "Refuted in general. Proved: spaces at the end of an operand's subscripts are ignored (C55_trailing_partial); a space before a letter panics; a space in the output panics in einsum and gives an empty array in einsum_view. Missing from the full statement: nothing else; it is false for the remaining positions."
  },
  {
   "property": "C56",
   "status": "proved",
   "theorems": [
    "C56_literal",
    "C56_too_many_axes_panics",
    "C56_faithful"
   ],
   "note": "Proved in full. C56_literal gives the text up to spaces, C56_faithful its injectivity and independence of layout, C56_too_many_axes_panics the only panic. Emptiness is excluded in C56_faithful because arrays of shape [0] and [0, 3] print alike (C56_ex)."
  },
  {
   "property": "C57",
   "status": "proved",
   "theorems": [
    "C57_collapse_contiguous"
   ],
   "note": "Proved in full. The helper is only used by tests of the repository."
  },
  {
   "property": "C58",
   "status": "partial",
   "theorems": [
    "C58_position_partial",
    "C58_next_item_partial",
    "C58_skip_refuted"
   ],
   "note": "Refuted: the flat index is not moved (flat_index_generator.rs 60 subtracts a value from itself), so a generator skips to the right position but continues from the old address, and may panic. Proved: what does move (C58_position_partial) and that the next item of a new generator is always 0 (C58_next_item_partial). The function has no caller outside its own module."
  },
  {
   "property": "C59",
   "status": "partial",
   "theorems": [
    "C59_full_checked",
    "C59_full_release_partial",
    "C59_reachable",
    "C59_index",
    "C59_reshape_checked",
    "C59_reshape_release_partial",
    "C59_full_release_refuted",
    "C59_reshape_release_refuted",
    "C59_index_release_refuted"
   ],
   "note": "With overflow checks: proved for full, reshape, sizes, offsets and indexing. Release profile: proved when the requested number of elements is a word; refuted otherwise. full and reshape then return arrays whose elements lie outside the allocation, and indexing accepts indices far out of range. Strides of the given array are assumed to be words. C70 treats the view operations and iteration, C81 the operations that read, write and allocate and whole programs of them; autograd, SIMD and vendor code are modelled with unbounded sizes only."
  },
  {
   "property": "C60",
   "status": "proved",
   "theorems": [
    "C60_assign_safe",
    "C60_assign_scalar_safe",
    "C60_assign_exact",
    "C60_assign_scalar_exact"
   ],
   "note": "Proved in full. Gives the true effect where the in-place claim C14 is refuted: the results are stored densely from the first element on, whatever the strides of the destination."
  },
  {
   "property": "C61",
   "status": "proved",
   "theorems": [
    "C61_index",
    "C61_index_valid"
   ],
   "note": "Proved in full: the exact behaviour where the per-index claims C23 and C24 are refuted."
  },
  {
   "property": "C62",
   "status": "proved",
   "theorems": [
    "C62_programs"
   ],
   "note": "Proved in full. The restrictions are those under which the single operations were refuted (C04 C05 C09 C15-C17 C19 C24 C28); C62_unrestricted_ex shows that dropping them lets programs leave memory."
  },
  {
   "property": "C63",
   "status": "proved",
   "theorems": [
    "C63_programs",
    "C63_rejects",
    "C63_layout_independent"
   ],
   "note": "Proved in full. The conditions exclude the behaviour refuted in C05 C09 C14 C15 C19 C23 C24; C63_unsupported_ex shows the library departing from the machine without them."
  },
  {
   "property": "C64",
   "status": "proved",
   "theorems": [
    "C64_max",
    "C64_min",
    "C64_max_magnitude",
    "C64_min_magnitude",
    "C64_max_determined",
    "C64_min_determined"
   ],
   "note": "Proved in full for IEEE comparison (SpecFloat.SFltb) at any precision. Complements C21, which is refuted for infinite floats."
  },
  {
   "property": "C65",
   "status": "proved",
   "theorems": [
    "C65_reduce_run",
    "C65_reduce_elements",
    "C65_reduce_right",
    "C65_copy_flag",
    "C65_copy_run",
    "C65_copy_right",
    "C65_fill",
    "C65_repeated"
   ],
   "note": "Proved in full for every reachable view. Complements C16, C17 and C19, which are refuted for broadcast views. Reductions along axes do not use the layout test (C20)."
  },
  {
   "property": "C66",
   "status": "proved",
   "theorems": [
    "C66_assign",
    "C66_assign_scalar",
    "C66_unique",
    "C66_right"
   ],
   "note": "Proved in full for every writable reachable view. Complements C14, which is refuted for strided left sides and for overlap. Covers the portable kernels; the SIMD kernels read a block before writing it (C49)."
  },
  {
   "property": "C67",
   "status": "proved",
   "theorems": [
    "C67_sum",
    "C67_sum_along",
    "C67_sum_simd",
    "C67_sum_vdsp",
    "C67_builds_agree",
    "C67_bound",
    "C67_relative",
    "C67_mean",
    "C67_integers"
   ],
   "note": "Proved in full over the IEEE semantics of Coq's SpecFloat (round to nearest even, gradual underflow, overflow to infinity). The mean is covered in the portable build, for fewer than 2^prec elements. The vDSP result assumes only that the library adds every element once. Broadcast views are excluded for total sums because C19 is refuted there."
  },
  {
   "property": "C68",
   "status": "proved",
   "theorems": [
    "C68_dot",
    "C68_matvec",
    "C68_matmul",
    "C68_bmm",
    "C68_einsum",
    "C68_bound",
    "C68_builds_agree",
    "C68_integers",
    "C68_einsum_integers"
   ],
   "note": "Proved in full over the IEEE semantics of SpecFloat, with fused multiply-add defined as one rounding of the exact x*y+z (SFfma). Covers letter subscripts without repeated output letters, positive extents, and operands whose elements are bit patterns of the format. BLAS and vDSP products are not covered: what they may do to rounding is not specified."
  },
  {
   "property": "C69",
   "status": "proved",
   "theorems": [
    "C69_constructors",
    "C69_broadcast_to",
    "C69_views",
    "C69_diagonal",
    "C69_slices",
    "C69_binary",
    "C69_elementwise",
    "C69_assign",
    "C69_copies",
    "C69_index",
    "C69_equals",
    "C69_fill",
    "C69_reduce",
    "C69_reduce_along",
    "C69_mean",
    "C69_dot",
    "C69_matvec",
    "C69_matvec_no_rows",
    "C69_einsum_ub",
    "C69_einsum_general",
    "C69_matmul",
    "C69_bmm"
   ],
   "note": "Every operation on arrays without elements: which are refused, which do nothing, and where the code has undefined behaviour (matrix product over an empty inner axis, einsum with an extent of zero)."
  },
  {
   "property": "C70",
   "status": "proved",
   "theorems": [
    "C70_checked",
    "C70_checked_iteration",
    "C70_agree",
    "C70_agree_plain",
    "C70_iteration",
    "C70_release_rejects",
    "C70_release_slice",
    "C70_release_reversed",
    "C70_release_empty",
    "C70_stride_overflow"
   ],
   "note": "Every view operation and the flat index generator on words of any size, both builds: refinement with overflow checks, agreement on reachable arrays, what release builds accept that checked builds reject."
  },
  {
   "property": "C71",
   "status": "proved",
   "theorems": [
    "C71_arange",
    "C71_wrong_way",
    "C71_zero_step",
    "C71_infinite_ends",
    "C71_linspace",
    "C71_linspace_exclusive",
    "C71_large_ends",
    "C71_f64_beyond_f32"
   ],
   "note": "Rounding-error bounds for the count and for every point of arange and linspace on floats; the count can be one too large, never too small unless the end swamps the step."
  },
  {
   "property": "C72",
   "status": "proved",
   "theorems": [
    "C72_slice",
    "C72_slice_along",
    "C72_memory",
    "C72_reshape",
    "C72_reshape_right"
   ],
   "note": "Exact acceptance and exact addresses for every request, including requests outside the array, which slice does not reject."
  },
  {
   "property": "C73",
   "status": "proved",
   "theorems": [
    "C73_nditer",
    "C73_right",
    "C73_nested",
    "C73_two_axes",
    "C73_all_axes"
   ],
   "note": "Exact positions, exact condition for staying inside the allocation, and exact condition for the items to be the sub-arrays."
  },
  {
   "property": "C74",
   "status": "proved",
   "theorems": [
    "C74_ellipsis",
    "C74_seen",
    "C74_value",
    "C74_position_panics",
    "C74_short_panics",
    "C74_output_dots_ignored",
    "C74_output_dot_drops",
    "C74_output_ellipsis_panics",
    "C74_single",
    "C74_outside_memory"
   ],
   "note": "Subscripts with an ellipsis and a repeated letter are outside the statement."
  },
  {
   "property": "C75",
   "status": "proved",
   "theorems": [
    "C75_operation",
    "C75_programs",
    "C75_rejects",
    "C75_builds_agree"
   ],
   "note": "Maximum and minimum are not commands of these programs (see C50 and C53 for their kernels); the conditions on BLAS are needed, see C52."
  },
  {
   "property": "C76",
   "status": "proved",
   "theorems": [
    "C76_binary",
    "C76_scalar_op",
    "C76_neg",
    "C76_assign",
    "C76_assign_scalar",
    "C76_reduce",
    "C76_dot",
    "C76_matvec",
    "C76_bmm",
    "C76_einsum",
    "C76_fill",
    "C76_iter_along",
    "C76_slice",
    "C76_unit_step",
    "C76_columns",
    "C76_diagonal",
    "C76_transposed_matvec",
    "C76_column_range"
   ],
   "note": "Portable build. The other theorems check accesses only, as DESIGN.md says; this property says where the stricter rule of the language makes a difference. C95 is the same for the vectorised elementwise kernels and reductions."
  },
  {
   "property": "C77",
   "status": "proved",
   "theorems": [
    "C77_wrap",
    "C77_programs",
    "C77_elementwise",
    "C77_scalar_op",
    "C77_negation",
    "C77_sum_product",
    "C77_sum_product_along",
    "C77_trace",
    "C77_magnitudes",
    "C77_wraps",
    "C77_no_overflow",
    "C77_dot_checked",
    "C77_matvec_checked"
   ],
   "note": "Portable build. The exact condition for a panic of matrix, batched products and einsum depends on the kernel chosen; for these the release result is exact and a sufficient bound for the debug run is proved."
  },
  {
   "property": "C78",
   "status": "proved",
   "theorems": [
    "C78_accepts",
    "C78_elements",
    "C78_types"
   ],
   "note": "C78_accepts is about Vecs around arrays; fixed-size arrays around Vecs are the subject of C04. That a type with two values of D needs an annotation is a fact about the Rust compiler and is not modelled."
  },
  {
   "property": "C79",
   "status": "proved",
   "theorems": [
    "C79_related",
    "C79_shapes_decide",
    "C79_homomorphism",
    "C79_elements_generated"
   ],
   "note": "Programs of Prog.v, portable build. A comparison shows a boolean, so C79_shapes_decide leaves comparisons out; C79_equal_reads shows that this is needed. C79_division_panics shows that a function that may panic must be left out too."
  },
  {
   "property": "C80",
   "status": "proved",
   "theorems": [
    "C80_related",
    "C80_homomorphism",
    "C80_shapes_decide",
    "C80_any_numbers",
    "C80_backward_untracked",
    "C80_backward_succeeds"
   ],
   "note": "C80_any_numbers, C80_backward_untracked and C80_backward_succeeds are the parts of C33, C35 and C36 that do not mention values, for numbers without laws."
  },
  {
   "property": "C81",
   "status": "proved",
   "theorems": [
    "C81_checked",
    "C81_release",
    "C81_safe",
    "C81_release_outer_product",
    "C81_release_table",
    "C81_room"
   ],
   "note": "Programs of Prog.v, portable build. Moving pointers, loop counters, numbers of axes and positions in strings stay in nat; allocations succeed. The flat indices of a loop are computed before the loop starts, so a panic in the middle of one is placed before its first access; it follows that in the build with checks a program outside the scope of C62 that leaves memory and then overflows is shown as panicking."
  },
  {
   "property": "C82",
   "status": "proved",
   "theorems": [
    "C82_programs",
    "C82_panics"
   ],
   "note": "Programs of C33 (admissible: at most 32 axes; shared tensors that are consumed by reshape, squeeze or unsqueeze are row-major; seeds of backward_with are new arrays or tensors of the program)."
  },
  {
   "property": "C83",
   "status": "proved",
   "theorems": [
    "C83_programs",
    "C83_without_blas",
    "C83_reference",
    "C83_panics",
    "C83_unit_axes"
   ],
   "note": "Exact equality of results over a field. With BLAS: wide shapes in matrix products (C83_unit_axes shows what happens otherwise). NEON and vDSP alone ask nothing (C83_without_blas)."
  },
  {
   "property": "C84",
   "status": "proved",
   "theorems": [
    "C84_programs"
   ],
   "note": "Portable build. Exact operands with a representable result leave no error. The bound is computed along with the program (C84_ex: a layer with a division, bounds below 1e-4 of the derivative; C84_overflow: no bound where the float is infinite)."
  },
  {
   "property": "C85",
   "status": "proved",
   "theorems": [
    "C85_exact"
   ],
   "note": "Portable build. The premise (no bound above zero in memory at the end of the certified run) is decidable and computed in C85_ex."
  },
  {
   "property": "C86",
   "status": "proved",
   "theorems": [
    "C86_readme",
    "C86_backward0",
    "C86_backward1"
   ],
   "note": "Over any field. Tensors of earlier rounds are kept in the model, where the program drops them."
  },
  {
   "property": "C87",
   "status": "partial",
   "theorems": [
    "C87_exact_partial",
    "C87_near_partial",
    "C87_above_partial",
    "C87_below_refuted",
    "C87_shape_refuted",
    "C87_nan_refuted"
   ],
   "note": "Proved: exactly what is accepted (C87_exact_partial), that arrays within the tolerance are accepted, and that accepted arrays have left <= right + tol. Refuted: only the largest signed difference is compared, so [0, 0] and [0, 100] are almost equal; operands are broadcast, so shapes may differ; a NaN beside an equal element is ignored. Missing from the full statement: nothing else; it is false."
  },
  {
   "property": "C88",
   "status": "proved",
   "theorems": [
    "C88_programs",
    "C88_exact",
    "C88_between",
    "C88_same"
   ],
   "note": "C88_programs is C84 for the neon_simd build, C88_exact is C85 for it, C88_between compares the two builds, C88_same says when they agree. C88_differs shows a product and a gradient on which they do not. Of the features only neon_simd: the libraries behind blas and apple_vdsp do not document their rounding."
  },
  {
   "property": "C89",
   "status": "proved",
   "theorems": [
    "C89_astype",
    "C89_round_trip",
    "C89_only_those",
    "C89_integer_part",
    "C89_ranges"
   ],
   "note": "C89_astype gives shape, order, value and the exact panic condition; C89_round_trip and C89_only_those say which pairs of types lose nothing; C89_integer_part follows a float through an integer type. NumCast itself belongs to the num crate, which is not in the repository: its documented behaviour is modelled."
  },
  {
   "property": "C90",
   "status": "proved",
   "theorems": [
    "C90_dot",
    "C90_matvec",
    "C90_matmul",
    "C90_matmul_transposed",
    "C90_bmm",
    "C90_trace",
    "C90_sum",
    "C90_product",
    "C90_diagonal",
    "C90_f32_dot_differs"
   ],
   "note": "One theorem per pair. same_answer: both calls return, the same array record, the same elements. C90_matmul is an equation between the two calls for arbitrary operations. C90_f32_dot_differs shows why dot needs the semiring laws."
  },
  {
   "property": "C91",
   "status": "proved",
   "theorems": [
    "C91_requires_grad",
    "C91_is_leaf",
    "C91_gradient",
    "C91_detach",
    "C91_value",
    "C91_equality"
   ],
   "note": "The specification reads the answers off the text of the program: made_by counts the instructions that make tensors, last_set finds the last set_requires_grad. The converse of the third sentence is not claimed and C91_example shows it fails: an untracked result that is told to require a gradient, and x + 5, show a gradient although they are not leaves."
  },
  {
   "property": "C92",
   "status": "proved",
   "theorems": [
    "C92_uniform",
    "C92_uniform_refuses",
    "C92_randn"
   ],
   "note": "The sampler is an oracle with the documented contract of rand 0.8.5. C92_wide_ex: uniform(-f32::MAX, f32::MAX) panics although both ends are floats."
  },
  {
   "property": "C93",
   "status": "proved",
   "theorems": [
    "C93_binary",
    "C93_reduce"
   ],
   "note": "Portable kernels. The operation is any total function, so that the statement covers floats, where the order of the fold matters."
  },
  {
   "property": "C94",
   "status": "proved",
   "theorems": [
    "C94_run",
    "C94_unique",
    "C94_other",
    "C94_scalar",
    "C94_right"
   ],
   "note": "Complements C49, where overlapping operands are refuted: the exact result for them. The element operation is total, as it is for floats."
  },
  {
   "property": "C95",
   "status": "proved",
   "theorems": [
    "C95_binary",
    "C95_scalar_op",
    "C95_neg",
    "C95_assign",
    "C95_assign_scalar",
    "C95_sum",
    "C95_product",
    "C95_min",
    "C95_max",
    "C95_einsum",
    "C95_matmul",
    "C95_bmm",
    "C95_columns"
   ],
   "note": "The vectorised counterpart of C76, for elementwise operations, reductions, einsum and matrix products. Element operations are total, as they are for floats."
  },
  {
   "property": "C96",
   "status": "proved",
   "theorems": [
    "C96_min",
    "C96_max",
    "C96_min_agrees",
    "C96_max_agrees",
    "C96_min_uneven",
    "C96_max_uneven",
    "C96_min_short",
    "C96_max_short"
   ],
   "note": "Completes C50, whose min and max theorems exclude NaN cells. The portable loops are in C64."
  }
 ]
}