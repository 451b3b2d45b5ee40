{
 "claims": [
  {
   "property": "C01",
   "status": "proved",
   "theorems": [
    "C01_row_major_bijection",
    "C01_flat_position_roundtrip",
    "C01_pointer_view"
   ],
   "note": "Addresses of a constructed tensor: bijection with [base,base+size), lexicographic order; flat position conversions inverse."
  },
  {
   "property": "C02",
   "status": "proved",
   "theorems": [
    "C02_read_write",
    "C02_constructed_tensor_ok"
   ],
   "note": "For every allocated injective descriptor (tensors and views) and every spelling of indices."
  },
  {
   "property": "C03",
   "status": "proved",
   "theorems": [
    "C03_checked_subscript",
    "C03_container_subscript",
    "C03_container_range_refuted"
   ],
   "note": "Run-time tensors and container accessors. The static container accessor does not check ranges: C03_container_range_refuted."
  },
  {
   "property": "C04",
   "status": "partial",
   "theorems": [
    "C04_slice_partial",
    "C04_all_ranges",
    "C04_slice_refuted"
   ],
   "note": "False when an integer argument precedes a Range (C04_slice_refuted); proved for all other argument lists and for all-Range slices."
  },
  {
   "property": "C05",
   "status": "proved",
   "theorems": [
    "C05_view_of_view"
   ],
   "note": "Offset/extent views compose; contained in the parent."
  },
  {
   "property": "C06",
   "status": "partial",
   "theorems": [
    "C06_reshape_partial",
    "C06_reshape_refuted"
   ],
   "note": "Proved except a -1 together with a zero extent, where the code divides by zero (C06_reshape_refuted)."
  },
  {
   "property": "C07",
   "status": "partial",
   "theorems": [
    "C07_size_partial",
    "C07_size_refuted"
   ],
   "note": "Proved below 2^31 elements; the int accumulator wraps above (C07_size_refuted)."
  },
  {
   "property": "C08",
   "status": "proved",
   "theorems": [
    "C08_scalar_update",
    "C08_tensor_update",
    "C08_size_mismatch_throws",
    "C08_view_update",
    "C08_aliased_scalar_refuted"
   ],
   "note": "All thread counts, all interleavings of single memory accesses. Needs the scalar not to be an element (C08_aliased_scalar_refuted)."
  },
  {
   "property": "C09",
   "status": "proved",
   "theorems": [
    "C09_copy_from_view",
    "C09_assign"
   ],
   "note": "Copy construction, assignment sequential and parallel."
  },
  {
   "property": "C10",
   "status": "partial",
   "theorems": [
    "C10_iterator_partial",
    "C10_decrement_refuted",
    "C10_decrement_no_borrow"
   ],
   "note": "++ enumerates in row-major order; -- does not undo a ++ that carried (C10_decrement_refuted)."
  },
  {
   "property": "C11",
   "status": "partial",
   "theorems": [
    "C11_einsum_generic_partial",
    "C11_repeated_link_refuted"
   ],
   "note": "Generic path, any schedule. False when a contracted label is repeated inside A or B (C11_repeated_link_refuted)."
  },
  {
   "property": "C12",
   "status": "partial",
   "theorems": [
    "C12_zero_prefactor_fast_paths_partial",
    "C12_dot_refuted",
    "C12_outer_refuted",
    "C12_zero_prefactor_generic_partial"
   ],
   "note": "Reference, matrix-matrix, matrix-vector and element-wise paths: C's old contents never matter, law-free (NaN covered). False for the dot and outer-product paths (C12_dot_refuted, C12_outer_refuted) and for an empty contraction on the BLAS paths (C13_empty_sum_refuted)."
  },
  {
   "property": "C13",
   "status": "partial",
   "theorems": [
    "C13_gemm_partial",
    "C13_batch_refuted",
    "C13_broadcast_refuted",
    "C13_empty_sum_refuted"
   ],
   "note": "Every accepted index pattern without batch or broadcast labels. False with a batch label (C13_batch_refuted), a label only in C (C13_broadcast_refuted), an empty contraction (C13_empty_sum_refuted)."
  },
  {
   "property": "C14",
   "status": "partial",
   "theorems": [
    "C14_gemv_partial",
    "C14_broadcast_refuted",
    "C14_empty_sum_refuted"
   ],
   "note": "Every accepted pattern; false with a label only in C (C14_broadcast_refuted) and for an empty contraction (C14_empty_sum_refuted)."
  },
  {
   "property": "C15",
   "status": "partial",
   "theorems": [
    "C15_outer_partial",
    "C15_interleaved_refuted",
    "C15_strided_result_refuted"
   ],
   "note": "C listing A's labels then B's or the reverse, C contiguous. False for interleaved labels (C15_interleaved_refuted) and strided C (C15_strided_result_refuted)."
  },
  {
   "property": "C16",
   "status": "proved",
   "theorems": [
    "C16_elementwise",
    "C16_dot"
   ],
   "note": "Dot path for every layout of A and B; element-wise path for every thread schedule."
  },
  {
   "property": "C17",
   "status": "proved",
   "theorems": [
    "C17_schedule_independent"
   ],
   "note": "Same result for every distribution of targets over threads and every interleaving of memory accesses."
  },
  {
   "property": "C18",
   "status": "partial",
   "theorems": [
    "C18_sort_partial",
    "C18_sort_inverse",
    "C18_view_refuted"
   ],
   "note": "All ranks, permutations, prefactors, schedules, with or without HPTT, and inverse. False without HPTT when the index lists are equal and an operand is a strided view (C18_view_refuted)."
  },
  {
   "property": "C19",
   "status": "partial",
   "theorems": [
    "C19_gemm_partial",
    "C19_empty_sum_refuted",
    "C19_column_stride_refuted"
   ],
   "note": "All sizes, flags, leading strides; false for k = 0 with beta != 1 (C19_empty_sum_refuted) and for views with column stride != 1 (C19_column_stride_refuted)."
  },
  {
   "property": "C20",
   "status": "partial",
   "theorems": [
    "C20_gemv_partial",
    "C20_empty_sum_refuted",
    "C20_ger",
    "C20_ger_rejects"
   ],
   "note": "gemv false for an empty sum with beta != 1 (C20_empty_sum_refuted); ger fully proved."
  },
  {
   "property": "C21",
   "status": "partial",
   "theorems": [
    "C21_scale_partial",
    "C21_axpby_partial",
    "C21_scale_refuted",
    "C21_axpy_refuted"
   ],
   "note": "Contiguous operands; false for strided views (C21_scale_refuted, C21_axpy_refuted)."
  },
  {
   "property": "C22",
   "status": "proved",
   "theorems": [
    "C22_scale_row_column"
   ],
   "note": "All strides, all rows and columns."
  },
  {
   "property": "C23",
   "status": "partial",
   "theorems": [
    "C23_dot",
    "C23_dot3_partial",
    "C23_dot3_refuted"
   ],
   "note": "Two-operand dot proved for all layouts; three-operand form false for strided views (C23_dot3_refuted)."
  },
  {
   "property": "C24",
   "status": "partial",
   "theorems": [
    "C24_det_terminates_iff_no_interchange",
    "C24_det_partial",
    "C24_det_value_refuted",
    "C24_singular",
    "C24_det_termination_refuted"
   ],
   "note": "False: never terminates as soon as LAPACK exchanges a row (C24_det_terminates_iff_no_interchange), and multiplies the diagonal of A instead of U (C24_det_value_refuted). Right for lower triangular matrices."
  },
  {
   "property": "C25",
   "status": "partial",
   "theorems": [
    "C25_ranges_partial",
    "C25_stale_refuted",
    "C25_insert"
   ],
   "note": "Proved after every history whose last operation refreshes the bookkeeping, or without in-place resizes. C25_stale_refuted: block(i).resize() leaves the intervals stale."
  },
  {
   "property": "C26",
   "status": "partial",
   "theorems": [
    "C26_read",
    "C26_write",
    "C26_out_of_range",
    "C26_const_read_partial",
    "C26_const_offblock_refuted",
    "C26_to_dense"
   ],
   "note": "Non-const access, writes and dense conversion (all thread interleavings) proved; const access proved inside blocks. C26_const_offblock_refuted: const access outside the blocks returns a dangling reference."
  },
  {
   "property": "C27",
   "status": "proved",
   "theorems": [
    "C27_gemm",
    "C27_gemm_rejects"
   ],
   "note": "All orders of the block loop; per-block gemm is the modelled dense wrapper."
  },
  {
   "property": "C28",
   "status": "proved",
   "theorems": [
    "C28_tile_of",
    "C28_partition"
   ],
   "note": "All grids (zero-size tiles included) and all index spellings."
  },
  {
   "property": "C29",
   "status": "proved",
   "theorems": [
    "C29_history",
    "C29_no_spurious_failure"
   ],
   "note": "Writes, tile accesses, scaling, zero(), zero_no_clear(), in any order and with throwing operations; allocator is any function returning unused cells. += and -= with scalars are C32."
  },
  {
   "property": "C30",
   "status": "proved",
   "theorems": [
    "C30_gemm",
    "C30_rejects"
   ],
   "note": "Any subset of tiles present, zero-size tiles, all transposition flags, any order of the parallel tile loop; the only failure is an exhausted allocator."
  },
  {
   "property": "C31",
   "status": "partial",
   "theorems": [
    "C31_dot_rejects",
    "C31_dot_partial",
    "C31_true_dot_partial",
    "C31_dot_refuted"
   ],
   "note": "Proved for grids that read the same backwards (dot) and for vectors / square matrix grids (true_dot), any summation order. Other grids: false, refuted with 1x2 and 2x2x2 grids (strides are stored in reversed places, TiledLinearAlgebra.hpp 26; wrong modulus at 76)."
  },
  {
   "property": "C32",
   "status": "partial",
   "theorems": [
    "C32_updates_partial",
    "C32_updates_refuted"
   ],
   "note": "Proved when all tiles exist (or the scalar is 0). With a missing tile the operations throw: refuted."
  },
  {
   "property": "C33",
   "status": "partial",
   "theorems": [
    "C33_sum_partial",
    "C33_sum_large_refuted",
    "C33_block_sum_partial",
    "C33_extremum_partial",
    "C33_max_nan_refuted",
    "C33_max_large_refuted",
    "C33_block_max_refuted",
    "C33_block_extremum_partial"
   ],
   "note": "Sum: proved for every layout and every distribution of the iterations over threads for extents whose product is below 2^31, refuted beyond (the element count is an int). Max/min: proved for comparisons that are a weak order on the contents and sizes + threads <= 2^31; refuted with NaN (result depends on the thread count), for large sizes (signed overflow), and for block tensors (off-block zeros are ignored, a tensor with no block is UB)."
  },
  {
   "property": "C34",
   "status": "partial",
   "theorems": [
    "C34_arange_double_partial",
    "C34_arange_int_partial",
    "C34_int_overrun_refuted",
    "C34_double_overrun_refuted"
   ],
   "note": "Proved for int when step divides the span, and for double with integer ends and step 1; refuted otherwise: the element count truncates while the loop runs to stop, so arange(0,10,3) and, in doubles, arange(0,1,0.1) write past the end of the returned tensor."
  },
  {
   "property": "C35",
   "status": "proved",
   "theorems": [
    "C35_fftfreq_double",
    "C35_fftfreq",
    "C35_fftfreq_exact"
   ],
   "note": "Every n >= 1: exact over the rationals; in IEEE doubles (Flocq) each element is the rounded 1/(n d) times the exact integer."
  },
  {
   "property": "C36",
   "status": "partial",
   "theorems": [
    "C36_circular_partial",
    "C36_order_refuted"
   ],
   "note": "All observers, for every history of put/reset. operator[] indexes the raw array, so after an overwrite it is not in order of insertion (refuted); the exact position of each value is proved."
  },
  {
   "property": "C37",
   "status": "proved",
   "theorems": [
    "C37_timers",
    "C37_balanced"
   ],
   "note": "Every history of calls by any threads (each call runs under one mutex). Text formatting of the report is not modelled."
  },
  {
   "property": "C38",
   "status": "proved",
   "theorems": [
    "C38_intersect",
    "C38_difference",
    "C38_unique"
   ],
   "note": ""
  },
  {
   "property": "C39",
   "status": "partial",
   "theorems": [
    "C39_unfold",
    "C39_khatri_rao_partial",
    "C39_khatri_rao_mismatch",
    "C39_khatri_rao_order_refuted",
    "C39_khatri_rao_empty_refuted"
   ],
   "note": "unfold proved for every rank up to the library's 16 labels, mode, extents, contents and schedule. khatri_rao proved when both label lists end with the common labels in the same order and extents are positive; other label orders give wrong results (C39_khatri_rao_order_refuted) and empty extents throw or divide by zero (C39_khatri_rao_empty_refuted)."
  },
  {
   "property": "C40",
   "status": "partial",
   "theorems": [
    "C40_history_partial",
    "C40_open_iff",
    "C40_unit_slice_refuted",
    "C40_assign_throws",
    "C40_pointer_readonly_refuted",
    "C40_pointer_assignment_lost_refuted"
   ],
   "note": "Histories of opens, element writes, fills, whole-tensor assignments and destructions refine the block semantics when no sliced extent is 1 (C40_history_partial); a selection opens without undefined behaviour exactly when no All/Range has length 1 (C40_open_iff); assignment from a pointer writes through a read-only view and is undone by the destructor of a writable one (refuted)."
  },
  {
   "property": "C41",
   "status": "partial",
   "theorems": [
    "C41_eval_partial",
    "C41_to_tensor",
    "C41_wide_index_refuted",
    "C41_slice_range_refuted",
    "C41_kronecker"
   ],
   "note": "Function tensors, slices, slices of slices: extents, evaluation at the composed indices with negative spellings, throw for int indices out of range (C41_eval_partial); parallel conversion to a tensor (C41_to_tensor); Kronecker delta. Refuted for indices beyond int (wrapped) and for out-of-range integers inside a slice (not rejected)."
  },
  {
   "property": "C42",
   "status": "partial",
   "theorems": [
    "C42_program_partial",
    "C42_stored_refuted",
    "C42_alias_refuted",
    "C42_shape_refuted"
   ],
   "note": "Programs of named expressions and assignments of arbitrary expression trees mean what they say (C42_program_partial), if named expressions are built from lasting operands, operands cover the target's indices and overlap it only as the target itself. Refuted: stored nested expressions dangle; overlapping views; extents are not checked."
  },
  {
   "property": "C43",
   "status": "partial",
   "theorems": [
    "C43_ranges_partial",
    "C43_args_partial",
    "C43_chain_partial",
    "C43_assign_view",
    "C43_from_view",
    "C43_into_view",
    "C43_negative_range_refuted",
    "C43_unit_range_refuted",
    "C43_far_index_refuted",
    "C43_cast_refuted",
    "C43_default_target_refuted"
   ],
   "note": "Slicing run-time tensors and views (vector of ranges, mixed arguments, chains), assignment of views to tensors, construction from a TensorView, assignment into views proved for all shapes and schedules. Refuted: bounds counted from the back, documented Range{a,a}, indices below -d accepted, assignment with element conversion from a strided view, default-constructed target of a rank-0 view."
  },
  {
   "property": "C44",
   "status": "partial",
   "theorems": [
    "C44_block_partial",
    "C44_structure",
    "C44_block_vec_partial",
    "C44_vec_block_partial",
    "C44_scalar_exact",
    "C44_scalar_partial",
    "C44_scalar_dot",
    "C44_vec_scalar_exact",
    "C44_scalar_refuted",
    "C44_vector_outer_refuted",
    "C44_broadcast_refuted"
   ],
   "note": "Block result: proved for every block structure, thread order and prefactor on the element-wise, matrix, matrix-vector and generic dense paths (path_ok). Scalar result: the exact value is proved; it counts prefactor*C twice unless the dot path is taken (C44_scalar_refuted). Dense results of rank >= 1 do not compile (address of a temporary). Labels that only join through C (C44_vector_outer_refuted, C44_broadcast_refuted) give a result that is not block diagonal and lose elements."
  },
  {
   "property": "C45",
   "status": "partial",
   "theorems": [
    "C45_value_partial",
    "C45_derivative_partial",
    "C45_constant_refuted"
   ],
   "note": "Proved in every field of characteristic 0 for every non-empty coefficient vector, every point vector, order and scale. Missing: rounding; and empty vectors, where it is false: the derivative of a constant is an empty vector, whose evaluation is undefined (C45_constant_refuted)."
  },
  {
   "property": "C46",
   "status": "proved",
   "theorems": [
    "C46_symm_gemm"
   ],
   "note": "Release build (the debug asserts on the extents are stricter); inner extent 0 included."
  },
  {
   "property": "C47",
   "status": "partial",
   "theorems": [
    "C47_einsum_partial"
   ],
   "note": "Whole call through the dispatcher, whichever path; the excluded patterns are the refuted ones of C11, C13, C14, C15."
  },
  {
   "property": "C48",
   "status": "partial",
   "theorems": [
    "C48_scale",
    "C48_axpby",
    "C48_dot",
    "C48_dot_dense",
    "C48_scale_row",
    "C48_scale_column_refuted"
   ],
   "note": "scale, axpy, axpby, dot (equal block structures, and different ones through dense copies), scale_row proved. False: scale_column multiplies elements of other columns (C48_scale_column_refuted)."
  },
  {
   "property": "C49",
   "status": "partial",
   "theorems": [
    "C49_has_tile",
    "C49_has_tile_container_partial",
    "C49_has_tile_container_refuted"
   ],
   "note": "Integer overload proved in full; container overload proved for non-negative coordinates, refuted for negative ones (TiledTensor.hpp 343)."
  },
  {
   "property": "C50",
   "status": "partial",
   "theorems": [
    "C50_assign_partial",
    "C50_self_assign_refuted"
   ],
   "note": "Proved for distinct tensors; self-assignment empties the tensor: refuted."
  },
  {
   "property": "C51",
   "status": "proved",
   "theorems": [
    "C51_add_sub",
    "C51_rejects"
   ],
   "note": "Distinct tensors sharing no memory; any tile subsets."
  },
  {
   "property": "C52",
   "status": "proved",
   "theorems": [
    "C52_to_dense"
   ],
   "note": "Closed under the global context; no law on the element type is used."
  },
  {
   "property": "C53",
   "status": "partial",
   "theorems": [
    "C53_new_tensor_partial",
    "C53_large_refuted"
   ],
   "note": "Proved for every strided operand, every thread count and interleaving while size + threads <= 2^31. Beyond, the int loop counter of some thread overflows (C53_large_refuted, for all sizes below 2^31)."
  },
  {
   "property": "C54",
   "status": "partial",
   "theorems": [
    "C54_contiguous_partial",
    "C54_rest_partial",
    "C54_flat_partial",
    "C54_large_refuted",
    "C54_strided_parent_refuted",
    "C54_offset_refuted"
   ],
   "note": "Proved: contiguous rank-1 parents with any offset and stride, strided rank-1 parents without a Stride argument, and the flat view of a tensor of any rank, each up to 2^24 elements (binary32 arithmetic proved exact there, against Flocq). False of the code: beyond 2^24 elements the extent is rounded; a Stride on a strided parent and an Offset on a parent of higher rank give a wrong extent (three refutations)."
  },
  {
   "property": "C55",
   "status": "partial",
   "theorems": [
    "C55_companion_partial",
    "C55_linear",
    "C55_coefficients_refuted"
   ],
   "note": "Proved: degree 1 in full; degrees 2 to 4096 for series with only a leading coefficient, with all matrix entries and the frame. False of the code for other coefficients (the code's TODO): C55_coefficients_refuted. The element-wise operators and arange used inside are taken as proved in C08/C34."
  },
  {
   "property": "C56",
   "status": "partial",
   "theorems": [
    "C56_gesv_partial",
    "C56_view_refuted"
   ],
   "note": "Proved for contiguous row-major A and B.  False for views with a larger row stride: the extents are passed as leading dimensions (C56_view_refuted)."
  },
  {
   "property": "C57",
   "status": "proved",
   "theorems": [
    "C57_invert"
   ],
   "note": "For n > 0 and LAPACK routines meeting S_Lapack.inv_contract (info > 0 only for singular matrices, otherwise getri gives the inverse)."
  },
  {
   "property": "C58",
   "status": "partial",
   "theorems": [
    "C58_syev_partial",
    "C58_upper_refuted",
    "C58_strided_values_refuted",
    "C58_no_convergence_refuted"
   ],
   "note": "Proved for contiguous W when the eigensolver converges, for the matrix given by the lower triangle.  False otherwise: the row-major lower triangle is read instead of the documented upper one, the stride of W is ignored, and non-convergence is not reported."
  },
  {
   "property": "C59",
   "status": "proved",
   "theorems": [
    "C59_pow"
   ],
   "note": "Elements form an integral domain; the order, power and absolute value are arbitrary functions (a strict order).  Convergence of the eigensolver is a hypothesis."
  },
  {
   "property": "C60",
   "status": "partial",
   "theorems": [
    "C60_norm_partial",
    "C60_one_infinity_partial",
    "C60_one_refuted",
    "C60_wide_refuted",
    "C60_tall_refuted"
   ],
   "note": "Proved for MaxAbs and Frobenius of square matrices; One and Infinity are exchanged.  False for rectangular matrices: wide ones are read out of bounds, tall ones are not read completely."
  },
  {
   "property": "C61",
   "status": "partial",
   "theorems": [
    "C61_svd_dd_partial",
    "C61_svd_refuted",
    "C61_no_convergence_refuted"
   ],
   "note": "Proved for svd_dd (job All) when LAPACK converges.  svd never returns normally: its work vector is one element short (or its size wraps round) for every non-empty matrix, C61_svd_refuted.  Non-convergence of svd_dd is not reported."
  },
  {
   "property": "C62",
   "status": "partial",
   "theorems": [
    "C62_qr_partial",
    "C62_tall_refuted",
    "C62_wide_refuted"
   ],
   "note": "Proved for square matrices.  q exchanges the extents: for more rows than columns LAPACK rejects the call, for fewer the copy is read out of bounds."
  },
  {
   "property": "C63",
   "status": "partial",
   "theorems": [
    "C63_lyapunov_general_partial",
    "C63_lyapunov_partial",
    "C63_transpose_refuted",
    "C63_scale_refuted"
   ],
   "note": "Proved: A X + X A = s^2 Q where s is the scale factor returned by trsyl; hence the statement for symmetric A and s = 1.  False for other A (C63_transpose_refuted) and whenever s^2 Q differs from Q (C63_scale_refuted: the factor is multiplied instead of divided out)."
  },
  {
   "property": "C64",
   "status": "partial",
   "theorems": [
    "C64_geev_real_results",
    "C64_geev_real_partial",
    "C64_double_refuted",
    "C64_geev_partial",
    "C64_strided_values_refuted",
    "C64_no_convergence_refuted"
   ],
   "note": "Proved for complex and real element types and contiguous W when LAPACK converges (for real types: when the eigenvalues are exactly representable as float, which always holds for float).  False for strided W, for the reporting of failures, and for double, whose eigenvalues are rounded to single precision on their way into W."
  },
  {
   "property": "C65",
   "status": "partial",
   "theorems": [
    "C65_einsum_partial",
    "C65_scalar",
    "C65_scalar_dot_partial",
    "C65_elementwise_exact",
    "C65_elementwise_partial",
    "C65_elementwise_refuted",
    "C65_scalar_dot_refuted"
   ],
   "note": "Proved for the patterns whose dense calls are right (tile_path_ok, see C11-C16), for scalar results not computed by dot, and exactly what the element-wise product computes.  False: an element-wise product does not scale C by its prefactor where A or B lacks the tile (C65_elementwise_refuted); dot is wrong for grids that differ from themselves read backwards (C65_scalar_dot_refuted)."
  },
  {
   "property": "C66",
   "status": "partial",
   "theorems": [
    "C66_tiled_result_partial",
    "C66_block_result_partial",
    "C66_block_of_tiled_refuted",
    "C66_elementwise_refuted"
   ],
   "note": "Proved for every tiled result and for block results with a block operand, for the patterns whose dense calls are right (tile_path_ok).  False: with A and B tiled and C block-diagonal no contraction is performed (C66_block_of_tiled_refuted); the element-wise product reads and writes the tiles (i,0,..) (C66_elementwise_refuted)."
  },
  {
   "property": "C67",
   "status": "partial",
   "theorems": [
    "C67_scalar",
    "C67_scale",
    "C67_shift_partial",
    "C67_shift_refuted",
    "C67_tensor",
    "C67_tensor_rejects",
    "C67_set_all"
   ],
   "note": "True for *= with a scalar and for all operators with a block tensor.  += and -= with a scalar leave the elements outside the blocks at zero (C67_shift_partial, C67_shift_refuted)."
  },
  {
   "property": "C68",
   "status": "partial",
   "theorems": [
    "C68_values_partial",
    "C68_moved_from_refuted",
    "C68_resize_refuted",
    "C68_cast_refuted",
    "C68_size_refuted"
   ],
   "note": "Proved for all programs except four cases that are false of the code: assigning to (C68_moved_from_refuted) or resizing (C68_resize_refuted) a moved-from tensor whose recorded extents are the new ones, assigning another element type to a moved-from matrix (C68_cast_refuted), arithmetic on 2^31 or more elements (C68_size_refuted)."
  },
  {
   "property": "C69",
   "status": "partial",
   "theorems": [
    "C69_function_operand",
    "C69_dot_partial",
    "C69_gemm",
    "C69_gemv",
    "C69_ger",
    "C69_direct_product_partial",
    "C69_rejects",
    "C69_beta_refuted",
    "C69_dot_large_refuted"
   ],
   "note": "gemm, gemv, ger and the exceptions proved in full. direct_product ignores beta (C69_beta_refuted), proved for beta = 0. dot, true_dot and direct_product narrow the position to int: proved for extents up to 2^31, dot false above (C69_dot_large_refuted). scale accepts no writable tensor type of the library."
  },
  {
   "property": "C70",
   "status": "partial",
   "theorems": [
    "C70_reconstruct",
    "C70_weights",
    "C70_weights_rejects",
    "C70_norm_partial",
    "C70_rmsd",
    "C70_norm_complex_refuted",
    "C70_cp_rank_partial",
    "C70_cp_rank_refuted"
   ],
   "note": "parafac_reconstruct, weight_tensor and rmsd proved in full. norm squares without conjugating: false for complex elements (C70_norm_complex_refuted). validate_cp_rank adds and multiplies in int: proved below 2^31, false above (C70_cp_rank_refuted); division and rounding taken as exact."
  },
  {
   "property": "C71",
   "status": "proved",
   "theorems": [
    "C71_reconstruct",
    "C71_core",
    "C71_exact",
    "C71_project"
   ],
   "note": "Given the factors. Outcomes: the result, or the exception of an allocator that refused."
  },
  {
   "property": "C72",
   "status": "partial",
   "theorems": [
    "C72_update_partial",
    "C72_iteration_partial",
    "C72_last_partial",
    "C72_singular_refuted",
    "C72_one_mode_refuted"
   ],
   "note": "Proved for runs in which every linear solve succeeds. The error code of gesv is dropped: with a singular normal matrix the fit can get worse (C72_singular_refuted); one-mode tensors use default-constructed matrices (C72_one_mode_refuted). Value-level model; initialize_cp is not modelled."
  },
  {
   "property": "C73",
   "status": "partial",
   "theorems": [
    "C73_loop_partial",
    "C73_repeated_label",
    "C73_not_blocks",
    "C73_rank_mismatch",
    "C73_race_refuted",
    "C73_scalar_result_refuted",
    "C73_extents_refuted"
   ],
   "note": "Proved for one thread, and for any number of threads if nothing is summed (C73_loop_partial); contractions without matrix block structure always use the loop (C73_not_blocks). With several threads and a summed label the threads update one element of C without protection and updates can be lost (C73_race_refuted); a result without indices reads element 0 of an empty vector (C73_scalar_result_refuted); extents that disagree are not checked and lead to out-of-range reads (C73_extents_refuted)."
  },
  {
   "property": "C74",
   "status": "proved",
   "theorems": [
    "C74_direct_product",
    "C74_rank_mismatch"
   ],
   "note": "Proved for every rank above zero (the rank-0 case is compiled to the dot plan, C75)."
  },
  {
   "property": "C75",
   "status": "partial",
   "theorems": [
    "C75_dot_partial",
    "C75_scalars_refuted"
   ],
   "note": "Proved for every rank above zero; two scalars read element 0 of an empty vector (C75_scalars_refuted)."
  },
  {
   "property": "C76",
   "status": "partial",
   "theorems": [
    "C76_outer_partial",
    "C76_prefactor_refuted",
    "C76_no_label_refuted",
    "C76_sum_refuted",
    "C76_interleaved_refuted",
    "C76_broadcast_refuted",
    "C76_empty_refuted"
   ],
   "note": "Proved for C equal to the labels of A followed by those of B (or the reverse), with prefactor 0 or 1 of C and a non-empty fast factor. Otherwise false: other prefactors also scale the memory behind C, because a byte count is used as element count (C76_prefactor_refuted); labels of one operand that are not in C are not summed (C76_sum_refuted); interleaved labels (C76_interleaved_refuted), labels only in C (C76_broadcast_refuted), an operand sharing no label with C (C76_no_label_refuted) and empty operands (C76_empty_refuted)."
  },
  {
   "property": "C77",
   "status": "partial",
   "theorems": [
    "C77_gemv_partial",
    "C77_more_sums_refuted",
    "C77_more_free_refuted",
    "C77_sum_refuted",
    "C77_broadcast_refuted",
    "C77_empty_refuted"
   ],
   "note": "Proved when as many leading summed labels as there are free labels already give the whole summed extent (e.g. one free, one summed label) and the sum is not empty or cp is 1. Otherwise false: the number of summed labels is taken from the free ones (C77_more_sums_refuted, C77_more_free_refuted); labels of one operand only (C77_sum_refuted, C77_broadcast_refuted); an empty sum leaves C unscaled (C77_empty_refuted)."
  },
  {
   "property": "C78",
   "status": "partial",
   "theorems": [
    "C78_gemm_partial",
    "C78_transposed_A_refuted",
    "C78_transposed_B_refuted",
    "C78_more_sums_refuted",
    "C78_more_free_refuted",
    "C78_batch_refuted",
    "C78_empty_refuted"
   ],
   "note": "Proved for all eight orders when the counts of labels agree as in C77 and transposed operands are square. Otherwise false: a transposed non-square operand is passed with its two extents exchanged (C78_transposed_A_refuted, C78_transposed_B_refuted); different numbers of labels (C78_more_sums_refuted, C78_more_free_refuted); a label in all three (C78_batch_refuted); an empty sum (C78_empty_refuted)."
  },
  {
   "property": "C79",
   "status": "partial",
   "theorems": [
    "C79_tuple_partial",
    "C79_single_partial",
    "C79_negative_refuted",
    "C79_empty_refuted",
    "C79_index_refuted",
    "C79_huge_refuted",
    "C79_no_axis_refuted"
   ],
   "note": "Proved for tuples of non-negative integers and non-empty slices with step 1 (the rest throws) and for single integers, also counted from the end, and single slices (C79_tuple_partial, C79_single_partial). Otherwise false: negative integers in a tuple throw (C79_negative_refuted), empty slices throw (C79_empty_refuted), NumPy integers next to a slice throw (C79_index_refuted), integers from 2^63 on wrap around and are accepted (C79_huge_refuted), a slice of a tensor without axes reads an extent that does not exist (C79_no_axis_refuted)."
  },
  {
   "property": "C80",
   "status": "partial",
   "theorems": [
    "C80_value_partial",
    "C80_buffer_partial",
    "C80_key_refuted",
    "C80_overlap_refuted"
   ],
   "note": "Proved for tuples as in C79 (C80_value_partial, C80_buffer_partial). Otherwise false: a key that is not a tuple is refused although it may be read (C80_key_refuted); a buffer that shares memory with the block is read after it was overwritten (C80_overlap_refuted)."
  },
  {
   "property": "C81",
   "status": "partial",
   "theorems": [
    "C81_from_buffer_partial",
    "C81_assign_partial",
    "C81_into_view_partial",
    "C81_format_partial",
    "C81_export_partial",
    "C81_import_partial",
    "C81_packed_refuted",
    "C81_overlap_refuted",
    "C81_no_axis_refuted",
    "C81_pair_refuted"
   ],
   "note": "Proved for strides that are whole numbers of items and buffers that share no memory with the target (C81_from_buffer_partial, C81_assign_partial, C81_into_view_partial, C81_format_partial, C81_export_partial, C81_import_partial). Otherwise false: strides are divided by the item size, so a field of a packed record is read at wrong addresses (C81_packed_refuted); assigning its own reverse to a tensor (C81_overlap_refuted); a view of a buffer without axes reads shape[0] (C81_no_axis_refuted); the second character of a format is ignored (C81_pair_refuted)."
  },
  {
   "property": "C82",
   "status": "partial",
   "theorems": [
    "C82_buffer_partial",
    "C82_tensor_partial",
    "C82_shape_refuted",
    "C82_number_refuted",
    "C82_integer"
   ],
   "note": "Proved for values, tensors of the same shape (also the tensor itself), views and buffers (C82_tensor_partial, C82_buffer_partial) and for Python integers (C82_integer). Otherwise false: a tensor of another shape but the same size is accepted (C82_shape_refuted); a Python float goes to the single-precision overload, which is registered first, and of a complex number a real tensor silently uses the real part (C82_number_refuted)."
  },
  {
   "property": "C83",
   "status": "partial",
   "theorems": [
    "C83_iteration_partial",
    "C83_copy_partial",
    "C83_empty_refuted"
   ],
   "note": "Proved for tensors with at least one element (C83_iteration_partial, C83_copy_partial). A tensor without elements raises an error instead of ending the loop (C83_empty_refuted)."
  },
  {
   "property": "C84",
   "status": "partial",
   "theorems": [
    "C84_tensor_partial",
    "C84_rank1_partial",
    "C84_view_refuted",
    "C84_size_refuted",
    "C84_no_axis_refuted"
   ],
   "note": "Proved for tensors (C84_tensor_partial, C84_rank1_partial). Otherwise false: the strides of a source view are ignored (C84_view_refuted); the product of the extents is not checked (C84_size_refuted); to_rank_1_view of a tensor without axes is empty (C84_no_axis_refuted)."
  },
  {
   "property": "C85",
   "status": "partial",
   "theorems": [
    "C85_syev_partial",
    "C85_order_refuted"
   ],
   "note": "Proved except for the order: eigenvalues ascend within each block only (C85_syev_partial; C85_order_refuted: diag(2, 1) in two blocks gives W = [2, 1])."
  },
  {
   "property": "C86",
   "status": "partial",
   "theorems": [
    "C86_gesv_partial",
    "C86_info_partial",
    "C86_info_refuted",
    "C86_invert_partial",
    "C86_empty_block_refuted"
   ],
   "note": "Proved: gesv with one thread (C86_gesv_partial); with several threads the returned number has only bits some call returned, so no false alarm (C86_info_partial); invert without empty blocks (C86_invert_partial). False: info_out |= info is not synchronised, so a singular block can go unreported (C86_info_refuted); invert of a tensor with an empty block fails with an invalid argument (C86_empty_block_refuted)."
  },
  {
   "property": "C87",
   "status": "partial",
   "theorems": [
    "C87_pow_partial",
    "C87_cutoff_refuted"
   ],
   "note": "Proved for exponents that are not negative and, with the cutoff relative to each block, for all (C87_pow_partial). For a negative exponent the cutoff is relative to the largest eigenvalue of each block instead of the whole matrix (C87_cutoff_refuted)."
  },
  {
   "property": "C88",
   "status": "partial",
   "theorems": [
    "C88_truncated_svd_partial",
    "C88_few_rows_refuted",
    "C88_count_refuted",
    "C88_complex_refuted"
   ],
   "note": "Proved for real elements and k + 5 <= m, with k + 5 instead of k triplets (C88_truncated_svd_partial). False: the number of triplets (C88_count_refuted); with fewer than k + 5 rows no result is delivered (C88_few_rows_refuted); for complex elements A is multiplied by the transpose of Q instead of its conjugate transpose, so U diag(S) Vt is wrong already for the identity (C88_complex_refuted)."
  },
  {
   "property": "C89",
   "status": "partial",
   "theorems": [
    "C89_truncated_syev_partial",
    "C89_few_rows_refuted",
    "C89_count_refuted"
   ],
   "note": "Proved for k + 5 <= n, with k + 5 instead of k columns (C89_truncated_syev_partial). False: the number of columns (C89_count_refuted); smaller matrices give no result (C89_few_rows_refuted)."
  },
  {
   "property": "C90",
   "status": "partial",
   "theorems": [
    "C90_heev_partial",
    "C90_rows_refuted"
   ],
   "note": "Proved for the conjugates of the rows: LAPACK reads the row-major matrix as its transpose, which is its conjugate (C90_heev_partial; only the lower triangle is referenced). The rows themselves are not eigenvectors (C90_rows_refuted)."
  },
  {
   "property": "C91",
   "status": "partial",
   "theorems": [
    "C91_element_partial",
    "C91_shape",
    "C91_transform",
    "C91_block_partial",
    "C91_overlap_refuted",
    "C91_block_refuted"
   ],
   "note": "Proved if every further tensor is C itself or disjoint from it (C91_element_partial) and, for block tensors, if f maps zero to zero (C91_block_partial, which also gives the per-block result for all f). False for overlapping views (C91_overlap_refuted) and for block tensors with other f (C91_block_refuted)."
  },
  {
   "property": "C92",
   "status": "partial",
   "theorems": [
    "C92_incremented",
    "C92_ones",
    "C92_identity_partial",
    "C92_identity_refuted",
    "C92_diagonal",
    "C92_diagonal_like_partial",
    "C92_diagonal_like_refuted"
   ],
   "note": "Proved for incremented, ones and diagonal; for the identity if no extent is smaller than the first (C92_identity_partial), for diagonal_like if the matrix is large enough (C92_diagonal_like_partial). Otherwise both write outside the buffer or to other elements (C92_identity_refuted, C92_diagonal_like_refuted)."
  },
  {
   "property": "C93",
   "status": "proved",
   "theorems": [
    "C93_values",
    "C93_one_thread",
    "C93_threads_refuted"
   ],
   "note": "Range of the values and frame for every schedule (C93_values), and the reproducible sequence of one thread (C93_one_thread). The engine is shared without synchronisation, so with two threads the contents depend on the schedule and two elements can receive the same draw (C93_threads_refuted). Normalisation of the columns is not part of this claim."
  },
  {
   "property": "C94",
   "status": "partial",
   "theorems": [
    "C94_definite_partial",
    "C94_semidefinite_partial",
    "C94_shape",
    "C94_zero_mean_refuted",
    "C94_repeat_refuted"
   ],
   "note": "Proved for every run that ends, over exact ordered arithmetic (C94_definite_partial, C94_semidefinite_partial), and the shape check (C94_shape). Termination is false: a mean of zero never ends (C94_zero_mean_refuted), and if each attempt draws the same matrix, a singular one is drawn for ever (C94_repeat_refuted)."
  },
  {
   "property": "C95",
   "status": "proved",
   "theorems": [
    "C95_domain",
    "C95_empty_refuted"
   ],
   "note": "Proved (C95_domain). For the empty vector element 0 is read, outside the buffer (C95_empty_refuted)."
  },
  {
   "property": "C96",
   "status": "partial",
   "theorems": [
    "C96_sort_partial",
    "C96_more_blocks",
    "C96_structure_refuted"
   ],
   "note": "Proved if A and C have the same block sizes and are disjoint (C96_sort_partial). A with more blocks than C throws (C96_more_blocks). False if C has more blocks than A: they keep their contents although uc may be zero (C96_structure_refuted). The overload for tiled tensors is not modelled."
  },
  {
   "property": "C97",
   "status": "proved",
   "theorems": [
    "C97_fft",
    "C97_ifft",
    "C97_round_trip",
    "C97_real_fft",
    "C97_real_round_trip",
    "C97_short_refuted",
    "C97_input_refuted"
   ],
   "note": "Proved over exact arithmetic with FFTW by its documentation. Outside the statement: the complex versions do not compare the lengths, so a shorter vector is overrun (C97_short_refuted); ifft to a real vector takes its input as const but FFTW may destroy it (C97_input_refuted). The MKL backend is not modelled."
  },
  {
   "property": "C98",
   "status": "partial",
   "theorems": [
    "C98_restored",
    "C98_other_threads",
    "C98_one_call",
    "C98_order_refuted"
   ],
   "note": "The timer is always restored, whatever the order of end() calls (C98_restored), other threads do nothing (C98_other_threads), and a section adds one call and its own time if sections are ended by their scopes (C98_one_call). False otherwise: end() of an outer section inside an inner one stops the inner region, and times are attributed to the wrong region (C98_order_refuted)."
  },
  {
   "property": "C99",
   "status": "partial",
   "theorems": [
    "C99_digits_partial",
    "C99_digits_zero_refuted",
    "C99_trim",
    "C99_trim_stable"
   ],
   "note": "trim is proved for every string in the C locale (C99_trim, C99_trim_stable). ndigits is proved for every nonzero integer (C99_digits_partial); for 0, which has one digit, it gives 0 (C99_digits_zero_refuted)."
  },
  {
   "property": "C100",
   "status": "proved",
   "theorems": [
    "C100_lines",
    "C100_whole_lines",
    "C100_progress",
    "C100_indent",
    "C100_shown",
    "C100_nul_refuted",
    "C100_deindent_refuted"
   ],
   "note": "Splitting into lines (C100_lines), whole lines in the order of each thread and completeness (C100_whole_lines, C100_shown), absence of deadlock (C100_progress), nested indentation (C100_indent). Outside the statement: text after a null character is lost if the line is printed with printf (C100_nul_refuted), and a deindent at level zero is not undone by indent (C100_deindent_refuted). Calls of indent by thread 0 while others print are a data race; the model lets the others read either level."
  },
  {
   "property": "C101",
   "status": "proved",
   "theorems": [
    "C101_allocate",
    "C101_buffers",
    "C101_wrap_refuted"
   ],
   "note": "Proved for every history (C101_buffers) and for allocate (C101_allocate). Outside the statement: allocate above max_size() does not notice that the number of bytes wraps round (C101_wrap_refuted); std::vector never asks for that. posix_memalign and free by their contracts."
  },
  {
   "property": "C102",
   "status": "partial",
   "theorems": [
    "C102_gpu_einsum_partial",
    "C102_one_block_partial",
    "C102_blocks_race_refuted",
    "C102_gemm_race_refuted",
    "C102_repeated_label_refuted"
   ],
   "note": "Proved for the launch the code makes and every schedule if C is a scalar, or C's labels are distinct and there are no summed labels (C102_gpu_einsum_partial), and for every pattern if the kernel had one block (C102_one_block_partial). False in general: number of blocks and threads are exchanged at the launch, so at least 32 blocks run; a block's barrier does not hold back another block's additions before C has been scaled (C102_blocks_race_refuted, C102_gemm_race_refuted). Results with a repeated label are wrong (C102_repeated_label_refuted)."
  },
  {
   "property": "C103",
   "status": "partial",
   "theorems": [
    "C103_dot_partial",
    "C103_single_partial",
    "C103_dot_refuted",
    "C103_python_one_block_partial",
    "C103_python_refuted",
    "C103_true_dot_view_refuted"
   ],
   "note": "For every schedule the call ends with the sum over the elements of some of the workers, worker 0 among them, each at most once (C103_dot_partial); right for at most one element (C103_single_partial). False: worker 0 clears the result without any barrier, so additions made before are lost (C103_dot_refuted). The Python kernel has a barrier and is right for one block (C103_python_one_block_partial), but is launched with 32 or more (C103_python_refuted). true_dot reads views as if they were contiguous (C103_true_dot_view_refuted)."
  },
  {
   "property": "C104",
   "status": "proved",
   "theorems": [
    "C104_gpu_symm_gemm"
   ],
   "note": "C104_gpu_symm_gemm, over every ring (exact arithmetic); atomic additions are single steps."
  },
  {
   "property": "C105",
   "status": "partial",
   "theorems": [
    "C105_sort_partial",
    "C105_accumulate_refuted",
    "C105_view_refuted"
   ],
   "note": "Proved for every schedule if C's prefactor is zero and A is contiguous (C105_sort_partial; the equal-index case is C107_axpby). False otherwise: every worker runs through all later elements, not only its own, so C is updated several times (C105_accumulate_refuted), and positions are computed from A's strides as if it were contiguous (C105_view_refuted)."
  },
  {
   "property": "C106",
   "status": "partial",
   "theorems": [
    "C106_reduce_partial",
    "C106_small_partial",
    "C106_large_refuted"
   ],
   "note": "Below 512 elements (one block) the result is, for every schedule, the combination of exactly the elements of the first 2^(log2 k - 1) of the k workers (C106_reduce_partial), which are all elements if there are at most 16 (C106_small_partial). False for every shape of 17 to 511 elements: one round of the reduction tree is missing (C106_large_refuted). Launches with several blocks are not modelled."
  },
  {
   "property": "C107",
   "status": "partial",
   "theorems": [
    "C107_gpu_map",
    "C107_assign_op",
    "C107_copy",
    "C107_set_all_partial",
    "C107_scalar_op_partial",
    "C107_direct_product",
    "C107_axpby",
    "C107_view_scalar_refuted",
    "C107_view_set_all_refuted"
   ],
   "note": "Maps, copies, arithmetic assignment between tensors, direct_product and axpby are proved for every schedule (C107_gpu_map, C107_assign_op, C107_copy, C107_direct_product, C107_axpby); fills and scalar assignment for contiguous tensors (C107_set_all_partial, C107_scalar_op_partial). False for views: the number of elements is computed as first stride times first extent, so elements are updated repeatedly or left out (C107_view_scalar_refuted, C107_view_set_all_refuted)."
  },
  {
   "property": "C108",
   "status": "partial",
   "theorems": [
    "C108_gemm_partial",
    "C108_gemv_partial",
    "C108_ger_partial",
    "C108_ger_complex_refuted",
    "C108_ger_view_refuted",
    "C108_scale_partial",
    "C108_axpy_partial",
    "C108_views_refuted",
    "C108_scale_row_column",
    "C108_gemv_refuted"
   ],
   "note": "gemm with any positive leading strides and also for empty sums (C108_gemm_partial: empty matrices whose leading stride is 0 are rejected by the BLAS); gemv for non-empty matrices (C108_gemv_partial; false for empty sums, C108_gemv_refuted); ger for real elements and contiguous A under every schedule of its two transpositions (C108_ger_partial; complex ger conjugates y, unlike on the host, C108_ger_complex_refuted; on a view of a larger matrix elements are mixed up, C108_ger_view_refuted); scale, axpy, axpby for contiguous tensors (C108_scale_partial, C108_axpy_partial; on a column view they change elements outside it, C108_views_refuted); scale_row and scale_column for all strides (C108_scale_row_column)."
  },
  {
   "property": "C109",
   "status": "partial",
   "theorems": [
    "C109_gesv_partial",
    "C109_gesv_nvidia_keeps",
    "C109_gesv_nvidia_refuted",
    "C109_syev_partial",
    "C109_syev_no_convergence_refuted",
    "C109_pow_partial",
    "C109_pow_cutoff_refuted"
   ],
   "note": "gesv on AMD devices solves the system for any leading strides (C109_gesv_partial; on the host only for contiguous matrices). On NVIDIA devices it never changes the right-hand sides: the solution goes to a temporary (C109_gesv_nvidia_keeps, C109_gesv_nvidia_refuted). syev is right for symmetric input if the solver converges (C109_syev_partial), but does not report failure (C109_syev_no_convergence_refuted). pow has the eigenvectors with powers of the eigenvalues under every schedule (C109_pow_partial), but ignores the cutoff and keeps infinities (C109_pow_cutoff_refuted)."
  },
  {
   "property": "C110",
   "status": "partial",
   "theorems": [
    "C110_map_coherent",
    "C110_copy_isolated",
    "C110_copy_updates",
    "C110_copy_starts",
    "C110_map_accepted",
    "C110_map_starts",
    "C110_released",
    "C110_drop",
    "C110_safe_partial",
    "C110_elements_partial",
    "C110_overlap_refuted",
    "C110_rank0_refuted",
    "C110_transposed_refuted",
    "C110_between_refuted",
    "C110_freed_refuted",
    "C110_device_tensor_partial",
    "C110_device_tensor_refuted"
   ],
   "note": "After every history: mapped views are coherent with the host and with each other (C110_map_coherent); device copies change only by the named operations, and the updates copy exactly the view's bytes (C110_copy_isolated, C110_copy_updates, C110_copy_starts); when a mapping is accepted, exactly (C110_map_accepted, C110_map_starts); registered ranges are disjoint, each holds a live view, none and no allocation remains after the last view (C110_released, C110_drop); no undefined behaviour while the arrays live (C110_safe_partial); elements of C-ordered arrays are covered (C110_elements_partial). False: overlapping arrays are rejected depending on order (C110_overlap_refuted), 0-d arrays are undefined (C110_rank0_refuted), transposed arrays are not covered (C110_transposed_refuted), update_D2H overwrites bytes between the elements of a strided view (C110_between_refuted), a view does not keep the array alive (C110_freed_refuted); views of device tensors have right strides for 8-byte elements only (C110_device_tensor_partial, C110_device_tensor_refuted)."
  },
  {
   "property": "C111",
   "status": "partial",
   "theorems": [
    "C111_values_partial",
    "C111_memory_partial",
    "C111_returned",
    "C111_resize_refuted",
    "C111_bounds_refuted",
    "C111_move_refuted",
    "C111_moved_refuted",
    "C111_default_refuted",
    "C111_zero_refuted",
    "C111_view_refuted"
   ],
   "note": "Programs with proper extents and ranks refine plain values: no exception, no undefined behaviour, all contents as specified (C111_values_partial); all memory is given back when no tensor was moved to another rank, and exactly one copy of the extents per such move stays otherwise (C111_returned, C111_memory_partial). False: resize to other extents with as many elements keeps the old extents on the device, so later kernels permute or read outside (C111_resize_refuted); one position after the end passes the bounds test (C111_bounds_refuted); a failed move loses the elements (C111_move_refuted); tensors whose elements were taken cannot be assigned in mode MAPPED or from host tensors (C111_moved_refuted); resize of a default constructed tensor throws and changes it (C111_default_refuted); resize to nothing in mode MAPPED ends in an error in the destructor (C111_zero_refuted); a copied view is a separate tensor that is never freed (C111_view_refuted)."
  },
  {
   "property": "C112",
   "status": "partial",
   "theorems": [
    "C112_iterations",
    "C112_start",
    "C112_fit",
    "C112_exact",
    "C112_returns_partial",
    "C112_one_mode_refuted",
    "C112_rank_refuted",
    "C112_worse_refuted",
    "C112_svd_contract"
   ],
   "note": "Core, factors, number of iterations and meaning of convergence: C112_start, C112_iterations; error and best core: C112_fit; full ranks: C112_exact; both return when there are two or more indices, the ranks do not exceed the extents and the decompositions succeed: C112_returns_partial; what gesdd promises implies what is assumed of the singular vectors: C112_svd_contract. Tensors are values here (memory of the contraction is covered by C71). False: all factors are replaced at once, so an iteration can fit worse than the starting guess (C112_worse_refuted); a tensor with one index reads an uninitialised pointer (C112_one_mode_refuted); a rank above the extent reads past the singular vectors after a warning (C112_rank_refuted)."
  },
  {
   "property": "C113",
   "status": "proved",
   "theorems": [
    "C113_start"
   ],
   "note": "C113_start. Tensors are values here; the eigenvalue solver is required to succeed on the matrices of products of slices (its error code is dropped, see C58)."
  },
  {
   "property": "C114",
   "status": "partial",
   "theorems": [
    "C114_scal_partial",
    "C114_axpy_partial",
    "C114_dot_partial",
    "C114_dotc",
    "C114_gemm_partial",
    "C114_gemv_partial",
    "C114_ger_partial",
    "C114_fails",
    "C114_order_refuted",
    "C114_shape_refuted",
    "C114_gap_refuted",
    "C114_increment_refuted",
    "C114_complex_refuted",
    "C114_leak_refuted"
   ],
   "note": "Same results as the CPU backend and device memory released, wherever the blocks are and whatever they held, when the host arrays cover n*inc elements: C114_scal_partial, C114_axpy_partial, C114_dot_partial; what dot returns for complex numbers: C114_dotc; for gemm, gemv, ger under the conditions that make the block sizes fit, against the CPU backend called for the transposed matrices: C114_gemm_partial, C114_gemv_partial, C114_ger_partial. Failing runtime calls: C114_fails. False: the CPU backend takes matrices by rows and this one by columns, so the same call gives B A (C114_order_refuted); products with more columns than rows are undefined (C114_shape_refuted); with beta = 0 cells between columns can be overwritten (C114_gap_refuted); vectors with an increment are read past their end (C114_increment_refuted); complex dot and ger conjugate (C114_complex_refuted); a failing call leaks the device blocks (C114_leak_refuted)."
  },
  {
   "property": "C115",
   "status": "partial",
   "theorems": [
    "C115_gesv_partial",
    "C115_syev_partial",
    "C115_getrf_throws",
    "C115_getrf_never_returns",
    "C115_rhs_refuted",
    "C115_syev_leak_refuted",
    "C115_half_refuted"
   ],
   "note": "gesv (AMD and NVIDIA) with at most as many right-hand sides as unknowns and room for n*ldb: C115_gesv_partial; syev: C115_syev_partial, which also says that its two blocks stay allocated. getrf computes the CPU result but unregisters a pointer it has not registered, so it throws: C115_getrf_throws; it never returns, whatever the arguments: C115_getrf_never_returns. False: other numbers of right-hand sides (C115_rhs_refuted), release of device memory by syev (C115_syev_leak_refuted), results all new or all unchanged (C115_half_refuted)."
  },
  {
   "property": "C116",
   "status": "partial",
   "theorems": [
    "C116_history_partial",
    "C116_round_trip",
    "C116_scalar_round_trip",
    "C116_write_part",
    "C116_shrink_refuted",
    "C116_count_refuted",
    "C116_current_dims_refuted",
    "C116_block_refuted",
    "C116_missing_aborts"
   ],
   "note": "All histories in which a name is always written with the same extents: C116_history_partial; single round trips in any file: C116_round_trip, C116_scalar_round_trip; offset and stride, with the exact condition for rejection: C116_write_part. False: a smaller tensor written over a larger one leaves a mixture (C116_shrink_refuted); count stores the wrong elements (C116_count_refuted); current_dims alone throws (C116_current_dims_refuted); block is ignored (C116_block_refuted). A missing name ends the process (C116_missing_aborts). Writing a TensorView does not compile and is not modelled."
  },
  {
   "property": "C117",
   "status": "partial",
   "theorems": [
    "C117_construct",
    "C117_view_partial",
    "C117_extents_refuted",
    "C117_other_file_refuted",
    "C117_other_file_aborts",
    "C117_like_partial"
   ],
   "note": "Construction, exactly: C117_construct; views when the extents agree: C117_view_partial; like a tensor, in the program's data file: C117_like_partial; histories together with read and write: C116_history_partial. False: other extents are taken without complaint and views then throw (C117_extents_refuted); a disk tensor made like a tensor in another file than the program's data file opens the wrong file or ends the process (C117_other_file_refuted, C117_other_file_aborts)."
  },
  {
   "property": "C118",
   "status": "proved",
   "theorems": [
    "C118_gemv"
   ],
   "note": "C118_gemv.  The vectors are plain ones: with tiled vectors the function does not compile (tile_sizes(0))."
  },
  {
   "property": "C119",
   "status": "proved",
   "theorems": [
    "C119_gemm",
    "C119_own_tile",
    "C119_finishes"
   ],
   "note": "C119_gemm, C119_own_tile, C119_finishes.  A step is a critical section, the zeroing or scaling of a tile, or the product of one pair of tiles."
  },
  {
   "property": "C120",
   "status": "partial",
   "theorems": [
    "C120_overflow_refuted",
    "C120_value",
    "C120_basis_partial",
    "C120_rows_refuted"
   ],
   "note": "False: the buffer superb is one element too short, so the call returns for no matrix, whatever LAPACK does (C120_overflow_refuted). If the element behind the buffer happens to be writable: all n rows of VT are returned, each multiplied by its norm (C120_value); the last n - r of them, r nonzero singular values, are an orthonormal basis of the null space (C120_basis_partial); but all n rows are one for no matrix other than zero (C120_rows_refuted)."
  },
  {
   "property": "C121",
   "status": "partial",
   "theorems": [
    "C121_sessions_partial",
    "C121_outside",
    "C121_quiet_refuted",
    "C121_ub_refuted"
   ],
   "note": "For finalize with a stream, a FILE pointer, true, or a file that can be opened: C121_sessions_partial; timer calls outside a session: C121_outside. False: finalize(false), the default, does nothing, so the next initialize loses the old timers (C121_quiet_refuted); finalize of a C string naming a file that cannot be opened, and finalize without initialize, are undefined (C121_ub_refuted)."
  },
  {
   "property": "C122",
   "status": "partial",
   "theorems": [
    "C122_wait_partial",
    "C122_all_partial",
    "C122_order_partial",
    "C122_progress",
    "C122_skip",
    "C122_other_thread_refuted"
   ],
   "note": "For threads that change only their own stream, and for what was queued since the last change: C122_wait_partial, C122_all_partial, C122_order_partial; in general C122_progress, C122_skip. False when one thread sets the stream of another with set_stream(stream, thread_id): the handles changed are those of the caller (C122_other_thread_refuted)."
  },
  {
   "property": "C123",
   "status": "partial",
   "theorems": [
    "C123_quadrature_partial",
    "C123_degree_0"
   ],
   "note": "For n from 1 to 4096 and LAPACK returning 0: C123_quadrature_partial. n = 0 throws (C123_degree_0). Larger n are not covered: the extents of the companion's views are computed in floating point (C54_large_refuted). The arithmetic is exact; rounding is not modelled."
  },
  {
   "property": "C124",
   "status": "partial",
   "theorems": [
    "C124_order_partial",
    "C124_loop",
    "C124_reversed_refuted"
   ],
   "note": "Without reversal: C124_order_partial, C124_loop. False: reversed() gives only the index the iterator stands at and those before it - a single index for a new iterator - and the keyword reverse always raises AttributeError (C124_reversed_refuted)."
  },
  {
   "property": "C125",
   "status": "proved",
   "theorems": [
    "C125_random",
    "C125_dtype",
    "C125_mixed"
   ],
   "note": "C125_random, C125_dtype. A function that changes from float to complex is refused for real tensors: C125_mixed."
  },
  {
   "property": "C126",
   "status": "partial",
   "theorems": [
    "C126_finalize_refuted"
   ],
   "note": "False: finalize gets False for every sequence of calls (C126_finalize_refuted), because the function assigns a local variable and the argument was evaluated at import."
  },
  {
   "property": "C127",
   "status": "partial",
   "theorems": [
    "C127_initialize",
    "C127_finalize",
    "C127_sessions_partial",
    "C127_skip_refuted",
    "C127_threads_refuted",
    "C127_twice_refuted",
    "C127_error_refuted",
    "C127_lock_refuted"
   ],
   "note": "C127_initialize, C127_finalize; C127_sessions_partial: any number of sessions without device errors, none with more threads than the first, requests to skip used up. False otherwise: a left-over request skips a wait of the next session (C127_skip_refuted), additional threads throw (C127_threads_refuted), repeated initialize loses a pool and repeated finalize destroys it twice (C127_twice_refuted), after a failed initialize the next one succeeds with null streams (C127_error_refuted), an error when recording an event leaves the mutex locked for ever (C127_lock_refuted)."
  },
  {
   "property": "C128",
   "status": "partial",
   "theorems": [
    "C128_sort_partial",
    "C128_refused_refuted"
   ],
   "note": "C128_sort_partial: cp zero or equal index lists, and extents LibreTT accepts. Missing: a plan LibreTT refuses, where the result is ignored and an uninitialised handle used (C128_refused_refuted); cp not zero with permuted axes, where C is overwritten (C105_accumulate_refuted)."
  },
  {
   "property": "C129",
   "status": "partial",
   "theorems": [
    "C129_mixed_partial",
    "C129_prefactor_refuted"
   ],
   "note": "C129_mixed_partial: any three types between which the arithmetic used is exact. False otherwise: the AB prefactor is converted to the larger type of A and B, so with integer operands and a rational C a prefactor below one in magnitude adds nothing (C129_prefactor_refuted). A contracted label twice in A is C11_repeated_link_refuted."
  },
  {
   "property": "C130",
   "status": "partial",
   "theorems": [
    "C130_sum_square_partial",
    "C130_extent_refuted",
    "C130_stride_refuted"
   ],
   "note": "C130_sum_square_partial: extent and stride below 2^31. False beyond: extents become negative and nothing is added (C130_extent_refuted), strides are truncated and wrong elements are counted (C130_stride_refuted)."
  },
  {
   "property": "C131",
   "status": "partial",
   "theorems": [
    "C131_call_partial",
    "C131_refused",
    "C131_address",
    "C131_packed_refuted"
   ],
   "note": "C131_call_partial: arrays whose strides are whole items at an address that is a multiple of the item size; the call is the einsum of C73 to C78 on these elements. C131_address: the unsigned arithmetic of the code gives these addresses, also for negative strides. C131_refused: the exceptions. False for strides that are not whole items: other bytes are read (C131_packed_refuted)."
  },
  {
   "property": "C132",
   "status": "proved",
   "theorems": [
    "C132_const_tile",
    "C132_tile"
   ],
   "note": "C132_const_tile, C132_tile."
  },
  {
   "property": "C133",
   "status": "partial",
   "theorems": [
    "C133_range",
    "C133_short",
    "C133_distinct_partial",
    "C133_equal_partial",
    "C133_equal_refuted",
    "C133_spread_refuted"
   ],
   "note": "C133_range: all containers. C133_short: the hash of at most seven bytes is the number they write; C133_distinct_partial: different ones of equal length hash differently. C133_equal_partial: equal elements with equal bytes, such as tile coordinates; false for 0.0 and -0.0 (C133_equal_refuted). C133_spread_refuted: for arrays of two or more ints every first coordinate from 1 to 255 gives the same hash."
  },
  {
   "property": "C134",
   "status": "proved",
   "theorems": [
    "C134_scale"
   ],
   "note": "C134_scale. The parallel loop is modelled as the sequential one over the tiles, which share no memory."
  }
 ]
}