{
 "claims": [
  {
   "property": "C01",
   "status": "proved",
   "theorems": [
    "C01_bitset_history",
    "C01_history_wellformed",
    "C01_equality"
   ],
   "note": "All histories of in-range single-bit writes, any n; plus well-formedness and equality."
  },
  {
   "property": "C02",
   "status": "partial",
   "theorems": [
    "C02_range_write_refuted",
    "C02_range_write_partial",
    "C02_range_write_exact"
   ],
   "note": "False in the code: set(5,10,true) also writes 0..4. Proved when the range starts on a word boundary or spans words, and the exact set of touched positions in every case."
  },
  {
   "property": "C03",
   "status": "partial",
   "theorems": [
    "C03_shift_left_partial",
    "C03_shift_right_partial",
    "C03_shift_undefined_refuted",
    "C03_negative_distance",
    "C03_left_then_right_refuted",
    "C03_left_then_right_partial"
   ],
   "note": "False in the code: a distance that is a non-zero multiple of 64 with at least two words left, or larger than the capacity, is undefined behaviour; << leaves bits past n. Proved for every other distance; equivalence of the undefined cases proved."
  },
  {
   "property": "C04",
   "status": "partial",
   "theorems": [
    "C04_complement_partial",
    "C04_complement_refuted",
    "C04_all_partial",
    "C04_all_refuted"
   ],
   "note": "False in the code: ~ clears the last word when n % 64 == 0; all() is never true when n % 64 != 0. Proved for the complementary sizes."
  },
  {
   "property": "C05",
   "status": "partial",
   "theorems": [
    "C05_first",
    "C05_last_partial",
    "C05_last_empty_refuted"
   ],
   "note": "first() proved for all sets; last() proved on non-empty sets, undefined on the empty set."
  },
  {
   "property": "C06",
   "status": "partial",
   "theorems": [
    "C06_logical_read",
    "C06_no_stray_bits_partial",
    "C06_no_stray_bits_refuted"
   ],
   "note": "Reads are right for all pairs of sizes; |= and ^= with a larger right operand set positions outside the set (refuted), proved absent when the right operand is not larger and for &=."
  },
  {
   "property": "C07",
   "status": "proved",
   "theorems": [
    "C07_text_round_trip",
    "C07_bad_character_rejected"
   ],
   "note": "Round trip for every size and content; rejection of any other character."
  },
  {
   "property": "C08",
   "status": "proved",
   "theorems": [
    "C08_set_history",
    "C08_every_history_specified",
    "C08_equality",
    "C08_index_ascending",
    "C08_index_checked"
   ],
   "note": "Any strict total order, any construction, any history, assertions on or off."
  },
  {
   "property": "C09",
   "status": "proved",
   "theorems": [
    "C09_union_intersection_difference"
   ],
   "note": "Union, intersection and difference for all pairs of sets."
  },
  {
   "property": "C10",
   "status": "partial",
   "theorems": [
    "C10_symmetric_difference_refuted",
    "C10_symmetric_difference_exact",
    "C10_symmetric_difference_partial"
   ],
   "note": "False in the code: a ^ b keeps an element found in only one operand only when the other operand has a larger element. The exact result is proved; the full claim is proved when both sets have the same largest element."
  },
  {
   "property": "C11",
   "status": "partial",
   "theorems": [
    "C11_rowmajor_bijection_partial",
    "C11_strides_partial",
    "C11_lexicographic",
    "C11_zero_dim_refuted",
    "C11_stride_wrap_refuted"
   ],
   "note": "Proved for 1..16 dimensions, positive extents and fewer than 2^32 elements; lexicographic order. Refuted: the stride of a zero-dimensional shape is undefined, and strides wrap at 2^32."
  },
  {
   "property": "C12",
   "status": "proved",
   "theorems": [
    "C12_read_over_write",
    "C12_read",
    "C12_chain_is_call",
    "C12_call_rejects",
    "C12_chain_rejects"
   ],
   "note": "All shapes and indices; chain of [] equals (); every bad index or index count is reported."
  },
  {
   "property": "C13",
   "status": "partial",
   "theorems": [
    "C13_shape_from_values",
    "C13_too_many_dimensions_refuted",
    "C13_size",
    "C13_matrix_round_trip",
    "C13_shape_to_matrix",
    "C13_matrix_too_many",
    "C13_vector_round_trip",
    "C13_matrix_size_partial",
    "C13_matrix_size_refuted",
    "C13_vector_size",
    "C13_equality"
   ],
   "note": "Refuted: more than 16 dimensions is undefined instead of rejected; MatrixShape::size wraps at 2^32. The other parts hold for all shapes."
  },
  {
   "property": "C14",
   "status": "partial",
   "theorems": [
    "C14_subshape",
    "C14_subshape_rejects",
    "C14_matrix_subshape_partial",
    "C14_matrix_negative_refuted",
    "C14_vector_subshape_refuted"
   ],
   "note": "Shape: all bounds. MatrixShape: non-negative bounds only (negative ones are rejected). VectorShape: always (0), refuted."
  },
  {
   "property": "C15",
   "status": "partial",
   "theorems": [
    "C15_equal_shapes_accepted",
    "C15_unequal_rejected_partial",
    "C15_what_is_compared",
    "C15_unequal_rejected_refuted"
   ],
   "note": "Complete; sound only for at most two shapes; exact characterisation of what is compared."
  },
  {
   "property": "C16",
   "status": "partial",
   "theorems": [
    "C16_view_elements",
    "C16_copy_exact",
    "C16_copy_refuted",
    "C16_iterate_partial",
    "C16_iterate_nested_exact",
    "C16_iterate_nested_refuted"
   ],
   "note": "Indexing proved at every depth. Copy of a view loses its offset (refuted), so nested iteration is wrong beyond one dimension (exact result proved)."
  },
  {
   "property": "C17",
   "status": "partial",
   "theorems": [
    "C17_array_views_ok",
    "C17_assign_view",
    "C17_assign_view_same_storage",
    "C17_assign_shape_mismatch",
    "C17_eval",
    "C17_empty_refuted"
   ],
   "note": "All shapes with positive extents, any strides and offsets, also inside one storage; a zero extent is undefined behaviour (refuted)."
  },
  {
   "property": "C18",
   "status": "partial",
   "theorems": [
    "C18_serial",
    "C18_parallel",
    "C18_fixed_parallel_partial",
    "C18_fixed_parallel_refuted"
   ],
   "note": "Serial evaluation and parallel evaluation of dynamic storage proved for every width, size, expression and interleaving of single loads and stores. Fixed-size storage in parallel: proved when vectorised; unvectorised it assigns nothing (refuted)."
  },
  {
   "property": "C19",
   "status": "partial",
   "theorems": [
    "C19_same_shape_partial",
    "C19_same_size_rejected_partial",
    "C19_construct",
    "C19_view",
    "C19_mismatch_refuted",
    "C19_unchecked_refuted",
    "C19_empty_view_refuted"
   ],
   "note": "False in the code: a size mismatch is reported after the old elements are gone (with assertions) or not at all (without); proved when the shape agrees or only the element count agrees, for construction and for views."
  },
  {
   "property": "C20",
   "status": "partial",
   "theorems": [
    "C20_spec_functional",
    "C20_unary_partial",
    "C20_unary_int_partial",
    "C20_binary",
    "C20_binary_nan",
    "C20_array_serial_partial",
    "C20_array_parallel_partial",
    "C20_array_binary",
    "C20_misnamed_refuted",
    "C20_gpu_partial",
    "C20_gpu_missing_refuted"
   ],
   "note": "Proved over exact reals (and truncated integers) for 19 of 24 unary functions and all 10 binary operators, per element and through the evaluation loops; asinh, acosh, atanh, exp2, exp10 are bound to sinh, cosh, tanh, exp, exp (refuted). GPU kernels that exist are right; the exp2/exp10 (and CUDA asinh/acosh/atanh) kernels do not exist. std:: and xsimd functions are trusted; rounding not modelled."
  },
  {
   "property": "C21",
   "status": "partial",
   "theorems": [
    "C21_safe_partial",
    "C21_leak_free_partial",
    "C21_move_assign_leaks_refuted",
    "C21_assign_to_moved_refuted"
   ],
   "note": "False in the code: move assignment leaks the target's block and assigning to a moved-from storage is undefined (or corrupts it after throwing). Proved for all other histories over any number of objects, allocation and free explicit, exceptions caught and continued."
  },
  {
   "property": "C22",
   "status": "partial",
   "theorems": [
    "C22_value_semantics_partial",
    "C22_independent",
    "C22_read",
    "C22_assign_empty_refuted",
    "C22_fixed_copy_refuted"
   ],
   "note": "Value semantics of every command after any history; independence of all other objects. False for assignment from an empty storage (a no-op) and for FixedStorage::copy."
  },
  {
   "property": "C23",
   "status": "proved",
   "theorems": [
    "C23_resize_keeps_prefix",
    "C23_resize_discard",
    "C23_non_owning_refuses",
    "C23_fixed_resize"
   ],
   "note": "Both overloads, any history before, assertions on or off; a non-owning storage refuses when assertions are on."
  },
  {
   "property": "C24",
   "status": "partial",
   "theorems": [
    "C24_heap_bitset_partial",
    "C24_shallow_refuted"
   ],
   "note": "Deep copies, writes and destruction proved safe for all histories; every move or assignment between two heap BitSets ends in a double delete (refuted)."
  },
  {
   "property": "C25",
   "status": "partial",
   "theorems": [
    "C25_from_data",
    "C25_rejects",
    "C25_matrix",
    "C25_matrix_rejects_partial",
    "C25_matrix_empty_refuted"
   ],
   "note": "Proved for every depth and every rectangular non-empty data below 2^32 scalars (dynamic Shape path, both assertion settings), and rejection of everything else with assertions on. The MatrixShape path is proved for rectangular data and rejects ragged data, but accepts a list of empty rows (refuted)."
  },
  {
   "property": "C26",
   "status": "partial",
   "theorems": [
    "C26_arange_int",
    "C26_arange_rejects",
    "C26_arange_double_partial",
    "C26_arange_double_refuted",
    "C26_covers_refuted",
    "C26_covers_partial",
    "C26_arange2",
    "C26_arange1_partial",
    "C26_arange1_negative_refuted",
    "C26_arange_real",
    "C26_linspace_partial",
    "C26_linspace_one_refuted",
    "C26_linspace_int_refuted",
    "C26_linspace_rejects",
    "C26_logspace_partial",
    "C26_filled",
    "C26_ordered"
   ],
   "note": "Integer arange into int64 arrays, arange over the reals, linspace (n >= 2 or end excluded), logspace, zeros, ones, ordered proved. False parts refuted with witnesses: negative values in floating arange wrap through size_t, a last term before stop is left out when step does not divide the range, arange(negative) counts up, linspace/logspace with n = 1 and includeEnd divides by zero."
  },
  {
   "property": "C27",
   "status": "partial",
   "theorems": [
    "C27_comma",
    "C27_too_many_partial",
    "C27_too_many_refuted"
   ],
   "note": "Values that fit are written in order and the rest kept; too many values throw with assertions on, and are written out of bounds without them (refuted)."
  },
  {
   "property": "C28",
   "status": "partial",
   "theorems": [
    "C28_generic",
    "C28_block_loops_partial",
    "C28_block_loops_refuted",
    "C28_kernels",
    "C28_avx_double_refuted",
    "C28_avx_double_contents_refuted",
    "C28_simd_partial",
    "C28_simd_nonsquare_refuted",
    "C28_simd_bounds_refuted",
    "C28_simd_alpha_refuted",
    "C28_opencl",
    "C28_eval"
   ],
   "note": "Generic routine, OpenCL kernel, and the float AVX2/SSE/NEON and double SSE/NEON block kernels proved for all sizes, schedules and factors. Vectorised drivers proved for square matrices only: for non-square ones they use the wrong stride (refuted, including an out-of-bounds read); the AVX2 double kernel does not transpose (refuted); the float remainder loop drops alpha (refuted). cuBLAS path not modelled. The block loops end for elements no larger than a cache line and never end for larger ones (block size 0, refuted)."
  },
  {
   "property": "C29",
   "status": "partial",
   "theorems": [
    "C29_twice",
    "C29_scale",
    "C29_assign_refuted",
    "C29_rank_rejected",
    "C29_shape_partial",
    "C29_axes_refuted",
    "C29_identity_refuted"
   ],
   "note": "Double transposition through eval() and folding of scale factors proved for the generic routine; other ranks are rejected. Explicit axes are always discarded by transpose() (refuted) and assignment of a double transpose is not implemented (refuted)."
  },
  {
   "property": "C30",
   "status": "proved",
   "theorems": [
    "C30_matmul",
    "C30_rejects",
    "C30_serial"
   ],
   "note": "CPU path, exact arithmetic in any commutative semiring (all exact integer types; floating-point rounding and external CBLAS not covered). All nestings of lazy transposes and factors, all shapes, any uninitialised result storage, every interleaving of the column threads. Rejection of incompatible extents when assertions are on."
  },
  {
   "property": "C31",
   "status": "partial",
   "theorems": [
    "C31_matvec_partial",
    "C31_rejects",
    "C31_transposed_refuted",
    "C31_empty_refuted",
    "C31_vector_left_refuted"
   ],
   "note": "Proved for A used as stored or square (any scaling). Refuted: transposed non-square A leaves the buffers (m and n are passed for op(A), the BLAS routine expects those of A); a matrix without columns leaves the result uninitialised; dot(vector, matrix) and dot(vector, vector) never return."
  },
  {
   "property": "C32",
   "status": "proved",
   "theorems": [
    "C32_folding",
    "C32_dot"
   ],
   "note": "Flags cancel in pairs, factors multiply, and dot of any nestings equals dot of the evaluated operands (matrix operands)."
  },
  {
   "property": "C33",
   "status": "partial",
   "theorems": [
    "C33_gemv",
    "C33_gemv_launch",
    "C33_gemm_partial",
    "C33_gemm_bounds_refuted",
    "C33_gemm_transA_refuted",
    "C33_gemm_tiles_refuted"
   ],
   "note": "gemv kernel correct for every order of work items. gemm kernel correct only for one-tile untransposed products whose inner extent equals the tile size; refuted otherwise (reads outside B, ignores the flag of A, wrong B index for further tiles and transposed B)."
  },
  {
   "property": "C34",
   "status": "partial",
   "theorems": [
    "C34_geam_partial",
    "C34_mismatch",
    "C34_own_factor_refuted"
   ],
   "note": "Correct for operands that are arrays or plain lazy transposes and a right transposition routine (C28). Refuted: the factor of a lazily scaled transpose is dropped."
  },
  {
   "property": "C35",
   "status": "partial",
   "theorems": [
    "C35_half_to_float_exact",
    "C35_round_trip_partial",
    "C35_round_trip_zero_partial",
    "C35_round_trip_undefined_refuted",
    "C35_signalling_nan_refuted"
   ],
   "note": "half->float is proved exact for all 65536 patterns under every shift semantics. The way back is proved the identity for non-NaN non-zero values on any machine that returns something for out-of-range shifts, and for zeros when that value is below 2^13. Refuted: strict C++ makes the round trip undefined (1.0), signalling NaN 0x7c01 comes back as infinity."
  },
  {
   "property": "C36",
   "status": "partial",
   "theorems": [
    "C36_nearest_partial",
    "C36_overflow_partial",
    "C36_quiet_nan_partial",
    "C36_defined_refuted",
    "C36_ties_to_even_refuted",
    "C36_wrong_values_refuted",
    "C36_signalling_nan_refuted"
   ],
   "note": "Proved: nearest, ties away, from 2^-14 up to 65520; infinities and |x| >= 2^17; quiet NaN; exact characterisation of which floats hit an undefined shift. Refuted: ties to even, definedness, 70000 -> NaN, 131071 -> -0, values just below 2^-14 are halved, signalling NaN -> infinity."
  },
  {
   "property": "C37",
   "status": "partial",
   "theorems": [
    "C37_order_partial",
    "C37_zeros_refuted",
    "C37_nan_refuted"
   ],
   "note": "Proved for non-NaN pairs that are not both zero. Refuted: -0 == +0, NaN == NaN is true, 1 < NaN is true."
  },
  {
   "property": "C38",
   "status": "partial",
   "theorems": [
    "C38_add_rounds",
    "C38_subtract_rounds",
    "C38_add_commutes_partial",
    "C38_add_zero",
    "C38_self_difference",
    "C38_negate",
    "C38_pre_increment_decrement",
    "C38_post_increment_refuted",
    "C38_add_special_refuted",
    "C38_undefined_refuted",
    "C38_multiply_rounds_partial",
    "C38_multiply_commutes",
    "C38_multiply_one",
    "C38_multiply_underflow_partial",
    "C38_multiply_subnormal_partial",
    "C38_multiply_subnormals",
    "C38_multiply_special",
    "C38_multiply_nan_refuted",
    "C38_multiply_refuted",
    "C38_constants",
    "C38_constants_refuted"
   ],
   "note": "Proved: correctly rounded sums and differences of finite halfs, commutativity of sums on finite halfs and of products on all bit patterns, x+0, x-x, x*1 for every x but NaN, unary minus, pre-increment/decrement, constants; products of normals with normal result outside the lost-carry range are nearest, products below the normal range are within two units (nearest for exponent fields summing to 7 or more), subnormal times a normal below two within one unit, subnormal times subnormal is zero, infinity and zero products. Refuted: post ++/--, NaN/infinity propagation (a NaN factor always gives infinity), overflow (NaN), lost rounding carry in halfMul, subnormal times a factor of two or more, undefined shifts, negativeOne and negativeHalf."
  },
  {
   "property": "C39",
   "status": "partial",
   "theorems": [
    "C39_round_nearest_partial",
    "C39_round_integer_partial",
    "C39_round_truncate_partial",
    "C39_round_half_even_partial",
    "C39_round_half_even_refuted",
    "C39_round_up_refuted",
    "C39_round_seven_decimals_refuted",
    "C39_roundTo_partial",
    "C39_roundTo_negative_refuted",
    "C39_roundTo_integer_partial",
    "C39_roundTo_integer_refuted",
    "C39_roundUpTo_partial",
    "C39_roundUpTo_integer_partial",
    "C39_roundUpTo_negative_refuted",
    "C39_roundSigFig_partial",
    "C39_leading_digit_exists",
    "C39_roundSigFig_seven_refuted",
    "C39_roundSigFig_integer_refuted"
   ],
   "note": "Model over Q (exact arithmetic). Nearest and truncating modes proved for every dp except \u00b17 (wrong pow10 table entry), half-even proved at ties, roundTo/roundUpTo for non-negative numbers, roundSigFig on floats outside [1e7,1e8] and figs<>8. Refuted: UP does not round up, HALF_EVEN truncates non-ties, dp=7, roundTo/roundUpTo on negative numbers, integer roundTo with odd step, integer roundSigFig."
  },
  {
   "property": "C40",
   "status": "partial",
   "theorems": [
    "C40_clamp_partial",
    "C40_clamp_swapped_refuted",
    "C40_lerp",
    "C40_smoothStep",
    "C40_map",
    "C40_map_integer",
    "C40_isClose_symmetric",
    "C40_isClose_reflexive",
    "C40_isClose_spec",
    "C40_min_max"
   ],
   "note": "Model over Q. lerp, smoothStep (monotone, documented polynomial, end values), map, isClose, min/max proved for all arguments; clamp proved for lower<upper; the documented swapped-bounds behaviour is refuted."
  },
  {
   "property": "C41",
   "status": "partial",
   "theorems": [
    "C41_pow10_partial",
    "C41_pow10_seven_refuted"
   ],
   "note": "10^e for every exponent except 7 (exact arithmetic); the table entry for 10^7 is 10^6, refuted."
  },
  {
   "property": "C42",
   "status": "partial",
   "theorems": [
    "C42_randint_nonnegative_partial",
    "C42_randint_mixed_signs_partial",
    "C42_randint_zero_refuted",
    "C42_randint_negative_refuted",
    "C42_randint_double_rounding_refuted",
    "C42_random_range",
    "C42_random_integral"
   ],
   "note": "Bounds and surjectivity proved over exact arithmetic for 0<=lo<=hi, and for lo<0<=hi when the draw is not exactly 0. Refuted: draw 0 with negative lo gives lo-1; both bounds negative can give hi+1; in binary64 randint(1,1) gives 2 for the largest draw below 1 (rounding of the sum)."
  },
  {
   "property": "C43",
   "status": "partial",
   "theorems": [
    "C43_one_instantiation_partial",
    "C43_mixed_instantiations_refuted",
    "C43_gaussian_leftover_refuted"
   ],
   "note": "Proved for call sequences that use one instantiation of random (the hidden generator is per instantiation). Refuted for mixed instantiations (only the first one called after setSeed is reseeded) and for randomGaussian (cached second value survives reseeding). The generator is a parameter of the theorems."
  },
  {
   "property": "C44",
   "status": "partial",
   "theorems": [
    "C44_value_and_derivative",
    "C44_chain_rule",
    "C44_compound_partial",
    "C44_compound_refuted",
    "C44_compound_exact",
    "C44_device_kernel",
    "C44_device_in_place_refuted"
   ],
   "note": "Proved for every expression over the Dual operators and functions (also for Duals coming from any differentiable g), at every point where the sub-expressions are differentiable, over the reals. *= and /= with a Dual are refuted (they read the already updated value); the exact condition under which they are right is proved. The OpenCL multiply/divide kernels have the same fault in place. pow(x, 0) at x = 0 is excluded (the code computes 0*inf). Rounding is not modelled."
  },
  {
   "property": "C45",
   "status": "proved",
   "theorems": [
    "C45_sigmoid_backward",
    "C45_sigmoid_range",
    "C45_chain",
    "C45_layers",
    "C45_agrees_with_dual",
    "C45_integer_elements"
   ],
   "note": "Proved over the reals, for one activation and any chain of layers; integer arrays always store 0. In binary64 forward rounds to exactly 1 for large x: rounding is not modelled."
  },
  {
   "property": "C46",
   "status": "partial",
   "theorems": [
    "C46_field_operations",
    "C46_field_laws",
    "C46_scalar_operations",
    "C46_compound_complex",
    "C46_compound_scalar_partial",
    "C46_compound_alias_refuted",
    "C46_compound_alias_exact",
    "C46_assignment_partial",
    "C46_assignment_refuted",
    "C46_equality"
   ],
   "note": "Proved for the four operators, mixed scalar forms and compound forms with any Complex operand (also z op= z). Refuted: assignment from another Complex type copies the real part into the imaginary part; z *= z.real() and z /= z.real() read the updated real part (exact conditions proved). Over the reals."
  },
  {
   "property": "C47",
   "status": "partial",
   "theorems": [
    "C47_principal_root",
    "C47_root_unique",
    "C47_sqrt_float_partial"
   ],
   "note": "With exact constants (the multi-precision path) sqrt is proved to be the unique principal root for every z. With the decimal literals of the floating path the square equals z up to 1e-32 |z|. Rounding is not modelled."
  },
  {
   "property": "C48",
   "status": "partial",
   "theorems": [
    "C48_exponential",
    "C48_by_exponentials",
    "C48_identities",
    "C48_tangent_partial",
    "C48_reciprocals",
    "C48_modulus",
    "C48_polar"
   ],
   "note": "Proved over the reals; tan/tanh excluded where the real tangent used by the code has no value (no floating-point number is such a point)."
  },
  {
   "property": "C49",
   "status": "partial",
   "theorems": [
    "C49_elementwise",
    "C49_assignment_defined",
    "C49_inplace",
    "C49_construct",
    "C49_reductions_partial",
    "C49_reductions_include_padding",
    "C49_reductions_refuted",
    "C49_zero_padding_partial",
    "C49_division_refuted",
    "C49_cast_partial",
    "C49_cast_refuted",
    "C49_cross",
    "C49_norm_partial",
    "C49_fromPolar",
    "C49_str"
   ],
   "note": "Elementwise arithmetic, construction, cross, fromPolar and text hold for all N, packet widths and padding contents. sum/dot/mag2/norm are proved when N is a multiple of the packet width (so always for scalar storage) and for zero-preserving expressions on zero padding; refuted otherwise (padding lanes are added in). Also refuted: widening cast of SIMD vectors (out of bounds read), integer division (divides in padding lanes)."
  },
  {
   "property": "C50",
   "status": "partial",
   "theorems": [
    "C50_round_trip",
    "C50_type_check_partial",
    "C50_truncated_refuted",
    "C50_other_type_refuted",
    "C50_file_round_trip",
    "C50_text_file_refuted"
   ],
   "note": "Round trip proved for every object and type, in memory and through a binary file; the type check is proved for data long enough with assertions on. Refuted with witnesses: truncated data (read past the end), assertions off or a type with the same name hash, and text-mode files."
  },
  {
   "property": "C51",
   "status": "proved",
   "theorems": [
    "C51_formatTime",
    "C51_formatTime_rounded"
   ],
   "note": "Proved for exact scaling and, with a bound, when every step of the scaling rounds."
  },
  {
   "property": "C52",
   "status": "partial",
   "theorems": [
    "C52_elapsed",
    "C52_elapsed_refuted",
    "C52_loop",
    "C52_average_refuted",
    "C52_sleep"
   ],
   "note": "Elapsed time, loop bound and sleep proved for any monotone clock. Refuted with witnesses: setTargetTime after stop, and the average counts one check of the loop too many."
  },
  {
   "property": "C53",
   "status": "partial",
   "theorems": [
    "C53_batch_is_mt19937_partial",
    "C53_sequence_exists",
    "C53_incremental_repeats_refuted"
   ],
   "note": "The batch function is proved to be MT19937 for all seeds and draw counts. The incremental function used by the kernels is refuted: it returns the tempered seed at draws 0, 623, 1246, ... for every seed."
  },
  {
   "property": "C54",
   "status": "proved",
   "theorems": [
    "C54_map",
    "C54_unordered_map",
    "C54_str"
   ],
   "note": "Proved for any history of insert, operator[] and erase; the standard containers underneath are read from the C++ standard. get(key) const does not compile when used and is left out."
  },
  {
   "property": "C55",
   "status": "proved",
   "theorems": [
    "C55_copy",
    "C55_axpy",
    "C55_scal",
    "C55_swap",
    "C55_rot",
    "C55_zero_increment",
    "C55_dot",
    "C55_iamax",
    "C55_outside",
    "C55_overlap_order"
   ],
   "note": "Proved for the generic templates with mathematical integers, any n and any increment (zero increments have their own theorem); overlap is allowed as long as no element is overwritten before it is read. The CBLAS overloads call an external library."
  },
  {
   "property": "C56",
   "status": "proved",
   "theorems": [
    "C56_nested",
    "C56_aligned",
    "C56_points_line_up",
    "C56_brackets",
    "C56_text"
   ],
   "note": "Proved for every array of general shape, for the pieces of text and for the characters; fmt's rendering of one element is a parameter."
  },
  {
   "property": "C57",
   "status": "partial",
   "theorems": [
    "C57_cxxblas_gemm_partial",
    "C57_conj_refuted"
   ],
   "note": "All orders and mode pairs except conjugate x as-is and conjugate-transposed x conjugate, which drop a conjugation (refuted on Gaussian integers); increments of gemm only (positive)."
  },
  {
   "property": "C58",
   "status": "partial",
   "theorems": [
    "C58_spec_partial",
    "C58_spec_refuted"
   ],
   "note": "Specifications of up to 15 characters are kept; from 16 characters on the 16-byte buffer is left unterminated or overrun (refuted)."
  },
  {
   "property": "C59",
   "status": "partial",
   "theorems": [
    "C59_lifetime",
    "C59_no_leak",
    "C59_default_refuted"
   ],
   "note": "Lifetime of cl::Buffer handles proved for every history (sharing included); reading the size a default-constructed storage never initialises is undefined (refuted part)."
  },
  {
   "property": "C60",
   "status": "partial",
   "theorems": [
    "C60_value_semantics_partial",
    "C60_reference",
    "C60_reference_stays",
    "C60_reference_reads",
    "C60_assign_to_moved_refuted",
    "C60_assign_empty_refuted"
   ],
   "note": "Value semantics proved except copy assignment to a moved-from storage and copy assignment of an empty storage, both refuted; element references proved."
  },
  {
   "property": "C61",
   "status": "partial",
   "theorems": [
    "C61_safe_partial",
    "C61_leak_free_partial",
    "C61_copy_construct_refuted",
    "C61_move_assign_leaks_refuted",
    "C61_default_refuted"
   ],
   "note": "Proved except: copy construction of a non-empty storage (a device-to-device copy is issued as host-to-device, undefined), use of a default-constructed storage's uninitialised size, and the leak of a move assignment; all refuted with witnesses."
  },
  {
   "property": "C62",
   "status": "partial",
   "theorems": [
    "C62_value_semantics_partial",
    "C62_read",
    "C62_unchecked_index_refuted",
    "C62_assign_empty_refuted",
    "C62_assign_to_moved_refuted",
    "C62_fill_empty_refuted"
   ],
   "note": "Proved for every command except assignment to a moved-from storage, assignment of an empty storage, out-of-range indexing (silently reads padding) and the fill constructor with size 0, all refuted."
  },
  {
   "property": "C63",
   "status": "proved",
   "theorems": [
    "C63_cuda_kernel_elementwise",
    "C63_opencl_kernel_elementwise",
    "C63_cuda_grid"
   ],
   "note": "Kernels are elementwise functions run by threads that interleave their single reads and writes arbitrarily; index arithmetic is 32-bit as in the kernels."
  },
  {
   "property": "C64",
   "status": "proved",
   "theorems": [
    "C64_cuda_assign",
    "C64_opencl_assign"
   ],
   "note": "The evaluator's temporaries, kernel launches and packets are modelled; element arithmetic is an arbitrary function. Subexpressions are evaluated left to right. The OpenCL theorem covers one element type (see C65)."
  },
  {
   "property": "C65",
   "status": "partial",
   "theorems": [
    "C65_cuda_large_refuted",
    "C65_opencl_large_refuted",
    "C65_empty_refuted",
    "C65_opencl_mixed_refuted",
    "C65_cuda_width3_refuted"
   ],
   "note": "False: refuted with witnesses for empty arrays (throws when assertions are on), more than 2^32 (CUDA) or 2^31 (OpenCL) elements, packet width 3, and mixed element types on OpenCL."
  },
  {
   "property": "C66",
   "status": "proved",
   "theorems": [
    "C66_text_denotes_value",
    "C66_text_injective"
   ],
   "note": "mpf_get_str of GMP is trusted; everything str does with its result is modelled."
  },
  {
   "property": "C67",
   "status": "proved",
   "theorems": [
    "C67_default_is_best",
    "C67_prompt",
    "C67_prompt_sound",
    "C67_no_device",
    "C67_gpu_preferred"
   ],
   "note": "The default-choice theorem needs a working device with a positive score (any device with at least 1 MB of memory). The self-test itself is an input. The score multiplies modulo 2^32 as the code does."
  },
  {
   "property": "C68",
   "status": "proved",
   "theorems": [
    "C68_exp_log",
    "C68_branch_cut",
    "C68_log_exp",
    "C68_bases",
    "C68_modulus_algorithm"
   ],
   "note": "Real arithmetic; sign bits of zeros are explicit arguments. The float algorithm for ln|z| is covered with its truncation error, rounding is not."
  },
  {
   "property": "C69",
   "status": "proved",
   "theorems": [
    "C69_pow_is_exp_log",
    "C69_power_laws",
    "C69_cube_root",
    "C69_zero_power",
    "C69_exponentials"
   ],
   "note": "Over the reals, for all bases and exponents where the code's branches apply."
  },
  {
   "property": "C70",
   "status": "partial",
   "theorems": [
    "C70_acos",
    "C70_asin",
    "C70_asinh",
    "C70_acosh_partial",
    "C70_acosh_refuted",
    "C70_atanh",
    "C70_atan",
    "C70_reciprocals"
   ],
   "note": "acosh of a real number below -1 has a negative real part for multi-precision components, because copySign for such types ignores the sign of zero (C70_acosh_refuted); every other case is proved."
  },
  {
   "property": "C71",
   "status": "partial",
   "theorems": [
    "C71_device_range",
    "C71_device_range_integral",
    "C71_upper_bound_refuted",
    "C71_host_range"
   ],
   "note": "Proved over exact arithmetic for every schedule, size and seed with the MT19937 code of the kernels, and for the CPU loops. In binary64 the upper bound itself can be returned (refuted: numbers near 2^64 round up before scaling)."
  },
  {
   "property": "C72",
   "status": "partial",
   "theorems": [
    "C72_device_small_partial",
    "C72_threads",
    "C72_device_descent",
    "C72_device_repeats_refuted",
    "C72_first_number_is_seed_refuted",
    "C72_stored_seed",
    "C72_host_reproducible",
    "C72_device_reproducible_partial",
    "C72_device_not_reseeded_refuted",
    "C72_host_parallel_refuted"
   ],
   "note": "Reproducible on the CPU with one thread, and on devices up to 1024 elements when fillRandom is the first random call after setSeed. Refuted: larger device arrays depend on the schedule and can repeat with period 1024, host calls in between cancel the reseeding, parallel CPU fills share an unprotected generator, and a thread's first number is the tempered seed."
  },
  {
   "property": "C73",
   "status": "partial",
   "theorems": [
    "C73_elementwise",
    "C73_compound",
    "C73_sub_array",
    "C73_dot",
    "C73_transpose_partial",
    "C73_view_partial",
    "C73_transpose_refused",
    "C73_transpose_refuted",
    "C73_plus_transpose_refuted",
    "C73_row_refuted",
    "C73_row_partial"
   ],
   "note": "Proved for elementwise occurrences, sub-arrays of equal depth and matrix products, in any order. False: a = transpose(a) without assertions gives a symmetric matrix (refused with them), a = a + transpose(a) and a += transpose(a) read replaced elements, a = a[i] loses the row. The generic transpose routine only; __restrict is ignored."
  },
  {
   "property": "C74",
   "status": "partial",
   "theorems": [
    "C74_scoped",
    "C74_blocks",
    "C74_at_once",
    "C74_current",
    "C74_frame",
    "C74_outlived_refuted",
    "C74_temporary_row_refuted",
    "C74_copy_partial",
    "C74_copy_refuted",
    "C74_assign_refuted",
    "C74_resized_refuted",
    "C74_mismatch"
   ],
   "note": "False parts: a row of a temporary kept with auto refers to the dead temporary (C74_temporary_row_refuted); an expression over locals returned from a function (C74_outlived_refuted); copying or iterating over an expression that contains a row of an array other than the first reads other elements, because the view's copy constructor drops the offset (C74_copy_refuted); f = g overwrites the operands of f (C74_assign_refuted); an operand replaced by a shorter array is read past its end (C74_resized_refuted)."
  },
  {
   "property": "C75",
   "status": "partial",
   "theorems": [
    "C75_addX2",
    "C75_addSmallX2",
    "C75_sqrX2",
    "C75_sqrX2_underflow_refuted",
    "C75_float_square",
    "C75_norm_minus_one",
    "C75_float_norm_refuted",
    "C75_logp1",
    "C75_log_modulus"
   ],
   "note": "False for float and under underflow (refuted with witnesses); for double proved with rounding of every operation. Overflow, NaN, infinities and compiler contraction of x*x+y*y are not modelled; the scaled branch of logHypot is covered in C68 on reals only."
  },
  {
   "property": "C76",
   "status": "proved",
   "theorems": [
    "C76_trmv",
    "C76_trmm"
   ],
   "note": "trmv and trmm for every mode, size, stride and leading dimension."
  },
  {
   "property": "C77",
   "status": "proved",
   "theorems": [
    "C77_trsv",
    "C77_round_trip",
    "C77_trsm"
   ],
   "note": "trsv and trsm for every mode; exact field arithmetic (rounding not modelled)."
  },
  {
   "property": "C78",
   "status": "proved",
   "theorems": [
    "C78_hemm",
    "C78_symv",
    "C78_hemv",
    "C78_symm"
   ],
   "note": "Over any commutative semiring; rounding is not modelled. The CBLAS overloads are outside the model."
  },
  {
   "property": "C79",
   "status": "proved",
   "theorems": [
    "C79_herk",
    "C79_her2k",
    "C79_hermitian_modes",
    "C79_geru",
    "C79_gerc",
    "C79_syr",
    "C79_syr2",
    "C79_her",
    "C79_her2",
    "C79_syrk",
    "C79_syr2k"
   ],
   "note": "Over any commutative semiring; rounding is not modelled. herk and her2k for the modes NoTrans and ConjTrans, the only ones they accept."
  },
  {
   "property": "C80",
   "status": "proved",
   "theorems": [
    "C80_sum_any_order",
    "C80_dot_any_order",
    "C80_blas",
    "C80_matmul",
    "C80_matvec",
    "C80_vector"
   ],
   "note": "IEEE numbers of any precision; unscaled operands (scaled ones are C105); operations as written, without -ffast-math or contraction."
  },
  {
   "property": "C81",
   "status": "partial",
   "theorems": [
    "C81_linspace",
    "C81_linspace_no_overflow",
    "C81_linspace_integers",
    "C81_linspace_end_refuted",
    "C81_linspace_overflow_refuted",
    "C81_linspace_one_refuted",
    "C81_arange",
    "C81_arange_count_refuted"
   ],
   "note": "Last element, overflow, one-element case and element count are refuted by witnesses in double."
  },
  {
   "property": "C82",
   "status": "partial",
   "theorems": [
    "C82_lerp",
    "C82_lerp_nan",
    "C82_lerp_overflow_refuted",
    "C82_clamp",
    "C82_smoothStep",
    "C82_smoothStep_above_one_refuted",
    "C82_isClose",
    "C82_isClose_nan",
    "C82_isClose_infinite_refuted"
   ],
   "note": "Overflowing lerp, smoothStep above 1 and isClose of infinities are refuted by witnesses in double."
  },
  {
   "property": "C83",
   "status": "partial",
   "theorems": [
    "C83_random",
    "C83_random_half_open_refuted",
    "C83_random_float_refuted",
    "C83_randint_zero",
    "C83_randint_partial",
    "C83_randint_refuted"
   ],
   "note": "Half-openness, the float overload and randint for non-zero lower ends are refuted by witnesses; the margin condition is the proved part."
  },
  {
   "property": "C84",
   "status": "partial",
   "theorems": [
    "C84_mul",
    "C84_div",
    "C84_div_self",
    "C84_div_self_imag_refuted",
    "C84_div_overflow_refuted",
    "C84_div_part_refuted",
    "C84_div_zero"
   ],
   "note": "Exact z / z, no overflow for finite z and componentwise accuracy are refuted by witnesses in double."
  },
  {
   "property": "C85",
   "status": "proved",
   "theorems": [
    "C85_cells",
    "C85_tpmv",
    "C85_tpsv",
    "C85_round_trip",
    "C85_spmv",
    "C85_hpmv",
    "C85_spr",
    "C85_spr2",
    "C85_hpr",
    "C85_hpr2"
   ],
   "note": "Generic (header) implementations only; vendor BLAS entry points are not modelled. Exact arithmetic."
  },
  {
   "property": "C86",
   "status": "proved",
   "theorems": [
    "C86_tbmv",
    "C86_tbsv",
    "C86_round_trip",
    "C86_sbmv",
    "C86_hbmv",
    "C86_gbmv",
    "C86_gbmv_empty"
   ],
   "note": "Generic (header) implementations only. Exact arithmetic."
  },
  {
   "property": "C87",
   "status": "partial",
   "theorems": [
    "C87_round",
    "C87_truncate",
    "C87_half_even_partial",
    "C87_half_even_undefined_refuted",
    "C87_special",
    "C87_places",
    "C87_places_down",
    "C87_places_refuted",
    "C87_significant_ends",
    "C87_significant_infinite_refuted",
    "C87_significant",
    "C87_roundTo",
    "C87_roundUpTo"
   ],
   "note": "Integer rounding, truncation, decimal places, significant figures and multiples are proved with error bounds. Refuted: a decimal literal is not always returned unchanged (0.3 to one place), HALF_EVEN is undefined from 2^64 on (and truncates non-ties), roundSigFig of an infinity never ends."
  },
  {
   "property": "C88",
   "status": "partial",
   "theorems": [
    "C88_rfft",
    "C88_rest",
    "C88_inverse",
    "C88_injective",
    "C88_linear",
    "C88_energy",
    "C88_ends",
    "C88_dims",
    "C88_dims_unchecked",
    "C88_fftw",
    "C88_fftw_refuted"
   ],
   "note": "Elements are real numbers; the contracts of pocketfft and FFTW are trusted. The independence of the back end is false: with FFTW an empty array and arrays of 2^31 to 2^32 numbers execute a null plan, and longer ones are truncated (C88_fftw_refuted)."
  },
  {
   "property": "C89",
   "status": "partial",
   "theorems": [
    "C89_general",
    "C89_general_columns",
    "C89_base",
    "C89_symmetric_rows",
    "C89_symmetric_columns",
    "C89_hermitian_rows",
    "C89_hermitian_columns",
    "C89_half_rows_columns",
    "C89_half_columns_columns",
    "C89_sorted",
    "C89_unsorted_refuted"
   ],
   "note": "Arithmetic is exact (any commutative semiring). The symmetric and Hermitian products are right when each line has its diagonal entry first (upper rows) or last (lower rows), which sorted lines give (C89_sorted); for unsorted lines or a repeated diagonal entry the property is false (C89_unsorted_refuted)."
  },
  {
   "property": "C90",
   "status": "partial",
   "theorems": [
    "C90_vectors",
    "C90_gecopy",
    "C90_geaxpy",
    "C90_geaxpby",
    "C90_geraxpy_partial",
    "C90_geraxpy_refuted",
    "C90_gerscal",
    "C90_geswap_partial",
    "C90_geswap_refuted",
    "C90_gecotr",
    "C90_gecotr_square"
   ],
   "note": "Exchange of a row-major matrix with a column-major one is wrong unless they are square (C90_geswap_refuted); adding a conjugated matrix divided by a number is not implemented (C90_geraxpy_refuted)."
  },
  {
   "property": "C91",
   "status": "partial",
   "theorems": [
    "C91_trcopy",
    "C91_trcopy_unit_partial",
    "C91_trcopy_unit_refuted",
    "C91_traxpy_partial",
    "C91_traxpby_partial",
    "C91_traxpy_unit_refuted",
    "C91_trscal_partial",
    "C91_trscal_refuted",
    "C91_tpcopy",
    "C91_tpcopy_transposed_partial",
    "C91_tpcopy_transposed_refuted",
    "C91_tpaxpy",
    "C91_tpaxpy_transposed_partial",
    "C91_tpaxpy_refuted",
    "C91_tpaxpby",
    "C91_tpaxpby_transposed_partial",
    "C91_tpaxpby_unit_refuted",
    "C91_tpscal",
    "C91_tpscal_unit_partial",
    "C91_tpscal_unit_refuted"
   ],
   "note": "False in part: trapezoids with a unit diagonal lose a line (C91_trcopy_unit_refuted), scaling a column-major trapezoid is wrong or leaves the memory (C91_trscal_refuted), packed transposition ignores the triangle (C91_tpcopy_transposed_refuted), packed scaling without the diagonal ignores the order (C91_tpscal_unit_refuted), packed sums with a unit diagonal overwrite it (C91_tpaxpby_unit_refuted), other unit-diagonal sums are not implemented."
  },
  {
   "property": "C92",
   "status": "partial",
   "theorems": [
    "C92_gbcopy_partial",
    "C92_gbaxpy_partial",
    "C92_gbaxpby_partial",
    "C92_gbcopy_refuted",
    "C92_gbscal",
    "C92_gbcotr",
    "C92_gbcotr_square"
   ],
   "note": "Transposed copies and sums are right when the sizes are those of A and the band widths those of B; with the sizes of B, as for dense matrices, entries are left out (C92_gbcopy_refuted)."
  },
  {
   "property": "C93",
   "status": "partial",
   "theorems": [
    "C93_divide_rounded",
    "C93_divide_exact",
    "C93_divide_self",
    "C93_divide_one",
    "C93_divide_infinite",
    "C93_divide_zero_partial",
    "C93_divide_nan",
    "C93_subnormal_refuted",
    "C93_overflow_refuted"
   ],
   "note": "Correct rounding holds for quotients from 2^-14 to below 65520; subnormal quotients are truncated and quotients from 65536 to 131071 give NaN or wrong values (refuted with witnesses); zero results need the machine to return a small value for an over-long shift."
  },
  {
   "property": "C94",
   "status": "partial",
   "theorems": [
    "C94_from_double_faithful_partial",
    "C94_from_double_exact",
    "C94_from_double_nearest_refuted",
    "C94_from_integer_partial",
    "C94_from_integer_refuted",
    "C94_to_double_exact",
    "C94_to_double_infinity",
    "C94_double_round_trip",
    "C94_to_integer",
    "C94_to_integer_undefined"
   ],
   "note": "half(double) is one of the two neighbours and nearest up to 2^-23 relative, but not always nearest (refuted: 1 + 2^-11 - 2^-52); integers up to 65519 are rounded to nearest, 70000 becomes NaN (refuted)."
  },
  {
   "property": "C95",
   "status": "partial",
   "theorems": [
    "C95_trsv_residual",
    "C95_trsv_backward",
    "C95_trsv_forward",
    "C95_trsv_integers",
    "C95_trsv_finite_refuted",
    "C95_trmv"
   ],
   "note": "C95_trsv_residual, C95_trsv_backward and C95_trsv_forward bound the error of a triangular solve; C95_trsv_integers gives exactness; C95_trmv bounds the product. C95_trsv_finite_refuted: a zero on the diagonal (or a quotient that overflows) is not reported, the answer is infinite or NaN."
  },
  {
   "property": "C96",
   "status": "proved",
   "theorems": [
    "C96_nrm2",
    "C96_cnrm2",
    "C96_nrm2_float",
    "C96_cnrm2_float",
    "C96_square"
   ],
   "note": "real and complex vectors, exact arithmetic and float/double; std::pow enters as any square accurate to two units"
  },
  {
   "property": "C97",
   "status": "partial",
   "theorems": [
    "C97_rotg",
    "C97_rotg_recover_partial",
    "C97_rotg_recover_refuted",
    "C97_crotg",
    "C97_rot",
    "C97_rotg_rot",
    "C97_crot",
    "C97_rotg_overflow_refuted"
   ],
   "note": "z of rotg proved only for |a|<>|b| (false otherwise); rounding of rotg is bounded in C116, overflow refuted"
  },
  {
   "property": "C98",
   "status": "partial",
   "theorems": [
    "C98_gbmm",
    "C98_sbmm",
    "C98_hbmm",
    "C98_tbmm_partial",
    "C98_tbmm_refuted"
   ],
   "note": "tbmm scales with the increment ldB in every branch: in row-major order on the right and column-major order on the left it scales the wrong elements and runs beyond B (C98_tbmm_refuted); proved where the increment is right."
  },
  {
   "property": "C99",
   "status": "partial",
   "theorems": [
    "C99_exp_exists",
    "C99_range",
    "C99_monotone",
    "C99_special",
    "C99_accuracy",
    "C99_backward",
    "C99_open_interval_refuted",
    "C99_saturation"
   ],
   "note": "Range, monotonicity, special values, accuracy and the range of the derivative hold for every format. C99_open_interval_refuted: unlike the logistic function the computed one reaches 0 and 1 for finite inputs (64 and -2048 in double), where the derivative is 0."
  },
  {
   "property": "C100",
   "status": "partial",
   "theorems": [
    "C100_nonnegative",
    "C100_mag",
    "C100_norm",
    "C100_overflow_refuted",
    "C100_underflow_refuted"
   ],
   "note": "Holds for every format, SIMD width and expression whose padding lanes are zero. C100_overflow_refuted and C100_underflow_refuted: mag does not scale its elements, so (2^600, 0) has length infinity and direction 0, and (2^-600, 0) has length 0 and direction (infinity, NaN)."
  },
  {
   "property": "C101",
   "status": "partial",
   "theorems": [
    "C101_types_exist",
    "C101_to_integer",
    "C101_exact",
    "C101_text",
    "C101_text_digits_refuted",
    "C101_from_mpfr_partial",
    "C101_from_mpfr_small_refuted",
    "C101_mpfr_to_integer_partial",
    "C101_mpfr_to_integer_refuted",
    "C101_not_finite",
    "C101_bad_text",
    "C101_integer_to_mpfr",
    "C101_mpf_to_mpfr",
    "C101_abs",
    "C101_copySign",
    "C101_signBit_partial",
    "C101_signBit_refuted",
    "C101_ldexp_partial",
    "C101_ldexp_negative_refuted"
   ],
   "note": "partial: small mpfr numbers become 0, toMpz(mpfr) rounds 1-2^-53 up, str's digits are taken as bits, signBit(0) is true, ldexp by a negative exponent fails (refuted with witnesses)"
  },
  {
   "property": "C102",
   "status": "partial",
   "theorems": [
    "C102_root_unique",
    "C102_accurate",
    "C102_real_axis",
    "C102_special",
    "C102_conjugate",
    "C102_zero_sign_refuted"
   ],
   "note": "Proved for every precision between 24 and 53 with 3p+8 <= emax, so for float and double. The sign of a NaN is not modelled. Refuted: a negative real with imaginary part -0 has a root with real part -0."
  },
  {
   "property": "C103",
   "status": "partial",
   "theorems": [
    "C103_history",
    "C103_fresh",
    "C103_stable",
    "C103_distinct",
    "C103_relative_refuted",
    "C103_unchecked_refuted",
    "C103_empty_prelude_refuted",
    "C103_cut"
   ],
   "note": "the cache key ignores the relative flag, failures are cached when assertions are off, and an empty prelude file drops everything after it (refuted)"
  },
  {
   "property": "C104",
   "status": "partial",
   "theorems": [
    "C104_total",
    "C104_names",
    "C104_newer_refuted"
   ],
   "note": "codes -13 to -19 of OpenCL 1.1 and 1.2 have an empty name (refuted)"
  },
  {
   "property": "C105",
   "status": "partial",
   "theorems": [
    "C105_gemm",
    "C105_gemm_alpha_zero",
    "C105_gemv",
    "C105_matmul",
    "C105_matvec",
    "C105_factor",
    "C105_fold_refuted"
   ],
   "note": "C105_fold_refuted: the factors are multiplied with each other first, so the product can be infinite (or zero) although every scaled element and the exact result are ordinary numbers"
  },
  {
   "property": "C106",
   "status": "partial",
   "theorems": [
    "C106_blas",
    "C106_distance",
    "C106_scale",
    "C106_matmul",
    "C106_matvec",
    "C106_part_refuted"
   ],
   "note": "Operands without factors only (all lazy factors are 1). Refuted: independence of the parts, since a matrix product ends with a multiplication by alpha = 1 + 0i."
  },
  {
   "property": "C107",
   "status": "partial",
   "theorems": [
    "C107_finite",
    "C107_zero",
    "C107_symmetric",
    "C107_nan",
    "C107_infinite_partial",
    "C107_infinite_refuted",
    "C107_infinite_component"
   ],
   "note": "Refuted: a negative infinite component gives -inf. logHypot<float>, which Complex<float> uses, lacks the doubled precision near the unit circle, see C75."
  },
  {
   "property": "C108",
   "status": "partial",
   "theorems": [
    "C108_value",
    "C108_exact_scalars",
    "C108_polynomial",
    "C108_polynomial_bound",
    "C108_integers",
    "C108_constant",
    "C108_divide",
    "C108_divide_scalar",
    "C108_sqrt",
    "C108_divide_refuted",
    "C108_constant_refuted"
   ],
   "note": "The derivative of a quotient squares the divisor: for divisors around 2^600 or 2^-600 it becomes 0, infinite or NaN although the exact derivative is an ordinary double (refuted)."
  },
  {
   "property": "C109",
   "status": "partial",
   "theorems": [
    "C109_unique",
    "C109_tanh",
    "C109_tan",
    "C109_symmetric",
    "C109_special",
    "C109_annex_g_refuted"
   ],
   "note": "The real sinh and tan are parameters with a one-ulp contract; the largest tangent is assumed below 2^(emax/4)."
  },
  {
   "property": "C110",
   "status": "partial",
   "theorems": [
    "C110_library",
    "C110_exp",
    "C110_hyperbolic",
    "C110_trigonometric",
    "C110_polar",
    "C110_bound",
    "C110_exp_finite",
    "C110_symmetric",
    "C110_special",
    "C110_real_axis_partial",
    "C110_real_axis_refuted",
    "C110_overflow_refuted"
   ],
   "note": "real axis proved where the real functions stay finite, refuted where they overflow; a part can overflow although its exact value is in range"
  },
  {
   "property": "C111",
   "status": "partial",
   "theorems": [
    "C111_names_distinct",
    "C111_binary_partial",
    "C111_binary_types_refuted",
    "C111_unary_partial",
    "C111_unary_missing_refuted",
    "C111_narrow",
    "C111_same_type_partial",
    "C111_fill",
    "C111_sigmoid",
    "C111_transpose_partial",
    "C111_transpose_unsigned_refuted",
    "C111_product_partial",
    "C111_product_types_refuted",
    "C111_class_types_refuted",
    "C111_type_names",
    "C111_type_names_refuted"
   ],
   "note": "Finite table of kernels, all element types and operand arrangements. exp2, exp10, unsigned transposes, small and mixed types, Dual and Complex refuted."
  },
  {
   "property": "C112",
   "status": "partial",
   "theorems": [
    "C112_names_distinct",
    "C112_assign_partial",
    "C112_mixed_refuted",
    "C112_missing_refuted",
    "C112_rejected_refuted",
    "C112_float2",
    "C112_width3_refuted",
    "C112_empty_refuted",
    "C112_gemm_library",
    "C112_gemm_fallback_partial",
    "C112_gemm_narrow_refuted",
    "C112_gemm_complex_refuted"
   ],
   "note": "Partial: float and double in one assignment, functions without a kernel, packets of three, and bool, Complex, half and Dual arrays are excluded; the first four are refuted by theorems."
  },
  {
   "property": "C113",
   "status": "partial",
   "theorems": [
    "C113_trsm",
    "C113_trsm_one",
    "C113_trsm_scaled",
    "C113_trmm",
    "C113_trmm_zero",
    "C113_trsm_zero_refuted",
    "C113_trsm_range_refuted",
    "C113_trmm_range_refuted"
   ],
   "note": "Residual bounds for op(T) Y = B, for alpha = 1 and for any alpha; error bound for trmm; zeros for alpha = 0 in trmm. Refuted: zero from trsm with alpha = 0 (an overflow in the solve leaves a NaN), and finiteness of trsm and trmm when the exact result is representable (alpha is applied last)."
  },
  {
   "property": "C114",
   "status": "partial",
   "theorems": [
    "C114_chars",
    "C114_contracts",
    "C114_gemv",
    "C114_gbmv",
    "C114_gemm_partial",
    "C114_triangular",
    "C114_plain_partial",
    "C114_gemm_real_partial",
    "C114_conj_refuted",
    "C114_ctrmv_refuted",
    "C114_empty_refuted",
    "C114_axpy",
    "C114_acxpy",
    "C114_dot",
    "C114_hpr2_refuted",
    "C114_level1_partial",
    "C114_iamax_empty_refuted",
    "C114_negative_refuted"
   ],
   "note": "Real overloads and ctrmv pass Conj on, which MKL and Accelerate builds turn into ConjTrans (C114_conj_refuted, C114_ctrmv_refuted); CXXBLAS_NO_TEMPORARY scales y for empty matrices (C114_empty_refuted); hpr2 passes the address of one real as a complex alpha (C114_hpr2_refuted); asum, scal and iamax differ for negative increments, iamax also for empty vectors (C114_negative_refuted, C114_iamax_empty_refuted). C114_gemm_partial leaves out the two combinations of C57. The libraries themselves are not modelled, and hbmv's overloads do not compile."
  },
  {
   "property": "C115",
   "status": "proved",
   "theorems": [
    "C115_library",
    "C115_draw",
    "C115_disc",
    "C115_pair",
    "C115_waits",
    "C115_second",
    "C115_bounded",
    "C115_float"
   ],
   "note": "the distribution of the results is not part of the claim"
  },
  {
   "property": "C116",
   "status": "partial",
   "theorems": [
    "C116_rotg",
    "C116_rotation",
    "C116_zero",
    "C116_rot",
    "C116_annihilates",
    "C116_z_refuted"
   ],
   "note": "C116_z_refuted: a = 2^-1060, b = 1 gives z = infinity although c and s are finite; everything else is proved. Lengths below 2^(7-emax) and sums of moduli above 2^(emax-2) are outside the theorems (C97_rotg_overflow_refuted shows the latter can fail)."
  },
  {
   "property": "C117",
   "status": "partial",
   "theorems": [
    "C117_vectors",
    "C117_scale",
    "C117_matrices",
    "C117_divide",
    "C117_ger",
    "C117_integers",
    "C117_alpha_zero_refuted",
    "C117_ger_order_refuted"
   ],
   "note": "C117_alpha_zero_refuted: axpy with alpha = 0 and an infinite x gives NaN. C117_ger_order_refuted: alpha = 2^1000, x = 2^100, y = 2^-200 overflows for row-major and not for column-major matrices. The complex versions are not covered."
  },
  {
   "property": "C118",
   "status": "partial",
   "theorems": [
    "C118_product",
    "C118_integers",
    "C118_transposed",
    "C118_columns",
    "C118_alpha_zero_refuted",
    "C118_order_refuted"
   ],
   "note": "The two refuted theorems show that alpha = 0 is not treated specially and that the storage order matters."
  }
 ]
}