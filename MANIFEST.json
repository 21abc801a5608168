{
 "claims": [
  {
   "property": "C01",
   "status": "partial",
   "theorems": [
    "C01_evaluation_is_path_sum",
    "C01_many_points",
    "C01_outer_ranks_checked",
    "C01_large_ranks_refuted"
   ],
   "note": "Proved for every well-shaped train whose cores satisfy the 1000-function bound of generic_function_1darray_eval2 (or contain a non-polynomial among the first 1000); C01_large_ranks_refuted shows that the unbounded claim is false of the code."
  },
  {
   "property": "C02",
   "status": "partial",
   "theorems": [
    "C02_sum_value_partial",
    "C02_dimension_one_refuted"
   ],
   "note": "Proved for every dimension >= 2; in dimension one the claim is false of the code (C02_dimension_one_refuted)."
  },
  {
   "property": "C03",
   "status": "proved",
   "theorems": [
    "C03_product_value"
   ],
   "note": "All dimensions including one, all rank vectors."
  },
  {
   "property": "C04",
   "status": "partial",
   "theorems": [
    "C04_scale_value",
    "C04_copy_is_identity"
   ],
   "note": "Values proved; the heap/aliasing part of the statement is not covered yet."
  },
  {
   "property": "C05",
   "status": "proved",
   "theorems": [
    "C05_inner_is_pair_path_sum",
    "C05_inner2_is_pair_path_sum",
    "C05_inner_rl_is_pair_path_sum",
    "C05_inner_is_integral_of_product",
    "C05_inner_symmetric",
    "C05_inner_additive",
    "C05_inner_homogeneous"
   ],
   "note": "All three inner-product routines; symmetry, additivity (dimension >= 2, where the sum exists) and homogeneity; equality with the integral of the product."
  },
  {
   "property": "C06",
   "status": "proved",
   "theorems": [
    "C06_integrate_is_path_sum",
    "C06_integral_additive"
   ],
   "note": "Path-sum integral and additivity."
  },
  {
   "property": "C07",
   "status": "partial",
   "theorems": [
    "C07_constant",
    "C07_linear",
    "C07_quadratic",
    "C07_quadratic_aligned_partial",
    "C07_rankone_prod",
    "C07_rankone",
    "C07_initsum",
    "C07_zeros",
    "C07_one_dimension_checked",
    "C07_linear_one_dimension_refuted",
    "C07_quadratic_aligned_one_dimension_refuted",
    "C07_initsum_one_dimension_refuted",
    "C07_quadratic_aligned_refuted"
   ],
   "note": "All constructors proved for every dimension >= 2 (constant, rankone, zeros: >= 1); quadratic and rankone_prod abort in dimension one; the full claim is false of the code: linear and quadratic_aligned return unusable trains and initsum writes out of bounds in dimension one, quadratic_aligned uses the options of the wrong dimension for its last core (refuted theorems)."
  },
  {
   "property": "C08",
   "status": "partial",
   "theorems": [
    "C08_gradient",
    "C08_partial_derivative",
    "C08_jacobian",
    "C08_hessian",
    "C08_hessian_diag",
    "C08_gradient_eval",
    "C08_gradient_eval_dim1_is_zero",
    "C08_gradient_eval_dim1_refuted"
   ],
   "note": "Gradient, Jacobian, Hessian and Hessian-diagonal trains proved for all dimensions; over the reals the formula is shown to be the partial derivative. function_train_gradient_eval proved for every dimension >= 2; in dimension one it always returns 0 (refuted theorem)."
  },
  {
   "property": "C09",
   "status": "partial",
   "theorems": [
    "C09_function_train",
    "C09_ft_array",
    "C09_qmarray",
    "C09_quasimatrix",
    "C09_generic_function",
    "C09_files",
    "C09_array_files",
    "C09_short_file",
    "C09_fourier_refuted",
    "C09_no_branches_refuted",
    "C09_nonfinite_refuted"
   ],
   "note": "Proved for all trains and arrays of trains built from polynomials, piecewise polynomials of any depth, linear, constant and kernel expansions, and for Fourier expansions with finite, non-negative-zero imaginary parts; other Fourier coefficients and piecewise nodes without branches are refuted. Spare capacity of the in-memory arrays is not written, so equality is up to that capacity (C09_function_train_exact: equality when there is none). Polynomials of the undecodable type STANDARD are excluded."
  },
  {
   "property": "C10",
   "status": "proved",
   "theorems": [
    "C10_get",
    "C10_count",
    "C10_update_get",
    "C10_get_update",
    "C10_rejects_nan",
    "C10_determined",
    "C10_core",
    "C10_core_wrong_count",
    "C10_uni",
    "C10_uni_wrong_count",
    "C10_core_get",
    "C10_poly_resize"
   ],
   "note": "For all classes of univariate functions, all block sizes and all parameter vectors without NaN or infinity (a NaN or infinity ends the program, C10_rejects_nan, as generic_function_update_params does). C10_get gives the order explicitly, C10_get_update and C10_update_get both round trips; C10_core, C10_uni and their wrong-count versions cover the updates of one core or one function. The parameter routines of piecewise polynomials only print 'not implemented' in the code, so such functions count as having no parameters, and the model reproduces this."
  },
  {
   "property": "C11",
   "status": "partial",
   "theorems": [
    "C11_co_perturb",
    "C11_co_perturb_ind",
    "C11_eval_ind",
    "C11_fiber",
    "C11_dim1_refuted"
   ],
   "note": "co_perturb and co_perturb_ind proved for every dimension >= 2, including reuse of the cached arrays; in dimension one they read out of bounds (refuted theorem). eval_ind and eval_fiber_ind proved for every dimension and position."
  },
  {
   "property": "C12",
   "status": "partial",
   "theorems": [
    "C12_kron",
    "C12_kron_col",
    "C12_vec_kron_partial",
    "C12_vec_kron_refuted"
   ],
   "note": "kron and kron_col proved for all shapes, leading dimensions and offsets, with frame condition; vec_kron proved for equal column counts only: for different column counts it never works (C12_vec_kron_refuted)."
  },
  {
   "property": "C13",
   "status": "partial",
   "theorems": [
    "C13_plain_product",
    "C13_left_transposed_product",
    "C13_right_transposed_product",
    "C13_both_transposed_one_column_partial",
    "C13_both_transposed_square_is_transposed",
    "C13_both_transposed_rectangular_refuted",
    "C13_both_transposed_square_refuted",
    "C13_vec_kron_order_swapped",
    "C13_vec_kron_rectangular_refuted"
   ],
   "note": "qmaqma, qmatqma and qmaqmat proved for all compatible shapes; the claim for qmatqmat and qmarray_vec_kron is false of the code: square results come out transposed, all other shapes with at least two columns write out of bounds or leave entries unset (refuted theorems); only one-column arguments are right."
  },
  {
   "property": "C14",
   "status": "partial",
   "theorems": [
    "C14_ttadd",
    "C14_ttmult",
    "C14_ttscal",
    "C14_elements_partial",
    "C14_tt_dot_partial",
    "C14_tt_dot_refuted"
   ],
   "note": "ttadd, ttmult, ttscal proved for all trains; through ttelem only where ttelem is right; tt_dot proved when the interior ranks from the third on agree, refuted otherwise."
  },
  {
   "property": "C15",
   "status": "partial",
   "theorems": [
    "C15_ttelem_partial",
    "C15_ttelem_refuted"
   ],
   "note": "Proved for all trains of dimension >= 2 whose interior mode sizes equal the second mode size; false of the code otherwise and in dimension one (refuted theorem)."
  },
  {
   "property": "C16",
   "status": "partial",
   "theorems": [
    "C16_copy",
    "C16_transpose_partial",
    "C16_transpose_data",
    "C16_transpose_refuted",
    "C16_elem"
   ],
   "note": "Copy and element access proved; the transposed copy has the right data but the size vector of the original, so the claim holds for equal outer sizes only (refuted theorem)."
  },
  {
   "property": "C17",
   "status": "proved",
   "theorems": [
    "C17_fft",
    "C17_fft_refuses"
   ],
   "note": "Powers of two below 2^64, unit strides (others are refused by an assertion); every cell outside the first N stays as it was."
  },
  {
   "property": "C18",
   "status": "proved",
   "theorems": [
    "C18_ifft_fft",
    "C18_ifft",
    "C18_ifft_refuses"
   ],
   "note": "Also the inverse transform of an arbitrary input."
  },
  {
   "property": "C19",
   "status": "proved",
   "theorems": [
    "C19_cheb_interpolates",
    "C19_cheb_refuses"
   ],
   "note": "Values at cos(pi j/n), coefficients stored highest degree first."
  },
  {
   "property": "C20",
   "status": "partial",
   "theorems": [
    "C20_trap",
    "C20_simpson_odd",
    "C20_simpson_even_partial",
    "C20_simpson_two_refuted"
   ],
   "note": "Trapezoid for all N >= 2, Simpson for all odd N >= 3 (cubics) and even N >= 4 (affine); N = 2 is refuted for every step."
  },
  {
   "property": "C21",
   "status": "partial",
   "theorems": [
    "C21_no_table",
    "C21_by_text",
    "C21_transparent_partial",
    "C21_refuted",
    "C21_zero_refuted",
    "C21_not_finite",
    "C21_dim0_refuted",
    "C21_text_empty_refuted"
   ],
   "note": "Proved for points with at most 49 significant bits per coordinate, values compared up to the sign of zero. Refuted in general: the text key keeps 15 digits, and neighbouring doubles share a table entry; a recalled -0.0 is 0.0. C21_by_text says exactly what the monitor computes for arbitrary points."
  },
  {
   "property": "C22",
   "status": "proved",
   "theorems": [
    "C22_roundtrip",
    "C22_negative_zero",
    "C22_not_finite",
    "C22_injective",
    "C22_array"
   ],
   "note": "All finite doubles, in the executable IEEE-754 specification of the standard library; also the array variant. Infinities and NaNs, outside the claim, are undefined (C22_not_finite)."
  },
  {
   "property": "C23",
   "status": "proved",
   "theorems": [
    "C23_codecs",
    "C23_darray_file",
    "C23_load_short"
   ],
   "note": ""
  },
  {
   "property": "C24",
   "status": "partial",
   "theorems": [
    "C24_strip_blank_ends",
    "C24_strip_blank_ends_refuted",
    "C24_strip_blank_ends_exact_block_refuted",
    "C24_strip_ends",
    "C24_strip_ends_refuted",
    "C24_strip_ends_diverges_refuted",
    "C24_strip_ends_empty_refuted",
    "C24_bite_string",
    "C24_bite_string_absent",
    "C24_parse_string",
    "C24_concat_string",
    "C24_bite_string2",
    "C24_bite_string2_refuted"
   ],
   "note": "Every routine proved under the stated conditions on its block; strip_blank_ends on blank strings, strip_ends without anything to strip on the right, and bite_string2 are false of the code (refuted theorems)."
  },
  {
   "property": "C25",
   "status": "proved",
   "theorems": [
    "C25_eval",
    "C25_eval_node",
    "C25_eval_near"
   ],
   "note": "All tolerances; the error of snapped points is bounded explicitly."
  },
  {
   "property": "C26",
   "status": "proved",
   "theorems": [
    "C26_axpy",
    "C26_axpy_eval",
    "C26_axpy_bounds_refuted"
   ],
   "note": "Equal and different grids over the same interval; for different intervals the claim does not hold (C26_axpy_bounds_refuted)."
  },
  {
   "property": "C27",
   "status": "partial",
   "theorems": [
    "C27_integrate",
    "C27_inner",
    "C27_inner_sym",
    "C27_inner_bilinear",
    "C27_inner_error",
    "C27_inner_exact_refuted",
    "C27_inner_abort_refuted"
   ],
   "note": "Integration exact; inner product symmetric, bilinear on a common grid, with its exact error; equality with the integral of the product and absence of aborts are false of the code (refuted theorems)."
  },
  {
   "property": "C28",
   "status": "partial",
   "theorems": [
    "C28_const_zeroed",
    "C28_const_refuted",
    "C28_lin_grad2",
    "C28_lin_grad",
    "C28_lin_outside_refuted"
   ],
   "note": "Linear elements: proved inside the range, refuted outside; constant elements: proved for zeroed buffers, for other buffers one entry is stale and the returned value is the node position (C28_const_refuted)."
  },
  {
   "property": "C29",
   "status": "proved",
   "theorems": [
    "C29_adapt",
    "C29_adapt_nodes",
    "C29_adapt_needs_hmin"
   ],
   "note": "Termination needs the positive minimum spacing; without it the recursion diverges (C29_adapt_needs_hmin)."
  },
  {
   "property": "C30",
   "status": "partial",
   "theorems": [
    "C30_eval",
    "C30_integrate",
    "C30_inner",
    "C30_axpy",
    "C30_prod",
    "C30_max",
    "C30_min",
    "C30_axpy_grid_refuted",
    "C30_inner_grid_refuted",
    "C30_prod_grid_refuted",
    "C30_inner_disjoint_refuted",
    "C30_axpy_nodes_partial"
   ],
   "note": "Everything proved on equal grids; on different grids the sum and the inner product are wrong, the product aborts and the inner product over disjoint ranges is undefined (refuted theorems)."
  },
  {
   "property": "C31",
   "status": "proved",
   "theorems": [
    "C31_lin_comb_value",
    "C31_lin_comb2_value",
    "C31_lin_comb2_integral"
   ],
   "note": "All n >= 1, with and without strides, both the polynomial and the alternating branch, for evaluation and integration."
  },
  {
   "property": "C32",
   "status": "partial",
   "theorems": [
    "C32_create_nested",
    "C32_create_nested_zero_refuted",
    "C32_create_nested_ind",
    "C32_merge_wspace",
    "C32_merge_wspace_ends",
    "C32_merge_partial",
    "C32_merge_refuted",
    "C32_copy",
    "C32_copylast",
    "C32_array_initialize_forward",
    "C32_array_initialize_reverse",
    "C32_array_initialize_dim_one_refuted",
    "C32_array_initialize_null"
   ],
   "note": "All three nesting methods, copying, merging with space and initialisation proved for all sets; cross_index_merge is refuted, as are the empty request with method 1 and forward initialisation in dimension one."
  },
  {
   "property": "C33",
   "status": "partial",
   "theorems": [
    "C33_eval_on_fiber",
    "C33_eval_on_fiber_point",
    "C33_eval_plain",
    "C33_stale_fiber_refuted",
    "C33_which_eval_range_refuted",
    "C33_setters"
   ],
   "note": "Proved for all call sequences in which the fiber in use was selected after the last initialisation (or never); a selection that survives re-initialisation is refuted, as is the unchecked function number."
  },
  {
   "property": "C34",
   "status": "proved",
   "theorems": [
    "C34_truncated_svd",
    "C34_truncated_svd_zero"
   ],
   "note": "Real arithmetic; LAPACK's dgesdd is a parameter: the theorem holds for every result of it that is a singular value decomposition. The first version of this statement spoke of the root of the sum of squares; the documentation of the routine (sum(s^2) <= delta) and the code use the sum itself, so the statement was corrected. C34_truncated_svd_zero: with delta <= 0 nothing is discarded."
  },
  {
   "property": "C35",
   "status": "proved",
   "theorems": [
    "C35_qr_gs",
    "C35_lq_gs"
   ],
   "note": "Real arithmetic. The routine returns exactly when every combination of columns with last coefficient 1 is longer than ZERO, and aborts otherwise; entries of R below the diagonal keep the caller's (calloc'd) content. Also for rows (qmarray_lq_gs)."
  },
  {
   "property": "C36",
   "status": "partial",
   "theorems": [
    "C36_householder_qr_partial",
    "C36_householder_lq_partial",
    "C36_householder_qr_refuted"
   ],
   "note": "Real arithmetic, every class except PIECEWISE (qmarray_householder_simple without the separate piecewise path). Q is always orthonormal, R upper triangular with non-negative diagonal, and the product is exact in each column whose pivot is 0 or at least 2 ZERO; in every column the error has norm at most min(2 R_jj, 4 ZERO). Exactness for all A is false of the code: C36_householder_qr_refuted (a column shorter than ZERO along the starting function changes sign)."
  },
  {
   "property": "C37",
   "status": "proved",
   "theorems": [
    "C37_lu1d_any",
    "C37_lu1d"
   ],
   "note": "Real arithmetic; the univariate functions enter through stated laws (evaluation is linear, scaling scales, the substitutes made for vanishing columns are zero where asked, absmax is a maximum). C37_lu1d: with independent columns the call returns 0 and A = L U. C37_lu1d_any: for every input, A = L U + remainder with L as stated, and the meaning of the return value; U upper triangular and remainder zero if no pivot is small. The only other outcome is the assertion in create_any_L."
  },
  {
   "property": "C38",
   "status": "partial",
   "theorems": [
    "C38_rankadapt_partial",
    "C38_start_above_limit_refuted",
    "C38_kick0_refuted",
    "C38_overflow_refuted",
    "C38_rankadapt_library"
   ],
   "note": "C38_rankadapt_partial: for every start rank, limit and positive kick rank without overflow, and every behaviour of cross approximation and rounding that obeys the stated laws (rounding never increases ranks), ranks only grow, never above max(start rank, limit), at most sum of (limit - rank) rounds are run, and at the end every rank was reduced by the rounding or is at its limit. Without the guards the claim is false: C38_start_above_limit_refuted, C38_kick0_refuted (never ends), C38_overflow_refuted (a huge kick rank decreases a rank). C38_rankadapt_library instantiates the laws with the modelled cross approximation, factorisations, pivot search, pseudoinverse, rounding and index sets (two or more variables)."
  },
  {
   "property": "C39",
   "status": "partial",
   "theorems": [
    "C39_linspace",
    "C39_linspace_one_refuted",
    "C39_linspace_zero_refuted",
    "C39_arange_up",
    "C39_arange_down",
    "C39_arange_empty_refuted"
   ],
   "note": "linspace proved for N >= 2, arange for all steps of the right sign, over exact rationals; linspace with one or no point and arange with a stop before the start are refuted. logspace not modelled."
  },
  {
   "property": "C40",
   "status": "partial",
   "theorems": [
    "C40_horizcat",
    "C40_horizcat_rows_refuted",
    "C40_block_diag",
    "C40_diagv2m",
    "C40_v2m",
    "C40_mat_ones",
    "C40_dconcat_cols"
   ],
   "note": "Proved for all shapes with equal row counts (horizcat) and all lists of blocks; horizcat with too few rows on the right is refuted."
  },
  {
   "property": "C41",
   "status": "partial",
   "theorems": [
    "C41_eval2_values",
    "C41_eval2_overflow_refuted"
   ],
   "note": "Values proved for at most 1000 functions or a non-polynomial among the first 1000; overflow proved for more than 1000 polynomials."
  },
  {
   "property": "C43",
   "status": "proved",
   "theorems": [
    "C43_tt_integrate"
   ],
   "note": "All dimensions, mode sizes, ranks and weights."
  },
  {
   "property": "C44",
   "status": "partial",
   "theorems": [
    "C44_copy",
    "C44_ones",
    "C44_tt_x_partial",
    "C44_tt_x_refuted"
   ],
   "note": "copy_tt and tt_ones proved; tt_x has the right ranks and data but sizes in the wrong order (C44_tt_x_partial), so the claim for tt_x is false of the code (refuted theorem)."
  },
  {
   "property": "C45",
   "status": "partial",
   "theorems": [
    "C45_first_core",
    "C45_includes_core_refuted",
    "C45_later_cores_partial"
   ],
   "note": "Holds for core 0 only; refuted for later cores, where the result is the product of the cores before the named one (C45_later_cores_partial)."
  },
  {
   "property": "C46",
   "status": "proved",
   "theorems": [
    "C46_itoa"
   ],
   "note": "All values representable without overflow, all bases 2..36."
  },
  {
   "property": "C47",
   "status": "partial",
   "theorems": [
    "C47_readtxt_partial",
    "C47_readtxt_refuted"
   ],
   "note": "Proved for texts without tabs; tabs and empty texts are refuted."
  },
  {
   "property": "C48",
   "status": "proved",
   "theorems": [
    "C48_prod_same",
    "C48_prod_diff"
   ],
   "note": "Both branches."
  },
  {
   "property": "C49",
   "status": "proved",
   "theorems": [
    "C49_deriv",
    "C49_deriv_out",
    "C49_deriv_node"
   ],
   "note": "At nodes the code returns a difference quotient of the neighbours (C49_deriv_node), which is not part of the claim."
  },
  {
   "property": "C50",
   "status": "proved",
   "theorems": [
    "C50_max",
    "C50_min",
    "C50_absmax",
    "C50_scale",
    "C50_absmax_opt"
   ],
   "note": ""
  },
  {
   "property": "C51",
   "status": "partial",
   "theorems": [
    "C51_sqnorm_grad_refuted",
    "C51_sqnorm_grad_linear"
   ],
   "note": "False of the code (refuted theorem): the gradient written for the zero function, the minimiser, is not zero. C51_sqnorm_grad_linear: what is added is scale times a vector depending on the function only."
  },
  {
   "property": "C52",
   "status": "partial",
   "theorems": [
    "C52_orth_basis",
    "C52_orth_basis_refuted"
   ],
   "note": "Proved for at most as many functions as nodes; refuted for more."
  },
  {
   "property": "C53",
   "status": "partial",
   "theorems": [
    "C53_deriv_refuted",
    "C53_deriv_partial"
   ],
   "note": "Right at all nodes but the last (C53_deriv_partial); there the quotient uses an overwritten value (refuted theorem)."
  },
  {
   "property": "C54",
   "status": "proved",
   "theorems": [
    "C54_clenshaw_curtis",
    "C54_rescaled"
   ],
   "note": ""
  },
  {
   "property": "C55",
   "status": "proved",
   "theorems": [
    "C55_cheb_gauss"
   ],
   "note": ""
  },
  {
   "property": "C56",
   "status": "partial",
   "theorems": [
    "C56_fejer2_partial",
    "C56_fejer2_refuted"
   ],
   "note": "False of the code for every N > 2: the inner Clenshaw-Curtis weights are used unchanged (C56_fejer2_refuted); the nodes are right."
  },
  {
   "property": "C57",
   "status": "proved",
   "theorems": [
    "C57_linear",
    "C57_constant",
    "C57_const_constant",
    "C57_const_approx",
    "C57_flip_sign"
   ],
   "note": "For the affine function the value at points within the tolerance of a node is that of the node; the error is bounded by |a| tol."
  },
  {
   "property": "C58",
   "status": "proved",
   "theorems": [
    "C58_evalN",
    "C58_const_evalN"
   ],
   "note": ""
  },
  {
   "property": "C59",
   "status": "partial",
   "theorems": [
    "C59_onezero_fixed",
    "C59_onezero_adapt",
    "C59_onezero_none_refuted",
    "C59_onezero_lower_refuted",
    "C59_onezero_unsorted_refuted"
   ],
   "note": "Fixed nodes proved; adaptive mode proved for increasing zeros, except when the lower end is a zero, the upper end is not and there are other zeros; that case, unsorted zeros and the empty set of zeros are refuted."
  },
  {
   "property": "C60",
   "status": "partial",
   "theorems": [
    "C60_err_est_partial",
    "C60_err_est_refuted"
   ],
   "note": "Proved when the cells from the third on have width one (in particular for three nodes); refuted otherwise: a slope is not divided by the cell width."
  },
  {
   "property": "C61",
   "status": "proved",
   "theorems": [
    "C61_table",
    "C61_hash"
   ],
   "note": ""
  },
  {
   "property": "C62",
   "status": "proved",
   "theorems": [
    "C62_fft_slow",
    "C62_ifft_slow",
    "C62_inverse",
    "C62_fft_base"
   ],
   "note": "Over the complex numbers (pairs of reals)."
  },
  {
   "property": "C63",
   "status": "partial",
   "theorems": [
    "C63_gradeval_linear",
    "C63_dim1_scaled",
    "C63_gradeval",
    "C63_dim1_refuted"
   ],
   "note": "Proved in two and more dimensions: as a derivative over the reals for arbitrary differentiable dependence on the parameters (C63_gradeval) and exactly over every commutative ring for linear dependence (C63_gradeval_linear). In one dimension the statement is false: every entry is multiplied by the value of the function (C63_dim1_scaled, C63_dim1_refuted)."
  },
  {
   "property": "C64",
   "status": "partial",
   "theorems": [
    "C64_gradeval_lin",
    "C64_eval_lin"
   ],
   "note": "Evaluation proved in every dimension, the gradient in two and more dimensions; in one dimension ft_param_gradeval_lin has the defect of C63_dim1_refuted (the same loops)."
  },
  {
   "property": "C67",
   "status": "partial",
   "theorems": [
    "C67_alloc",
    "C67_alloc_null",
    "C67_update_structure",
    "C67_copy",
    "C67_update",
    "C67_update_rejects_nan",
    "C67_self_update",
    "C67_update_core",
    "C67_get_params",
    "C67_get_param",
    "C67_count_restricted",
    "C67_update_restricted",
    "C67_update_inside",
    "C67_restricted_refuted",
    "C67_inside_last",
    "C67_alloc_with_ft",
    "C67_alloc_with_ft_refuses",
    "C67_create_constant",
    "C67_alloc_nodes_refuted",
    "C67_alloc_null_refuted",
    "C67_copy_refuted",
    "C67_get_params_none"
   ],
   "note": "Proved for options whose parameter count is that of the functions made from them, with zero parameters for kernels when allocating without parameters (C67_alloc, C67_alloc_null), for copies of trains made from such options (C67_copy), and for rank restrictions with one entry per core. Refuted otherwise: nodal options without nodes (C67_alloc_nodes_refuted), kernels with adaptive centers and no parameters (C67_alloc_null_refuted), copies after alloc_with_ft (C67_copy_refuted), restrictions with one entry fewer, as documented (C67_restricted_refuted). C67_alloc_with_ft_refuses: alloc_with_ft ends the program when it would have to shorten a function or extend one that is not a polynomial. C67_inside_last: with the last entry 0 that the regression code passes, the last core is never updated."
  },
  {
   "property": "C69",
   "status": "partial",
   "theorems": [
    "C69_round_exact",
    "C69_round_partial",
    "C69_round_maxrank_partial",
    "C69_round_zero",
    "C69_orthor_partial",
    "C69_round_refuted",
    "C69_round_dim1"
   ],
   "note": "Real arithmetic. Proved for every exact factorisation (C69_round_exact) and for the Householder factorisations of the code whenever every pivot met is 0 or at least 2 ZERO (C69_round_partial, C69_round_maxrank_partial, C69_orthor_partial; outside this the factorisation itself is inexact, C36): shape, ranks, orthonormality, projection, and |f-g|^2 <= sqrt(d-1) eps |f|. The claimed relative error |f-g| <= eps |f| is false of the code: C69_round_refuted, because the tolerance of a norm is handed to truncated_svd, which compares it with a sum of squares (error six times the tolerance). C69_round_dim1: a train in one variable is never rounded, the code reads the core after the last one. C69_round_zero: below the threshold the result is the constant 0. The piecewise class takes another QR path that is not modelled."
  },
  {
   "property": "C70",
   "status": "partial",
   "theorems": [
    "C70_pinv",
    "C70_pinv_zero_cutoff_refuted"
   ],
   "note": "Real arithmetic; LAPACK's dgesdd is a parameter (any singular value decomposition). Proved for every positive cutoff. With a cutoff of 0 (probability.c:1200) a zero singular value is divided by (C70_pinv_zero_cutoff_refuted)."
  },
  {
   "property": "C71",
   "status": "partial",
   "theorems": [
    "C71_maxvol1d",
    "C71_maxvol1d_stale_inverse_refuted",
    "C71_remove_duplicates_refuted"
   ],
   "note": "Real arithmetic. C71_maxvol1d: pivots in range, pairwise different, and the matrix returned is the (pseudo)inverse at the pivots returned, for two or more columns with any search for maxima that stays in the domain, and for one column with an exact search. With one column and an inexact search the inverse can belong to other pivots (C71_maxvol1d_stale_inverse_refuted: the pivots are overwritten after the loop but the inverse is only recomputed for two or more columns). Moving pivots apart need not end (C71_remove_duplicates_refuted), so termination is not claimed."
  },
  {
   "property": "C72",
   "status": "proved",
   "theorems": [
    "C72_cross_interpolates"
   ],
   "note": "Real arithmetic. Univariate approximation, factorisations and pivot search enter through laws (parts_ok); PropCross2 proves the laws for the modelled Gram-Schmidt factorisations, maximum volume search, pseudoinverse and distance. 'May not end' (F) covers the pivot search that need not terminate (C71) and maxiter 0."
  },
  {
   "property": "C73",
   "status": "proved",
   "theorems": [
    "C73_cross_exact",
    "C73_cross_exact_library",
    "C73_multilinear"
   ],
   "note": "C73_cross_exact for every part obeying the laws, C73_cross_exact_library for the modelled parts of the library, C73_multilinear for all multilinear functions on the unit box with ranks up to 2, C73_example a run of the model. Full rank of every pivot matrix in the last sweep is a condition on the run (cs_full)."
  },
  {
   "property": "C74",
   "status": "partial",
   "theorems": [
    "C74_norm2diff_partial",
    "C74_relnorm2diff_partial",
    "C74_dimension_one_refuted"
   ],
   "note": "Real arithmetic; proved for two or more variables (C74_norm2diff_partial, C74_relnorm2diff_partial) over any space of functions with a bilinear symmetric inner product. In one variable function_train_sum drops its second argument, so norm2diff(a,b) is the norm of a (C74_dimension_one_refuted)."
  },
  {
   "property": "C75",
   "status": "partial",
   "theorems": [
    "C75_legendre_family",
    "C75_chebyshev_family",
    "C75_hermite_family",
    "C75_domain",
    "C75_hermite_domain",
    "C75_eval",
    "C75_eval_kristoffel",
    "C75_evalN",
    "C75_arr_eval",
    "C75_arr_eval_refuted",
    "C75_deriv_eval",
    "C75_cheb_dderiv_eval",
    "C75_cheb_dderiv_eval_refuted",
    "C75_param_grad",
    "C75_param_grad2",
    "C75_param_grad2_refuted",
    "C75_orth_poly_eval_partial",
    "C75_orth_poly_eval_refuted"
   ],
   "note": "Real arithmetic. Proved for the families (orthogonality and norms by integration, Hermite through the Gaussian mean functional on polynomials), domain maps, eval, evalN, derivative and coefficient gradient. False in corner cases, each with a witness: C75_arr_eval_refuted, C75_cheb_dderiv_eval_refuted, C75_param_grad2_refuted (Kristoffel weight), C75_orth_poly_eval_refuted (order 3 and up)."
  },
  {
   "property": "C76",
   "status": "partial",
   "theorems": [
    "C76_function",
    "C76_round",
    "C76_flip_sign",
    "C76_scale",
    "C76_axpy",
    "C76_axpy_rejects",
    "C76_daxpby",
    "C76_daxpby_one",
    "C76_lin_comb_partial",
    "C76_lin_comb_kristoffel_refuted",
    "C76_sum3_up_partial",
    "C76_sum3_up_refuted",
    "C76_sum3_up_realloc_refuted",
    "C76_sum3_up_size_refuted",
    "C76_roundt_refuted",
    "C76_roundt_keeps_one",
    "C76_lin_comb_mixed",
    "C76_empty_refuted"
   ],
   "note": "Real arithmetic. Proved: C76_round, C76_flip_sign, C76_scale, C76_axpy (with rejection), C76_daxpby; lin_comb without the Kristoffel setting and sum3_up in the branches named. False otherwise, with witnesses: lin_comb loses the Kristoffel setting; sum3_up multiplies by c twice when x is shorter than y, uses a block after realloc, and records a wrong block size so that padding writes past the end; roundt keeps the constant only."
  },
  {
   "property": "C77",
   "status": "partial",
   "theorems": [
    "C77_integrate",
    "C77_integrate_hermite",
    "C77_integrate_weighted",
    "C77_inner_w",
    "C77_inner_w_rejects",
    "C77_inner_legendre",
    "C77_inner_hermite",
    "C77_norm_legendre",
    "C77_norm_w_refuted",
    "C77_param_grad_inner_partial",
    "C77_param_grad_inner_refuted",
    "C77_sqnorm_param_grad_partial",
    "C77_sqnorm_param_grad_refuted",
    "C77_sqnorm_param_grad_hermite",
    "C77_sqnorm_param_grad_chebyshev",
    "C77_norm_w"
   ],
   "note": "Real arithmetic. Proved: integrate and integrate_weighted for all three families, inner_w for all three, inner for Legendre and Hermite, norm for Legendre, param_grad_inner with respect to the weighted inner product for Legendre and Hermite, squared_norm_param_grad for Legendre. Refuted: norm_w takes the square root twice, param_grad_inner omits the length of the domain, squared_norm_param_grad for Chebyshev ignores the coefficients. Inner products of Chebyshev expansions go through products and quadrature and are not covered here."
  },
  {
   "property": "C81",
   "status": "proved",
   "theorems": [
    "C81_alloc",
    "C81_set_rank",
    "C81_set_maxrank_all",
    "C81_set_maxrank_ind",
    "C81_setters",
    "C81_copy"
   ],
   "note": "Sums of ranks are modulo the size of size_t. set_rank does not check its index: beyond the last rank it is undefined behaviour (second half of C81_set_rank)."
  },
  {
   "property": "C78",
   "status": "partial",
   "theorems": [
    "C78_deriv_legendre",
    "C78_deriv_chebyshev",
    "C78_deriv_hermite_partial",
    "C78_deriv_exact",
    "C78_dderiv_chebyshev",
    "C78_dderiv_legendre",
    "C78_dderiv_refuted"
   ],
   "note": "Real arithmetic. Proved: first derivatives for Legendre and (with the modelled Gauss-Chebyshev rule) Chebyshev; Hermite for any rule exact up to degree 2n-1 (the eigenvalue routine behind Gauss-Hermite is not modelled). Exact values when no coefficient is small (C78_deriv_exact). Second derivatives: Legendre as two derivatives in sequence; Chebyshev unless three coefficients are left on a domain whose length is not two, where the result is wrong (C78_dderiv_refuted: x^2 on [0,1] gives 1/2)."
  },
  {
   "property": "C79",
   "status": "partial",
   "theorems": [
    "C79_project",
    "C79_project_chebyshev",
    "C79_project_partial",
    "C79_project_again_refuted",
    "C79_product_exact",
    "C79_product_chebyshev",
    "C79_product_small_refuted",
    "C79_product_legendre",
    "C79_table",
    "C79_product_long_partial",
    "C79_product_hermite",
    "C79_product_hermite_refuted",
    "C79_inner_chebyshev",
    "C79_product_small",
    "C79_inner_mixed",
    "C79_inner_rejects"
   ],
   "note": "Real arithmetic. Proved for Chebyshev with the modelled Gauss-Chebyshev rule; Legendre and Hermite products below fifty coefficients for the table of product coefficients that the build generates (its defining law is the hypothesis tab_ok; C79_table shows that such tables exist); inner products of a Legendre with a Chebyshev expansion; rejection of other mixtures; longer Legendre products and projections for rules exact up to degree 2n-1. False in corner cases, with witnesses: a second projection into the same expansion adds to the first; a Chebyshev factor with small coefficients makes the product zero however large the other is (C79_product_small says exactly when); Hermite products by the table drop mean and standard deviation."
  },
  {
   "property": "C80",
   "status": "partial",
   "theorems": [
    "C80_update_params",
    "C80_create_with_params",
    "C80_get_params",
    "C80_pad",
    "C80_pad_fewer_refuted",
    "C80_copy",
    "C80_zero",
    "C80_constant",
    "C80_constant_rejects",
    "C80_linear",
    "C80_linear_update",
    "C80_linear_update_refuted",
    "C80_quadratic_chebyshev",
    "C80_quadratic_partial",
    "C80_genorder_legendre",
    "C80_genorder_hermite",
    "C80_genorder_hermite_refuted"
   ],
   "note": "Real arithmetic. Proved, with constants below the threshold becoming zero; the quadratic for Chebyshev with the modelled rule, for the others for rules exact up to degree five (C80_quadratic_partial); genorder for Legendre and for Hermite with standard deviation one. Refuted: padding to fewer parameters cuts the function off; linear_update of a constant drops the slope; genorder for Hermite with another standard deviation does not have norm one. Not stated: genorder for Chebyshev (orthonormal for the weight)."
  },
  {
   "property": "C65",
   "status": "partial",
   "theorems": [
    "C65_linear",
    "C65_descent",
    "C65_real",
    "C65_stochastic_refuted",
    "C65_dim1_refuted"
   ],
   "note": "Proved in two or more dimensions (C65_linear over every ring, C65_real over the reals with derivatives, C65_descent: no increase over the whole run). Two clauses are refuted: with core functions that are not linear in their parameters a gradient of a single sample uses the stored products of sample 0 (C65_stochastic_refuted), and in one dimension the sweep reads outside the arrays (C65_dim1_refuted)."
  },
  {
   "property": "C66",
   "status": "partial",
   "theorems": [
    "C66_hessvec",
    "C66_value_zero",
    "C66_value_refuted",
    "C66_overflow_refuted",
    "C66_nonlinear_refuted"
   ],
   "note": "Proved for functions that are linear in their parameters (as the polynomial, piecewise linear and constant element families are), whatever the ranks and the numbers of parameters, also in one dimension: C66_hessvec. The second derivatives are specified through the values of the train after setting parameters: the mixed second difference is s*t*H(m,n) for all s, t. False as stated: the returned value is always 0 (C66_value_zero, C66_value_refuted); for functions that are not linear in their parameters the diagonal blocks are left out (C66_nonlinear_refuted); if the train has more functions than parameters the array of values is overrun (C66_overflow_refuted)."
  },
  {
   "property": "C82",
   "status": "partial",
   "theorems": [
    "C82_line_search",
    "C82_rejects",
    "C82_succeeds",
    "C82_decrease_refuted",
    "C82_beta_refuted"
   ],
   "note": "C82_line_search, C82_rejects and C82_succeeds hold for all inputs. Two parts of the statement are false: code 0 is also returned when the trial came closer to x than the tolerance, and the value may then be larger than at the start (C82_decrease_refuted); beta outside of (0,1) is never rejected, as the test joins the two comparisons by 'and' (C82_beta_refuted)."
  },
  {
   "property": "C83",
   "status": "partial",
   "theorems": [
    "C83_weak_wolfe",
    "C83_ascent",
    "C83_rejects",
    "C83_no_iteration_refuted",
    "C83_step_refuted"
   ],
   "note": "C83_weak_wolfe (iteration limit at least 2), C83_ascent and C83_rejects hold for all inputs. With a limit of 0 code 0 is returned and the buffers are left as they were (C83_no_iteration_refuted); with code 1 the returned step is that of the next trial, not of the reported point (C83_step_refuted)."
  },
  {
   "property": "C84",
   "status": "partial",
   "theorems": [
    "C84_strong_wolfe",
    "C84_abort",
    "C84_abort_refuted",
    "C84_nothing_found",
    "C84_decrease_refuted"
   ],
   "note": "C84_strong_wolfe gives the exact alternatives for all inputs (including that the unbounded inner loop ends). The statement is false in two ways: a first trial that decreases the objective, but not enough, stops the program by an assertion that contradicts the test around it (C84_abort, C84_abort_refuted); when the inner loop finds no step, code 0 and the step before it are returned together with the data of the last trial, where the value may be larger than at the start (C84_nothing_found, C84_decrease_refuted)."
  },
  {
   "property": "C85",
   "status": "partial",
   "theorems": [
    "C85_gradient",
    "C85_descent",
    "C85_monotone_refuted"
   ],
   "note": "C85_gradient holds for all inputs with the backtracking and (limit at least 2) the weak Wolfe line search. C85_descent proves the last sentence when backtracking can succeed within its iterations from every point of the box and the tolerance is not positive; without that the method can end at a larger value (C85_monotone_refuted). The strong Wolfe variant is not covered, as its line search may stop the program (C84)."
  },
  {
   "property": "C86",
   "status": "proved",
   "theorems": [
    "C86_brute"
   ],
   "note": "C86_brute. The case of zero locations, where the code still reads the first one, is excluded."
  },
  {
   "property": "C87",
   "status": "partial",
   "theorems": [
    "C87_bfgs_update",
    "C87_secant",
    "C87_descent_refuted"
   ],
   "note": "Real arithmetic. C87_bfgs_update and C87_secant hold for all inputs. The last sentence is false: s'y may be negative, and the update is made all the same, so a positive definite matrix can give a direction of ascent (C87_descent_refuted); it holds for positive s'y (bfgs_posdef) and for convex objectives (C89_convex)."
  },
  {
   "property": "C88",
   "status": "partial",
   "theorems": [
    "C88_list",
    "C88_product",
    "C88_descent",
    "C88_one_refuted"
   ],
   "note": "Real arithmetic. C88_list, C88_product and C88_descent hold for every m of at least 2. With m = 1 the second insertion and with m = 0 the first one follows a null pointer (C88_one_refuted)."
  },
  {
   "property": "C89",
   "status": "proved",
   "theorems": [
    "C89_bfgs",
    "C89_convex"
   ],
   "note": "Real arithmetic; C89_bfgs and C89_convex, with an iteration limit of at least 2 for the weak Wolfe search. The strong Wolfe variant is not covered (it can stop the program, C84)."
  },
  {
   "property": "C90",
   "status": "partial",
   "theorems": [
    "C90_lbfgs",
    "C90_convex",
    "C90_no_room_refuted"
   ],
   "note": "Real arithmetic. C90_lbfgs for m of at least 2: either the statement holds, or an assertion fails, only with the weak Wolfe search and only when a direction is one of ascent; for strictly convex objectives it never fails (C90_convex). With m = 0 the first step follows a null pointer, from every start (C90_no_room_refuted); m = 1 fails at the second step (C88_one_refuted). Where two successive points coincide the code divides zero by zero; over the reals the term is zero."
  },
  {
   "property": "C91",
   "status": "partial",
   "theorems": [
    "C91_shuffle",
    "C91_all_orders",
    "C91_sgd",
    "C91_closer",
    "C91_validation_refuted",
    "C91_none_held",
    "C91_bias_refuted"
   ],
   "note": "Real arithmetic, given sequence of random numbers. C91_shuffle, C91_all_orders, C91_sgd and C91_closer. Two claims are false: the samples held out are drawn anew in each epoch, so that they do influence the result (C91_validation_refuted; with two to five samples none is held out, C91_none_held), and the correction of the moments counts epochs and not updates (C91_bias_refuted). Bounds on the variables are ignored by the method."
  },
  {
   "property": "C92",
   "status": "partial",
   "theorems": [
    "C92_check",
    "C92_quadratic",
    "C92_limit",
    "C92_relative_refuted"
   ],
   "note": "Real arithmetic. C92_check, C92_quadratic and C92_limit. The documented quotient is formed only when the squared norm exceeds one (C92_relative_refuted); C92_check states what is returned."
  },
  {
   "property": "C93",
   "status": "partial",
   "theorems": [
    "C93_stored",
    "C93_overflow",
    "C93_print",
    "C93_print_refuted",
    "C93_print_beyond_refuted"
   ],
   "note": "C93_stored, C93_overflow and, when there are as many points as dimensions, C93_print. Otherwise printing shows wrong lines (C93_print_refuted) and, for long runs, reads beyond the history (C93_print_beyond_refuted)."
  },
  {
   "property": "C94",
   "status": "partial",
   "theorems": [
    "C94_work",
    "C94_gradient_refuted",
    "C94_hist",
    "C94_hist_refuted"
   ],
   "note": "C94_work for all methods but the gradient method, whose copy reads past the end of the workspace for every dimension (C94_gradient_refuted); C94_hist up to the iteration limit, later points are lost (C94_hist_refuted). Scalar settings are plain assignments and not modelled."
  },
  {
   "property": "C96",
   "status": "partial",
   "theorems": [
    "C96_tested_once",
    "C96_separate",
    "C96_sizes",
    "C96_cv",
    "C96_no_folds_refuted",
    "C96_weights_refuted",
    "C96_relative"
   ],
   "note": "C96_tested_once, C96_separate, C96_sizes, C96_cv, C96_relative for any regression procedure and k > 0. k = 0 divides by zero (C96_no_folds_refuted). Weights are looked up by position in the training subset and end up at other samples (C96_weights_refuted)."
  },
  {
   "property": "C97",
   "status": "partial",
   "theorems": [
    "C97_cases",
    "C97_process",
    "C97_grid",
    "C97_empty_refuted"
   ],
   "note": "C97_cases, C97_process, C97_grid for one to three nonempty settings; otherwise a null pointer is followed (C97_empty_refuted)."
  },
  {
   "property": "C98",
   "status": "partial",
   "theorems": [
    "C98_adapt",
    "C98_finalize",
    "C98_within",
    "C98_above",
    "C98_kick",
    "C98_maximum_refuted"
   ],
   "note": "C98_adapt, C98_kick, C98_finalize, C98_within in full when the initial ranks respect the maximum; initial ranks above it are kept (C98_above, C98_maximum_refuted). The restricted optimization (opt_only_restricted = 1) is not modelled."
  },
  {
   "property": "C95",
   "status": "partial",
   "theorems": [
    "C95_real",
    "C95_dim1_refuted"
   ],
   "note": "Proved for trains of at least two dimensions whose functions number at most twice their parameters (C95_real, over the real numbers, for functions that depend on their parameters in any differentiable way or linearly through stored basis values; nan checks off). In one dimension the gradient shown is not that of the objective (C95_dim1_refuted)."
  },
  {
   "property": "C99",
   "status": "partial",
   "theorems": [
    "C99_unit",
    "C99_value",
    "C99_weight_refuted",
    "C99_order_refuted"
   ],
   "note": "The value is right for all weights (C99_value); the gradient is right when all weights are one and every objective adds its gradient to the array (C99_unit). Refuted in general: weights are not applied to gradients (C99_weight_refuted), and the least squares objective also divides by the number of samples the gradients of the objectives before it (C99_order_refuted)."
  },
  {
   "property": "C42",
   "status": "partial",
   "theorems": [
    "C42_structure",
    "C42_eval",
    "C42_evalN",
    "C42_linear",
    "C42_deriv_eval",
    "C42_integrate",
    "C42_flatten",
    "C42_one_branch_refuted",
    "C42_above_refuted"
   ],
   "note": "Proved for points not above the domain and, for the boundaries, for a single piece or at least two pieces (C42_structure, C42_eval, C42_evalN, C42_linear, C42_deriv_eval, C42_integrate, C42_flatten). Refuted: a function built on two user points has one branch, and its boundaries and products are undefined behaviour (C42_one_branch_refuted); above the domain the value is an unrelated constant (C42_above_refuted)."
  },
  {
   "property": "C68",
   "status": "partial",
   "theorems": [
    "C68_axpy",
    "C68_daxpby",
    "C68_daxpby_null",
    "C68_prod",
    "C68_inner",
    "C68_domains_refuted",
    "C68_close_ends_refuted"
   ],
   "note": "Proved for a common domain, nodes that are equal or further apart than the tolerances, and polynomials whose adaptive approximation gives them back (C68_axpy, C68_daxpby, C68_prod, C68_inner). Refuted for different domains, also when the ends differ by less than the tolerance: arrays are read past their ends (C68_domains_refuted, C68_close_ends_refuted)."
  },
  {
   "property": "C100",
   "status": "partial",
   "theorems": [
    "C100_adapt",
    "C100_points",
    "C100_regions",
    "C100_splitn",
    "C100_split",
    "C100_no_region_refuted"
   ],
   "note": "C100_adapt, C100_points, C100_regions, C100_split, C100_splitn for at least two (one, for the fixed grid) regions and a positive minimal size. With no region the result has no pieces and adaptation is undefined behaviour (C100_no_region_refuted)."
  },
  {
   "property": "C101",
   "status": "partial",
   "theorems": [
    "C101_cdf",
    "C101_icdf_partial",
    "C101_median",
    "C101_guess_even",
    "C101_icdf_09",
    "C101_icdf_refuted"
   ],
   "note": "Real arithmetic; the error function of the C library is specified by its value at 0 and its derivative (ErfSpec.v shows that there is exactly one). The claim about cdf_normal is proved in full. The claim about icdf_normal is false (C101_icdf_refuted): for p = 0.9 the returned value has probability below 0.89. Two causes in the code: the first guess multiplies by the square instead of the offset from one half, so it is the same for p and 1-p (C101_guess_even), and the loop stops at the first step upwards because the step is compared without absolute value. Proved instead: what is returned is a Halley step, exact to 1e-15 when that last step does not go up (C101_icdf_partial); the median is exact. Not proved: convergence for p below one half."
  },
  {
   "property": "C102",
   "status": "partial",
   "theorems": [
    "C102_init",
    "C102_update_weights",
    "C102_update_centres",
    "C102_eval",
    "C102_create",
    "C102_evalN",
    "C102_deriv",
    "C102_param_grad",
    "C102_update_refuted"
   ],
   "note": "Real arithmetic. All parts proved except the last sentence, which is false with adaptive centres (C102_update_refuted): the assertion on the number of parameters assigns, and the number of kernels becomes half of what is given."
  },
  {
   "property": "C103",
   "status": "partial",
   "theorems": [
    "C103_integrate",
    "C103_inner",
    "C103_scale",
    "C103_axpy",
    "C103_axpy_rejects",
    "C103_axpy_compare",
    "C103_axpy_refuted",
    "C103_norm_grad",
    "C103_norm_grad_adaptive"
   ],
   "note": "Real arithmetic with the error function of ErfSpec.v and positive squared widths. All parts proved for equal kernels; false for kernels that differ by less than 1e-15 in absolute value (C103_axpy_refuted, widths 1e-8 and 2e-8): they pass for the same and the sum is wrong. The gradient of the norm is rejected for adaptive centres."
  },
  {
   "property": "C104",
   "status": "partial",
   "theorems": [
    "C104_cdelem",
    "C104_convert_partial",
    "C104_elements_partial",
    "C104_one_mode",
    "C104_convert_refuted"
   ],
   "note": "Proved for two or more modes and at least one term. False for one mode (C104_convert_refuted, C104_one_mode): the core of the first mode is overwritten by the one for the last mode, the leading rank becomes the number of terms and only the first term is left. Reading elements of the train is subject to the limit of C15 (interior modes from the third on as large as the second)."
  },
  {
   "property": "C105",
   "status": "partial",
   "theorems": [
    "C105_axpy",
    "C105_axpy_rounds",
    "C105_axpy_refuted",
    "C105_dot",
    "C105_array_scale",
    "C105_vaxpy",
    "C105_vaxpy_arr",
    "C105_vprodsum_partial",
    "C105_vprodsum_zero",
    "C105_gemv_lost",
    "C105_vgemv_aborts",
    "C105_vgemv_arr_partial",
    "C105_vgemv_arr_refuted",
    "C105_gemv_refuted"
   ],
   "note": "Proved from two dimensions on for the scaled addition, its array versions, the combination with numbers, the sum of products (at least one term; for none the first product is added all the same, C105_vprodsum_zero) and the inner product. False of three operations: the array of trains times a train computes the right train, loses it and leaves the caller with freed memory (C105_gemv_lost, C105_gemv_refuted); the matrix of trains times a vector always fails an assertion (C105_vgemv_aborts); the matrix of numbers times a vector applies beta twice (C105_vgemv_arr_partial states what it does, C105_vgemv_arr_refuted). In dimension one the sum cannot be evaluated (C105_axpy_refuted). Rounding is a parameter: C105_axpy_rounds holds for any rounding, the other theorems for one that keeps values, or none."
  },
  {
   "property": "C106",
   "status": "partial",
   "theorems": [
    "C106_index_lists",
    "C106_integrated_out",
    "C106_repeated_refuted",
    "C106_interactions",
    "C106_main",
    "C106_total_effects",
    "C106_max_order",
    "C106_order_one_refuted",
    "C106_calls"
   ],
   "note": "The weighted integrals and inner products that give the variances are one parameter, so the theorems hold whatever they are. Proved for every maximum order except the last part for an order below two: the analysis with maximum order one (or zero) computes the interactions of every order, at exponential cost (C106_interactions states it, C106_order_one_refuted); from two on the maximum is kept (C106_max_order). A set in which a variable is named twice makes the array of the variables to integrate out too short (C106_repeated_refuted). Sensitivities are exact, without rounding; the printing is not modelled."
  },
  {
   "property": "C107",
   "status": "partial",
   "theorems": [
    "C107_partial_integral",
    "C107_rest",
    "C107_none_refuted",
    "C107_all_aborts"
   ],
   "note": "Proved for every proper nonempty set of variables, whatever the ranks and however the set is spread over the cores (C107_partial_integral, C107_rest). The last sentence is false: with no variable the code reads the first entry of the empty list (C107_none_refuted). With all variables it stops on an assertion (C107_all_aborts). The integral of the univariate functions with the weight is a parameter; only linearity of evaluation is assumed, and of the integral for C107_rest."
  }
 ]
}