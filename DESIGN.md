# Formal model of Compressed-Continuous-Computation (C3): design

The C sources in `/repo/c3` are modelled by hand, function by function, as
computable Gallina functions in `rocq/theories/*.v`.  Properties
(`properties.jsonl`) are stated against small independent specifications and
proved for all inputs.

## Trusted base

* Coq 8.16.1's kernel (proofs are replayed by `coqc`; `vm_compute` is used in
  `Example`s only).
* The assumptions printed by `Print Assumptions` next to each property theorem.
  No file of this development declares an axiom.  Purely algebraic and
  combinatorial theorems are closed under the global context; theorems over the
  real numbers use the standard library axioms of `Reals`
  (`ClassicalDedekindReals.sig_forall_dec`, `sig_not_dec`,
  `FunctionalExtensionality.functional_extensionality_dep`, and, where
  integrals or classical lemmas are used, `Classical_Prop.classic`).  A table is
  at the end of this file.
* The correspondence between C and Gallina, which is by inspection.  Every
  model definition has a comment with the file and the lines it follows, and
  states the simplifications made.

## Conventions of the model

* `outcome A` = `Ok a | Abort | UB | OutOfFuel`.  `Abort` = a failing `assert`
  or `exit`; `UB` = an array access outside its bounds, a NULL dereference or a
  read of an uninitialised slot.  Arrays are lists accessed through
  `aget`/`aset`, which return `UB` outside the bounds; an "`= Ok r`" conclusion
  therefore contains memory safety of the accesses that are modelled.
* `double` arithmetic is *not* modelled with rounding, except for the packed
  double codec (C22).  Algebraic code is modelled over an arbitrary commutative
  ring (record `CRing`); code that compares or divides is modelled over `R`, or
  over an operations record so that examples can be computed over `Q`.
  "Exact" in a property means exact in that arithmetic.
* `size_t` is `nat` (no wrap-around), except where wrap-around is the point.
* `malloc` never fails.  Memory is a value; aliasing is modelled only where a
  function's behaviour depends on it (stated at the definition).
* BLAS/LAPACK calls are modelled by their reference semantics on lists
  (`dgemv`, `dgemm`, `ddot`, `dcopy`, `daxpy`), or by an abstract contract
  (`dgesdd`, `dgetrf`) stated as a hypothesis of a theorem.
* Univariate functions: function-train code is parametric in the type of
  univariate functions and in the operations the code calls through
  `GenericFunction`; each theorem assumes only the laws it needs (such as
  "evaluation of a product is the product of evaluations").  Concrete classes
  (piecewise linear, piecewise constant, orthogonal polynomial) are modelled
  separately and instantiate these laws.

## What is modelled

| model files (`rocq/theories`) | code |
|---|---|
| FTModel, FTCtorModel, FTDiffModel, DistModel | ft.c, qmarray.c (evaluation, sums, products, integrals, inner products, constructors, derivatives, fibers, distances), parts of functions.c, funcs_mixed.c, funcs_not_standard.c |
| ParamModel, PAllocModel, PGradModel, HessModel | reading, writing and allocating parameters (ft.c 859-956, qmarray.c 3400-3530, parameterization.c 73-700), gradients and Hessian-vector products with respect to parameters (parameterization.c 822-1165, 1540-1759) |
| OrthModel, RoundModel, LuModel, PinvModel, CrossModel | Gram-Schmidt, Householder, orthonormal starting arrays, truncated SVD, right orthogonalisation, rounding, LU, pseudoinverse, maximum volume, cross approximation with and without rank adaptation |
| TensorModel | tensor.c, tensortrain.c, tt_multilinalg.c, tt_integrate.c, Kronecker routines of linalg.c |
| FFTModel, QuadModel | fft.c; closed quadrature rules of quadrature.c 58-211 |
| LinElmModel, ConstElmModel | linelm.c, constelm.c |
| OpeModel | polynomials.c and hpoly.c: Legendre, Chebyshev and Hermite expansions |
| SerModel, PackModel, MonModel, StrModel | binary serialization of all classes, packed doubles with IEEE-754 arithmetic, function monitor, string utilities |
| IdxModel, GridModel, FwrapModel | indmanage.c, matrix_util.c, grids of array.c, fwrap.c |
| OptModel, BfgsModel, QnModel, SgdModel, OptMiscModel | optimization.c: line searches, gradient method, exhaustive search, BFGS, limited-memory BFGS, stochastic gradient descent, derivative checks, history, copies |
| AlsModel, AioModel, CvModel, AdaptModel | regress.c, objective_functions.c, superlearn.c, superlearn_util.c: alternating and all-at-once least squares, cross validation, grid search, rank adaptation |
| ProbModel | probability_utils.c: normal distribution function and its inverse |
| KernModel | kernels.c: Gaussian kernels, creation, parameters, evaluation, derivative, gradients, integral, inner product, sums, squared norm |
| PwModel | piecewisepoly.c: structure, evaluation, piecewise operations, common grids, sums, products and inner products, fixed and adaptive approximation (the polynomials are abstract) |
| CdModel | candecomp.c (all functions) and convert.c: elements of a canonical decomposition and its conversion to a tensor train |
| FTBlasModel | ft.c 4423-4430, 4556-4793: scaled additions, sums of products and matrix-vector products of trains and arrays of trains (rounding is a parameter; different arguments are different objects) |
| SobolModel | probability.c 112-139, 173-545: Sobol sensitivities: index sets, variables to integrate out, the tree of interactions, main and total effects (the variances of the partial integrals are a parameter) |
| FTSubModel | ft.c 2251-2345: weighted integral of a function train over some of its variables |

The header of each model file and the comment of each definition name the exact lines and the simplifications.

## What is not modelled

* rounding of double arithmetic (except PackModel), wrap-around of size_t (except where stated), failure of malloc, memory leaks and freeing, printing
* LAPACK and BLAS themselves (reference semantics or contracts), the C library
* fourier.c, the root finding, extrema and norms of piecewisepoly.c, the orthonormal basis, linear fit and maximum of kernels.c, fapprox.c, space.c, approximate.c (interface), diffusion.c, iterative.c, dmrg.c, the rest of quasimatrix.c, cross.c, most of probability.c, Gauss rules and their tables (legquadrules*.c), learning_options.c, the Python wrapper

## How the proofs go

* Loops: invariants over `for_`/`for_from` (`for_inv`, `for_det`), "fill" lemmas for
  nested loops that write an array once, induction for recursions.
* Function and tensor trains: the value is a sum over rank paths; buffers hold row
  vector times matrix product.
* State machines (monitor, wrapper, regression, optimizers): invariants over all
  histories; the optimizer and the user function are arbitrary strategies or oracles.
* Specifications are stated apart from the model (`*Spec.v`, `FTSpec.v`, sums, the
  Riemann integral and derivatives of the standard library).

Properties that turn out false of the faithful model are recorded as theorems
named `..._refuted`, next to the guarded positive theorem (`..._partial` if it
does not cover the full statement).  The properties keep their full statement and the
manifest gives them the status `partial`.

## Assumptions of each theorem

Key: **-** closed under the global context; **R** =
`ClassicalDedekindReals.sig_forall_dec` and
`FunctionalExtensionality.functional_extensionality_dep`; **R+** = R and
`ClassicalDedekindReals.sig_not_dec`; **R+C** = R+ and `Classical_Prop.classic`.

| id | title | status | in | theorems (assumptions) |
|----|----|----|----|----|
| C01 | Function-train evaluation is the sum over rank paths | partial | PropFT | -: `C01_evaluation_is_path_sum`, `C01_many_points`, `C01_outer_ranks_checked`, `C01_large_ranks_refuted` |
| C02 | Adding two function trains adds the functions | partial | PropFT | -: `C02_sum_value_partial`, `C02_dimension_one_refuted` |
| C03 | Multiplying two function trains multiplies the functions | proved | PropFT | -: `C03_product_value` |
| C04 | Scaling and copying a function train act pointwise | partial | PropFT | -: `C04_scale_value`, `C04_copy_is_identity` |
| C05 | Inner product equals the integral of the product | proved | PropFT | -: `C05_inner_is_pair_path_sum`, `C05_inner2_is_pair_path_sum`, `C05_inner_rl_is_pair_path_sum`, `C05_inner_is_integral_of_product`, `C05_inner_symmetric`, `C05_inner_additive`, `C05_inner_homogeneous` |
| C06 | Integration of a function train is the sum over rank paths of univariate integrals | proved | PropFT | -: `C06_integrate_is_path_sum`, `C06_integral_additive` |
| C07 | Quadratic, linear and constant constructors build the function they are documented to build | partial | PropCtor | -: `C07_linear`, `C07_quadratic`, `C07_quadratic_aligned_partial`, `C07_rankone_prod`, `C07_rankone`, `C07_initsum`, `C07_zeros`, `C07_one_dimension_checked`, `C07_linear_one_dimension_refuted`, `C07_quadratic_aligned_one_dimension_refuted`, `C07_initsum_one_dimension_refuted`, `C07_quadratic_aligned_refuted`; R+C: `C07_constant` |
| C08 | Gradient and Jacobian entries are the partial derivatives in the documented place | partial | PropDiff | -: `C08_gradient`, `C08_jacobian`, `C08_hessian`, `C08_hessian_diag`, `C08_gradient_eval`, `C08_gradient_eval_dim1_is_zero`, `C08_gradient_eval_dim1_refuted`; R: `C08_partial_derivative` |
| C09 | Binary serialization of a function train round-trips | partial | PropSer, PropTight3 | -: `C09_function_train`, `C09_ft_array`, `C09_qmarray`, `C09_quasimatrix`, `C09_generic_function`, `C09_files`, `C09_array_files`, `C09_short_file`, `C09_fourier_refuted`, `C09_no_branches_refuted`, `C09_nonfinite_refuted` |
| C10 | Getting and then updating parameters is the identity, in one fixed order | proved | PropParam | -: `C10_get`, `C10_count`, `C10_update_get`, `C10_get_update`, `C10_rejects_nan`, `C10_determined`, `C10_core`, `C10_core_wrong_count`, `C10_uni`, `C10_uni_wrong_count`, `C10_core_get`, `C10_poly_resize` |
| C11 | Fiber and perturbation evaluations agree with plain evaluation | partial | PropDiff | -: `C11_co_perturb`, `C11_co_perturb_ind`, `C11_eval_ind`, `C11_fiber`, `C11_dim1_refuted` |
| C12 | Kronecker routines implement the Kronecker product for every shape | partial | PropTensor | -: `C12_kron`, `C12_kron_col`, `C12_vec_kron_partial`, `C12_vec_kron_refuted` |
| C13 | Transposed quasimatrix-array products have the documented shape and entries | partial | PropQma | -: `C13_plain_product`, `C13_left_transposed_product`, `C13_right_transposed_product`, `C13_both_transposed_one_column_partial`, `C13_both_transposed_square_is_transposed`, `C13_both_transposed_rectangular_refuted`, `C13_both_transposed_square_refuted`, `C13_vec_kron_order_swapped`, `C13_vec_kron_rectangular_refuted` |
| C14 | Tensor-train arithmetic is elementwise | partial | PropTensor | -: `C14_ttadd`, `C14_ttmult`, `C14_ttscal`, `C14_elements_partial`, `C14_tt_dot_partial`, `C14_tt_dot_refuted` |
| C15 | Element access of a tensor train is the product of core slices | partial | PropTensor | -: `C15_ttelem_partial`, `C15_ttelem_refuted` |
| C16 | Transposing a three-way tensor swaps its outer dimensions | partial | PropTensor | -: `C16_copy`, `C16_transpose_partial`, `C16_transpose_data`, `C16_transpose_refuted`, `C16_elem` |
| C17 | The fast Fourier transform computes the DFT | proved | PropFFT | R+: `C17_fft`, `C17_fft_refuses` |
| C18 | Inverse FFT inverts the FFT and restores its input | proved | PropFFT | R+: `C18_ifft_fft`, `C18_ifft`, `C18_ifft_refuses` |
| C19 | Chebyshev coefficients interpolate the given values | proved | PropFFT | R+: `C19_cheb_interpolates`, `C19_cheb_refuses` |
| C20 | Trapezoidal and Simpson weights integrate low-degree polynomials exactly | partial | PropFFT | R+C: `C20_trap`, `C20_simpson_odd`, `C20_simpson_even_partial`, `C20_simpson_two_refuted` |
| C21 | Memoised function evaluation is transparent | partial | PropMon, PropTight2, PropTight3 | -: `C21_no_table`, `C21_by_text`, `C21_transparent_partial`, `C21_refuted`, `C21_zero_refuted`, `C21_not_finite`, `C21_dim0_refuted`, `C21_text_empty_refuted` |
| C22 | Packed doubles round-trip | proved | PropPack | -: `C22_roundtrip`, `C22_negative_zero`, `C22_not_finite`, `C22_injective`, `C22_array` |
| C23 | Binary array files and basic codecs round-trip | proved | PropSer, PropTight3 | -: `C23_codecs`, `C23_darray_file`, `C23_load_short` |
| C24 | String utilities are safe and do what they say on every string | partial | PropStr | -: `C24_strip_blank_ends`, `C24_strip_blank_ends_refuted`, `C24_strip_blank_ends_exact_block_refuted`, `C24_strip_ends`, `C24_strip_ends_refuted`, `C24_strip_ends_diverges_refuted`, `C24_strip_ends_empty_refuted`, `C24_bite_string`, `C24_bite_string_absent`, `C24_parse_string`, `C24_concat_string`, `C24_bite_string2`, `C24_bite_string2_refuted` |
| C25 | Piecewise-linear evaluation is linear interpolation of the nodal values | proved | PropLin | R: `C25_eval`, `C25_eval_node`, `C25_eval_near` |
| C26 | Adding piecewise-linear functions on different grids is exact | proved | PropLin | -: `C26_axpy_bounds_refuted`; R: `C26_axpy`, `C26_axpy_eval` |
| C27 | Piecewise-linear integrals and inner products | partial | PropLin | R: `C27_inner`, `C27_inner_sym`, `C27_inner_bilinear`, `C27_inner_abort_refuted`; R+C: `C27_integrate`, `C27_inner_error`, `C27_inner_exact_refuted` |
| C28 | Parameter gradients of nodal functions are the derivatives of their value | partial | PropConst, PropLin | R: `C28_const_zeroed`, `C28_const_refuted`, `C28_lin_grad2`, `C28_lin_grad`, `C28_lin_outside_refuted` |
| C29 | Adaptive piecewise-linear approximation terminates with a valid grid | proved | PropLin | R: `C29_adapt`, `C29_adapt_nodes`, `C29_adapt_needs_hmin` |
| C30 | Piecewise-constant arithmetic, integration and inner products are exact | partial | PropConst, PropTight | -: `C30_axpy_grid_refuted`, `C30_inner_grid_refuted`; R: `C30_eval`, `C30_axpy`, `C30_prod`, `C30_max`, `C30_min`, `C30_prod_grid_refuted`, `C30_inner_disjoint_refuted`, `C30_axpy_nodes_partial`; R+C: `C30_integrate`, `C30_inner` |
| C31 | Linear combinations of generic functions | proved | PropQma | -: `C31_lin_comb_value`, `C31_lin_comb2_value`, `C31_lin_comb2_integral` |
| C32 | Nested cross index sets are built by appending one coordinate to old entries | partial | PropIdx, PropTight2 | -: `C32_create_nested`, `C32_create_nested_zero_refuted`, `C32_create_nested_ind`, `C32_merge_wspace`, `C32_merge_wspace_ends`, `C32_merge_partial`, `C32_merge_refuted`, `C32_copy`, `C32_copylast`, `C32_array_initialize_forward`, `C32_array_initialize_reverse`, `C32_array_initialize_dim_one_refuted`, `C32_array_initialize_null` |
| C33 | Function wrappers evaluate fibers at the right points | partial | PropFwrap | -: `C33_eval_on_fiber`, `C33_eval_on_fiber_point`, `C33_eval_plain`, `C33_stale_fiber_refuted`, `C33_which_eval_range_refuted`, `C33_setters` |
| C34 | Truncated SVD keeps a minimal rank within the tolerance | proved | PropSvd | R: `C34_truncated_svd`, `C34_truncated_svd_zero` |
| C35 | Gram-Schmidt QR of a quasimatrix array factorizes exactly | proved | PropOrth | R+: `C35_qr_gs`, `C35_lq_gs` |
| C36 | Householder QR of a quasimatrix array factorizes exactly | partial | PropOrth | R+: `C36_householder_qr_partial`, `C36_householder_lq_partial`, `C36_householder_qr_refuted` |
| C37 | LU with pivoting of a quasimatrix array | proved | PropLu | R: `C37_lu1d_any`, `C37_lu1d` |
| C38 | Cross-approximation ranks never exceed the configured maximum and adaptation stops | partial | PropAdapt, PropCross4 | -: `C38_rankadapt_partial`; R: `C38_start_above_limit_refuted`, `C38_kick0_refuted`, `C38_overflow_refuted`; R+: `C38_rankadapt_library` |
| C39 | Grid generators | partial | PropIdx | -: `C39_linspace`, `C39_linspace_one_refuted`, `C39_linspace_zero_refuted`, `C39_arange_up`, `C39_arange_down`, `C39_arange_empty_refuted` |
| C40 | Block assembly of matrices | partial | PropIdx | -: `C40_horizcat`, `C40_horizcat_rows_refuted`, `C40_block_diag`, `C40_diagv2m`, `C40_v2m`, `C40_mat_ones`, `C40_dconcat_cols` |
| C41 | Vectorised evaluation of an array of functions never overruns its buffers | partial | PropFT | -: `C41_eval2_values`, `C41_eval2_overflow_refuted` |
| C43 | Integration of a discrete tensor train is the weighted sum of its elements | proved | PropTensor | -: `C43_tt_integrate` |
| C44 | Constructors of discrete tensor trains | partial | PropTensor | -: `C44_copy`, `C44_ones`, `C44_tt_x_partial`, `C44_tt_x_refuted` |
| C45 | Evaluation up to a core includes that core | partial | PropDiff | -: `C45_first_core`, `C45_includes_core_refuted`, `C45_later_cores_partial` |
| C46 | Integers are written as their numeral | proved | PropStr | -: `C46_itoa` |
| C47 | Tables of numbers are read from text | partial | PropStr | -: `C47_readtxt_partial`, `C47_readtxt_refuted` |
| C48 | Product of piecewise-linear functions | proved | PropLin | R: `C48_prod_same`, `C48_prod_diff` |
| C49 | Derivative of piecewise-linear functions | proved | PropLin, PropTight | R: `C49_deriv`, `C49_deriv_out`, `C49_deriv_node` |
| C50 | Extrema and scaling of piecewise-linear functions | proved | PropLin, PropTight | R: `C50_max`, `C50_min`, `C50_absmax`, `C50_scale`, `C50_absmax_opt` |
| C51 | Gradient of the squared norm of a piecewise-linear function | partial | PropLin, PropTight | R: `C51_sqnorm_grad_refuted`, `C51_sqnorm_grad_linear` |
| C52 | Orthonormal piecewise-constant functions | partial | PropConst | R+: `C52_orth_basis`, `C52_orth_basis_refuted` |
| C53 | Difference quotients of piecewise-constant functions | partial | PropConst, PropTight | -: `C53_deriv_refuted`; R: `C53_deriv_partial` |
| C54 | Clenshaw-Curtis quadrature is exact for polynomials | proved | PropFFT | R+C: `C54_clenshaw_curtis`, `C54_rescaled` |
| C55 | Gauss-Chebyshev quadrature is exact for twice the degree | proved | PropFFT | R+C: `C55_cheb_gauss` |
| C56 | The rule fejer2 is exact for constants | partial | PropFFT | R+: `C56_fejer2_partial`; R+C: `C56_fejer2_refuted` |
| C57 | Constructors of piecewise-linear and piecewise-constant functions | proved | PropTight | R: `C57_linear`, `C57_constant`, `C57_const_constant`, `C57_const_approx`, `C57_flip_sign` |
| C58 | Evaluation at several points with strides | proved | PropTight | R: `C58_evalN`, `C58_const_evalN` |
| C59 | Functions with given zeros | partial | PropTight | -: `C59_onezero_lower_refuted`, `C59_onezero_unsorted_refuted`; R: `C59_onezero_fixed`, `C59_onezero_adapt`, `C59_onezero_none_refuted` |
| C60 | Error estimates of piecewise-linear functions | partial | PropTight | -: `C60_err_est_refuted`; R: `C60_err_est_partial` |
| C61 | The hash table of pairs is a finite map | proved | PropMon, PropTight2 | -: `C61_table`, `C61_hash` |
| C62 | Direct Fourier transforms of every length | proved | PropSlow | R+: `C62_fft_slow`, `C62_ifft_slow`, `C62_inverse`, `C62_fft_base` |
| C63 | Gradient of a function train with respect to its parameters | partial | PropPGrad | -: `C63_gradeval_linear`, `C63_dim1_scaled`, `C63_dim1_refuted`; R: `C63_gradeval` |
| C64 | Evaluation and gradient from stored values of the basis functions | partial | PropPGrad | -: `C64_gradeval_lin`, `C64_eval_lin` |
| C67 | Parameters of a function train through its life | partial | PropPAlloc, PropTight3 | -: `C67_alloc`, `C67_alloc_null`, `C67_update_structure`, `C67_copy`, `C67_update`, `C67_update_rejects_nan`, `C67_self_update`, `C67_update_core`, `C67_get_params`, `C67_get_param`, `C67_count_restricted`, `C67_update_restricted`, `C67_update_inside`, `C67_restricted_refuted`, `C67_inside_last`, `C67_alloc_with_ft`, `C67_alloc_with_ft_refuses`, `C67_create_constant`, `C67_alloc_nodes_refuted`, `C67_alloc_null_refuted`, `C67_copy_refuted`, `C67_get_params_none` |
| C69 | Rounding of function trains | partial | PropRound, PropRound2 | R+: `C69_round_exact`, `C69_round_partial`, `C69_round_maxrank_partial`, `C69_round_zero`, `C69_orthor_partial`, `C69_round_refuted`, `C69_round_dim1` |
| C70 | Pseudoinverse | partial | PropPinv | R: `C70_pinv`, `C70_pinv_zero_cutoff_refuted` |
| C71 | Maximum volume pivots | partial | PropMaxvol | R: `C71_maxvol1d`, `C71_remove_duplicates_refuted`; R+: `C71_maxvol1d_stale_inverse_refuted` |
| C72 | Cross approximation interpolates | proved | PropCross | R: `C72_cross_interpolates` |
| C73 | Cross approximation is exact for functions of low rank | proved | PropCross, PropCross2, PropCross3 | R: `C73_cross_exact`; R+: `C73_cross_exact_library`, `C73_multilinear` |
| C74 | Distances between function trains | partial | PropDist | R+: `C74_norm2diff_partial`, `C74_relnorm2diff_partial`, `C74_dimension_one_refuted` |
| C75 | Evaluation of orthogonal polynomial expansions | partial | PropOpe1 | R: `C75_domain`, `C75_hermite_domain`; R+: `C75_chebyshev_family`, `C75_eval`, `C75_eval_kristoffel`, `C75_evalN`, `C75_arr_eval`, `C75_arr_eval_refuted`, `C75_deriv_eval`, `C75_cheb_dderiv_eval`, `C75_cheb_dderiv_eval_refuted`, `C75_param_grad`, `C75_param_grad2`, `C75_param_grad2_refuted`, `C75_orth_poly_eval_partial`, `C75_orth_poly_eval_refuted`; R+C: `C75_legendre_family`, `C75_hermite_family` |
| C76 | Sums and multiples of expansions | partial | PropOpe2 | R: `C76_round`, `C76_scale`, `C76_axpy`, `C76_axpy_rejects`, `C76_daxpby`, `C76_daxpby_one`, `C76_lin_comb_partial`, `C76_lin_comb_kristoffel_refuted`, `C76_sum3_up_partial`, `C76_sum3_up_refuted`, `C76_sum3_up_realloc_refuted`, `C76_sum3_up_size_refuted`, `C76_roundt_keeps_one`, `C76_lin_comb_mixed`, `C76_empty_refuted`; R+: `C76_function`, `C76_flip_sign`, `C76_roundt_refuted` |
| C77 | Integrals and inner products of expansions | partial | PropOpe3 | R+: `C77_inner_w_rejects`, `C77_norm_w_refuted`, `C77_param_grad_inner_partial`, `C77_param_grad_inner_refuted`, `C77_sqnorm_param_grad_partial`, `C77_sqnorm_param_grad_refuted`, `C77_sqnorm_param_grad_hermite`, `C77_sqnorm_param_grad_chebyshev`, `C77_norm_w`; R+C: `C77_integrate`, `C77_integrate_hermite`, `C77_integrate_weighted`, `C77_inner_w`, `C77_inner_legendre`, `C77_inner_hermite`, `C77_norm_legendre` |
| C81 | Settings of cross approximation | proved | PropArgs | -: `C81_set_rank`, `C81_set_maxrank_all`, `C81_set_maxrank_ind`, `C81_setters`, `C81_copy`; R: `C81_alloc` |
| C78 | Derivatives as expansions | partial | PropOpe4 | R+: `C78_deriv_exact`; R+C: `C78_deriv_legendre`, `C78_deriv_chebyshev`, `C78_deriv_hermite_partial`, `C78_dderiv_chebyshev`, `C78_dderiv_legendre`, `C78_dderiv_refuted` |
| C79 | Projection and products of expansions | partial | PropOpe5, PropOpe7 | R+: `C79_project`, `C79_product_exact`, `C79_product_small_refuted`, `C79_product_legendre`, `C79_table`, `C79_product_hermite`, `C79_product_small`, `C79_inner_rejects`; R+C: `C79_project_chebyshev`, `C79_project_partial`, `C79_project_again_refuted`, `C79_product_chebyshev`, `C79_product_long_partial`, `C79_product_hermite_refuted`, `C79_inner_chebyshev`, `C79_inner_mixed` |
| C80 | Parameters and constructors of expansions | partial | PropOpe6 | R: `C80_update_params`, `C80_create_with_params`, `C80_get_params`, `C80_constant_rejects`; R+: `C80_pad`, `C80_pad_fewer_refuted`, `C80_copy`, `C80_zero`, `C80_constant`, `C80_linear`, `C80_linear_update`, `C80_linear_update_refuted`; R+C: `C80_quadratic_chebyshev`, `C80_quadratic_partial`, `C80_genorder_legendre`, `C80_genorder_hermite`, `C80_genorder_hermite_refuted` |
| C65 | Alternating regression is alternating least squares | partial | PropAls | -: `C65_linear`, `C65_descent`, `C65_stochastic_refuted`, `C65_dim1_refuted`; R: `C65_real` |
| C66 | The Hessian-vector product of a parameterised function train is exact and returns the value | partial | PropHess | -: `C66_hessvec`, `C66_value_zero`, `C66_value_refuted`, `C66_overflow_refuted`; R: `C66_nonlinear_refuted` |
| C82 | Backtracking line search | partial | PropOpt | R+: `C82_line_search`, `C82_rejects`, `C82_succeeds`, `C82_decrease_refuted`, `C82_beta_refuted` |
| C83 | Line search for the weak Wolfe conditions | partial | PropOpt2 | R: `C83_weak_wolfe`, `C83_no_iteration_refuted`, `C83_step_refuted`; R+: `C83_ascent`, `C83_rejects` |
| C84 | Line search for the strong Wolfe conditions | partial | PropOpt2 | R+: `C84_strong_wolfe`, `C84_abort`, `C84_abort_refuted`, `C84_nothing_found`, `C84_decrease_refuted` |
| C85 | Projected gradient method | partial | PropOpt3 | R+: `C85_gradient`, `C85_descent`, `C85_monotone_refuted` |
| C86 | Exhaustive minimization | proved | PropOpt3 | R: `C86_brute` |
| C87 | BFGS update of the inverse Hessian | partial | PropBfgs | R: `C87_bfgs_update`, `C87_secant`, `C87_descent_refuted` |
| C88 | Limited-memory inverse Hessian | partial | PropLbfgs | R: `C88_list`, `C88_product`, `C88_descent`, `C88_one_refuted` |
| C89 | BFGS method | proved | PropQn | R+: `C89_bfgs`, `C89_convex` |
| C90 | Limited-memory BFGS method | partial | PropQn2 | R+: `C90_lbfgs`, `C90_convex`, `C90_no_room_refuted` |
| C91 | Stochastic gradient descent | partial | PropSgd | -: `C91_shuffle`, `C91_all_orders`, `C91_none_held`; R+: `C91_sgd`, `C91_closer`, `C91_validation_refuted`, `C91_bias_refuted` |
| C92 | Derivative check | partial | PropOptMisc | R+: `C92_check`, `C92_quadratic`, `C92_limit`, `C92_relative_refuted` |
| C93 | History of the optimizer | partial | PropOptHist | -: `C93_stored`, `C93_overflow`, `C93_print`, `C93_print_refuted`, `C93_print_beyond_refuted` |
| C94 | Copies of the optimizer | partial | PropOptHist | -: `C94_work`, `C94_gradient_refuted`, `C94_hist`, `C94_hist_refuted` |
| C96 | Cross validation | partial | PropCv, PropCvGrid | -: `C96_tested_once`, `C96_separate`, `C96_sizes`, `C96_cv`, `C96_no_folds_refuted`; R: `C96_weights_refuted`, `C96_relative` |
| C97 | Grid search over settings | partial | PropCvGrid | -: `C97_cases`, `C97_process`; R: `C97_grid`, `C97_empty_refuted` |
| C98 | Regression with rank adaptation | partial | PropRankAdapt | -: `C98_kick`; R: `C98_adapt`, `C98_finalize`, `C98_within`, `C98_above`, `C98_maximum_refuted` |
| C95 | All-at-once regression shows the optimizer the true objective | partial | PropAio | -: `C95_dim1_refuted`; R: `C95_real` |
| C99 | A sum of weighted objectives has the gradient of the weighted sum | partial | PropAio | -: `C99_unit`, `C99_value`, `C99_weight_refuted`, `C99_order_refuted` |
| C42 | A piecewise polynomial is the function its pieces describe | partial | PropPw | R: `C42_structure`, `C42_eval`, `C42_evalN`, `C42_linear`, `C42_deriv_eval`, `C42_integrate`, `C42_flatten`, `C42_one_branch_refuted`, `C42_above_refuted` |
| C68 | Sums, products and inner products of piecewise polynomials on different grids | partial | PropPw | R: `C68_axpy`, `C68_daxpby`, `C68_daxpby_null`, `C68_prod`, `C68_inner`, `C68_domains_refuted`, `C68_close_ends_refuted` |
| C100 | Piecewise approximation covers the domain and refines until it is good enough | partial | PropPwA | R: `C100_adapt`, `C100_points`, `C100_regions`, `C100_splitn`, `C100_split`, `C100_no_region_refuted` |
| C101 | Normal distribution function and its inverse | partial | PropProb | R+C: `C101_cdf`, `C101_icdf_partial`, `C101_median`, `C101_guess_even`, `C101_icdf_09`, `C101_icdf_refuted` |
| C102 | A kernel expansion is the weighted sum of its Gaussian kernels | partial | PropKern | R: `C102_init`, `C102_update_weights`, `C102_update_centres`, `C102_update_refuted`; R+: `C102_eval`, `C102_create`, `C102_evalN`, `C102_deriv`, `C102_param_grad` |
| C103 | Integrals, inner products, sums and norms of kernel expansions | partial | PropKern2 | R: `C103_axpy_rejects`, `C103_axpy_compare`; R+: `C103_scale`, `C103_axpy`, `C103_norm_grad_adaptive`; R+C: `C103_integrate`, `C103_inner`, `C103_axpy_refuted`, `C103_norm_grad` |
| C104 | Canonical decompositions: elements and conversion to a tensor train | partial | PropCd | -: `C104_cdelem`, `C104_convert_partial`, `C104_elements_partial`, `C104_one_mode`, `C104_convert_refuted` |
| C105 | BLAS-type operations on function trains and arrays of them | partial | PropFTBlas | -: `C105_axpy`, `C105_axpy_rounds`, `C105_axpy_refuted`, `C105_dot`, `C105_array_scale`, `C105_vaxpy`, `C105_vaxpy_arr`, `C105_vprodsum_partial`, `C105_vprodsum_zero`, `C105_gemv_lost`, `C105_vgemv_aborts`, `C105_vgemv_arr_partial`, `C105_vgemv_arr_refuted`, `C105_gemv_refuted` |
| C106 | Sobol sensitivity analysis | partial | PropSobol, PropSobol2 | -: `C106_index_lists`, `C106_integrated_out`, `C106_repeated_refuted`, `C106_interactions`, `C106_main`, `C106_total_effects`, `C106_max_order`, `C106_order_one_refuted`, `C106_calls` |
| C107 | Integrating a function train over some of its variables | partial | PropFTSub | -: `C107_partial_integral`, `C107_rest`, `C107_none_refuted`, `C107_all_aborts` |
