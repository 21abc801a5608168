{"id": "C01", "title": "Function-train evaluation is the sum over rank paths", "statement": "For every function train whose first and last ranks are 1 and whose cores have the shapes announced by the ranks, function_train_eval at any point x returns the sum over all rank paths of the product of the univariate functions met on the path, evaluated at the coordinates of x. It never reads outside an array, and it aborts (assert) when an outer rank is not 1.", "quantifier": "all dimensions >= 1, all rank vectors, all univariate function arrays, all points, and all previous contents of the train's cached work space", "why_tests_cant": "The claim ranges over every dimension, every rank vector and every choice of univariate functions and points; a test fixes a handful of shapes, and the index arithmetic only goes wrong for particular (often non-square) shapes. The work buffers are cached in the train and reused, so correctness must also be independent of the evaluation history.", "anchors": ["c3/lib_clinalg/ft.c: function_train_eval, function_train_eval_next_core, function_train_pre_eval, ft_mem_space_check", "c3/lib_clinalg/ft.c: function_train_get_maxrank", "c3/lib_funcs/functions.c: generic_function_1darray_eval2, generic_function_1darray_eval2N"]}
{"id": "C02", "title": "Adding two function trains adds the functions", "statement": "function_train_sum(a,b) evaluates, at every point, to the sum of the evaluations of a and b, for every dimension, including dimension one.", "quantifier": "all pairs of well-shaped trains of the same dimension, all points", "why_tests_cant": "The claim ranges over every dimension, every rank vector and every choice of univariate functions and points; a test fixes a handful of shapes, and the index arithmetic only goes wrong for particular (often non-square) shapes.", "anchors": ["c3/lib_clinalg/ft.c: function_train_sum", "c3/lib_clinalg/qmarray.c: qmarray_stackh, qmarray_stackv, qmarray_blockdiag"]}
{"id": "C03", "title": "Multiplying two function trains multiplies the functions", "statement": "function_train_product(a,b) evaluates, at every point, to the product of the evaluations of a and b, whenever univariate products are exact; its ranks are the products of the ranks.", "quantifier": "all pairs of well-shaped trains of the same dimension, all points", "why_tests_cant": "The claim ranges over every dimension, every rank vector and every choice of univariate functions and points; a test fixes a handful of shapes, and the index arithmetic only goes wrong for particular (often non-square) shapes.", "anchors": ["c3/lib_clinalg/ft.c: function_train_product", "c3/lib_clinalg/qmarray.c: qmarray_kron"]}
{"id": "C04", "title": "Scaling and copying a function train act pointwise", "statement": "function_train_scale(f,c) turns f into c*f at every point; function_train_copy produces a train with the same values and later in-place scaling of one of the two never changes the other's value.", "quantifier": "all trains, all scalars, all points", "why_tests_cant": "The claim ranges over every dimension, every rank vector and every choice of univariate functions and points; a test fixes a handful of shapes, and the index arithmetic only goes wrong for particular (often non-square) shapes.", "anchors": ["c3/lib_clinalg/ft.c: function_train_scale, function_train_copy", "c3/lib_funcs/functions.c: generic_function_scale"]}
{"id": "C05", "title": "Inner product equals the integral of the product", "statement": "function_train_inner(a,b) equals function_train_integrate(function_train_product(a,b)) and equals the sum over pairs of rank paths of the products of univariate inner products. It is symmetric and bilinear, and the right-to-left and the left-to-right sweeps (function_train_inner_rl, function_train_inner) agree.", "quantifier": "all pairs of well-shaped trains of the same dimension and all univariate inner products", "why_tests_cant": "The claim ranges over every dimension, every rank vector and every choice of univariate functions and points; a test fixes a handful of shapes, and the index arithmetic only goes wrong for particular (often non-square) shapes. The contraction order and the Kronecker ordering are opaque in the code (the source says 'who knows how it happens to be right').", "anchors": ["c3/lib_clinalg/ft.c: function_train_inner, function_train_inner_rl, function_train_integrate, function_train_product", "c3/lib_clinalg/qmarray.c: qmarray_vec_kron_integrate, qmarray_kron_integrate, qmatqmat_integrate, qmatm"]}
{"id": "C06", "title": "Integration of a function train is the sum over rank paths of univariate integrals", "statement": "function_train_integrate(f) returns the sum over rank paths of the product of the univariate integrals; in particular it is linear in f and equals the iterated integral of the evaluated function.", "quantifier": "all well-shaped trains of every dimension", "why_tests_cant": "The claim ranges over every dimension, every rank vector and every choice of univariate functions and points; a test fixes a handful of shapes, and the index arithmetic only goes wrong for particular (often non-square) shapes.", "anchors": ["c3/lib_clinalg/ft.c: function_train_integrate, function_train_integrate_weighted", "c3/lib_clinalg/qmarray.c: qmarray_integrate"]}
{"id": "C07", "title": "Quadratic, linear and constant constructors build the function they are documented to build", "statement": "function_train_constant(c), function_train_linear(c,a), function_train_rankone_prod and function_train_quadratic(Q,m) return trains that evaluate at x to c, c.x + a, the product of the coordinates/univariate functions, and (x-m)^T Q (x-m) respectively, for every dimension that the function accepts; for dimensions it cannot handle it must not silently return a wrong or unusable train.", "quantifier": "all dimensions, all coefficient arrays, all points", "why_tests_cant": "The claim ranges over every dimension, every rank vector and every choice of univariate functions and points; a test fixes a handful of shapes, and the index arithmetic only goes wrong for particular (often non-square) shapes.", "anchors": ["c3/lib_clinalg/ft.c: function_train_constant, function_train_linear, function_train_quadratic, function_train_quadratic_aligned, function_train_initsum, function_train_zeros"]}
{"id": "C08", "title": "Gradient and Jacobian entries are the partial derivatives in the documented place", "statement": "function_train_gradient returns, in position i, a train evaluating to the sum over rank paths with the i-th univariate factor replaced by its derivative; function_train_gradient_eval writes the same numbers; ft1d_array_jacobian stores the derivative of component j in direction i at the documented position.", "quantifier": "all well-shaped trains, all dimensions >= 1, all points", "why_tests_cant": "The claim ranges over every dimension, every rank vector and every choice of univariate functions and points; a test fixes a handful of shapes, and the index arithmetic only goes wrong for particular (often non-square) shapes.", "anchors": ["c3/lib_clinalg/ft.c: function_train_gradient, function_train_gradient_eval, ft1d_array_jacobian, function_train_hessian"]}
{"id": "C09", "title": "Binary serialization of a function train round-trips", "statement": "Deserializing the bytes written by function_train_serialize yields a train with the same dimension, ranks and cores and consumes exactly the bytes written; the size reported in query mode equals the number of bytes written, so a buffer of the reported size is never overrun.", "quantifier": "all trains whose sizes fit in size_t and all univariate functions of every serializable class", "why_tests_cant": "Nested length-prefixed encodings of arbitrary depth and arbitrary bit patterns (including NaN payloads) cannot be enumerated.", "anchors": ["c3/lib_clinalg/ft.c: function_train_serialize, function_train_deserialize", "c3/lib_clinalg/qmarray.c: qmarray_serialize, qmarray_deserialize", "c3/lib_funcs/functions.c: serialize_generic_function, deserialize_generic_function"]}
{"id": "C10", "title": "Getting and then updating parameters is the identity, in one fixed order", "statement": "function_train_get_params writes the parameters in core-major, column-major, function order; function_train_update_params reads them in the same order, so update(get(f)) leaves f unchanged, get(update(f,p)) = p, and both report the same count.", "quantifier": "all trains, all parameter vectors, functions with different numbers of parameters", "why_tests_cant": "Offsets accumulate over variable-length blocks; only particular non-uniform layouts expose an off-by-one.", "anchors": ["c3/lib_clinalg/ft.c: function_train_get_params, function_train_update_params", "c3/lib_clinalg/qmarray.c: qmarray_get_params, qmarray_update_params, qmarray_get_nparams"]}
{"id": "C11", "title": "Fiber and perturbation evaluations agree with plain evaluation", "statement": "function_train_eval_co_perturb returns f(x) and stores, for every dimension, the values of f at x with that one coordinate replaced by the two perturbed values; function_train_eval_fiber_ind stores the values of f along the varying dimension.", "quantifier": "all well-shaped trains, all dimensions, all points and perturbations", "why_tests_cant": "The claim ranges over every dimension, every rank vector and every choice of univariate functions and points; a test fixes a handful of shapes, and the index arithmetic only goes wrong for particular (often non-square) shapes.", "anchors": ["c3/lib_clinalg/ft.c: function_train_eval_co_perturb, function_train_eval_co_perturb_ind, function_train_eval_fiber_ind, function_train_eval_ind"]}
{"id": "C12", "title": "Kronecker routines implement the Kronecker product for every shape", "statement": "kron, kron_col and vec_kron compute the Kronecker product (resp. the vector-Kronecker product) of their arguments in the documented storage order, and write every output entry exactly once and none outside.", "quantifier": "all shapes, leading dimensions at least the number of rows, all entries", "why_tests_cant": "Row/column-major mix-ups are invisible for square or symmetric test data.", "anchors": ["c3/lib_linalg/linalg.c: kron, kron_col, vec_kron", "c3/lib_clinalg/qmarray.c: qmarray_kron, qmarray_kron_integrate"]}
{"id": "C13", "title": "Transposed quasimatrix-array products have the documented shape and entries", "statement": "qmatqmat(a,b) returns the (a.ncols x b.nrows) array whose (i,j) entry is sum_k a(k,i) b(j,k), and qmarray_vec_kron(a,b,c) returns a^T kron(b,c); no write leaves the allocated array.", "quantifier": "all compatible shapes", "why_tests_cant": "Square shapes (which tests use) hide the wrong leading dimension.", "anchors": ["c3/lib_clinalg/qmarray.c: qmatqmat, qmarray_vec_kron, qmatqma, qmaqma, qmaqmat"]}
{"id": "C14", "title": "Tensor-train arithmetic is elementwise", "statement": "For discrete tensor trains, ttelem of ttadd(a,b), ttmult(a,b) and of a train scaled with ttscal is the sum, the product and the scaled value of the elements, and tt_dot(a,b) is the sum over all multi-indices of the products of elements.", "quantifier": "all dimensions >= 2, all mode sizes, all ranks, all indices", "why_tests_cant": "The claim ranges over every dimension, every rank vector and every choice of univariate functions and points; a test fixes a handful of shapes, and the index arithmetic only goes wrong for particular (often non-square) shapes.", "anchors": ["c3/lib_tensdecomp/tt_multilinalg.c: ttadd, ttmult, ttscal, tt_dot", "c3/lib_tensdecomp/tensortrain.c: ttelem", "c3/lib_tensor/tensor.c: tensor_stack2h_3d, tensor_stack2v_3d, tensor_blockdiag_3d, tensor_kron_3d"]}
{"id": "C15", "title": "Element access of a tensor train is the product of core slices", "statement": "ttelem(t,idx) equals the product of the core slices selected by idx, and touches only elements of the cores, for every dimension and for modes of different sizes.", "quantifier": "all dimensions, all mode sizes (not necessarily equal), all ranks, all valid indices", "why_tests_cant": "Tests use equal mode sizes, for which a wrong stride is right.", "anchors": ["c3/lib_tensdecomp/tensortrain.c: ttelem"]}
{"id": "C16", "title": "Transposing a three-way tensor swaps its outer dimensions", "statement": "tensor_copy_3d(t,1) returns a tensor with swapped outer mode sizes such that element (i,j,k) of the result is element (k,j,i) of t; tensor_copy_3d(t,0) is the identity; element access is column-major.", "quantifier": "all mode sizes, all elements", "why_tests_cant": "Cubic test tensors hide a wrong size vector.", "anchors": ["c3/lib_tensor/tensor.c: tensor_copy_3d, tensor_elem, init_tensor"]}
{"id": "C17", "title": "The fast Fourier transform computes the DFT", "statement": "fft on a power-of-two length stores in X[k] the sum over j of x[j] w^(jk) for the principal N-th root w, for every input, never touches elements outside the N-element arrays, and refuses other lengths.", "quantifier": "all powers of two, all inputs, all strides used by the recursion", "why_tests_cant": "A recursive in-place strided algorithm; tests check a few sizes within tolerance.", "anchors": ["c3/lib_fft/fft.c: fft, fft_base, fft_slow, isPowerOfTwo"]}
{"id": "C18", "title": "Inverse FFT inverts the FFT and restores its input", "statement": "ifft(fft(x)) = x for every power-of-two length, and the input array of ifft is left unchanged after the call.", "quantifier": "all powers of two and all inputs", "why_tests_cant": "Round trip for all inputs, sizes and scratch side effects.", "anchors": ["c3/lib_fft/fft.c: ifft, ifft_base"]}
{"id": "C19", "title": "Chebyshev coefficients interpolate the given values", "statement": "For nvals-1 a power of two, the coefficients returned by cheb_vals_to_coeff (stored highest degree first), evaluated with the Chebyshev recurrence at the points cos(pi j/(nvals-1)), reproduce the input values vals[j]; other numbers of values are refused with return code 1 and nothing is written.", "quantifier": "all nvals = 2^k+1, all value vectors", "why_tests_cant": "Interpolation identity over all sizes and all data.", "anchors": ["c3/lib_fft/fft.c: cheb_vals_to_coeff"]}
{"id": "C20", "title": "Trapezoidal and Simpson weights integrate low-degree polynomials exactly", "statement": "With N uniformly spaced points at distance h, the weights of trap_w integrate every affine function exactly, and the weights of simpson_w integrate every cubic exactly for odd N and every affine function for even N.", "quantifier": "all N >= 2, all h, all polynomials of the stated degree, all start points", "why_tests_cant": "Holds for infinitely many N; the small even case is special in the code.", "anchors": ["c3/lib_quadrature/quadrature.c: trap_w, simpson_w, rescale_cc"]}
{"id": "C21", "title": "Memoised function evaluation is transparent", "statement": "Evaluating through a function monitor returns, for every sequence of evaluations, exactly what the wrapped (deterministic) function would return at the same point, calls the function at most once per distinct point, and stores one table entry per distinct point.", "quantifier": "all sequences of evaluation points, all hash table sizes >= 1, all functions", "why_tests_cant": "Depends on history, on hash collisions and on the textual key; no finite set of calls settles it.", "anchors": ["c3/lib_funcs/monitoring.c: function_monitor_eval, lookup_key, add_cpair, hashsimple, create_hashtable_cp", "c3/lib_array/array.c: serialize_darray_to_text, serialize_double_packed"]}
{"id": "C22", "title": "Packed doubles round-trip", "statement": "deserialize_double_packed(serialize_double_packed(x)) = x for every finite double (up to the sign of zero).", "quantifier": "all finite double-precision numbers (about 2^64 of them)", "why_tests_cant": "The input space is far too large to enumerate and rounding happens in the scaling by 2^63-2.", "anchors": ["c3/lib_array/array.c: pack, unpack, serialize_double_packed, deserialize_double_packed"]}
{"id": "C23", "title": "Binary array files and basic codecs round-trip", "statement": "darray_load(darray_save(a)) returns a for every array; the serialize_/deserialize_ pairs for int, size_t, double and double arrays are inverse and advance the pointer by the number of bytes written; concatenated encodings decode in sequence.", "quantifier": "all arrays and all bit patterns", "why_tests_cant": "All byte patterns and lengths.", "anchors": ["c3/lib_array/array.c: darray_save, darray_load", "c3/lib_stringmanip/stringmanip.c: serialize_int, serialize_size_t, serialize_double, serialize_doublep and the deserialize_ counterparts"]}
{"id": "C24", "title": "String utilities are safe and do what they say on every string", "statement": "strip_blank_ends/strip_ends remove leading and trailing blanks and return a NUL-terminated string, bite_string returns the prefix before the delimiter, parse_string splits at delimiters, for every NUL-terminated input including the empty and the all-blank string, without reading outside it.", "quantifier": "all strings", "why_tests_cant": "All strings, in particular degenerate ones.", "anchors": ["c3/lib_stringmanip/stringmanip.c: strip_blank_ends, strip_ends, bite_string, parse_string, concat_string"]}
{"id": "C25", "title": "Piecewise-linear evaluation is linear interpolation of the nodal values", "statement": "lin_elem_exp_eval(f,x) returns the linear interpolant of the two neighbouring nodal values for x inside the node range, the nodal value at every node (nodes more than the snapping tolerance 1e-15 apart), zero outside, and the interval search terminates for every x. Points closer than the tolerance to a node may get the nodal value, which is off by at most the tolerance times the slope of one cell.", "quantifier": "all strictly increasing node sequences with at least two nodes, all coefficients, all x, all values of the tolerance", "why_tests_cant": "Binary search over arbitrary node sets and arbitrary x.", "anchors": ["c3/lib_funcs/linelm.c: lin_elem_exp_eval, lin_elem_exp_find_interval"]}
{"id": "C26", "title": "Adding piecewise-linear functions on different grids is exact", "statement": "lin_elem_exp_axpy(a,f,g) makes g equal to a*f+g at every point of the common domain, also when the two functions live on different node sets; the resulting nodes are strictly increasing and are exactly the nodes of the two functions.", "quantifier": "all pairs of functions with the same bounds whose nodes are equal or more than the snapping tolerance 1e-15 apart, all scalars, all points", "why_tests_cant": "Merging arbitrary node sequences; tests use equal or nested grids.", "anchors": ["c3/lib_funcs/linelm.c: lin_elem_exp_axpy, lin_elem_exp_interp_same_grid, lin_elem_sdiscp"]}
{"id": "C27", "title": "Piecewise-linear integrals and inner products", "statement": "lin_elem_exp_integrate returns the exact integral of the interpolant; lin_elem_exp_inner is symmetric, bilinear on a common grid, and equals the integral of the pointwise product of the two functions; it never aborts for valid functions.", "quantifier": "all node sets, all coefficients, all pairs of functions with overlapping or disjoint domains", "why_tests_cant": "Quadrature exactness over all grids.", "anchors": ["c3/lib_funcs/linelm.c: lin_elem_exp_integrate, lin_elem_exp_inner, lin_elem_exp_inner_same, lin_elem_exp_inner_same_grid"]}
{"id": "C28", "title": "Parameter gradients of nodal functions are the derivatives of their value", "statement": "lin_elem_exp_param_grad_eval and const_elem_exp_param_grad_eval write, for every evaluation point, the derivative of the value with respect to every parameter; the *_eval2 variants additionally return the value itself.", "quantifier": "all node sets, all coefficients, all evaluation points, all previous contents of the gradient buffer", "why_tests_cant": "Needs every point and every stale buffer content.", "anchors": ["c3/lib_funcs/linelm.c: lin_elem_exp_param_grad_eval, lin_elem_exp_param_grad_eval2", "c3/lib_funcs/constelm.c: const_elem_exp_param_grad_eval, const_elem_exp_param_grad_eval2"]}
{"id": "C29", "title": "Adaptive piecewise-linear approximation terminates with a valid grid", "statement": "lin_elem_exp_approx with adaptation terminates, returns strictly increasing nodes from lb to ub whose values are the function values, and stops refining an interval only if the midpoint error or the interval length is below tolerance.", "quantifier": "all functions, all bounds, all tolerances with positive minimum spacing", "why_tests_cant": "Termination and invariants over arbitrary user functions.", "anchors": ["c3/lib_funcs/linelm.c: lin_elem_adapt, lin_elem_exp_approx"]}
{"id": "C30", "title": "Piecewise-constant arithmetic, integration and inner products are exact", "statement": "const_elem_exp_eval returns the value of the nearest node; integrate, inner and prod are the exact integral, inner product and product of these step functions; axpy gives a*f+g at every point.", "quantifier": "all strictly increasing node sets, all coefficients, all points, equal and different grids", "why_tests_cant": "All grids and points; ties between nodes.", "anchors": ["c3/lib_funcs/constelm.c: const_elem_exp_eval, const_elem_exp_find_node, const_elem_exp_integrate, const_elem_exp_inner, const_elem_exp_axpy, const_elem_exp_prod"]}
{"id": "C31", "title": "Linear combinations of generic functions", "statement": "generic_function_lin_comb(n,f,c) evaluates to sum_i c_i f_i at every point for every n >= 1, for mixed and uniform function classes.", "quantifier": "all n, all coefficient vectors, all functions, all points", "why_tests_cant": "The implementation alternates between two temporaries; parity-dependent bugs need every n.", "anchors": ["c3/lib_funcs/functions.c: generic_function_lin_comb, generic_function_lin_comb2, generic_function_daxpby"]}
{"id": "C32", "title": "Nested cross index sets are built by appending one coordinate to old entries", "statement": "cross_index_create_nested returns exactly the requested number of entries, each obtained from an existing entry by adding one coordinate on the requested side; cross_index_merge_wspace returns all combinations of a left and a right entry with a free slot in between, and cross_index_merge joins the k-th left with the k-th right entry.", "quantifier": "all index sets, all options, all methods, all requested sizes", "why_tests_cant": "Combinatorial in the index sets and sizes.", "anchors": ["c3/lib_clinalg/indmanage.c: cross_index_create_nested, cross_index_add_nested, cross_index_merge, cross_index_merge_wspace"]}
{"id": "C33", "title": "Function wrappers evaluate fibers at the right points", "statement": "After fwrap_initialize_fiber_approx and fwrap_add_fiber, evaluating the wrapper at a one-dimensional point t on fiber k calls the user function exactly at (left_k, t, right_k); after clean-up the wrapper evaluates the original function again.", "quantifier": "all dimensions, all fiber dimensions, all fibers, all sequences of wrapper operations", "why_tests_cant": "Stateful wrapper with an operation history.", "anchors": ["c3/lib_funcs/fwrap.c: fwrap_eval, fwrap_eval_fiber, fwrap_initialize_fiber_approx, fwrap_add_fiber, fwrap_set_which_fiber, fwrap_clean_fiber_approx"]}
{"id": "C34", "title": "Truncated SVD keeps a minimal rank within the tolerance", "statement": "truncated_svd(delta) returns a rank r >= 1 such that the squares of the discarded singular values sum to less than delta (the documented meaning of the truncation level), no smaller positive rank would do, the factors are the leading singular triples, and that sum is the squared Frobenius error of the reconstruction.", "quantifier": "all matrices of all sizes, all singular-value sequences and tolerances delta > 0", "why_tests_cant": "All sequences and thresholds.", "anchors": ["c3/lib_linalg/linalg.c: truncated_svd"]}
{"id": "C35", "title": "Gram-Schmidt QR of a quasimatrix array factorizes exactly", "statement": "After qmarray_qr_gs(A,R), the overwritten columns are orthonormal, R is upper triangular with positive diagonal, and the original A equals Q R; it aborts when a column becomes (numerically) zero.", "quantifier": "all numbers of rows and columns, all inner product spaces of univariate functions", "why_tests_cant": "Orthogonality over all inputs; loss-free algebra.", "anchors": ["c3/lib_clinalg/qmarray.c: qmarray_qr_gs, qmarray_lq_gs"]}
{"id": "C36", "title": "Householder QR of a quasimatrix array factorizes exactly", "statement": "qmarray_qr(A) returns Q with orthonormal columns and upper triangular R with A = Q R for every A, including rank-deficient ones.", "quantifier": "all sizes, all inner product spaces", "why_tests_cant": "Reflector bookkeeping over all inputs.", "anchors": ["c3/lib_clinalg/qmarray.c: qmarray_qr, qmarray_lq, qmarray_householder, qmarray_qhouse"]}
{"id": "C37", "title": "LU with pivoting of a quasimatrix array", "statement": "After qmarray_lu1d(A) with no vanishing pivot, L U equals the original A, U is upper triangular, and L takes the value 1 at its own pivot and 0 at all earlier pivots.", "quantifier": "all sizes and all columns of functions", "why_tests_cant": "Invariant over the elimination loop.", "anchors": ["c3/lib_clinalg/qmarray.c: qmarray_lu1d"]}
{"id": "C38", "title": "Cross-approximation ranks never exceed the configured maximum and adaptation stops", "statement": "ftapprox_cross_rankadapt only ever increases ranks, never above the configured maximal ranks, and stops after finitely many rounds.", "quantifier": "all configurations of start rank, kick rank and maximal ranks, all convergence behaviours of the inner iteration", "why_tests_cant": "Termination over all behaviours of the approximated function.", "anchors": ["c3/lib_clinalg/ft.c: ftapprox_cross_rankadapt, ft_cross_args_alloc, ft_cross_args_set_*"]}
{"id": "C39", "title": "Grid generators", "statement": "linspace(a,b,N) returns N points starting at a, ending at b, equally spaced; arange(a,b,s) returns the points a+k s up to b; both never write outside the returned array for N >= 1.", "quantifier": "all bounds, all N, all steps", "why_tests_cant": "All N, including the degenerate small ones.", "anchors": ["c3/lib_array/array.c: linspace, arange, logspace"]}
{"id": "C40", "title": "Block assembly of matrices", "statement": "horizcat and block_diag place every input entry at its documented position and zeros elsewhere; horizcat must not read outside its inputs.", "quantifier": "all numbers of blocks, all shapes", "why_tests_cant": "Rectangular block shapes.", "anchors": ["c3/lib_linalg/matrix_util.c: horizcat, block_diag, diagv2m, v2m"]}
{"id": "C41", "title": "Vectorised evaluation of an array of functions never overruns its buffers", "statement": "generic_function_1darray_eval2 and eval2N evaluate every function of the array at every point and store it at the documented position, for any array length and any number of points.", "quantifier": "all array lengths (including more than one thousand), all numbers of points", "why_tests_cant": "A fixed-size internal buffer is only exceeded for large arrays, which tests avoid.", "anchors": ["c3/lib_funcs/functions.c: generic_function_1darray_eval2, generic_function_1darray_eval2N"]}
{"id": "C43", "title": "Integration of a discrete tensor train is the weighted sum of its elements", "statement": "tt_integrate(t,w) equals the sum over all multi-indices of the product of the quadrature weights times the element of the train.", "quantifier": "all dimensions >= 1, all mode sizes, all ranks, all weights", "why_tests_cant": "The claim ranges over every dimension, every rank vector and every choice of univariate functions and points; a test fixes a handful of shapes, and the index arithmetic only goes wrong for particular (often non-square) shapes.", "anchors": ["c3/lib_tensdecomp/tt_integrate.c: tt_integrate", "c3/lib_tensor/tensor.c: tensor_sum2"]}
{"id": "C44", "title": "Constructors of discrete tensor trains", "statement": "copy_tt returns a train equal to its argument, all elements of tt_ones are one, and tt_x(x,k,...) has the element x[i_k] at the multi-index i, with cores of the shape announced by ranks and mode sizes.", "quantifier": "all dimensions, all mode sizes", "why_tests_cant": "A wrong core shape goes unnoticed as long as only ranks equal to one and element access are used.", "anchors": ["c3/lib_tensdecomp/tensortrain.c: copy_tt, tt_ones, tt_x", "c3/lib_tensor/tensor.c: tensor_ones_3d, tensor_x_3d, tensor_copy_3d"]}
{"id": "C45", "title": "Evaluation up to a core includes that core", "statement": "function_train_eval_up_to_core(ft,k,x,out,&n) stores in out the row vector obtained by multiplying the cores 0..k evaluated at x, and in n its length.", "quantifier": "all well-shaped trains, all points, all k", "why_tests_cant": "The routine is marked NOT TESTED; that the named core is left out shows only when the vector is compared with an independent product.", "anchors": ["c3/lib_clinalg/ft.c: function_train_eval_up_to_core"]}
{"id": "C46", "title": "Integers are written as their numeral", "statement": "itoa(value,buffer,base) writes the numeral of value in the given base, with a minus sign for negative values in base ten, followed by a NUL, for every int value and base between 2 and 36.", "quantifier": "all values of type int except the smallest one, all bases, all buffers large enough", "why_tests_cant": "The reversed digits are produced through a table indexed by negative remainders; the whole range of values and bases cannot be enumerated.", "anchors": ["c3/lib_stringmanip/stringmanip.c: itoa"]}
{"id": "C47", "title": "Tables of numbers are read from text", "statement": "readtxt_double_array returns the numbers of a text table with the right numbers of rows and columns, for every layout of blanks, tabs and line ends it accepts.", "quantifier": "all texts", "why_tests_cant": "Only one file layout is tested; the empty text and tabs are not.", "anchors": ["c3/lib_stringmanip/stringmanip.c: readtxt_double_array"]}
{"id": "C48", "title": "Product of piecewise-linear functions", "statement": "lin_elem_exp_prod(f,g) returns, on equal grids, the function on that grid with the products of the nodal values; on different grids a valid grid over the intersection of the two ranges whose nodal values are the products of the two functions there.", "quantifier": "all pairs of valid functions with overlapping ranges, all tolerances, all positive minimum spacings", "why_tests_cant": "The second branch runs the adaptive approximation on an arbitrary product.", "anchors": ["c3/lib_funcs/linelm.c: lin_elem_exp_prod, lin_elem_exp_approx, lin_adapt"]}
{"id": "C49", "title": "Derivative of piecewise-linear functions", "statement": "lin_elem_exp_deriv_eval(f,x) is the derivative of the function at every point of the range that is not (within the tolerance) a node, and zero outside the range.", "quantifier": "all valid functions, all points", "why_tests_cant": "Compared with the limit of difference quotients, for every grid.", "anchors": ["c3/lib_funcs/linelm.c: lin_elem_exp_deriv_eval"]}
{"id": "C50", "title": "Extrema and scaling of piecewise-linear functions", "statement": "lin_elem_exp_max, _min and _absmax return the extreme value of the function over its whole range and a place where it is attained; lin_elem_exp_scale multiplies the value at every point.", "quantifier": "all valid functions with nodes farther apart than the tolerance, all points of the range", "why_tests_cant": "The nodes have to be shown to dominate all points in between.", "anchors": ["c3/lib_funcs/linelm.c: lin_elem_exp_max, lin_elem_exp_min, lin_elem_exp_absmax, lin_elem_exp_scale"]}
{"id": "C51", "title": "Gradient of the squared norm of a piecewise-linear function", "statement": "lin_elem_exp_squared_norm_param_grad adds to the buffer scale times the derivative of the squared norm with respect to every coefficient.", "quantifier": "all valid functions, all scales, all buffers", "why_tests_cant": "A finite-difference test at one function can be passed by accident; the claim is about all of them.", "anchors": ["c3/lib_funcs/linelm.c: lin_elem_exp_squared_norm_param_grad"]}
{"id": "C52", "title": "Orthonormal piecewise-constant functions", "statement": "const_elem_exp_orth_basis with fixed nodes fills the array with functions that are orthonormal under const_elem_exp_inner.", "quantifier": "all node sets with at least two nodes, all numbers of requested functions", "why_tests_cant": "The first and the last cell are half cells; every node set has other weights.", "anchors": ["c3/lib_funcs/constelm.c: const_elem_exp_orth_basis"]}
{"id": "C53", "title": "Difference quotients of piecewise-constant functions", "statement": "const_elem_exp_deriv returns the function whose nodal values are the forward difference quotients of the nodal values, and the backward one at the last node.", "quantifier": "all valid functions", "why_tests_cant": "The quotients are written over the values they are computed from, which shows at the last node only.", "anchors": ["c3/lib_funcs/constelm.c: const_elem_exp_deriv"]}
{"id": "C54", "title": "Clenshaw-Curtis quadrature is exact for polynomials", "statement": "The N nodes and weights of clenshaw_curtis integrate every polynomial of degree at most N-1 over [-1,1] exactly, writing nothing beyond the first N entries; after rescale_cc the rule is exact for the same degrees over [a,b].", "quantifier": "all N >= 1, all polynomials of degree < N, all intervals [a,b]", "why_tests_cant": "The weights are cosine sums; exactness for every N is the discrete orthogonality of cosines, not a table of cases.", "anchors": ["c3/lib_quadrature/quadrature.c: clenshaw_curtis, rescale_cc"]}
{"id": "C55", "title": "Gauss-Chebyshev quadrature is exact for twice the degree", "statement": "The N nodes and weights of cheb_gauss integrate every polynomial of degree at most 2N-1 against 1/sqrt(1-x^2) over [-1,1] exactly (in the form of the integral of p(cos t) over [0,pi]).", "quantifier": "all N >= 1, all polynomials of degree < 2N", "why_tests_cant": "A statement about all degrees and all N at once.", "anchors": ["c3/lib_quadrature/quadrature.c: cheb_gauss"]}
{"id": "C56", "title": "The rule fejer2 is exact for constants", "statement": "The weights written by fejer2 add up to 2, the length of its interval, as the weights of Fejer's second rule do.", "quantifier": "all N >= 1", "why_tests_cant": "Existing tests use the nodes only.", "anchors": ["c3/lib_quadrature/quadrature.c: fejer2"]}
{"id": "C57", "title": "Constructors of piecewise-linear and piecewise-constant functions", "statement": "lin_elem_exp_linear returns the function a x + b on its whole range, lin_elem_exp_constant and const_elem_exp_constant the constant, const_elem_exp_approx the function that takes the given values at the nodes, and lin_elem_exp_flip_sign the negative of its argument at every point; the nodes are those of the options, or the two ends of the interval if there are none.", "quantifier": "all options with at least two increasing nodes or none, all coefficients, all points", "why_tests_cant": "The value between the nodes has to be right for every grid.", "anchors": ["c3/lib_funcs/linelm.c: lin_elem_exp_linear, lin_elem_exp_constant, lin_elem_exp_flip_sign", "c3/lib_funcs/constelm.c: const_elem_exp_constant, const_elem_exp_approx"]}
{"id": "C58", "title": "Evaluation at several points with strides", "statement": "lin_elem_exp_evalN and const_elem_exp_evalN store at y[i*incy] the value at x[i*incx] for every i < N and leave every other entry of y alone.", "quantifier": "all valid functions, all N, all strides, all buffers", "why_tests_cant": "A stride mistake is invisible for stride one.", "anchors": ["c3/lib_funcs/linelm.c: lin_elem_exp_evalN", "c3/lib_funcs/constelm.c: const_elem_exp_evalN"]}
{"id": "C59", "title": "Functions with given zeros", "statement": "lin_elem_exp_onezero returns a function on the interval that is zero at every given point and one somewhere.", "quantifier": "all sets of zeros in the interval, fixed and adaptive nodes", "why_tests_cant": "The cases differ in which end of the interval is a zero and in the order of the zeros.", "anchors": ["c3/lib_funcs/linelm.c: lin_elem_exp_onezero"]}
{"id": "C60", "title": "Error estimates of piecewise-linear functions", "statement": "For a function sampled from a parabola, lin_elem_exp_err_est writes for every cell the largest distance between the parabola and the function on that cell, and returns the largest of them.", "quantifier": "all parabolas, all grids with at least three nodes, both directions", "why_tests_cant": "A missing division by the cell width does not show on grids of width one.", "anchors": ["c3/lib_funcs/linelm.c: lin_elem_exp_err_est"]}
{"id": "C61", "title": "The hash table of pairs is a finite map", "statement": "For every sequence of add_cpair calls, lookup_key returns the bytes a key was first inserted with, and NULL for a key that was not inserted; add_cpair returns 0 for a new key and 2 for an old one, which it leaves unchanged; nstored_hashtable_cp is the number of distinct keys.", "quantifier": "all table sizes >= 1, all sequences of insertions, all strings", "why_tests_cant": "Colliding hashes and the order of insertions matter; a test sees a few.", "anchors": ["c3/lib_funcs/monitoring.c: create_hashtable_cp, add_cpair, lookup_key, nstored_hashtable_cp, hashsimple, cpair_create"]}
{"id": "C62", "title": "Direct Fourier transforms of every length", "statement": "fft_slow writes the discrete Fourier transform of the N numbers read with stride sx to the N entries with stride sX and leaves the others alone; ifft_slow does so for the inverse transform, and undoes fft_slow; fft_base computes the same as fft_slow on powers of two.", "quantifier": "all N, all inputs, all strides with a positive output stride", "why_tests_cant": "Every length and stride is a different index pattern.", "anchors": ["c3/lib_fft/fft.c: fft_slow, ifft_slow, fft_base"]}
{"id": "C63", "title": "Gradient of a function train with respect to its parameters", "statement": "ft_param_gradeval returns the value of the train at the point and writes, for every parameter, the derivative of that value with respect to the parameter, in the order of the parameters, given the gradients of the univariate functions; the rest of the buffer is left alone.", "quantifier": "all dimensions, ranks, numbers of parameters per function, points and parameter values; all classes of univariate functions", "why_tests_cant": "The offset of each parameter depends on all ranks and all parameter counts before it; finite differences check a few sizes and a tolerance.", "anchors": ["c3/lib_superlearn/parameterization.c: ft_param_gradeval"]}
{"id": "C64", "title": "Evaluation and gradient from stored values of the basis functions", "statement": "If the functions are linear in their parameters and the buffer holds the values of all their basis functions at the coordinates of the point, ft_param_eval_lin returns the value of the train at the point and ft_param_gradeval_lin returns it together with the exact gradient: moving one parameter by s changes the value by s times its entry.", "quantifier": "all dimensions, ranks, numbers of parameters per function, points and parameter values", "why_tests_cant": "The running offsets into the buffer have to be right for every combination of sizes.", "anchors": ["c3/lib_superlearn/parameterization.c: ft_param_eval_lin, ft_param_gradeval_lin"]}
{"id": "C67", "title": "Parameters of a function train through its life", "statement": "After ft_param_alloc, ft_param_alloc_with_ft, ft_param_update_params, ft_param_update_core_params, ft_param_update_restricted_ranks, ft_param_update_inside_restricted_ranks, ft_param_update_structure, ft_param_create_constant and ft_param_copy the stored parameters are those of the functions of the train, in order, and the counts are right; each writes exactly the parameters it names and keeps the others; alloc_with_ft and create_constant (without perturbation) give trains with the same values as the given train or constant; a copy equals its original.", "quantifier": "all dimensions, ranks, options, parameter vectors, rank restrictions", "why_tests_cant": "The offset of each parameter depends on all ranks and counts before it, and the selected blocks can be any subset of rows and columns.", "anchors": ["c3/lib_superlearn/parameterization.c: ft_param_alloc, ft_param_alloc_with_ft, ft_param_copy, ft_param_get_param, ft_param_get_params, ft_param_update_params, ft_param_self_update_params, ft_param_get_nparams_restrict, ft_param_update_restricted_ranks, ft_param_update_inside_restricted_ranks, ft_param_update_core_params, ft_param_update_structure, ft_param_create_constant"]}
{"id": "C69", "title": "Rounding of function trains", "statement": "function_train_round(f,eps) returns a well-formed train g of the same dimension, with ranks no larger than those of f, whose cores except the last have orthonormal columns, which is an orthogonal projection of f (<f,g> = <g,g>, so |g| <= |f|), and with |f - g| <= eps |f|; function_train_round_maxrank_all does the same with all inner ranks at most the given maximum, without the error bound; function_train_orthor changes neither the function nor the ranks and gives all cores except the first orthonormal rows; a function whose norm is below the threshold rounds to the constant 0.", "quantifier": "all dimensions, all ranks, all trains over any inner product space of univariate functions, all tolerances and rank limits", "why_tests_cant": "The error is a sum over one truncation per core, after an orthogonalisation sweep through the whole train; tests check it for a handful of functions with small tolerances.", "anchors": ["c3/lib_clinalg/ft.c: function_train_round, function_train_round_maxrank_all, function_train_orthor, function_train_norm2", "c3/lib_clinalg/qmarray.c: qmarray_truncated_svd, qmarray_first_cols", "c3/lib_linalg/linalg.c: truncated_svd"]}
{"id": "C70", "title": "Pseudoinverse", "statement": "pinv(m,n,m,a,ainv,cutoff) writes the Moore-Penrose inverse of a with the singular values below cutoff taken as zero, and returns the number of the others: with none strictly between 0 and cutoff all four Penrose equations hold, and for a square matrix of full returned rank the result is the two-sided inverse.", "quantifier": "all sizes, all matrices, all non-negative cutoffs, every singular value decomposition of the matrix", "why_tests_cant": "The factors of the decomposition are not unique, and whether a singular value falls below the cutoff decides which equations hold; tests try a few random well conditioned matrices.", "anchors": ["c3/lib_linalg/linalg.c: pinv"]}
{"id": "C71", "title": "Maximum volume pivots", "statement": "qmarray_maxvol1d chooses one row and one location in the domain for each column, no two of them equal, and returns the inverse (pseudoinverse, if the matrix is singular to the threshold) of the matrix of values there.", "quantifier": "all row and column counts, all quasimatrix arrays, every class of univariate functions and every search for the maximum of |f|", "why_tests_cant": "Pivots are exchanged up to 32 times, then overwritten once more and moved apart when equal; which of these happens depends on the functions.", "anchors": ["c3/lib_clinalg/qmarray.c: qmarray_maxvol1d, remove_duplicates, qmarray_absmax1d"]}
{"id": "C72", "title": "Cross approximation interpolates", "statement": "A call of ftapprox_cross with consistent ranks and index sets does no out-of-bounds access; if it returns, the train is well formed, has the requested dimension and exactly the requested ranks, the nested index sets it leaves behind are well formed with as many points as ranks and all points inside the domain (so the next call can start from them), and, when every pivot matrix had full rank, along every line of the first variable through one of the right points the train equals the univariate approximation of the function on that line.", "quantifier": "all dimensions, all ranks, all functions, all index sets, any number of sweeps, every pivot choice", "why_tests_cant": "Each core depends on the index sets chosen while the cores before it were made, left to right and then right to left, for as many sweeps as it takes.", "anchors": ["c3/lib_clinalg/ft.c: ftapprox_cross, prepCore", "c3/lib_clinalg/indmanage.c: cross_index_create_nested_ind, cross_index_get_node_per_dim_val"]}
{"id": "C73", "title": "Cross approximation is exact for functions of low rank", "statement": "If the function has, at every split of the variables, rank at most the rank requested, its fibers are represented exactly by the univariate approximation, and the pivots chosen give invertible matrices that span the fibers, then the train returned by ftapprox_cross equals the function at every point of the domain.", "quantifier": "all dimensions, all ranks, all functions of that rank, all domains, all runs that return", "why_tests_cant": "Exactness at all points of a continuous domain follows from an argument about the fibers spanned at each split; tests compare at a few sampled points.", "anchors": ["c3/lib_clinalg/ft.c: ftapprox_cross", "c3/lib_clinalg/qmarray.c: qmarray_maxvol1d, qmarray_qr, qmarray_lq", "c3/lib_linalg/linalg.c: pinv"]}
{"id": "C74", "title": "Distances between function trains", "statement": "function_train_norm2diff(a,b) is the L2 norm of a - b: never negative, zero for equal functions, symmetric; function_train_relnorm2diff(a,b) is that divided by the norm of b, and norm2diff itself if the squared norm of b is at most the threshold.", "quantifier": "all dimensions, all ranks, all trains over any inner product space of univariate functions", "why_tests_cant": "The difference is formed as a train of larger ranks, with separate code for the first, inner and last cores.", "anchors": ["c3/lib_clinalg/ft.c: function_train_norm2diff, function_train_relnorm2diff"]}
{"id": "C75", "title": "Evaluation of orthogonal polynomial expansions", "statement": "An expansion in Legendre, Chebyshev or Hermite polynomials of the mapped variable evaluates, by every evaluation routine (one point, many points, several expansions at once), to the sum of coefficients times basis functions, divided by the Kristoffel weight when that is on; the families are the classical ones (orthogonal, with the stated norms); derivative evaluation returns the derivative of that function, second derivative evaluation its second derivative, and the gradient with respect to the coefficients is the vector of basis functions at the point.", "quantifier": "all numbers of coefficients, all coefficients, all domains with positive length, all points, all three families", "why_tests_cant": "Each routine runs its own three-term recurrence with special cases for one, two and three terms; a test compares a few orders at sampled points to a tolerance.", "anchors": ["c3/lib_funcs/polynomials.c: orth_poly_expansion_eval, orth_poly_expansion_evalN, orth_poly_expansion_arr_eval, orth_poly_expansion_deriv_eval, cheb_expansion_deriv_eval, cheb_expansion_dderiv_eval, orth_poly_expansion_param_grad_eval, orth_poly_expansion_param_grad_eval2, orth_poly_eval", "c3/lib_funcs/hpoly.c"]}
{"id": "C76", "title": "Sums and multiples of expansions", "statement": "Rounding, change of sign, multiples, a x + y, a x + b y, combinations of many with strides, and a x + b y + c z of orthogonal expansions have in each coefficient the exact combination of coefficients (those beyond the last are zero), up to the stated threshold below which a coefficient becomes zero; family, domain and settings are kept, the block of coefficients stays as large as recorded, and arguments of another family or domain are rejected.", "quantifier": "all numbers of coefficients in each argument, all coefficients, all factors, all thresholds, all strides", "why_tests_cant": "Arguments of different length take different branches with reallocation and several loops; which coefficients survive the threshold depends on their values.", "anchors": ["c3/lib_funcs/polynomials.c: orth_poly_expansion_round, orth_poly_expansion_roundt, orth_poly_expansion_flip_sign, orth_poly_expansion_scale, orth_poly_expansion_axpy, orth_poly_expansion_daxpby, orth_poly_expansion_lin_comb, orth_poly_expansion_sum3_up, orth_poly_expansion_copy"]}
{"id": "C77", "title": "Integrals and inner products of expansions", "statement": "For orthogonal expansions integrate returns the Riemann integral over the domain (the mean under the normal distribution for Hermite), integrate_weighted the mean under the weight of the family, inner_w the weighted inner product, inner and norm the inner product and norm of the functions; param_grad_inner and squared_norm_param_grad return the gradients of inner product and squared norm with respect to the coefficients.", "quantifier": "all numbers of coefficients, all coefficients, all proper domains, the Legendre, Chebyshev and Hermite families", "why_tests_cant": "The values come from formulas in the coefficients that hold because of orthogonality; tests compare with quadrature for a few functions.", "anchors": ["c3/lib_funcs/polynomials.c: orth_poly_expansion_integrate, legendre_integrate, cheb_integrate2, orth_poly_expansion_integrate_weighted, orth_poly_expansion_inner_w, orth_poly_expansion_inner, orth_poly_expansion_norm, orth_poly_expansion_norm_w, orth_poly_expansion_param_grad_inner, orth_poly_expansion_squared_norm_param_grad", "c3/lib_funcs/hpoly.c: hermite_integrate"]}
{"id": "C81", "title": "Settings of cross approximation", "statement": "New settings have outer ranks 1, inner ranks as given, each rank limit 20 above, tolerance 1e-10, five sweeps and adaptation on with steps of 5; every setter changes exactly what it names, for rank limits either all or the one with the given index (an index beyond the last is refused); a copy has the same settings.", "quantifier": "all dimensions, all ranks, all settings", "why_tests_cant": "Loops over ranks and limits, which have different lengths (dim+1 and dim-1), run for every dimension.", "anchors": ["c3/lib_clinalg/ft.c: ft_cross_args_alloc, ft_cross_args_set_rank, ft_cross_args_set_maxrank_all, ft_cross_args_set_maxrank_ind, ft_cross_args_copy"]}
{"id": "C78", "title": "Derivatives as expansions", "statement": "orth_poly_expansion_deriv returns an expansion of the same family and domain whose function is the derivative of the argument, and orth_poly_expansion_dderiv its second derivative, exactly in each coefficient except that coefficients below the stated threshold, in the argument and in the result, may be replaced by zero.", "quantifier": "all numbers of coefficients, all coefficients, all proper domains, all thresholds, all three families", "why_tests_cant": "Legendre uses a closed formula over every other coefficient, the others project pointwise derivatives by quadrature; lengths one, two and three are special cases.", "anchors": ["c3/lib_funcs/polynomials.c: orth_poly_expansion_deriv, orth_poly_expansion_dderiv, cheb_expansion_deriv_eval, cheb_expansion_dderiv_eval", "c3/lib_quadrature/quadrature.c: cheb_gauss"]}
{"id": "C79", "title": "Projection and products of expansions", "statement": "orth_poly_expansion_approx sets the coefficients to the discrete projection of the function and reproduces every polynomial of degree below the number of coefficients; orth_poly_expansion_prod returns an expansion of the product of the two functions, and orth_poly_expansion_inner of two Chebyshev expansions the integral of that product, where coefficients below the stated threshold may be replaced by zero.", "quantifier": "all numbers of coefficients, all coefficients, all proper domains, all thresholds, all functions projected", "why_tests_cant": "Exactness rests on the degree of exactness of the quadrature rule for the number of nodes chosen; which of three ways a product takes depends on family and length.", "anchors": ["c3/lib_funcs/polynomials.c: orth_poly_expansion_approx, orth_poly_expansion_prod, orth_poly_expansion_inner", "c3/lib_quadrature/quadrature.c: cheb_gauss"]}
{"id": "C80", "title": "Parameters and constructors of expansions", "statement": "Expansions keep the coefficients they are given (create, update, get, copy); padding with zeros does not change the function; zero, constant, linear and quadratic build the functions 0, a, a x + b and a (x - b)^2 on the whole domain; genorder builds one member of the family with norm one.", "quantifier": "all numbers of parameters, all coefficients, all proper domains, mean and standard deviation for Hermite", "why_tests_cant": "Blocks are reallocated when they are too small; the coefficients depend on the mapping from the domain.", "anchors": ["c3/lib_funcs/polynomials.c: orth_poly_expansion_update_params, orth_poly_expansion_create_with_params, orth_poly_expansion_get_params, orth_poly_expansion_pad_params, orth_poly_expansion_copy, orth_poly_expansion_zero, orth_poly_expansion_constant, orth_poly_expansion_linear, orth_poly_expansion_linear_update, orth_poly_expansion_quadratic, orth_poly_expansion_genorder"]}
{"id": "C65", "title": "Alternating regression is alternating least squares", "statement": "c3_regression_run_als shows the optimizer of every subproblem the true least-squares objective as a function of the parameters of one core, the others held at their current values, for all samples or a single one, and its true gradient; it starts each subproblem from the current parameters of that core and stores what the optimizer returns; it visits the cores forwards, then the interior ones backwards, until the convergence test or the maximum number of sweeps stops it. If no subproblem increases its objective, the objective of the result is at most that of the start.", "quantifier": "all optimizers that ask any finite, adaptive sequence of questions, all numbers of samples, dimensions, ranks, core functions, weights, sweeps", "why_tests_cant": "Left and right products of evaluated cores are cached per sample and updated incrementally while sweeping; a stale or wrongly indexed one only shows up as a slower fit.", "anchors": ["c3/lib_superlearn/regress.c: c3_regression_run_als", "c3/lib_superlearn/superlearn_util.c: sl_mem_manager_init_running, sl_mem_manager_check_structure", "c3/lib_superlearn/parameterization.c: process_sweep_left_right, process_sweep_right_left, ft_param_core_eval_lin, ft_param_core_gradeval, ft_param_update_core_params", "c3/lib_superlearn/objective_functions.c: c3_objective_function_least_squares"]}
{"id": "C66", "title": "The Hessian-vector product of a parameterised function train is exact and returns the value", "statement": "For a parameterised function train, a point x and a vector v, ft_param_hessvec(ftp,x,v,out) writes to the first nparams entries of out the product of the matrix of second derivatives of the value at x with respect to the parameters with v, leaves the rest of out unchanged, and returns the value of the train at x.", "quantifier": "for all dimensions, ranks, numbers of parameters per function, parameter values, points and vectors", "why_tests_cant": "The routine recomputes a chain of matrix products for each pair of parameters from flat arrays of values and gradients with four running offsets; a wrong offset or a transposed factor shows only for particular combinations of unequal ranks and unequal numbers of parameters, and no test in the repository calls the routine.", "anchors": ["c3/lib_superlearn/parameterization.c:1540-1759"]}
{"id": "C82", "title": "Backtracking line search", "statement": "For an objective, a box with ordered bounds, a starting point inside the box, a direction and 0 < alpha < 1/2, the backtracking line search of the optimizer ends; the new point is the projection to the box of x + t dir with t one of 1, beta, beta^2, ..., it lies in the box, the reported value is the value there, and the returned number is t alpha. All earlier trials missed the sufficient-decrease test and were not closer to x than the tolerance. Code 0 means sufficient decrease, code 1 that the iterations ran out. The number of evaluations is bounded by the iteration limit. From a point strictly inside the box along a descent direction of a differentiable objective, some iteration limit suffices to succeed. Factors alpha outside of (0,1/2), beta outside of (0,1) and starting points outside of the box are rejected with codes -1, -2, -3 and nothing is changed.", "quantifier": "all dimensions, objectives, boxes, points, directions, settings and buffer contents", "why_tests_cant": "The statement is about every objective and every sequence of trials; a test sees a few objectives and cannot exclude that a point reported as success has a larger value.", "anchors": ["c3/lib_optimization/optimization.c:1128", "c3/lib_optimization/optimization.c:1163"]}
{"id": "C83", "title": "Line search for the weak Wolfe conditions", "statement": "For an objective with gradient, a box, a starting point inside and a direction of descent, the bisection search ends within its iteration limit (at most two evaluations per iteration); the reported point is the projection of x + t dir for some t > 0 and lies in the box, the reported value and gradient are those at the reported point, and the returned number is t alpha. Code 0 means that sufficient decrease and the curvature condition hold at t; code 1 that they fail there. A direction of ascent returns to the starting point with code -4.", "quantifier": "all dimensions, objectives, gradients, boxes, points, directions, settings and buffer contents", "why_tests_cant": "Loop over trials whose course depends on the objective; the conditions have to hold for every objective.", "anchors": ["c3/lib_optimization/optimization.c:1281"]}
{"id": "C84", "title": "Line search for the strong Wolfe conditions", "statement": "For an objective with gradient, a box, a starting point inside and a direction of descent, the search ends whatever the objective is; the reported point lies in the box and the reported value and gradient are those at the reported point. Code 0 means that the strong Wolfe conditions hold there (or the point is closer to x than the tolerance), and the returned number is t alpha for the step t that leads there; code 1 means that the iterations ran out while the objective still decreased.", "quantifier": "all dimensions, objectives, gradients, boxes, points, directions, settings and buffer contents", "why_tests_cant": "The inner loop has no iteration limit; that it ends for every objective, and what holds at its end, is not a matter of finitely many runs.", "anchors": ["c3/lib_optimization/optimization.c:1403", "c3/lib_optimization/optimization.c:1477"]}
{"id": "C85", "title": "Projected gradient method", "statement": "Minimization with the gradient method ends after at most the given number of iterations. All points visited lie in the box, the stored values are the values at these points, starting with the given one; the reported value and gradient are those at the reported point. The return code tells why it stopped: small gradient, small change of the value, small step, or the iterations ran out (and then exactly that many steps were made). The values do not increase, and the decrease of the objective bounds the sum of the squared gradient norms on the way.", "quantifier": "all dimensions, objectives, gradients, boxes, starting points and settings, for backtracking and weak Wolfe line searches", "why_tests_cant": "Invariant over all iterations of a loop within a loop, for every objective.", "anchors": ["c3/lib_optimization/optimization.c:2791"]}
{"id": "C86", "title": "Exhaustive minimization", "statement": "Minimization over a given list of locations returns the smallest value among them, the first location where it is attained, and evaluates the objective once per location.", "quantifier": "all objectives, dimensions and lists of at least one location", "why_tests_cant": "Quantifies over all objectives and list lengths; ties and the position of the minimum matter.", "anchors": ["c3/lib_optimization/optimization.c:3001", "c3/lib_optimization/optimization.c:921"]}
{"id": "C87", "title": "BFGS update of the inverse Hessian", "statement": "One update replaces the (upper triangle of the) inverse Hessian H by (I - s y'/s'y) H (I - y s'/s'y) + s s'/s'y with s the step and y the change of the gradient, when the absolute value of s'y exceeds 1e-16, and leaves it unchanged otherwise; the gradient is replaced by the new one and the direction by minus H times it. The updated matrix takes y to s. The new direction is one of descent for every positive definite H.", "quantifier": "all dimensions, points, gradients, matrices and buffer contents", "why_tests_cant": "Matrix identity for every dimension, with a packed triangle updated in place; rounding hides a wrong rank-two term in a converging run.", "anchors": ["c3/lib_optimization/optimization.c:2091", "c3/lib_optimization/optimization.c:2100"]}
{"id": "C88", "title": "Limited-memory inverse Hessian", "statement": "The list of steps with room for m pairs holds, after any number of insertions, exactly the last m pairs of steps and gradient changes with their products; going through it visits them from the newest to the oldest, going back from the oldest to the newest. The product computed with it is that of the vector with the matrix obtained from a multiple of the identity by the BFGS updates with these pairs, oldest first. With positive curvature the product has a positive inner product with the vector, and the newest gradient change is taken to the newest step.", "quantifier": "all dimensions, m, numbers of steps, points, gradients, vectors and scalings", "why_tests_cant": "A ring of linked nodes that wraps around; an error in an old pair changes a direction slightly and only after more than m steps.", "anchors": ["c3/lib_optimization/optimization.c:2321", "c3/lib_optimization/optimization.c:2521"]}
{"id": "C89", "title": "BFGS method", "statement": "Minimization with BFGS ends after at most the given number of iterations without failure. All stored points lie in the box, start at the given point and end at the reported one; the stored values and the reported value and gradient belong to them. Each point is reached by the line search along minus the current matrix times the gradient (or minus the gradient), and the matrix, also the one handed back, is the result of the BFGS updates with all steps so far. The return code tells why it stopped. For convex objectives and a positive definite start the matrix stays positive definite and the directions are of descent.", "quantifier": "all dimensions, objectives, gradients, boxes, starting points and matrices, settings and buffer contents, for backtracking and weak Wolfe line searches", "why_tests_cant": "Invariant over all iterations of nested loops, for every objective.", "anchors": ["c3/lib_optimization/optimization.c:1924"]}
{"id": "C90", "title": "Limited-memory BFGS method", "statement": "Minimization with limited-memory BFGS ends after at most the given number of iterations without failure. All stored points lie in the box, start at the given point and end at the reported one; the stored values and the reported value and gradient belong to them. Each point is reached by the line search along minus the matrix times the gradient, where the matrix is that of the BFGS updates with the last m steps. The return code tells why it stopped.", "quantifier": "all dimensions, objectives, gradients, boxes, starting points, m, settings and buffer contents, for backtracking and weak Wolfe line searches", "why_tests_cant": "Invariant over all iterations of nested loops and the state of a linked list, for every objective.", "anchors": ["c3/lib_optimization/optimization.c:2599"]}
{"id": "C91", "title": "Stochastic gradient descent", "statement": "Every rearrangement of the samples made by the method is a permutation, and every permutation can come up. Minimization ends after at most the given number of epochs without failure. In each epoch every training sample is used once, in a fresh random order, for a step against its gradient with the decayed rate, or after ten epochs with momentum for a step of Adam with corrected moments. The reported point is the result of these steps, the stored values are the mean errors on the training samples, and the return code tells why it stopped. Samples held out for validation have no influence on the result. Without momentum, when every sample pulls towards a common minimizer and the rate is small enough, the distance to it never grows.", "quantifier": "all numbers of samples of at least two, dimensions, objectives, gradients, starting points, settings and sequences of random numbers", "why_tests_cant": "Random orders; an error in the bookkeeping over epochs only changes the rate of convergence.", "anchors": ["c3/lib_optimization/optimization.c:1635", "c3/lib_optimization/optimization.c:1707"]}
{"id": "C92", "title": "Derivative check", "statement": "The check of derivatives returns the norm of the difference between central differences and the gradient divided by the norm of the central differences, reports the difference for each input, and makes 2d evaluations and one of the gradient. For an objective quadratic in each coordinate it vanishes exactly if the gradient is right; for a differentiable one it tends to zero with the step.", "quantifier": "all objectives, gradients, dimensions, points and nonzero steps", "why_tests_cant": "A limit, and an exact statement for every quadratic and every step.", "anchors": ["c3/lib_optimization/optimization.c:1023", "c3/lib_optimization/optimization.c:1072"]}
{"id": "C93", "title": "History of the optimizer", "statement": "With storing of points switched on, the points of the run are stored in order, all of them can be read back, and printing shows them one per line. Nothing is read or written outside the history as long as the iteration limit is kept.", "quantifier": "all dimensions, limits and sequences of points", "why_tests_cant": "Overflow and misplacement depend on the length of a run; tests look at the final point.", "anchors": ["c3/lib_optimization/optimization.c:825"]}
{"id": "C94", "title": "Copies of the optimizer", "statement": "The copy of an optimizer has the same settings, workspace and history as the original.", "quantifier": "all methods, dimensions, limits, workspaces and histories", "why_tests_cant": "Reading past the end of a workspace is often silent; the loss of the last points shows up only in full histories.", "anchors": ["c3/lib_optimization/optimization.c:529"]}
{"id": "C96", "title": "Cross validation", "statement": "Cross validation with k folds tests every sample exactly once, each fold fitted to precisely the samples outside of it from the parameters before the call, with fold sizes N/k and the rest in the last. It returns the squared residuals of the test samples over the squared labels, fails if a fit fails, and leaves parameters and settings as they were. A weighted sample keeps its weight in every fold.", "quantifier": "all regression procedures, samples, dimensions and numbers of folds", "why_tests_cant": "Off-by-one errors in the folds leak test samples into training; the reported error still looks plausible.", "anchors": ["c3/lib_superlearn/regress.c:1579", "c3/lib_superlearn/regress.c:1613"]}
{"id": "C97", "title": "Grid search over settings", "statement": "The grid search cross validates every combination of the listed settings once. Afterwards the settings are those of a combination whose error is below all errors before it and not larger than any other by more than the given relative margin. It never fails for any list of settings.", "quantifier": "all regression procedures, samples, lists of settings and values, numbers of folds", "why_tests_cant": "Number and order of the cases depend on nested loops over lists; the choice is only checked on small grids.", "anchors": ["c3/lib_superlearn/regress.c:1838", "c3/lib_superlearn/regress.c:2119", "c3/lib_superlearn/regress.c:2161"]}
{"id": "C98", "title": "Regression with rank adaptation", "statement": "Regression with rank adaptation ends after at most ten rounds. Each round raises precisely the inner ranks that rounding left alone, by the kick and up to the maximum. Raised ranks are kept only if cross validation is no worse, so the error never rises; otherwise the rounded train of the round before is the result. It stops because a rise was rejected, ten rounds are over, rounding lowered every rank or every rank is at the maximum. No rank in use exceeds the maximum.", "quantifier": "all regression, rounding and cross validation procedures that keep (or do not raise) ranks, all initial ranks, maxima and kicks", "why_tests_cant": "Invariant over a loop whose body is a whole optimization, for every outcome of it.", "anchors": ["c3/lib_superlearn/regress.c:1307"]}
{"id": "C95", "title": "All-at-once regression shows the optimizer the true objective", "statement": "When regression with the all-at-once option runs, every value that the optimizer is given is the mean weighted squared residual of the train with the parameters it asked for (over all samples, or over the sample it chose), plus the regularization weight times the penalty if one was set; every gradient it is given is the gradient of that number with respect to all parameters; and the returned train is the initial train with the parameters the optimizer stopped at.", "quantifier": "every optimizer, train of every dimension and rank, family of functions linear or not in their parameters, data set, sample weights and regularization weight", "why_tests_cant": "The optimizer is arbitrary and adaptive; intermediate buffers are reused between calls, so that an answer can depend on all earlier ones; tests look at the final fit only.", "anchors": ["c3/lib_superlearn/regress.c:458", "c3/lib_superlearn/regress.c:104", "c3/lib_superlearn/regress.c:332", "c3/lib_superlearn/objective_functions.c:138", "c3/lib_clinalg/ft.c:970"]}
{"id": "C99", "title": "A sum of weighted objectives has the gradient of the weighted sum", "statement": "Evaluating a list of weighted objectives returns the weighted sum of their values, and in the gradient array the gradient of this weighted sum, whatever the weights and the order of the objectives are.", "quantifier": "every list of objectives, weights, order and number of parameters", "why_tests_cant": "Only one list is built in the library, with weights one; other weights or orders are not exercised.", "anchors": ["c3/lib_superlearn/objective_functions.c:110", "c3/lib_superlearn/objective_functions.c:138"]}
{"id": "C42", "title": "A piecewise polynomial is the function its pieces describe", "statement": "The bounds, the number of regions and the boundaries of a piecewise polynomial are those of its pieces, however deep they are nested. Its value (and derivative) at a point of the domain is the value of the piece there, also when many points are evaluated with strides. Scaling, change of sign and first and second derivatives act on each piece and keep the grid. The integral is the sum of the integrals of the pieces. Flattening changes no value. Evaluation outside of the domain continues the outermost piece.", "quantifier": "every piecewise polynomial of every depth and number of pieces, every point, every kind of polynomial", "why_tests_cant": "Trees of unbounded depth; points within the tolerance of a node are rarely sampled.", "anchors": ["c3/lib_funcs/piecewisepoly.c:772", "c3/lib_funcs/piecewisepoly.c:851", "c3/lib_funcs/piecewisepoly.c:899", "c3/lib_funcs/piecewisepoly.c:956", "c3/lib_funcs/piecewisepoly.c:1078", "c3/lib_funcs/piecewisepoly.c:1389"]}
{"id": "C68", "title": "Sums, products and inner products of piecewise polynomials on different grids", "statement": "For two piecewise polynomials, on the same or on different grids, a x + y, a x + b y and x y are defined, live on the common domain, and their value is at each point the sum or the product of the values; the inner product is the sum of the inner products of the pieces over the common refinement of both grids.", "quantifier": "every pair of piecewise polynomials of every depth, grid and domain, all coefficients", "why_tests_cant": "Depends on how the nodes of two arbitrary grids interleave.", "anchors": ["c3/lib_funcs/piecewisepoly.c:1426", "c3/lib_funcs/piecewisepoly.c:1481", "c3/lib_funcs/piecewisepoly.c:1531", "c3/lib_funcs/piecewisepoly.c:1569", "c3/lib_funcs/piecewisepoly.c:1727", "c3/lib_funcs/piecewisepoly.c:1797"]}
{"id": "C100", "title": "Piecewise approximation covers the domain and refines until it is good enough", "statement": "Piecewise approximation on user points has exactly these boundaries; on k regions it has k pieces of the same width. Adaptive approximation ends; its pieces cover the domain from left to right, each is the fit of the function on its own interval, each is narrower than the minimal size or its checked last coefficients are within the tolerance, none is narrower than the minimal size over the number of regions unless it is the whole domain, and the options are as before. Splitting a piece keeps its values.", "quantifier": "every function whose fits succeed, every domain, order, minimal size, tolerance, number of checked coefficients and number of regions", "why_tests_cant": "The number of rounds and of pieces depends on the function and is not bounded.", "anchors": ["c3/lib_funcs/piecewisepoly.c:666", "c3/lib_funcs/piecewisepoly.c:709", "c3/lib_funcs/piecewisepoly.c:2370", "c3/lib_funcs/piecewisepoly.c:2447", "c3/lib_funcs/piecewisepoly.c:2522"]}
{"id": "C101", "title": "Normal distribution function and its inverse", "statement": "cdf_normal(mean,std,.) is the distribution function of the normal distribution: one half at the mean, its derivative is the density, it is increasing and symmetric about the mean. For every probability p strictly between 0 and 1, icdf_normal returns the point at which the distribution function is p, up to the tolerance 1e-15 of the iteration.", "quantifier": "every mean, positive standard deviation, point and probability", "why_tests_cant": "The probability ranges over a continuum; the library's test checks two points four standard deviations out, and its check at an inner point is commented out.", "anchors": ["c3/lib_probability/probability_utils.c:96", "c3/lib_probability/probability_utils.c:138", "c3/lib_probability/probability_utils.c:168", "c3/lib_probability/probability_utils.c:192"]}
{"id": "C102", "title": "A kernel expansion is the weighted sum of its Gaussian kernels", "statement": "Creating a kernel expansion from centres, scale and width and giving it parameters makes the weighted sum of Gaussian bumps of this height and width at these centres, with the domain of the options; with adaptive centres the second half of the parameters becomes the centres. Evaluation, also of many points with strides, returns its value; the derivative that is returned is its derivative; the gradient with respect to the parameters holds the partial derivatives by weights and, with adaptive centres, by centres. A wrong number of parameters is rejected.", "quantifier": "every number of kernels (hence every sequence of array doublings), centres, scale, nonzero width, weights, points and strides", "why_tests_cant": "Unbounded number of kernels and continuum of points; a gradient is only ever tested at samples.", "anchors": ["c3/lib_funcs/kernels.c:76", "c3/lib_funcs/kernels.c:89", "c3/lib_funcs/kernels.c:833", "c3/lib_funcs/kernels.c:889", "c3/lib_funcs/kernels.c:919", "c3/lib_funcs/kernels.c:1113", "c3/lib_funcs/kernels.c:1159", "c3/lib_funcs/kernels.c:1200", "c3/lib_funcs/kernels.c:1376"]}
{"id": "C103", "title": "Integrals, inner products, sums and norms of kernel expansions", "statement": "The integral of a kernel expansion is the integral of its function over its domain; the inner product of two expansions is the integral of the product over the common part of the domains; scaling multiplies the function; axpy adds a multiple of the first function to the second when both have the same kernels and is rejected otherwise; the gradient of the squared norm adds the scaled partial derivatives of the integral of the square by the weights.", "quantifier": "every pair of expansions, of every number of kernels with arbitrary heights, centres and nonzero widths, every domain and scalar", "why_tests_cant": "Integrals over a continuum of a closed form in the error function; tests compare against quadrature at a few kernels.", "anchors": ["c3/lib_funcs/kernels.c:104", "c3/lib_funcs/kernels.c:113", "c3/lib_funcs/kernels.c:155", "c3/lib_funcs/kernels.c:1214", "c3/lib_funcs/kernels.c:1235", "c3/lib_funcs/kernels.c:1284", "c3/lib_funcs/kernels.c:1317", "c3/lib_funcs/kernels.c:1435"]}
{"id": "C104", "title": "Canonical decompositions: elements and conversion to a tensor train", "statement": "Reading an element of a tensor in canonical form returns the sum over the terms of the products of the factor entries. Converting it to a tensor train keeps the mode sizes, gives every interior rank the number of terms, and keeps every element; reading an element of the train gives the same number. This holds for any number of modes.", "quantifier": "all commutative rings of scalars, all numbers of modes and terms, all mode sizes, all factor matrices, all indices", "why_tests_cant": "The tests convert a few decompositions with fixed sizes and at least two modes.", "anchors": ["c3/lib_tensdecomp/candecomp.c:61-75", "c3/lib_tensdecomp/candecomp.c:87-162", "c3/lib_tensdecomp/convert.c:59-80"]}
{"id": "C105", "title": "BLAS-type operations on function trains and arrays of them", "statement": "With tolerance zero, or with a rounding that loses nothing: the scaled addition sets y to a x + y; the array versions do so entry by entry with the given strides and leave the other entries; the combination with an array of numbers sets z to alpha sum_i y_i x_i + beta z; the sum of products sets z to a sum_i x_i y_i + beta z; the array-of-trains times a train sets y to alpha sum_i A_i x + beta y; the matrix-vector products set y_i to alpha sum_j A_ij x_j + beta y_i for a matrix of trains and for a matrix of numbers, transposed or not; the inner product is that of the trains.", "quantifier": "all numbers of terms, strides, coefficients, dimensions, ranks, all bases that evaluate sums and products correctly, all points", "why_tests_cant": "The only test calls the scaled addition once, with one pair of trains and a rounding tolerance; the other operations are never called.", "anchors": ["c3/lib_clinalg/ft.c:4423-4430", "c3/lib_clinalg/ft.c:4556-4793"]}
{"id": "C106", "title": "Sobol sensitivity analysis", "statement": "The analysis of a function train with a given maximum order terminates; afterwards the interaction of every nonempty set of at most that many variables can be read, and the interactions of all nonempty subsets of a set add up to the variance of the conditional expectation given the variables of the set; the main effect is the interaction of a single variable; the total effect of a variable times the variance is the sum of the interactions of all sets that contain it; no interaction of a higher order than the maximum is computed; the variables that are integrated out for a set are exactly the others; the function given to the traversal is called once for every such set with its interaction; the enumeration of index sets gives every strictly increasing sequence of the given length once.", "quantifier": "all numbers of variables, all maximum orders, all variances of the train and of its partial integrals, all sets of variables", "why_tests_cant": "Two tests run the analysis with the maximum order equal to the number of variables for two functions and compare a few numbers.", "anchors": ["c3/lib_probability/probability.c:112-139", "c3/lib_probability/probability.c:173-216", "c3/lib_probability/probability.c:252-545"]}
{"id": "C107", "title": "Integrating a function train over some of its variables", "statement": "For variables named in increasing order, at least one and not all, the weighted integral over these variables is a well-formed function train in the other variables, in their order; its value at a point is the sum over the rank paths of the products of the univariate integrals of the named variables and the univariate values of the others; integrating the result over what is left gives the integral of the train. Naming no variable gives the train itself.", "quantifier": "all trains of all ranks and dimensions, all sets of variables, all points, all kinds of univariate functions whose values are linear", "why_tests_cant": "The one test integrates fixed sets of variables of one sum of four univariate functions (ranks two) and compares one fixed point for each set.", "anchors": ["c3/lib_clinalg/ft.c:2236-2345", "c3/lib_clinalg/qmarray.c:1655-1669"]}
