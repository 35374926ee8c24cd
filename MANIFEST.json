{
 "claims": [
  {
   "property": "C01",
   "status": "proved",
   "theorems": [
    "C01_DiagMA_solves",
    "C01_TDMA_solves",
    "C01_TDMA_O_solves",
    "C01_FDMA_solves",
    "C01_TwoDMA_solves"
   ],
   "note": "exact arithmetic over any field; the C and numba bodies are identical to the Python ones"
  },
  {
   "property": "C02",
   "status": "proved",
   "theorems": [
    "C02_PDMA_solves",
    "C02_HeptaDMA_solves"
   ],
   "note": ""
  },
  {
   "property": "C03",
   "status": "partial",
   "theorems": [
    "C03_ThreeDMA_refuted",
    "C03_ThreeDMA_partial",
    "C03_ThreeDMA_repaired"
   ],
   "note": "refuted for the code as it stands (u2 = data[1, 4:] in la.py, la.pyx and numba): C03_ThreeDMA_refuted; partial: matrices whose super-diagonals coincide; repaired version proved"
  },
  {
   "property": "C04",
   "status": "proved",
   "theorems": [
    "C04_reuse"
   ],
   "note": ""
  },
  {
   "property": "C05",
   "status": "partial",
   "theorems": [
    "C05_pinned",
    "C05_pinned_history",
    "C05_PDMA_refuted",
    "C05_HeptaDMA_refuted",
    "C05_TDMA_O_refuted",
    "C05_after_unconstrained_refuted"
   ],
   "note": "proved for DiagMA, TDMA, FDMA, TwoDMA (fresh and constrained histories); refuted for PDMA, HeptaDMA, TDMA_O and for constraining after an unconstrained solve"
  },
  {
   "property": "C06",
   "status": "partial",
   "theorems": [
    "C06_axis_2D",
    "C06_axis_3D",
    "C06_axis_4D",
    "C06_cython_solve",
    "C06_one_matrix_per_line_3D",
    "C06_one_matrix_per_line_2D",
    "C06_cython_4D_refuted",
    "C06_cython_DiagMA_refuted"
   ],
   "note": "proved for 2-, 3- and 4-dimensional arrays, every axis and every solver class, for the Cython functions with 1 to 3 dimensions (and one-matrix-per-line solves in 3D); refuted for the Cython 4-D dispatch (arrays returned unsolved) and for Cython DiagMA with arrays longer than the matrix"
  },
  {
   "property": "C07",
   "status": "proved",
   "theorems": [
    "C07_unique",
    "C07_dominant_safe",
    "C07_pivots_iff",
    "C07_TDMA_agrees_with_PDMA"
   ],
   "note": ""
  },
  {
   "property": "C08",
   "status": "proved",
   "theorems": [
    "C08_matvec"
   ],
   "note": ""
  },
  {
   "property": "C09",
   "status": "proved",
   "theorems": [
    "C09_add",
    "C09_sub",
    "C09_iadd",
    "C09_isub",
    "C09_iadd_self",
    "C09_scalar"
   ],
   "note": ""
  },
  {
   "property": "C10",
   "status": "partial",
   "theorems": [
    "C10_scale_refuted",
    "C10_zeros_refuted",
    "C10_hash_refuted",
    "C10_partial"
   ],
   "note": "refuted: == ignores the scale, compares only non-zero entries in order, and compares key sets by hash (hash(-1)==hash(-2)); C10_partial states what == guarantees"
  },
  {
   "property": "C11",
   "status": "proved",
   "theorems": [
    "C11_offsets",
    "C11_solve",
    "C11_complete"
   ],
   "note": "dispatch and solve proved for all patterns except (0,2,4), whose class is refuted in C03"
  },
  {
   "property": "C12",
   "status": "partial",
   "theorems": [
    "C12_matvec_partial",
    "C12_scalar_scale_refuted",
    "C12_three_nondiagonal_refuted"
   ],
   "note": "tp_matvec = scale*Kronecker product for all shapes, factors, any number of diagonal axes and at most two nondiagonal ones, both application orders. Missing because false of the code: scaled scalar diagonals lose their scale; three or more nondiagonal axes return zeros (both refuted)."
  },
  {
   "property": "C13",
   "status": "partial",
   "theorems": [
    "C13_partial",
    "C13_same_object_refuted",
    "C13_inputs_mutated_refuted",
    "C13_factor_scale_refuted"
   ],
   "note": "Proved for fresh matrices of a space with a diagonal axis when == does not confuse factors (duplicates of one object allowed). Refuted otherwise: [A,A,A] becomes 4A, inputs are mutated, factor scales are ignored by ==."
  },
  {
   "property": "C14",
   "status": "partial",
   "theorems": [
    "C14_partial",
    "C14_fourier_partial",
    "C14_iadd_refuted",
    "C14_add_mutates_refuted",
    "C14_sparse_double_refuted",
    "C14_sparse_distinct_partial",
    "C14_sparse_merge_partial"
   ],
   "note": "Block rows proved for tensor product blocks (with simplification, and all-Fourier with distinct objects); one-dimensional blocks when no two matrices compare equal, and the addition of a matrix that equals exactly one. Refuted: M += N binds M to None; P = M + N changes M; one-dimensional blocks can be double counted."
  },
  {
   "property": "C15",
   "status": "proved",
   "theorems": [
    "C15_sound",
    "C15_lossless",
    "C15_dropped",
    "C15_amax"
   ],
   "note": "Proved for all rectangular rational matrices, bands and tolerances."
  },
  {
   "property": "C16",
   "status": "proved",
   "theorems": [
    "C16_c2c_permutation",
    "C16_c2c_modes",
    "C16_r2c",
    "C16_eliminate"
   ],
   "note": "all N; integer frequencies (the float evaluation inside numpy.fft.fftfreq is not modelled)"
  },
  {
   "property": "C17",
   "status": "proved",
   "theorems": [
    "C17_c2c_backward_forward",
    "C17_c2c_forward_backward",
    "C17_r2c_backward_forward",
    "C17_r2c_forward_backward"
   ],
   "note": "any field with a primitive N-th root of unity; Complex.v shows exp(2 pi i/N) is one; FFTW/numpy transforms are modelled by their defining sums"
  },
  {
   "property": "C18",
   "status": "partial",
   "theorems": [
    "C18_c2c_lossless",
    "C18_c2c_values",
    "C18_c2c_values_even",
    "C18_r2c_lossless",
    "C18_r2c_values",
    "C18_single_mode_refuted"
   ],
   "note": "all N >= 2 and all padded sizes; refuted for N = 1 (slice -(N//2) is 0)"
  },
  {
   "property": "C19",
   "status": "partial",
   "theorems": [
    "C19_c2c_partial",
    "C19_r2c_partial",
    "C19_backward_partial",
    "C19_small_refuted"
   ],
   "note": "C2C N >= 6, R2C N >= 3; refuted for C2C with N <= 5"
  },
  {
   "property": "C20",
   "status": "partial",
   "theorems": [
    "C20_c2c",
    "C20_c2c_three_halves_partial",
    "C20_nyquist_refuted",
    "C20_r2c",
    "C20_convolve_1D",
    "C20_convolve_real_1D"
   ],
   "note": "exact when 3*(N//2) < Np; with the 3/2 rule all modes but Nyquist; refuted for the Nyquist mode of every even N"
  },
  {
   "property": "C21",
   "status": "partial",
   "theorems": [
    "C21_c2c",
    "C21_r2c_aligned",
    "C21_ranks_partial",
    "C21_ranks_refuted",
    "C21_1d_r2c_partial",
    "C21_1d_r2c_refuted"
   ],
   "note": "C2C, aligned R2C and distributed R2C with two or more coefficients per rank proved; refuted for one coefficient per rank and for one-dimensional R2C bases with N = 0, 3 mod 4"
  },
  {
   "property": "C22",
   "status": "partial",
   "theorems": [
    "C22_requested_size",
    "C22_three_halves_size",
    "C22_padded_shape_partial",
    "C22_padded_shape_exact_partial",
    "C22_dyadic_cases",
    "C22_padded_shape_refuted",
    "C22_r2c_trunc_refuted",
    "C22_refine_partial",
    "C22_refine_refuted",
    "C22_refine_r2c_odd_refuted"
   ],
   "note": "In IEEE doubles (Flocq binary64): sizes are the requested M or M-1, exact (for any number of copies) when M/N is a double. Refuted: 3/2 rule on N=157 reports 234 of 235 points and truncates to 156 modes, each copy loses one more; R2C with N=14 padded 4/3 gets 7 of 8 modes; refine 11 -> 15 gives 14; refine of an odd R2C first axis (7 -> 14) gives 7 of 8 modes."
  },
  {
   "property": "C23",
   "status": "partial",
   "theorems": [
    "C23_get_dealiased_partial",
    "C23_get_dealiased_history_partial",
    "C23_vector_partial",
    "C23_one_dimension",
    "C23_cache_refuted",
    "C23_backward_partial",
    "C23_backward_refuted"
   ],
   "note": "Right whenever no earlier call used the same factors with the other dealias_direct. Refuted: the cache key ignores dealias_direct; Function.backward reuses the work array of the first padding factor for all others."
  },
  {
   "property": "C24",
   "status": "partial",
   "theorems": [
    "C24_components_partial",
    "C24_components_bijection",
    "C24_negative_index_refuted",
    "C24_views_partial",
    "C24_views_singleton_refuted",
    "C24_dims",
    "C24_flatten_bijection",
    "C24_round_trip",
    "C24_round_trip_vector",
    "C24_keys_partition",
    "C24_scalar_partial",
    "C24_scalar_refuted"
   ],
   "note": "Flattening bijection and round trips for every nesting and key. Refuted: negative indices (offset 0), u[0][0] for a nested space with one component, scalar spaces with two Fourier axes (broadcast error)."
  },
  {
   "property": "C25",
   "status": "proved",
   "theorems": [
    "C25_add",
    "C25_sub",
    "C25_add_sub_return",
    "C25_neg",
    "C25_mul",
    "C25_mul_number",
    "C25_simplify",
    "C25_simplify_collects"
   ],
   "note": "Over abstract sympy expressions with laws (SymLaws), met by a concrete instance. Multiplication by a tuple is modelled but has no theorem of its own."
  },
  {
   "property": "C26",
   "status": "partial",
   "theorems": [
    "C26_dx",
    "C26_dx_defined",
    "C26_dx_returns",
    "C26_dx_vector_returns",
    "C26_dx_commutes",
    "C26_composite_refuted"
   ],
   "note": "All orders and axes, product rule included. Refuted for test functions of composite spaces whose number of components is not 1, ndim or ndim^2: Dx raises."
  },
  {
   "property": "C27",
   "status": "partial",
   "theorems": [
    "C27_grad",
    "C27_grad_vector",
    "C27_div",
    "C27_div_tensor",
    "C27_curl_3d",
    "C27_curl_2d_vector",
    "C27_curl_2d_scalar",
    "C27_div_grad_is_laplacian",
    "C27_curl_grad_is_zero",
    "C27_div_curl_is_zero",
    "C27_identities_return",
    "C27_zero_results_raise_refuted"
   ],
   "note": "Meanings of grad, div and curl and the three identities for every expression. Refuted: the zero results have empty components, and the next operator raises IndexError on them."
  },
  {
   "property": "C28",
   "status": "partial",
   "theorems": [
    "C28_cross",
    "C28_cross_cython",
    "C28_cross_in_place_refuted",
    "C28_outer_cython",
    "C28_outer_partial",
    "C28_outer_self_refuted",
    "C28_dot_cartesian",
    "C28_dot_curvilinear"
   ],
   "note": "cross (Python, c distinct from a, b; Cython for every aliasing), outer (Cython), dot in Cartesian, orthogonal and general curvilinear coordinates, ranks 1 and 2. Refuted: Python cross3D in place; Python outer3D(a, a) leaves entry (2,1) stale."
  },
  {
   "property": "C29",
   "status": "partial",
   "theorems": [
    "C29_derivative_meaning",
    "C29_chebyshev_meaning",
    "C29_chebyshev",
    "C29_legendre",
    "C29_chebyshevu",
    "C29_ultraspherical",
    "C29_jacobi",
    "C29_laguerre",
    "C29_explicit_stencils",
    "C29_legendre_bipolar",
    "C29_chebyshev_bipolar_partial",
    "C29_chebyshev_bipolar_refuted",
    "C29_lower_dirichlet_refuted",
    "C29_wrong_length_refuted",
    "C29_independent",
    "C29_rows_beyond_dim"
   ],
   "note": "all classes given by a stencil (chebyshev, legendre, chebyshevu, ultraspherical, jacobi, laguerre) and explicit stencils, for every N and index; independence; findings: chebyshev.ShenBiPolar row 0, chebyshevu/ultraspherical.LowerDirichlet default bc, chebyshev.Heinrichs2 and PolarDirichlet diagonal length"
  },
  {
   "property": "C30",
   "status": "partial",
   "theorems": [
    "C30_inverse",
    "C30_affine",
    "C30_endpoints_partial",
    "C30_tolerance",
    "C30_endpoints_refuted"
   ],
   "note": "Exact arithmetic. The end points theorem excludes domains whose length differs from the reference length by a non-zero amount below 1e-12, for which the claim is refuted (the error is below 1e-12: C30_tolerance)."
  },
  {
   "property": "C31",
   "status": "partial",
   "theorems": [
    "C31_rescaling_partial",
    "C31_rescaling_refuted",
    "C31_twice_refuted",
    "C31_ordered",
    "C31_dispatch",
    "C31_tuple",
    "C31_num_derivatives_refuted"
   ],
   "note": "Rescaling is proved for D, N, N2, N3 on every domain; refuted for N4, R and W, for BoundaryConditions rebuilt from already rescaled ones, and num_derivatives raises KeyError for W and N5. Dictionary order, names, values, dispatch string and tuple input proved in full."
  },
  {
   "property": "C32",
   "status": "partial",
   "theorems": [
    "C32_steps",
    "C32_exact_partial",
    "C32_end",
    "C32_tiny_refuted",
    "C32_nonpositive",
    "C32_double_refuted",
    "C32_matrices",
    "C32_matrices_refuted"
   ],
   "note": "Loop over exact reals: number of steps, times and update calls proved for every dt > 0; refuted: a step is lost for dt <= 1e-8, and one is gained in double precision (SpecFloat) for t0 = 1e8, dt = 0.1; re-use of matrices within 1e-12."
  },
  {
   "property": "C33",
   "status": "partial",
   "theorems": [
    "C33_rk4_order",
    "C33_rk4_polynomial",
    "C33_rk4_linear",
    "C33_rk4_number_refuted",
    "C33_imex_stages",
    "C33_imex111_order",
    "C33_imex222_order",
    "C33_imex443_order",
    "C33_nodes",
    "C33_imex011_refuted",
    "C33_irk3_order_partial",
    "C33_irk3_explicit_order",
    "C33_irk3_history",
    "C33_imexrk3_same",
    "C33_irk3_order3_refuted",
    "C33_be_order_partial",
    "C33_be_start_refuted",
    "C33_etd_constant",
    "C33_etdrk4_L0",
    "C33_etd_complex_refuted"
   ],
   "note": "Local orders for arbitrary (smooth) nonlinear and linear parts, all dt small: RK4 4, IMEXRK111/222/443 1/2/3, IRK3/IMEXRK3 2 with a linear part (3 without), BackwardEuler 1 after the first step, ETD/ETDRK4 exact for constant N, ETDRK4 = RK4 for L = 0. Refuted: IRK3 order 3, IMEXRK011 drops L, RK4 drops constant diagonals, BackwardEuler's first step, ETD/ETDRK4 with imaginary L (psi real). Order 4 of ETDRK4 for general L not proved; the contour mean for psi is taken as exact."
  },
  {
   "property": "C34",
   "status": "partial",
   "theorems": [
    "C34_clenshaw",
    "C34_clenshaw_S_partial",
    "C34_clenshaw_cosine",
    "C34_recursive_evaluation",
    "C34_recursive_scalar_product",
    "C34_recursive_scalar_product_cython_partial",
    "C34_recursive_scalar_product_cython_refuted",
    "C34_restricted_product",
    "C34_legendre_family",
    "C34_legendre_recursive",
    "C34_jacobi_family_partial",
    "C34_jacobi_recursive_partial",
    "C34_jacobi_opposite_parameters_refuted",
    "C34_eval_2D_partial",
    "C34_eval_2D_odd_partial",
    "C34_eval_3D_partial",
    "C34_eval_2D_nyquist_refuted",
    "C34_eval_3D_variants",
    "C34_lm_2D",
    "C34_lm_3D_partial",
    "C34_lm_3D_crc_refuted",
    "C34_lm_ranks_partial",
    "C34_lm_ranks_refuted",
    "C34_eval_python_2D",
    "C34_eval_python_3D",
    "C34_eval_python_2D_first",
    "C34_eval_1D_r2c",
    "C34_eval_complex",
    "C34_lm_complex",
    "C34_expr_eval_serial_partial",
    "C34_expr_eval_ranks_refuted"
   ],
   "note": "Clenshaw and recursion kernels right for all lengths; method 2 and complex kernels right for every N and grid of ranks; methods 0/1 right for odd N or vanishing Nyquist coefficients. Refuted: methods 0/1 count the mode N/2 twice for every even N (ii > 0 & ii < M test), _eval_lm_3D crc uses the wavenumbers of axis 1 for axis 2, low-memory kernels use local indices for evaluate_basis when the axis is distributed, Expr.eval has no allreduce, cython scalar_product swaps its loop bounds, the Jacobi kernel drops the diagonal for alpha = -beta."
  },
  {
   "property": "C35",
   "status": "partial",
   "theorems": [
    "C35_multiplication_by_x",
    "C35_multiplication_by_x_cancelled",
    "C35_cancellation_is_exact",
    "C35_powers_of_x",
    "C35_matrix_c",
    "C35_matrix_b",
    "C35_integration_powers",
    "C35_psi",
    "C35_underlined_a",
    "C35_boundary_values",
    "C35_shifted_matrix",
    "C35_shifted_scale_refuted"
   ],
   "note": "Matrices a, b, c (every scaling gn), matrix powers x^q and B^q for every q, psi for every order, a_ for every k,q, bnd_values for every order, ShiftedMatrix for every shift. Raw formulas are 0/0 for alpha+beta=0 or -1 in column 0 (hypotheses); the sympy-cancelled ones hold for all alpha,beta>-1. ShiftedMatrix of a SparseMatrix drops its scale (C35_shifted_scale_refuted)."
  },
  {
   "property": "C36",
   "status": "partial",
   "theorems": [
    "C36_chebyshev_dictionary",
    "C36_chebyshev_mass_quadrature",
    "C36_chebyshev_lobatto_differs",
    "C36_chebyshev_shapes",
    "C36_chebyshevu_dictionary",
    "C36_chebyshevu_mass_quadrature",
    "C36_legendre_dictionary",
    "C36_legendre_unused",
    "C36_legendre_mass_quadrature",
    "C36_legendre_shapes",
    "C36_legendre_scaled_partial",
    "C36_legendre_scaled_refuted",
    "C36_legendre_scaled_rp1_refuted"
   ],
   "note": "Legendre family: all 40 dictionary entries and the 4 unused classes hold the exact integrals for every N, mass matrices hold the quadrature sums for any orthogonal rule, shapes for N >= 9; refuted: scaled ShenDirichlet first-derivative matrices divide by one norm only, and the weight (1+x) second-derivative matrix ignores the scaling. Chebyshev family: 34 of 35 dictionary entries (BTLmat is in C46), both Heinrichs scalings, hold the exact weighted inner products for every N >= 2; with quadrature the mass matrices hold the sums over the Gauss-Chebyshev / Gauss-Lobatto points and weights, whose discrete orthogonality is proved. Chebyshev family of the second kind: all 5 entries, scaled and unscaled test spaces, every N, both rules."
  },
  {
   "property": "C37",
   "status": "partial",
   "theorems": [
    "C37_scalar",
    "C37_vector",
    "C37_tensor_partial",
    "C37_tensor_1D_partial",
    "C37_tensor_3D_partial",
    "C37_tensor_1D_refuted",
    "C37_tensor_3D_refuted",
    "C37_tensor_3D_missed_refuted"
   ],
   "note": "all dimensions, bases and distributions for scalar and vector fields; tensor fields except 1 and 3 dimensions, where the Cython loops use wrong bounds (refuted; 3D writes out of bounds). For 1D tensor fields exactly which Nyquist coefficients survive; 3D tensor fields proved when the first local axis has as many points as components."
  },
  {
   "property": "C38",
   "status": "proved",
   "theorems": [
    "C38_same_key_same_array",
    "C38_different_keys_different_arrays",
    "C38_contents"
   ],
   "note": "every history of requests, deletions and writes by callers (explicit __setitem__ of a foreign array is not part of the histories)"
  },
  {
   "property": "C39",
   "status": "partial",
   "theorems": [
    "C39_biharmonic",
    "C39_biharmonic_fourth_order",
    "C39_biharmonic_three_arguments",
    "C39_biharmonic_odd_refuted",
    "C39_biharmonic_small_refuted",
    "C39_biharmonic_domain_refuted",
    "C39_poisson_dirichlet",
    "C39_poisson_dirichlet_small",
    "C39_poisson_neumann",
    "C39_helmholtz_dirichlet",
    "C39_helmholtz_neumann",
    "C39_helmholtz_neumann_zero",
    "C39_helmholtz_two_arguments",
    "C39_helmholtz_small",
    "C39_helmholtz_lines",
    "C39_numba_lines_refuted",
    "C39_neumann_unit_pivot_refuted",
    "C39_no_pivoting_refuted",
    "C39_four_arguments_scale_refuted"
   ],
   "note": "Poisson, Helmholtz and biharmonic solvers, one axis, homogeneous conditions, real right hand sides; Helmholtz pivots proved non-zero for alpha*beta <= 0; for the biharmonic solver every returned solution is proved right and one is returned for alfa = beta = 0 (pivots for other constants are not proved non-zero). Refuted: numba shares A_0 between the lines of a Neumann problem, so a line with beta = 0 spoils all later lines; beta*pi = 1 zeroes u[0]; no pivoting for alpha*beta > 0; the four-argument form ignores the scales of the matrices; the biharmonic solver divides by zero for every odd N, is out of bounds for N < 14, and is wrong on domains with a factor other than 1."
  },
  {
   "property": "C40",
   "status": "partial",
   "theorems": [
    "C40_wrap_periodic_partial",
    "C40_first_axis_refuted"
   ],
   "note": "all shapes; axis 0 only for two-dimensional arrays (np.vstack), refuted for three and more dimensions"
  },
  {
   "property": "C41",
   "status": "partial",
   "theorems": [
    "C41_stale_after_imul_refuted",
    "C41_stale_after_iadd_refuted",
    "C41_partial"
   ],
   "note": "refuted: the solver kept in A.solver is not dropped by A*=y or A+=B; histories of solves only are proved"
  },
  {
   "property": "C42",
   "status": "proved",
   "theorems": [
    "C42_to_ortho",
    "C42_to_ortho_classes"
   ],
   "note": "any stencil matrix with offsets >= -dim and all stencil classes"
  },
  {
   "property": "C43",
   "status": "partial",
   "theorems": [
    "C43_stencil",
    "C43_bc_basis",
    "C43_conditions_refuted"
   ],
   "note": "Relative to A.solve returning a solution of the linear system (sympy is not modelled). Refuted: W and N5 conditions are rejected."
  },
  {
   "property": "C44",
   "status": "partial",
   "theorems": [
    "C44_backward_values",
    "C44_scalar_product_values",
    "C44_forward_backward",
    "C44_backward_forward",
    "C44_padded_lobatto_refuted",
    "C44_mass_solve",
    "C44_mass_solve_refuted",
    "C44_composite_backward",
    "C44_composite_scalar_product",
    "C44_composite_forward_backward",
    "C44_rows_beyond_refuted"
   ],
   "note": "FFTW's DCTs by their defining sums, one axis, homogeneous conditions. Refuted: with Gauss-Lobatto points and padding the last coefficient comes back halved; BTTmat.solve ignores the scale of the matrix and halves the last entry also for an exactly assembled matrix; the composite fast scalar product leaves values in the rows beyond the last basis function."
  },
  {
   "property": "C45",
   "status": "partial",
   "theorems": [
    "C45_BSDSD",
    "C45_BSDSN",
    "C45_BSBSB",
    "C45_BSBSD",
    "C45_CSDSN",
    "C45_CSDSD",
    "C45_CSBSD",
    "C45_CSDSB",
    "C45_ASBSB",
    "C45_ASDSD",
    "C45_CTT",
    "C45_CLL",
    "C45_CTSD_partial",
    "C45_ATT_partial",
    "C45_SSBSB_partial",
    "C45_BSNSN_partial",
    "C45_BSNSN_refuted",
    "C45_ASNSN_partial",
    "C45_ASNSN_scale_refuted",
    "C45_helmholtz_dirichlet_partial",
    "C45_helmholtz_dirichlet_refuted",
    "C45_helmholtz_neumann_numba",
    "C45_helmholtz_neumann_cython_refuted",
    "C45_biharmonic_partial",
    "C45_CTSD_refuted",
    "C45_ATT_overflow_refuted",
    "C45_SSBSB_overflow_refuted",
    "C45_biharmonic_refuted",
    "C45_biharmonic_overflow_refuted",
    "C45_small_sizes_refuted"
   ],
   "note": "One line of the array (the loops over the other axes call the line kernel), exact reals, C ints wrap around. Scales that scale_array applies exactly (1, or further than 1e-8 from 1). Refuted: CTSDmat.matvec has pi built in and ignores the domain factor; ATTmat overflows from N = 1292 on, SSBSBmat from N = 9465, cython Biharmonic from N = 9469; Biharmonic.matvec and Helmholtz.matvec (Dirichlet) mix entries of the reference domain into the scaled matrices; cython Helmholtz.matvec (Neumann) rounds 1/k^2 to an integer; BSNSNmat and ASNSNmat leave old values of the output array, ASNSNmat.matvec divides by the scale (numba) or multiplies by it twice (Python); small matrices are read out of bounds."
  },
  {
   "property": "C46",
   "status": "partial",
   "theorems": [
    "C46_leg2cheb",
    "C46_leg2cheb_transpose",
    "C46_cheb2leg",
    "C46_round_trip",
    "C46_Cheb2Leg_direct_partial",
    "C46_Cheb2Leg_direct_odd_refuted",
    "C46_FMMLeg2Cheb_direct_partial",
    "C46_FMMLeg2Cheb_direct_odd_refuted",
    "C46_BTL_exact",
    "C46_BTL_quadrature",
    "C46_BTL_exact_lobatto_refuted",
    "C46_BTL_matvec_partial",
    "C46_BTL_matvec_refuted"
   ],
   "note": "leg2cheb in all three implementations and Leg2Cheb's direct branch give the same polynomial for every N and coefficient array (through L_n as a sum of T_k with Gamma ratios, proved), transpose is the adjoint, cheb2leg likewise, round trips both ways; BTLmat holds the exact products for Gauss points and the quadrature sums for both rules. Refuted: Cheb2Leg.__call__ (use_direct, more than one dimension) and FMMLeg2Cheb use N//2 and drop a term for odd N; BTLmat assembled exactly with Gauss-Lobatto points doubles the last diagonal entry; BTLmat.matvec leaves out scale and the doubled entry. The fast multipole (low rank) branch is in C47. Missing: Hale-Townsend, the approximations of Lambda."
  },
  {
   "property": "C47",
   "status": "partial",
   "theorems": [
    "C47_every_entry_once",
    "C47_submatrices_inside",
    "C47_padded",
    "C47_padded_py",
    "C47_leg2cheb_partial",
    "C47_leg2cheb_transpose_partial",
    "C47_cheb2leg_partial",
    "C47_conversionmatrix",
    "C47_sweeps",
    "C47_sweeps_transpose",
    "C47_leg2cheb_accuracy",
    "C47_leg2cheb_transpose_accuracy",
    "C47_cheb2leg_accuracy"
   ],
   "note": "Coverage exactly once, submatrices inside the arrays and above the diagonal, padded sizes: proved for every list of domain sizes, block size and number of diagonals. FMMcheb with its sweeps through the levels (conversion matrices, index arithmetic, transposed version) is the product with the low rank submatrices, exactly. Leg2Cheb (both directions) and Cheb2Leg with the sweeps stay within 2/pi eps sum|c| (resp. (i+1/2) eps sum max(k,1)|c_k|) of leg2cheb / cheb2leg when the submatrices are within eps of the entries; with exact entries they describe the same polynomial. Missing: that the adaptive interpolation in getChebyshev meets such an eps, and that its numbers of coefficients do not decrease towards the finest level (hypothesis sizes_fit; the code does not check it and would drop coefficients)."
  },
  {
   "property": "C48",
   "status": "partial",
   "theorems": [
    "C48_saved",
    "C48_crash_safe",
    "C48_read",
    "C48_kill",
    "C48_between",
    "C48_main_alone_refuted",
    "C48_new_object_refuted",
    "C48_lists_refuted"
   ],
   "note": "Main file holds the last completed checkpoint after every history; at every crash point, for every schedule of the ranks and every damage to files in flight, main or old holds it; read on any number of ranks; stop file. Refuted: the main file alone can be readable and torn; a new Checkpoint object that did not read first truncates main and copies it over old, so a crash of its first checkpoint loses both; lists of several arrays are written to one dataset (only the last survives)."
  },
  {
   "property": "C49",
   "status": "partial",
   "theorems": [
    "C49_bilinear_partial",
    "C49_linear_partial",
    "C49_names_refuted",
    "C49_hessian_refuted",
    "C49_boundary_3d_refuted",
    "C49_empty_refuted",
    "C49_linear_components_refuted"
   ],
   "note": "Proved for bilinear and linear forms of rank 0, 1 and 2 (scalar, vector and tensor spaces, recursive algorithms included), from: one-dimensional matrices are right (C36, C44), sympy's separatevars is right for coordinates named x, y, z, r, s, at most one inhomogeneous axis or two dimensions, and a trial matrix without diagonals has no boundary matrix. Refuted outside: other coordinate names drop the measure; rank 2 in scalar spaces (grad(grad(v))) raises; in 3D two inhomogeneous axes give boundary matrices with two factors and three give none; boundary matrix dropped when the interior matrix has no diagonals; linear forms of vector test functions write component p of the test expression to component p of the output, wrong for grad(div(v)) or curl(v). Arrays as trial functions, complex coefficients and matrix simplification are not modelled."
  },
  {
   "property": "C50",
   "status": "partial",
   "theorems": [
    "C50_planned",
    "C50_distribution",
    "C50_forward",
    "C50_scalar_product",
    "C50_backward",
    "C50_any_grid",
    "C50_matrix",
    "C50_round_trip",
    "C50_round_trip_back",
    "C50_padded_backward",
    "C50_padded_forward",
    "C50_padded_scalar_product_partial",
    "C50_padded_scalar_product_refuted",
    "C50_padded_pencil_refuted",
    "C50_collapse_dealias_refuted"
   ],
   "note": "Proved: planning, block distribution, forward, scalar_product, backward, independence of grid and order, round trips, padded forward and backward; mpi4py_fft's Pencil/Transfer/Subcomm are modelled by contract. Collapsed Fourier axes need bases without the 2/3-rule (C50_collapse_dealias_refuted: the rule is ignored on all collapsed axes but the last). Refuted: scalar_product of a padded space in parallel (redistributions handed over in the wrong direction); the coefficient pencil of a padded space has the physical length along its first axis. Curvilinear measures (get_measured_input_array) and the two-inhomogeneous-axes branch of forward are not in this model."
  },
  {
   "property": "C51",
   "status": "partial",
   "theorems": [
    "C51_covariant",
    "C51_contravariant",
    "C51_scaling",
    "C51_volume",
    "C51_christoffel",
    "C51_classification",
    "C51_grad",
    "C51_grad_surface",
    "C51_projection",
    "C51_div",
    "C51_div_surface",
    "C51_grad_vector",
    "C51_div_tensor",
    "C51_curl_3d",
    "C51_curl_2d",
    "C51_curl_surface",
    "C51_curl_left_handed_refuted",
    "C51_laplace"
   ],
   "note": "Proved for up to three parameters, with sympy represented by the laws of SymLaws/SymSLaws (value, derivative, definedness), which CoordWitness instantiates. curl is right only for right-handed coordinates: C51_curl_left_handed_refuted shows that it returns the opposite for left-handed ones, as (theta, r) in demo/unitdisc_helmholtz.py. Missing: grad of a vector and div of a tensor on surfaces, Coordinates.subs (which leaves the caches _bt, _ct, _e, _gn, _det_g stale), the sympy assumptions given to refine."
  },
  {
   "property": "C52",
   "status": "partial",
   "theorems": [
    "C52_backward",
    "C52_vandermonde",
    "C52_forward",
    "C52_roundtrip",
    "C52_trace",
    "C52_classes",
    "C52_dealias_direct_refuted",
    "C52_tensor",
    "C52_tensor_trace",
    "C52_measure_refuted",
    "C52_rows",
    "C52_rows_refuted",
    "C52_update",
    "C52_update_refuted"
   ],
   "note": "Refuted parts: dealias_direct zeroes the boundary coefficients (C52_dealias_direct_refuted); in curvilinear tensor product spaces the boundary values are not multiplied by the measure of the other axes, and the constant factor only for some orders of the axes (C52_measure_refuted); IndexError when the last process owns fewer rows than there are conditions (C52_rows_refuted); update(update_tensor=True) without a time restores the unevaluated expression (C52_update_refuted). Missing: two inhomogeneous axes (Solver2D), values given as Function or Project."
  },
  {
   "property": "C53",
   "status": "partial",
   "theorems": [
    "C53_stencil_mass",
    "C53_stencil_entries",
    "C53_stencil_bc",
    "C53_phi",
    "C53_phi_assertion",
    "C53_jacobi",
    "C53_legendre_dual",
    "C53_legendre_phi",
    "C53_legendre_mass",
    "C53_test_derivative_measure_refuted",
    "C53_test_derivative_measure",
    "C53_phi_test_derivative_refuted",
    "C53_phi_other_family_refuted",
    "C53_phi_bc_identity_refuted",
    "C53_bc_band_refuted",
    "C53_pattern_refuted",
    "C53_larger_trial_refuted",
    "C53_jacobi_dual",
    "C53_chebyshev_dual",
    "C53_chebyshev_phi",
    "C53_chebyshevu_dual",
    "C53_chebyshevu_phi",
    "C53_phi_scaled_refuted"
   ],
   "note": "Refuted parts: with a measure and a differentiated test function the derivative is taken of measure times test function (C53_test_derivative_measure_refuted); assemble_phi ignores derivatives of the test function (C53_phi_test_derivative_refuted) and the family of the trial space (C53_phi_other_family_refuted), and returns the identity for boundary functions when k > dim_ortho (C53_phi_bc_identity_refuted); boundary functions with differentiated test functions lose entries (C53_bc_band_refuted); the sparsity pattern read off two rows and columns can be too narrow (C53_pattern_refuted); a trial space larger than the test space loses terms of the measure (C53_larger_trial_refuted). scaled=True of chebyshevu.Phi1 and Phi2 is ignored by assemble_phi, so row i is i+k+1 times the integrals (C53_phi_scaled_refuted). Duality of Phi_k is proved for Legendre, Chebyshev of the first and the second kind (all classes) and for the defining formula of every Jacobi family. Missing: that the explicit stencils of ultraspherical and jacobi Phi_k equal that formula (Gamma functions); floating point tolerances of extract_diagonal_matrix."
  },
  {
   "property": "C54",
   "status": "partial",
   "theorems": [
    "C54_derivative",
    "C54_constant",
    "C54_variable",
    "C54_variable_exact",
    "C54_exact_refuted",
    "C54_small_N_refuted",
    "C54_variable_domain_partial",
    "C54_variable_domain_refuted",
    "C54_vandermonde",
    "C54_fallback",
    "C54_solve"
   ],
   "note": "Refuted parts: on domains with length other than 2 pi the six implemented variable-coefficient matrices lack the domain factor (C54_variable_domain_refuted; C54_variable_domain_partial gives the factor); assemble='exact' returns the quadrature's wrap-around entries (C54_exact_refuted; C54_variable_exact for the others); with 4 points (2 for cos) two keys coincide (C54_small_N_refuted). Missing: padding, curvilinear coordinates, solve for a non-unit measure (la.Solver), floating point."
  },
  {
   "property": "C55",
   "status": "partial",
   "theorems": [
    "C55_backward_values",
    "C55_scalar_product_values",
    "C55_forward_backward",
    "C55_backward_forward",
    "C55_mass_quadrature",
    "C55_mass_exact",
    "C55_rule",
    "C55_composite_backward",
    "C55_composite_scalar_product",
    "C55_composite_forward_backward",
    "C55_padding_refuted"
   ],
   "note": "Refuted part: with a padding factor the fast transforms raise a ValueError, since the factors sin(theta) have the unpadded length (C55_padding_refuted). Missing: kind='vandermonde', several axes, inhomogeneous boundary conditions, floating point; FFTW's transforms are their defining sums and assumed to leave the input intact (the plans are made with FFTW_DESTROY_INPUT)."
  },
  {
   "property": "C56",
   "status": "partial",
   "theorems": [
    "C56_legendre_gauss",
    "C56_legendre_lobatto",
    "C56_legendre_points",
    "C56_chebyshev",
    "C56_chebyshevu",
    "C56_jacobi",
    "C56_fourier",
    "C56_integral_unique",
    "C56_sum",
    "C56_product",
    "C56_laguerre_refuted",
    "C56_skew_refuted"
   ],
   "note": "Refuted parts: on Laguerre (and Hermite) spaces the flag is inverted and the integral carries the weight exp(-x) (C56_laguerre_refuted); the measure is skipped when the product of the scaling factors is 1, which for non-orthogonal coordinates is not sqrt(det g) (C56_skew_refuted). For the Legendre family proved without hypotheses about the rule, for degree below 2N (Gauss) and 2N-2 (Gauss-Lobatto). Missing: the Gauss-Jacobi points of the other families (the discrete orthogonality is a hypothesis of C56_jacobi), composite spaces, floating point (domain_factor rounds lengths within 1e-12)."
  },
  {
   "property": "C57",
   "status": "partial",
   "theorems": [
    "C57_terminates",
    "C57_backward",
    "C57_backward_stop",
    "C57_scalar_product",
    "C57_forward",
    "C57_remainder",
    "C57_scalar_product_refuted",
    "C57_space_backward",
    "C57_space_scalar_product"
   ],
   "note": "Refuted part: for 'scalar product' and 'forward' the stopping test (norm of the last correction below 1e-16) does not control the error: with the four Gauss points the first correction can vanish while the second does not, and the error is as large as one likes (C57_scalar_product_refuted). For 'backward' the test does control it (C57_backward_stop, all points different from the Chebyshev points, so even N). Missing: floating point (with a NaN the loop never ends), the FMM branch of Leg2Cheb for N > 1000 (C47), the points and weights of fastgl themselves (any symmetric points)."
  },
  {
   "property": "C58",
   "status": "partial",
   "theorems": [
    "C58_denser",
    "C58_kinds",
    "C58_to_ortho",
    "C58_projection_partial",
    "C58_unique",
    "C58_families_refuted",
    "C58_domains_refuted",
    "C58_scaled_refuted",
    "C58_orthogonal_to_composite_refuted",
    "C58_truncation_refuted",
    "C58_leftover_refuted"
   ],
   "note": "Proved: to a space of the same class, kind and domain with at least as many points the result is the same function (any quadrature rules, inhomogeneous boundary conditions included), and sizes of one class of the library are of the same kind; to_ortho gives the same function; in the remaining cases named in C58_projection_partial the result is the projection when the linear system is right; the projection is unique. Refuted by theorems: Chebyshev to Legendre copies coefficients; == ignores the domain and scaled=True; assign copies the coefficients of an orthogonal function to a larger composite space; assign to a slightly smaller composite space fills boundary dofs with coefficients; with use_assign=False a to_ortho that raises half way leaves its partial result in the right hand side. Missing: tensor product spaces, Arrays and sympy functions, the discrete inner product, inhomogeneous boundary conditions in the Galerkin branch."
  },
  {
   "property": "C59",
   "status": "partial",
   "theorems": [
    "C59_values",
    "C59_eval",
    "C59_laguerre_derivatives_partial",
    "C59_laguerre_third_refuted",
    "C59_laguerre_derivative_partial",
    "C59_laguerre_high_refuted",
    "C59_hermite_derivatives",
    "C59_boundary",
    "C59_orthonormal",
    "C59_integral_unique",
    "C59_roundtrip",
    "C59_forward",
    "C59_gauss_laguerre",
    "C59_gauss_hermite"
   ],
   "note": "Proved: all values, eval, boundary values, Hermite derivatives k<=2 (higher ones raise), Laguerre derivatives k=0,1,2,4 (matrix) and k<=4 (single function), orthonormality (with the Gaussian integral proved from the standard library), transforms for every Gauss rule, and existence of the rules for every number of points (C59_gauss_laguerre, C59_gauss_hermite). Refuted: evaluate_basis_derivative_all of the Laguerre family with k=3 adds V/8 instead of subtracting it, so every value is too large by La_i(x)exp(-x/2)/4; evaluate_basis_derivative with k>4 silently returns the function itself. Not modelled: rounding, the computation of the Gauss points (numpy), the 'recursive' transforms."
  },
  {
   "property": "C60",
   "status": "partial",
   "theorems": [
    "C60_mass",
    "C60_laguerre_dirichlet",
    "C60_stiffness_partial",
    "C60_stiffness_refuted",
    "C60_stiffness_quadrature",
    "C60_matvec",
    "C60_even_regular",
    "C60_odd_refuted",
    "C60_identity_solve"
   ],
   "note": "Proved: mass matrices, Laguerre Dirichlet mass and stiffness matrices, all entries of the Hermite stiffness matrix but the last, which are exact; every entry is the value of the N-point Gauss rule; matvec (format 'self'); regular for even N. Refuted: the last diagonal entry is (N-1)/2 although the inner product is N-1/2 (also for assemble='exact'); for every odd N the stiffness matrix is singular, and there are right hand sides without a solution. The Cython matvec of AHHmat and its TDMA solver are those of C45 and C01."
  },
  {
   "property": "C61",
   "status": "partial",
   "theorems": [
    "C61_lobatto",
    "C61_lobatto_zeros",
    "C61_lobatto_sharp",
    "C61_newton",
    "C61_newton_fixed",
    "C61_one_refuted",
    "C61_gauss",
    "C61_gauss_zeros",
    "C61_mass",
    "C61_transforms",
    "C61_padded_gauss",
    "C61_padded_lobatto_refuted"
   ],
   "note": "Proved: the exactness and its sharpness, symmetry and positivity of both rules, existence and uniqueness of the zeros for every N, the error bound (N-1)*(last correction) for whatever the Newton loop returns, exact zeros are a fixed point, discrete norms (the hypothesis of C36_legendre_mass_quadrature) and transforms. Refuted: N=1 (division by zero), and padded spaces with quad='GL', whose forward transform multiplies the last coefficient by (N-1)/(2N-1) (C61_padded_lobatto_refuted). Missing: that the loop converges from the code's initial guess and to distinct zeros; how fastgl computes the Gauss points; rounding; mapped domains."
  },
  {
   "property": "C62",
   "status": "partial",
   "theorems": [
    "C62_files",
    "C62_grids",
    "C62_time_partial",
    "C62_time_refuted",
    "C62_geometry_3d",
    "C62_geometry_2d_partial",
    "C62_visit_refuted",
    "C62_plane_partial",
    "C62_plane_position_refuted",
    "C62_plane_spacing_refuted"
   ],
   "note": "Files, times, datasets and failure are exact; geometry is right for all 3D data (both orders, both kinds of mesh) and for 2D data in Paraview order, with stored meshes, or equal sizes. Refuted: grids shift in time if a section is missing at some step (times list of all steps, one grid per step with data); the default 'visit' order computes the spacing of each 2D axis with the number of points of the other; planes of non-periodic 3D fields are misplaced (per[kk]=0 before the position is computed) and spoil the spacing of later planes."
  },
  {
   "property": "C63",
   "status": "partial",
   "theorems": [
    "C63_unplanned",
    "C63_refined",
    "C63_dealiased_partial",
    "C63_dealiased_reset_refuted",
    "C63_orthogonal",
    "C63_homogeneous_partial",
    "C63_homogeneous_generic_refuted",
    "C63_homogeneous_lower_refuted",
    "C63_testspace_partial",
    "C63_testspace_refuted",
    "C63_domain_refuted",
    "C63_bcs_keyword_refuted",
    "C63_tensor",
    "C63_tensor_refined",
    "C63_tensor_orthogonal",
    "C63_tensor_testspace_partial",
    "C63_tensor_homogeneous_refuted",
    "C63_tensor_unplanned_partial"
   ],
   "note": "Unplanned, refined and orthogonal spaces are exact (also for tensor products). Refuted: get_homogeneous of a Generic space loses all its conditions (a different dimension); for LowerDirichlet of chebyshevu/ultraspherical the condition moves to the other boundary; TensorProductSpace.get_homogeneous and get_unplanned(True) drop communicator, axes, dtype and coordinates; get_unplanned(domain=...) keeps derivative values rescaled for the old domain; the keyword bcs is ignored; get_dealiased(1) of a padded space stays padded; get_testspace raises for five conditions or more than six, and jacobi for six. Test spaces (also of tensor product spaces: same communicator, axes, dtype, coordinates and dimensions) are proved for at most four conditions per base."
  },
  {
   "property": "C64",
   "status": "partial",
   "theorems": [
    "C64_operator",
    "C64_solves",
    "C64_pinned",
    "C64_lu_contract_inhabited",
    "C64_vanishing_coefficient_refuted",
    "C64_constraint_other_mode_refuted",
    "C64_subcommunicator_refuted",
    "C64_complex_coefficients_refuted"
   ],
   "note": "Proved: unconstrained histories for fast and slow solver on all ranks, constrained histories on rank zero for DiagMA, TDMA, FDMA and TwoDMA lines, constrained calls on blocks that start after wavenumber 0 (they leave the system alone). Refuted: a scale array that vanishes for some wavenumbers makes the fast solver use data of another kind; on a subcommunicator the pinned mode is another wavenumber; the constraint after a call can touch another mode; complex coefficients lose their imaginary part. SuperLU is an oracle with a contract (shown inhabited). Missing: boundary matrices, constraints other than ((0,val),), ThreeDMA lines, rounding."
  },
  {
   "property": "C65",
   "status": "partial",
   "theorems": [
    "C65_block_solves",
    "C65_block_fourier",
    "C65_block_fourier_constraint_refuted",
    "C65_numbering",
    "C65_solves",
    "C65_two_axes",
    "C65_constraint_history_refuted",
    "C65_two_axes_constraint_refuted"
   ],
   "note": "Proved for every history whose calls constrain the same unknowns (with any values), for SolverGeneric2ND without constraints, for BlockMatrixSolver with a non-diagonal axis, and with Fourier axes only for unconstrained histories and a first constrained call. Refuted: the factors of the first call are used for ever, so a constraint that comes later is not imposed and a dropped one stays; SolverGeneric2ND's b[row] = val overwrites a whole row or plane of the right hand side; BlockMatrixSolver with only Fourier axes factorises the unconstrained matrix from the second call on. SuperLU is an oracle with a contract. Missing: assembly of the block matrix, boundary matrices of SolverGeneric2ND and BlockMatrixSolver, rounding."
  },
  {
   "property": "C66",
   "status": "partial",
   "theorems": [
    "C66_banded",
    "C66_band",
    "C66_generalized",
    "C66_generalized_coefficients_refuted",
    "C66_generalized_same_points_refuted",
    "C66_banded_coefficients_refuted"
   ],
   "note": "Proved: the band matrix is B for every symmetric B with the keys -2, 0, 2; solver 1 solves the system when A is the inverse of the coefficient of AUB times the identity, the coefficients of AUB and BUA agree and B has scale one; solver 0 when the coefficients of AUB and BUA are one and the two axes have the same matrices or different numbers of points. Refuted outside of these: the docstring's coefficients are not used (solver 0 ignores a_1 and a_2, solver 1 ignores a_2 and does not scale 1/lambda), and solver 0 reuses the eigenvectors of the first axis for the second whenever the numbers of points agree. The eigen solvers are parameters with their contract. Missing: several processes, rounding."
  },
  {
   "property": "C67",
   "status": "proved",
   "theorems": [
    "C67_says",
    "C67_silent",
    "C67_succeeds",
    "C67_priority",
    "C67_nothing_else",
    "C67_empty_section_refuted",
    "C67_import_refuted"
   ],
   "note": "Proved for all files. What a file says is its leaves and its empty sections. Also shown: an empty section ('block: {}') removes all defaults of the section, and an empty file or a section whose entries are all commented out (None) makes the import of shenfun fail (the latter if a later file has entries in that section). Reading of yaml and sharing of mutable leaves are not modelled."
  },
  {
   "property": "C68",
   "status": "partial",
   "theorems": [
    "C68_converges",
    "C68_unsteady",
    "C68_back_and_forth",
    "C68_independent",
    "C68_still",
    "C68_integer_points_refuted",
    "C68_reversal_refuted"
   ],
   "note": "Proved with an explicit error bound, M/L*dt*(exp(L*n*dt)-1), for steady and for time-dependent velocities (set before every step) and float arrays. Refuted for integer arrays: the new positions are truncated on assignment, and a particle with velocity 1 never moves; going back does not undo the steps exactly. The evaluation of the velocity at a point is a parameter (C34). Missing: several processes, rounding."
  },
  {
   "property": "C69",
   "status": "partial",
   "theorems": [
    "C69_choice",
    "C69_sound",
    "C69_session",
    "C69_chebval_refuted",
    "C69_names",
    "C69_no_confusion",
    "C69_served_partial",
    "C69_arguments",
    "C69_optional_output_refuted",
    "C69_direct_refuted",
    "C69_python",
    "C69_inner"
   ],
   "note": "Proved: the choice for all namespaces and modes, the mode in force at each call of a session, that no two decorated functions ever run the same optimized function, that the fast path finds the optimized inner_solve of every banded solver, and exactly which allowed calls are not served. Refuted: leg2cheb(cl) and cheb2leg(cc) without an output array fail in the default cython mode; with numba the direct branch of dlt.Leg2Cheb raises an error and that of dlt.Cheb2Leg returns zeros, and without a backend both return zeros; Helmholtz and Biharmonic need a backend; chebyshev.bases.chebval keeps the mode of the import. Missing: that an optimized function computes what the Python function does, which C06, C34, C45, C46 and others prove for the functions they model."
  }
 ]
}