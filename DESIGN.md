# Formal model of shenfun in Rocq (Coq 8.16.1) -- design

## Method
Each group of functions gets files in `rocq/theories`:
`XModel.v` (computable Gallina transcription, every definition cites file and lines of /repo),
`XSpec.v` (the mathematical vocabulary of the English properties: dense matrices, polynomials,
finite sums -- nothing from the model; small groups state it in the properties file),
`XProofs*.v` (lemmas) and `XProperties.v` (theorems named after the properties, non-vacuity
`Example`s and `Print Assumptions`).  Scalars are an arbitrary field (record `Fld`) wherever
possible, so a theorem covers rationals, reals and complex numbers; arithmetic is exact unless a
file says that it models IEEE doubles.

When the unchanged code violates a property, a theorem with the suffix `_refuted` exhibits the
counterexample (accepted by the kernel), and the part that does hold is proved next to it (suffix
`_partial` when the statement has extra hypotheses that exclude the failing inputs).

## Properties: model, proof, status
| id | property | status | model and proof | note |
|----|----|----|----|----|
| C01 | Banded solvers solve the system they were given | proved | SolversModel: LU and inner_solve loops of DiagMA, TDMA, TDMA_O, FDMA, TwoDMA on dia storage; loop invariants for the factorisation and both substitutions, any n | exact arithmetic over any field; the C and numba bodies are identical to the Python ones |
| C02 | Penta- and heptadiagonal solvers solve the system they were given | proved | SolversModel: PDMA, HeptaDMA; same method |  |
| C03 | ThreeDMA solves upper triangular systems with offsets 0, 2, 4 | partial | SolversModel: ThreeDMA; refutation by computation, partial by invariant | refuted for the code as it stands (u2 = data[1, 4:] in la.py, la.pyx and numba): C03_ThreeDMA_refuted; partial: matrices whose super-diagonals coincide; repaired version proved |
| C04 | A solver object can be reused | proved | SolversModel: solver object as a state machine; induction over call histories |  |
| C05 | A constrained solve pins the first unknown | partial | SolversModel: constraints and _inner_arg; state machine | proved for DiagMA, TDMA, FDMA, TwoDMA (fresh and constrained histories); refuted for PDMA, HeptaDMA, TDMA_O and for constraining after an unconstrained solve |
| C06 | Solving along an axis solves every line independently | partial | AxesModel: strided pointer loops over flat arrays; disjointness of strided lines | proved for 2-, 3- and 4-dimensional arrays, every axis and every solver class, for the Cython functions with 1 to 3 dimensions (and one-matrix-per-line solves in 3D); refuted for the Cython 4-D dispatch (arrays returned unsolved) and for Cython DiagMA with arrays longer than the matrix |
| C07 | The solution is unique and pivots are safe for dominant matrices | proved | Dominant, SolversProofs5: uniqueness from the factorisation; diagonal dominance gives non-zero pivots |  |
| C08 | matvec computes the matrix-vector product | proved | SparseModel: diags/matvec in the supported formats; entrywise denotation |  |
| C09 | Sparse matrix algebra is matrix algebra | proved | SparseModel: __add__, __sub__, __iadd__, __isub__, __mul__, ...; entrywise denotation |  |
| C10 | Equal sparse matrices represent the same operator | partial | SparseModel: __eq__, __hash__; refutations by computation | refuted: == ignores the scale, compares only non-zero entries in order, and compares key sets by hash (hash(-1)==hash(-2)); C10_partial states what == guarantees |
| C11 | The solver picked for a matrix fits its pattern | proved | SparseModel: get_solver / Solver dispatch on the set of offsets | dispatch and solve proved for all patterns except (0,2,4), whose class is refuted in C03 |
| C12 | Tensor product matrices act as Kronecker products | partial | TPModel: TPMatrix.matvec over nested axes; Kronecker products of linear maps | tp_matvec = scale*Kronecker product for all shapes, factors, any number of diagonal axes and at most two nondiagonal ones, both application orders. Missing because false of the code: scaled scalar diagonals lose their scale; three or more nondiagonal axes return zeros (both refuted). |
| C13 | Simplifying a sum of tensor product matrices preserves the operator | partial | TPModel: simplify of lists of TPMatrix, with object identity | Proved for fresh matrices of a space with a diagonal axis when == does not confuse factors (duplicates of one object allowed). Refuted otherwise: [A,A,A] becomes 4A, inputs are mutated, factor scales are ignored by ==. |
| C14 | Block matrices act blockwise | partial | TPModel: BlockMatrix construction and matvec with object identity | Block rows proved for tensor product blocks (with simplification, and all-Fourier with distinct objects); one-dimensional blocks when no two matrices compare equal, and the addition of a matrix that equals exactly one. Refuted: M += N binds M to None; P = M + N changes M; one-dimensional blocks can be double counted. |
| C15 | Dense to diagonal extraction is lossless | proved | ExtractModel: extract_diagonal_matrix over rational matrices | Proved for all rectangular rational matrices, bands and tolerances. |
| C16 | Fourier wavenumbers index the modes of the transform | proved | FourierModel: wavenumbers, slices; index arithmetic | all N; integer frequencies (the float evaluation inside numpy.fft.fftfreq is not modelled) |
| C17 | Fourier forward and backward transforms are inverses | proved | FourierModel: scalar product / forward / backward as DFT sums over a field with a primitive root; geometric sums; Complex.v instantiates it with exp(2 pi i/N) | any field with a primitive N-th root of unity; Complex.v shows exp(2 pi i/N) is one; FFTW/numpy transforms are modelled by their defining sums |
| C18 | Padding and truncation of Fourier coefficients is lossless | partial | FourierModel: padding and truncation index sets | all N >= 2 and all padded sizes; refuted for N = 1 (slice -(N//2) is 0) |
| C19 | The two-thirds rule removes exactly the high modes | partial | FourierModel: dealias_direct masks | C2C N >= 6, R2C N >= 3; refuted for C2C with N <= 5 |
| C20 | Padded products are free of aliasing | partial | FourierModel + cython convolve loops; discrete convolution theorem | exact when 3*(N//2) < Np; with the 3/2 rule all modes but Nyquist; refuted for the Nyquist mode of every even N |
| C21 | energy_fourier computes the quadratic energy | partial | FourierModel: energy_fourier weights over ranks | C2C, aligned R2C and distributed R2C with two or more coefficients per rank proved; refuted for one coefficient per rank and for one-dimensional R2C bases with N = 0, 3 mod 4 |
| C22 | Padded and refined sizes are the requested ones | partial | SizesModel on Flocq's binary64; relative-error and monotonicity lemmas; counterexamples by computation | In IEEE doubles (Flocq binary64): sizes are the requested M or M-1, exact (for any number of copies) when M/N is a double. Refuted: 3/2 rule on N=157 reports 234 of 235 points and truncates to 156 modes, each copy loses one more; R2C with N=14 padded 4/3 gets 7 of 8 modes; refine 11 -> 15 gives 14; refine of an odd R2C first axis (7 -> 14) gives 7 of 8 modes. |
| C23 | get_dealiased and padded backward transforms do not depend on earlier calls | partial | DealiasModel: cache as association list; invariant over histories | Right whenever no earlier call used the same factors with the other dealias_direct. Refuted: the cache key ignores dealias_direct; Function.backward reuses the work array of the first padding factor for all others. |
| C24 | Composite functions: components, views and flattened vectors | partial | CompositeModel: rose trees, slices, copy loops; slot list with NoDup | Flattening bijection and round trips for every nesting and key. Refuted: negative indices (offset 0), u[0][0] for a nested space with one component, scalar spaces with two Fourier axes (broadcast error). |
| C25 | Expressions denote linear combinations | proved | FormsModel: Expr as components of (derivative counters, scale, index); FormsSpec: denotation over functions on R^n; sympy as an abstract record with laws | Over abstract sympy expressions with laws (SymLaws), met by a concrete instance. Multiplication by a tuple is modelled but has no theorem of its own. |
| C26 | Dx differentiates expressions | partial | FormsModel.dx; induction on the order, derivative of a sum of products | All orders and axes, product rule included. Refuted for test functions of composite spaces whose number of components is not 1, ndim or ndim^2: Dx raises. |
| C27 | Vector calculus identities | partial | FormsModel: div, grad, curl; commuting partial derivatives | Meanings of grad, div and curl and the three identities for every expression. Refuted: the zero results have empty components, and the next operator raises IndexError on them. |
| C28 | cross, dot and outer compute vector products pointwise | partial | ProductsModel: heap of arrays (so that arguments may alias), component loops | cross (Python, c distinct from a, b; Cython for every aliasing), outer (Cython), dot in Cartesian, orthogonal and general curvilinear coordinates, ranks 1 and 2. Refuted: Python cross3D in place; Python outer3D(a, a) leaves entry (2,1) stale. |
| C29 | Composite bases satisfy their boundary conditions | partial | StencilModel, StencilModel2, RPoly: stencils as functions of the index; field identities for all k | all classes given by a stencil (chebyshev, legendre, chebyshevu, ultraspherical, jacobi, laguerre) and explicit stencils, for every N and index; independence; findings: chebyshev.ShenBiPolar row 0, chebyshevu/ultraspherical.LowerDirichlet default bc, chebyshev.Heinrichs2 and PolarDirichlet diagonal length |
| C30 | Domain maps are inverse affine bijections | partial | DomainModel: affine maps over a field | Exact arithmetic. The end points theorem excludes domains whose length differs from the reference length by a non-zero amount below 1e-12, for which the claim is refuted (the error is below 1e-12: C30_tolerance). |
| C31 | Boundary condition dictionaries keep their meaning | partial | DomainModel: dictionary of boundary conditions | Rescaling is proved for D, N, N2, N3 on every domain; refuted for N4, R and W, for BoundaryConditions rebuilt from already rescaled ones, and num_derivatives raises KeyError for W and N5. Dictionary order, names, values, dispatch string and tuple input proved in full. |
| C32 | Time integration takes the right number of steps | partial | IntegratorModel: step loop over rationals | Loop over exact reals: number of steps, times and update calls proved for every dt > 0; refuted: a step is lost for dt <= 1e-8, and one is gained in double precision (SpecFloat) for t0 = 1e8, dt = 0.1; re-use of matrices within 1e-12. |
| C33 | Runge-Kutta integrators have their order | partial | IntegratorModel: RK/IMEX tableaux | Local orders for arbitrary (smooth) nonlinear and linear parts, all dt small: RK4 4, IMEXRK111/222/443 1/2/3, IRK3/IMEXRK3 2 with a linear part (3 without), BackwardEuler 1 after the first step, ETD/ETDRK4 exact for constant N, ETDRK4 = RK4 for L = 0. Refuted: IRK3 order 3, IMEXRK011 drops L, RK4 drops constant diagonals, BackwardEuler's first step, ETD/ETDRK4 with imaginary L (psi real). Order 4 of ETDRK4 for general L not proved; the contour mean for psi is taken as exact. |
| C34 | Evaluating a Function at arbitrary points sums its expansion | partial | EvalModel (1D recurrences), EvalModel2 (2D/3D kernels, three methods, ranks); accumulation lemmas on nested loops | Clenshaw and recursion kernels right for all lengths; method 2 and complex kernels right for every N and grid of ranks; methods 0/1 right for odd N or vanishing Nyquist coefficients. Refuted: methods 0/1 count the mode N/2 twice for every even N (ii > 0 & ii < M test), _eval_lm_3D crc uses the wavenumbers of axis 1 for axis 2, low-memory kernels use local indices for evaluate_basis when the axis is distributed, Expr.eval has no allreduce, cython scalar_product swaps its loop bounds, the Jacobi kernel drops the diagonal for alpha = -beta. |
| C35 | Recursion matrices of Jacobi polynomials | partial | JacobiModel: recursion coefficients, matrix powers, shifts; polynomial identities, induction | Matrices a, b, c (every scaling gn), matrix powers x^q and B^q for every q, psi for every order, a_ for every k,q, bnd_values for every order, ShiftedMatrix for every shift. Raw formulas are 0/0 for alpha+beta=0 or -1 in column 0 (hypotheses); the sympy-cancelled ones hold for all alpha,beta>-1. ShiftedMatrix of a SparseMatrix drops its scale (C35_shifted_scale_refuted). |
| C36 | Hard coded spectral matrices equal their definition | partial | LegMatrixModel: every assemble method of legendre/matrices.py as a dictionary of diagonals; MatrixSpec/LegMatrixSpec: Riemann integral of weight * derivatives of basis functions given by the stencils; proved through tables of (D^a P_n, D^b P_m)_w and expansion of the stencils; ChebMatrixModel/ChebMatrixSpec the same for chebyshev/matrices.py with the weight 1/sqrt(1-x^2) through x = cos t, ChebQuadModel the points and weights of chebyshev/bases.py; ChebUMatModel/ChebUMatSpec: chebyshevu/matrices.py, through (1-x^2) phi^U_1 = (k+2) phi^T_2 and the duality of C53 | Legendre family: all 40 dictionary entries and the 4 unused classes hold the exact integrals for every N, mass matrices hold the quadrature sums for any orthogonal rule, shapes for N >= 9; refuted: scaled ShenDirichlet first-derivative matrices divide by one norm only, and the weight (1+x) second-derivative matrix ignores the scaling. Chebyshev family: 34 of 35 dictionary entries (BTLmat is in C46), both Heinrichs scalings, hold the exact weighted inner products for every N >= 2; with quadrature the mass matrices hold the sums over the Gauss-Chebyshev / Gauss-Lobatto points and weights, whose discrete orthogonality is proved. Chebyshev family of the second kind: all 5 entries, scaled and unscaled test spaces, every N, both rules. |
| C37 | apply_mask and Nyquist masking zero exactly the masked modes | partial | MaskModel: mask arrays and the Cython apply_mask loops | all dimensions, bases and distributions for scalar and vector fields; tensor fields except 1 and 3 dimensions, where the Cython loops use wrong bounds (refuted; 3D writes out of bounds). For 1D tensor fields exactly which Nyquist coefficients survive; 3D tensor fields proved when the first local axis has as many points as components. |
| C38 | Cached work arrays are not shared by different keys | proved | ProductsModel: CachedArrayDict as finite map with fresh array names; induction over histories | every history of requests, deletions and writes by callers (explicit __setitem__ of a foreign array is not part of the histories) |
| C39 | Poisson, Helmholtz and biharmonic solvers solve their systems | partial | HelmholtzModel, BiharmonicModel: line kernels of the solvers; suffix-sum invariants, LU factorisation with dominant pivots | Poisson, Helmholtz and biharmonic solvers, one axis, homogeneous conditions, real right hand sides; Helmholtz pivots proved non-zero for alpha*beta <= 0; for the biharmonic solver every returned solution is proved right and one is returned for alfa = beta = 0 (pivots for other constants are not proved non-zero). Refuted: numba shares A_0 between the lines of a Neumann problem, so a line with beta = 0 spoils all later lines; beta*pi = 1 zeroes u[0]; no pivoting for alpha*beta > 0; the four-argument form ignores the scales of the matrices; the biharmonic solver divides by zero for every odd N, is out of bounds for N < 14, and is wrong on domains with a factor other than 1. |
| C40 | wrap_periodic closes arrays periodically | partial | ProductsModel: arrays as shape and index function | all shapes; axis 0 only for two-dimensional arrays (np.vstack), refuted for three and more dimensions |
| C41 | A.solve uses the matrix as it is now | partial | SparseModel: the cached solver; histories of operations | refuted: the solver kept in A.solver is not dropped by A*=y or A+=B; histories of solves only are proved |
| C42 | to_ortho preserves the function | proved | StencilModel: to_ortho / from stencil matrices | any stencil matrix with offsets >= -dim and all stencil classes |
| C43 | Bases found from boundary conditions satisfy them | partial | DomainModel: functionals of each condition from bnd_values, stencil system and boundary system; wsum over the stencil rewritten to the rows of the system, with bnd_left_ok/bnd_right_ok (C42 group) giving the derivative values | Relative to A.solve returning a solution of the linear system (sympy is not modelled). Refuted: W and N5 conditions are rejected. |
| C44 | Chebyshev transforms are inverses and evaluate the expansion | partial | ChebTransModel: the DCT sums, the fast expansion / scalar product with their end-point fixes, truncation and padding, BTTmat.solve, composite to_ortho / stencil matvec; proved from discrete orthogonality (ChebQuadProofs), its dual over the modes, and positive definiteness of the composite mass matrix | FFTW's DCTs by their defining sums, one axis, homogeneous conditions. Refuted: with Gauss-Lobatto points and padding the last coefficient comes back halved; BTTmat.solve ignores the scale of the matrix and halves the last entry also for an exactly assembled matrix; the composite fast scalar product leaves values in the rows beyond the last basis function. |
| C45 | Special matrix-vector products equal the matrix | partial | MatvecModel: the line kernels of Matvec.pyx and the slices of format=self on the assembled dictionaries; rows of the dictionaries are expanded to finitely many diagonals or suffix sums by parity, the downward loops by an invariant with two running sums | One line of the array (the loops over the other axes call the line kernel), exact reals, C ints wrap around. Scales that scale_array applies exactly (1, or further than 1e-8 from 1). Refuted: CTSDmat.matvec has pi built in and ignores the domain factor; ATTmat overflows from N = 1292 on, SSBSBmat from N = 9465, cython Biharmonic from N = 9469; Biharmonic.matvec and Helmholtz.matvec (Dirichlet) mix entries of the reference domain into the scaled matrices; cython Helmholtz.matvec (Neumann) rounds 1/k^2 to an integer; BSNSNmat and ASNSNmat leave old values of the output array, ASNSNmat.matvec divides by the scale (numba) or multiplies by it twice (Python); small matrices are read out of bounds. |
| C46 | Legendre and Chebyshev coefficients of the same function | partial | model the loops of leg2cheb/cheb2leg with Lambda at the integers; expand L_n in T_k (symmetric convolution identity by the three-term recurrence) and T_n in L_k; swap the double sums; coefficients are unique by orthogonality | leg2cheb in all three implementations and Leg2Cheb's direct branch give the same polynomial for every N and coefficient array (through L_n as a sum of T_k with Gamma ratios, proved), transpose is the adjoint, cheb2leg likewise, round trips both ways; BTLmat holds the exact products for Gauss points and the quadrature sums for both rules. Refuted: Cheb2Leg.__call__ (use_direct, more than one dimension) and FMMLeg2Cheb use N//2 and drop a term for odd N; BTLmat assembled exactly with Gauss-Lobatto points doubles the last diagonal entry; BTLmat.matvec leaves out scale and the doubled entry. The fast multipole (low rank) branch is in C47. Missing: Hale-Townsend, the approximations of Lambda. |
| C47 | The hierarchical decomposition covers the conversion matrix exactly once | partial | model the sizes (get_h, get_number_of_blocks, get_ij, padding), the list of submatrices and the direct kernels; count the submatrices that contain an entry by induction over the levels (finest level first); then sum over the parts; the sweeps of FMMcheb by an invariant per level (work arrays hold Chebyshev moments of the input on every piece; the downward sweep adds up the levels), the conversion matrices by orthogonality of the discrete cosine transform; the error by the triangle inequality and the exactly-once covering | Coverage exactly once, submatrices inside the arrays and above the diagonal, padded sizes: proved for every list of domain sizes, block size and number of diagonals. FMMcheb with its sweeps through the levels (conversion matrices, index arithmetic, transposed version) is the product with the low rank submatrices, exactly. Leg2Cheb (both directions) and Cheb2Leg with the sweeps stay within 2/pi eps sum/c/ (resp. (i+1/2) eps sum max(k,1)/c_k/) of leg2cheb / cheb2leg when the submatrices are within eps of the entries; with exact entries they describe the same polynomial. Missing: that the adaptive interpolation in getChebyshev meets such an eps, and that its numbers of coefficients do not decrease towards the finest level (hypothesis sizes_fit; the code does not check it and would drop coefficients). |
| C48 | Checkpoints survive crashes and restarts | partial | model update as the list of its effects on the two files, a crash as a prefix of it plus arbitrary damage to files in flight, the ranks as an arbitrary interleaving; invariant over histories: main is closed and holds the last completed checkpoint; the value stored at an element is the last write of its owner | Main file holds the last completed checkpoint after every history; at every crash point, for every schedule of the ranks and every damage to files in flight, main or old holds it; read on any number of ranks; stop file. Refuted: the main file alone can be readable and torn; a new Checkpoint object that did not read first truncates main and copies it over old, so a crash of its first checkpoint loses both; lists of several arrays are written to one dataset (only the last survives). |
| C49 | inner() assembles the form | partial | model inner() down to the dictionaries of split and the one-dimensional matrices; specify the form as a sum over the tensor grid; Fubini for separable summands, then induction over terms, components, boundary axes; linear form by linearity of the contraction. | Proved for bilinear and linear forms of rank 0, 1 and 2 (scalar, vector and tensor spaces, recursive algorithms included), from: one-dimensional matrices are right (C36, C44), sympy's separatevars is right for coordinates named x, y, z, r, s, at most one inhomogeneous axis or two dimensions, and a trial matrix without diagonals has no boundary matrix. Refuted outside: other coordinate names drop the measure; rank 2 in scalar spaces (grad(grad(v))) raises; in 3D two inhomogeneous axes give boundary matrices with two factors and three give none; boundary matrix dropped when the interior matrix has no diagonals; linear forms of vector test functions write component p of the test expression to component p of the output, wrong for grad(div(v)) or curl(v). Arrays as trial functions, complex coefficients and matrix simplification are not modelled. |
| C50 | Distributed tensor product transforms | partial | Model: block distribution, pencils, Alltoallw redistribution, planning loop with groups, transforms as line operators on local arrays (one local array per process). Proof: invariant 'the processes hold the global array g' preserved by every local transform and redistribution; induction over the planned chain. | Proved: planning, block distribution, forward, scalar_product, backward, independence of grid and order, round trips, padded forward and backward; mpi4py_fft's Pencil/Transfer/Subcomm are modelled by contract. Collapsed Fourier axes need bases without the 2/3-rule (C50_collapse_dealias_refuted: the rule is ignored on all collapsed axes but the last). Refuted: scalar_product of a padded space in parallel (redistributions handed over in the wrong direction); the coefficient pencil of a padded space has the physical length along its first axis. Curvilinear measures (get_measured_input_array) and the two-inhomogeneous-axes branch of forward are not in this model. |
| C51 | Grad, div and curl in curvilinear coordinates | partial | Model: getters of Coordinates over an abstract symbolic algebra with sqrt; operators from FormsModel. Proof: chain rule (Frechet derivative along the coordinate lines) gives covariant components; Gram determinant/adjugate algebra gives duality; divergence by the derivative of a determinant; a vector is determined by its products with the tangents. | Proved for up to three parameters, with sympy represented by the laws of SymLaws/SymSLaws (value, derivative, definedness), which CoordWitness instantiates. curl is right only for right-handed coordinates: C51_curl_left_handed_refuted shows that it returns the opposite for left-handed ones, as (theta, r) in demo/unitdisc_helmholtz.py. Missing: grad of a vector and div of a tensor on surfaces, Coordinates.subs (which leaves the caches _bt, _ct, _e, _gn, _det_g stale), the sympy assumptions given to refine. |
| C52 | Inhomogeneous boundary conditions | partial | Model: one axis as functions of the index with the stencil matrix of C29 and a boundary stencil; other axes as linear operators with a measure. Proof: linear algebra over the discrete scalar product; trace by linearity; block distribution from C50; induction over update histories. | Refuted parts: dealias_direct zeroes the boundary coefficients (C52_dealias_direct_refuted); in curvilinear tensor product spaces the boundary values are not multiplied by the measure of the other axes, and the constant factor only for some orders of the axes (C52_measure_refuted); IndexError when the last process owns fewer rows than there are conditions (C52_rows_refuted); update(update_tensor=True) without a time restores the unevaluated expression (C52_update_refuted). Missing: two inhomogeneous axes (Solver2D), values given as Function or Project. |
| C53 | Generated spectral matrices | partial | Model: matrices as functions of row and column; product K A^T B S^T, Lmat, the band choices. Proof: bilinearity of the scalar product with the recursion matrices of C35; duality of the Legendre Phi_k by induction on k (summation by parts of the stencil, integration by parts). For the Jacobi polynomials duality follows from row m+k of b^k and the norms; the classes of both Chebyshev families are reduced to it by a recursion on k. | Refuted parts: with a measure and a differentiated test function the derivative is taken of measure times test function (C53_test_derivative_measure_refuted); assemble_phi ignores derivatives of the test function (C53_phi_test_derivative_refuted) and the family of the trial space (C53_phi_other_family_refuted), and returns the identity for boundary functions when k > dim_ortho (C53_phi_bc_identity_refuted); boundary functions with differentiated test functions lose entries (C53_bc_band_refuted); the sparsity pattern read off two rows and columns can be too narrow (C53_pattern_refuted); a trial space larger than the test space loses terms of the measure (C53_larger_trial_refuted). scaled=True of chebyshevu.Phi1 and Phi2 is ignored by assemble_phi, so row i is i+k+1 times the integrals (C53_phi_scaled_refuted). Duality of Phi_k is proved for Legendre, Chebyshev of the first and the second kind (all classes) and for the defining formula of every Jacobi family. Missing: that the explicit stencils of ultraspherical and jacobi Phi_k equal that formula (Gamma functions); floating point tolerances of extract_diagonal_matrix. |
| C54 | Fourier matrices | partial | Model: complex numbers as pairs of reals; the dictionary displays (equal keys overwrite), the key dispatch, scale and incorporate_scale, Vandermonde quadrature, solve. Proof: the coefficient as a trigonometric polynomial, orthogonality of the roots of unity for the discrete product, Newton-Leibniz for the exact one. | Refuted parts: on domains with length other than 2 pi the six implemented variable-coefficient matrices lack the domain factor (C54_variable_domain_refuted; C54_variable_domain_partial gives the factor); assemble='exact' returns the quadrature's wrap-around entries (C54_exact_refuted; C54_variable_exact for the others); with 4 points (2 for cos) two keys coincide (C54_small_N_refuted). Missing: padding, curvilinear coordinates, solve for a non-unit measure (la.Solver), floating point. |
| C55 | Chebyshev transforms of the second kind | partial | Model: RODFT00/10/01 as sums, the in-place products with numpy's length check, norms, composite stencils. Proof: sin(t) U_k(cos t) = sin((k+1) t), orthogonality of the sines over points and over modes, positive definite mass matrix; Newton-Leibniz for the exact norm. | Refuted part: with a padding factor the fast transforms raise a ValueError, since the factors sin(theta) have the unpadded length (C55_padding_refuted). Missing: kind='vandermonde', several axes, inhomogeneous boundary conditions, floating point; FFTW's transforms are their defining sums and assumed to leave the input intact (the plans are made with FFTW_DESTROY_INPUT). |
| C56 | inner(number, array) is the integral | partial | Model: DCT/DST formulas of the weights, unweighted_quadrature_weights, dx loop over axes on arrays by multi-index, the measure test. Proof: all weights are interpolatory (w_j sum_k P_k(x_j)/h_k int P_k), closed integrals of T_k and U_k, span of the T_k and affine substitution with Newton-Leibniz, induction over the axes. | Refuted parts: on Laguerre (and Hermite) spaces the flag is inverted and the integral carries the weight exp(-x) (C56_laguerre_refuted); the measure is skipped when the product of the scaling factors is 1, which for non-orthogonal coordinates is not sqrt(det g) (C56_skew_refuted). For the Legendre family proved without hypotheses about the rule, for degree below 2N (Gauss) and 2N-2 (Gauss-Lobatto). Missing: the Gauss-Jacobi points of the other families (the discrete orthogonality is a hypothesis of C56_jacobi), composite spaces, floating point (domain_factor rounds lengths within 1e-12). |
| C57 | fast discrete Legendre transform | partial | Model: DCT and DST wrappers over FFTW's defining sums, the loop with the norm over all lines, reversal, signs. Proof: Taylor's formula for cos with remainder by induction on the mean value theorem, the quarter-turn signs, loop invariant with powers and factorials, x^n/n! -> 0 for termination, C46 for the conversion and its adjoint, discrete orthogonality for the stopping test. | Refuted part: for 'scalar product' and 'forward' the stopping test (norm of the last correction below 1e-16) does not control the error: with the four Gauss points the first correction can vanish while the second does not, and the error is as large as one likes (C57_scalar_product_refuted). For 'backward' the test does control it (C57_backward_stop, all points different from the Chebyshev points, so even N). Missing: floating point (with a NaN the loop never ends), the FMM branch of Leg2Cheb for N > 1000 (C47), the points and weights of fastgl themselves (any symmetric points). |
| C58 | project returns the projection | partial | Model SpectralBase.__eq__, compatible_base, assign, to_ortho (with the steps that raise) and the Galerkin system by contract; spec: weighted integrals of the residual against the basis functions are zero; prove each branch, linearity and positivity of the weighted integral for uniqueness, and counterexamples. | Proved: to a space of the same class, kind and domain with at least as many points the result is the same function (any quadrature rules, inhomogeneous boundary conditions included), and sizes of one class of the library are of the same kind; to_ortho gives the same function; in the remaining cases named in C58_projection_partial the result is the projection when the linear system is right; the projection is unique. Refuted by theorems: Chebyshev to Legendre copies coefficients; == ignores the domain and scaled=True; assign copies the coefficients of an orthogonal function to a larger composite space; assign to a slightly smaller composite space fills boundary dofs with coefficients; with use_assign=False a to_ortho that raises half way leaves its partial result in the right hand side. Missing: tensor product spaces, Arrays and sympy functions, the discrete inner product, inhomogeneous boundary conditions in the Galerkin branch. |
| C59 | Hermite and Laguerre functions: evaluation, derivatives, orthonormality, transforms | partial | Model numpy's recurrences for Laguerre and Hermite series and their derivatives over the reals; derivatives by operators on polynomials times an exponential; orthonormality by integration by parts with improper integrals by antiderivatives; Gaussian integral by the classical proof F^2+G = pi/4. | Proved: all values, eval, boundary values, Hermite derivatives k<=2 (higher ones raise), Laguerre derivatives k=0,1,2,4 (matrix) and k<=4 (single function), orthonormality (with the Gaussian integral proved from the standard library), transforms for every Gauss rule, and existence of the rules for every number of points (C59_gauss_laguerre, C59_gauss_hermite). Refuted: evaluate_basis_derivative_all of the Laguerre family with k=3 adds V/8 instead of subtracting it, so every value is too large by La_i(x)exp(-x/2)/4; evaluate_basis_derivative with k>4 silently returns the function itself. Not modelled: rounding, the computation of the Gauss points (numpy), the 'recursive' transforms. |
| C60 | The matrices of the Hermite and Laguerre families are the inner products they are documented to be | partial | Orthonormality from C59 and phi_n' = sqrt(n/2) phi_(n-1) - sqrt((n+1)/2) phi_(n+1); the matrix factors as D^T D with a bidiagonal D, whose kernel decides regularity. | Proved: mass matrices, Laguerre Dirichlet mass and stiffness matrices, all entries of the Hermite stiffness matrix but the last, which are exact; every entry is the value of the N-point Gauss rule; matvec (format 'self'); regular for even N. Refuted: the last diagonal entry is (N-1)/2 although the inner product is N-1/2 (also for assemble='exact'); for every odd N the stiffness matrix is singular, and there are right hand sides without a solution. The Cython matvec of AHHmat and its TDMA solver are those of C45 and C01. |
| C61 | Legendre quadrature rules are the Gauss and Gauss-Lobatto rules | partial | Model lobatto.py (Newton loop over real lists with division by zero as None, array assembly, weights) and the Vandermonde transforms. Prove the Christoffel-Darboux identity for three-term recurrences, deduce dual and then discrete orthogonality at the nodes, exactness by expanding products, existence of zeros by interlacing and Rolle, and the a-posteriori bound for Newton steps from the logarithmic derivative. | Proved: the exactness and its sharpness, symmetry and positivity of both rules, existence and uniqueness of the zeros for every N, the error bound (N-1)*(last correction) for whatever the Newton loop returns, exact zeros are a fixed point, discrete norms (the hypothesis of C36_legendre_mass_quadrature) and transforms. Refuted: N=1 (division by zero), and padded spaces with quad='GL', whose forward transform multiplies the last coefficient by (N-1)/(2N-1) (C61_padded_lobatto_refuted). Missing: that the loop converges from the code's initial guess and to distinct zeros; how fastgl computes the Gauss points; rounding; mapped domains. |
| C62 | generate_xdmf describes the data in the HDF5 file | partial | XdmfModel.v is the body of the loop over ndim of generate_xdmf; XdmfSpec.v reads the file as a viewer does; induction over the datasets with an invariant on the periodicity list. | Files, times, datasets and failure are exact; geometry is right for all 3D data (both orders, both kinds of mesh) and for 2D data in Paraview order, with stored meshes, or equal sizes. Refuted: grids shift in time if a section is missing at some step (times list of all steps, one grid per step with data); the default 'visit' order computes the spacing of each 2D axis with the number of points of the other; planes of non-periodic 3D fields are misplaced (per[kk]=0 before the position is computed) and spoil the spacing of later planes. |
| C63 | Spaces derived from a space are otherwise the same space | partial | DeriveModel.v has one constructor for all classes (their keywords, defaults and boundary conditions) and the dictionaries of the derived spaces; induction on axes for tensor products; case analysis over families. | Unplanned, refined and orthogonal spaces are exact (also for tensor products). Refuted: get_homogeneous of a Generic space loses all its conditions (a different dimension); for LowerDirichlet of chebyshevu/ultraspherical the condition moves to the other boundary; TensorProductSpace.get_homogeneous and get_unplanned(True) drop communicator, axes, dtype and coordinates; get_unplanned(domain=...) keeps derivative values rescaled for the old domain; the keyword bcs is ignored; get_dealiased(1) of a padded space stays padded; get_testspace raises for five conditions or more than six, and jacobi for six. Test spaces (also of tensor product spaces: same communicator, axes, dtype, coordinates and dimensions) are proved for at most four conditions per base. |
| C64 | Multidimensional solvers solve the tensor product system | partial | MDSolveModel.v models la.py 1183-1434 with an explicit state (factorised flag, cached data, changed line (0,0)); C64_operator ties a line equation to the Kronecker product; invariant on the state over the history; the one-dimensional solvers are the models of C02. | Proved: unconstrained histories for fast and slow solver on all ranks, constrained histories on rank zero for DiagMA, TDMA, FDMA and TwoDMA lines, constrained calls on blocks that start after wavenumber 0 (they leave the system alone). Refuted: a scale array that vanishes for some wavenumbers makes the fast solver use data of another kind; on a subcommunicator the pinned mode is another wavenumber; the constraint after a call can touch another mode; complex coefficients lose their imaginary part. SuperLU is an oracle with a contract (shown inhabited). Missing: boundary matrices, constraints other than ((0,val),), ThreeDMA lines, rounding. |
| C65 | Solvers for several non-diagonal axes and for block systems | partial | NDSolveModel.v has arrays as functions of index lists, row-major flattening, nested scipy kron and the objects' state; lemmas on div and mod tie kron to the operator; invariant over the history. BlockSolveModel.v has a state per key. | Proved for every history whose calls constrain the same unknowns (with any values), for SolverGeneric2ND without constraints, for BlockMatrixSolver with a non-diagonal axis, and with Fourier axes only for unconstrained histories and a first constrained call. Refuted: the factors of the first call are used for ever, so a constraint that comes later is not imposed and a dropped one stays; SolverGeneric2ND's b[row] = val overwrites a whole row or plane of the right hand side; BlockMatrixSolver with only Fourier axes factorises the unconstrained matrix from the second call on. SuperLU is an oracle with a contract. Missing: assembly of the block matrix, boundary matrices of SolverGeneric2ND and BlockMatrixSolver, rounding. |
| C66 | The Legendre Helmholtz solver for two Dirichlet axes solves its system | partial | Helm2DModel.v follows the two branches with zero-padded eigenvector arrays; solver 1 calls the model of SolverGeneric1ND, so C64_solves gives the equation of each eigenvector and completeness of the eigenvectors the system. | Proved: the band matrix is B for every symmetric B with the keys -2, 0, 2; solver 1 solves the system when A is the inverse of the coefficient of AUB times the identity, the coefficients of AUB and BUA agree and B has scale one; solver 0 when the coefficients of AUB and BUA are one and the two axes have the same matrices or different numbers of points. Refuted outside of these: the docstring's coefficients are not used (solver 0 ignores a_1 and a_2, solver 1 ignores a_2 and does not scale 1/lambda), and solver 0 reuses the eigenvectors of the first axis for the second whenever the numbers of points agree. The eigen solvers are parameters with their contract. Missing: several processes, rounding. |
| C67 | Configuration files override exactly what they say | proved | ConfigModel.v has nested dictionaries as item lists in insertion order and the recursive update; ConfigSpec.v defines paths, what a file says and where it is silent; induction on the size of the file. | Proved for all files. What a file says is its leaves and its empty sections. Also shown: an empty section ('block: {}') removes all defaults of the section, and an empty file or a section whose entries are all commented out (None) makes the import of shenfun fail (the latter if a later file has entries in that section). Reading of yaml and sharing of mutable leaves are not modelled. |
| C68 | Lagrangian particles follow the velocity field | partial | ParticlesModel.v has the object as a state machine; mean value theorem for the truncation error, induction on the number of steps for the global error, over the reals of the standard library. | Proved with an explicit error bound, M/L*dt*(exp(L*n*dt)-1), for steady and for time-dependent velocities (set before every step) and float arrays. Refuted for integer arrays: the new positions are truncated on assignment, and a particle with velocity 1 never moves; going back does not undo the steps exactly. The evaluation of the velocity at a point is a parameter (C34). Missing: several processes, rounding. |
| C69 | The optimization mode changes the speed, not the function that runs | partial | DispatchModel.v has the lookup and the tables of the decorated functions and of the two namespaces with their signatures, taken from the sources; the general theorems hold for all namespaces, those on the tables by evaluation over all entries. | Proved: the choice for all namespaces and modes, the mode in force at each call of a session, that no two decorated functions ever run the same optimized function, that the fast path finds the optimized inner_solve of every banded solver, and exactly which allowed calls are not served. Refuted: leg2cheb(cl) and cheb2leg(cc) without an output array fail in the default cython mode; with numba the direct branch of dlt.Leg2Cheb raises an error and that of dlt.Cheb2Leg returns zeros, and without a backend both return zeros; Helmholtz and Biharmonic need a backend; chebyshev.bases.chebval keeps the mode of the import. Missing: that an optimized function computes what the Python function does, which C06, C34, C45, C46 and others prove for the functions they model. |

## Trusted base
* Coq 8.16.1's kernel (including `vm_compute` conversion, used for concrete examples and
  refutations; the files are also accepted by coqchk, which has no virtual machine).
* The axioms printed by `Print Assumptions`, per theorem (all from Coq's standard library; they
  enter only through the real numbers `Reals` and, for the Complex/Fourier instance and Coquelicot-free
  polynomial files, nothing else):
* closed under the global context (no axioms) -- 222 theorems: C01_DiagMA_solves, C01_FDMA_solves, C01_TDMA_O_solves, C01_TDMA_solves, C01_TwoDMA_solves, C02_HeptaDMA_solves, C02_PDMA_solves, C03_ThreeDMA_partial, C03_ThreeDMA_refuted, C03_ThreeDMA_repaired, C04_reuse, C05_HeptaDMA_refuted, C05_PDMA_refuted, C05_TDMA_O_refuted, C05_after_unconstrained_refuted, C05_pinned, C05_pinned_history, C06_axis_2D, C06_axis_3D, C06_axis_4D, C06_cython_4D_refuted, C06_cython_DiagMA_refuted, C06_cython_solve, C06_one_matrix_per_line_2D, C06_one_matrix_per_line_3D, C07_TDMA_agrees_with_PDMA, C07_dominant_safe, C07_pivots_iff, C07_unique, C08_matvec, C09_add, C09_iadd, C09_iadd_self, C09_isub, C09_scalar, C09_sub, C10_hash_refuted, C10_partial, C10_scale_refuted, C10_zeros_refuted, C11_complete, C11_offsets, C11_solve, C12_matvec_partial, C12_scalar_scale_refuted, C12_three_nondiagonal_refuted, C13_factor_scale_refuted, C13_inputs_mutated_refuted, C13_partial, C13_same_object_refuted, C14_add_mutates_refuted, C14_fourier_partial, C14_iadd_refuted, C14_partial, C14_sparse_distinct_partial, C14_sparse_double_refuted, C14_sparse_merge_partial, C15_amax, C15_dropped, C15_lossless, C15_sound, C16_c2c_modes, C16_c2c_permutation, C16_eliminate, C16_r2c, C17_c2c_backward_forward, C17_c2c_forward_backward, C17_r2c_backward_forward, C17_r2c_forward_backward, C18_c2c_lossless, C18_c2c_values, C18_c2c_values_even, C18_r2c_lossless, C18_r2c_values, C18_single_mode_refuted, C19_backward_partial, C19_c2c_partial, C19_r2c_partial, C19_small_refuted, C20_c2c, C20_c2c_three_halves_partial, C20_convolve_1D, C20_convolve_real_1D, C20_nyquist_refuted, C20_r2c, C21_1d_r2c_partial, C21_1d_r2c_refuted, C21_c2c, C21_r2c_aligned, C21_ranks_partial, C21_ranks_refuted, C22_dyadic_cases, C23_backward_partial, C23_backward_refuted, C23_cache_refuted, C23_get_dealiased_history_partial, C23_get_dealiased_partial, C23_one_dimension, C23_vector_partial, C24_components_bijection, C24_components_partial, C24_dims, C24_flatten_bijection, C24_keys_partition, C24_negative_index_refuted, C24_round_trip, C24_round_trip_vector, C24_scalar_partial, C24_scalar_refuted, C24_views_partial, C24_views_singleton_refuted, C25_add_sub_return, C25_simplify_collects, C26_composite_refuted, C26_dx_returns, C26_dx_vector_returns, C27_zero_results_raise_refuted, C28_cross, C28_cross_cython, C28_cross_in_place_refuted, C28_dot_cartesian, C28_dot_curvilinear, C28_outer_cython, C28_outer_partial, C28_outer_self_refuted, C31_dispatch, C31_num_derivatives_refuted, C31_ordered, C32_double_refuted, C34_clenshaw, C34_clenshaw_S_partial, C34_recursive_evaluation, C34_recursive_scalar_product, C34_recursive_scalar_product_cython_partial, C34_recursive_scalar_product_cython_refuted, C34_restricted_product, C35_shifted_matrix, C35_shifted_scale_refuted, C37_scalar, C37_tensor_1D_partial, C37_tensor_1D_refuted, C37_tensor_3D_missed_refuted, C37_tensor_3D_partial, C37_tensor_3D_refuted, C37_tensor_partial, C37_vector, C38_contents, C38_different_keys_different_arrays, C38_same_key_same_array, C40_first_axis_refuted, C40_wrap_periodic_partial, C41_partial, C41_stale_after_iadd_refuted, C41_stale_after_imul_refuted, C47_every_entry_once, C47_padded, C47_padded_py, C47_submatrices_inside, C48_between, C48_crash_safe, C48_kill, C48_lists_refuted, C48_main_alone_refuted, C48_new_object_refuted, C48_read, C48_saved, C50_any_grid, C50_backward, C50_collapse_dealias_refuted, C50_distribution, C50_forward, C50_matrix, C50_padded_backward, C50_padded_forward, C50_padded_pencil_refuted, C50_padded_scalar_product_partial, C50_padded_scalar_product_refuted, C50_planned, C50_round_trip, C50_round_trip_back, C50_scalar_product, C52_rows, C52_rows_refuted, C64_constraint_other_mode_refuted, C64_operator, C64_pinned, C64_solves, C64_subcommunicator_refuted, C64_vanishing_coefficient_refuted, C65_block_fourier, C65_block_fourier_constraint_refuted, C65_block_solves, C65_constraint_history_refuted, C65_numbering, C65_solves, C65_two_axes, C65_two_axes_constraint_refuted, C66_band, C66_banded, C66_banded_coefficients_refuted, C66_generalized, C66_generalized_coefficients_refuted, C66_generalized_same_points_refuted, C67_empty_section_refuted, C67_import_refuted, C67_nothing_else, C67_priority, C67_says, C67_silent, C67_succeeds, C69_arguments, C69_chebval_refuted, C69_choice, C69_direct_refuted, C69_inner, C69_names, C69_no_confusion, C69_optional_output_refuted, C69_python, C69_served_partial, C69_session, C69_sound
* `ClassicalDedekindReals.sig_forall_dec` -- 5 theorems: C31_tuple, C43_conditions_refuted, C52_update, C52_update_refuted, C68_independent
* `ClassicalDedekindReals.sig_forall_dec`, `FunctionalExtensionality.functional_extensionality_dep` -- 133 theorems: C25_add, C25_mul, C25_mul_number, C25_neg, C25_simplify, C25_sub, C26_dx, C26_dx_commutes, C26_dx_defined, C27_curl_2d_scalar, C27_curl_2d_vector, C27_curl_3d, C27_curl_grad_is_zero, C27_div, C27_div_curl_is_zero, C27_div_grad_is_laplacian, C27_div_tensor, C27_grad, C27_grad_vector, C27_identities_return, C29_chebyshev_bipolar_partial, C29_chebyshev_bipolar_refuted, C29_derivative_meaning, C29_explicit_stencils, C29_legendre_bipolar, C29_rows_beyond_dim, C29_wrong_length_refuted, C30_affine, C30_endpoints_partial, C30_endpoints_refuted, C30_inverse, C30_tolerance, C31_rescaling_partial, C31_rescaling_refuted, C31_twice_refuted, C32_end, C32_exact_partial, C32_matrices, C32_matrices_refuted, C32_nonpositive, C32_steps, C32_tiny_refuted, C33_be_start_refuted, C33_etdrk4_L0, C33_imex011_refuted, C33_imex_stages, C33_imexrk3_same, C33_irk3_history, C33_rk4_linear, C34_eval_1D_r2c, C34_eval_2D_nyquist_refuted, C34_eval_2D_odd_partial, C34_eval_2D_partial, C34_eval_3D_partial, C34_eval_3D_variants, C34_eval_complex, C34_eval_python_2D, C34_eval_python_2D_first, C34_eval_python_3D, C34_expr_eval_ranks_refuted, C34_expr_eval_serial_partial, C34_jacobi_family_partial, C34_jacobi_opposite_parameters_refuted, C34_jacobi_recursive_partial, C34_legendre_family, C34_legendre_recursive, C35_boundary_values, C35_cancellation_is_exact, C35_integration_powers, C35_matrix_b, C35_matrix_c, C35_multiplication_by_x, C35_multiplication_by_x_cancelled, C35_powers_of_x, C35_psi, C35_underlined_a, C39_helmholtz_lines, C39_helmholtz_two_arguments, C42_to_ortho, C43_bc_basis, C43_stencil, C45_BSBSB, C45_BSDSD, C45_BSNSN_partial, C45_BSNSN_refuted, C45_CLL, C45_small_sizes_refuted, C49_bilinear_partial, C49_hessian_refuted, C49_linear_partial, C52_backward, C52_dealias_direct_refuted, C52_forward, C52_measure_refuted, C52_roundtrip, C52_tensor, C52_tensor_trace, C52_trace, C52_vandermonde, C53_jacobi, C53_jacobi_dual, C53_phi, C53_phi_assertion, C53_stencil_bc, C53_stencil_entries, C53_stencil_mass, C53_test_derivative_measure, C54_fallback, C54_solve, C56_product, C56_sum, C57_remainder, C58_denser, C58_to_ortho, C60_identity_solve, C61_mass, C61_padded_gauss, C61_padded_lobatto_refuted, C61_transforms, C62_files, C62_geometry_2d_partial, C62_geometry_3d, C62_grids, C62_plane_partial, C62_plane_position_refuted, C62_plane_spacing_refuted, C62_time_partial, C62_time_refuted, C62_visit_refuted, C64_complex_coefficients_refuted, C68_integer_points_refuted, C68_reversal_refuted, C68_still
* `ClassicalEpsilon.constructive_indefinite_description`, `Classical_Prop.classic` -- 1 theorems: C64_lu_contract_inhabited
* `ClassicalDedekindReals.sig_forall_dec`, `ClassicalDedekindReals.sig_not_dec`, `FunctionalExtensionality.functional_extensionality_dep` -- 157 theorems: C29_chebyshev, C29_chebyshev_meaning, C29_chebyshevu, C29_laguerre, C29_legendre, C29_lower_dirichlet_refuted, C33_etd_complex_refuted, C33_etd_constant, C33_nodes, C33_rk4_number_refuted, C34_clenshaw_cosine, C34_lm_2D, C34_lm_3D_crc_refuted, C34_lm_3D_partial, C34_lm_complex, C34_lm_ranks_partial, C34_lm_ranks_refuted, C36_chebyshev_mass_quadrature, C36_chebyshev_shapes, C36_chebyshevu_mass_quadrature, C36_legendre_mass_quadrature, C36_legendre_shapes, C39_biharmonic, C39_biharmonic_domain_refuted, C39_biharmonic_fourth_order, C39_biharmonic_odd_refuted, C39_biharmonic_small_refuted, C39_biharmonic_three_arguments, C39_four_arguments_scale_refuted, C39_helmholtz_dirichlet, C39_helmholtz_neumann, C39_helmholtz_neumann_zero, C39_helmholtz_small, C39_neumann_unit_pivot_refuted, C39_no_pivoting_refuted, C39_poisson_dirichlet, C39_poisson_dirichlet_small, C39_poisson_neumann, C44_backward_forward, C44_backward_values, C44_composite_backward, C44_composite_forward_backward, C44_composite_scalar_product, C44_forward_backward, C44_mass_solve, C44_mass_solve_refuted, C44_padded_lobatto_refuted, C44_rows_beyond_refuted, C44_scalar_product_values, C45_ASBSB, C45_ASDSD, C45_ASNSN_partial, C45_ASNSN_scale_refuted, C45_ATT_overflow_refuted, C45_ATT_partial, C45_BSBSD, C45_BSDSN, C45_CSBSD, C45_CSDSB, C45_CSDSD, C45_CSDSN, C45_CTSD_partial, C45_CTSD_refuted, C45_CTT, C45_SSBSB_overflow_refuted, C45_SSBSB_partial, C45_biharmonic_overflow_refuted, C45_biharmonic_partial, C45_biharmonic_refuted, C45_helmholtz_dirichlet_partial, C45_helmholtz_dirichlet_refuted, C45_helmholtz_neumann_cython_refuted, C45_helmholtz_neumann_numba, C46_BTL_matvec_partial, C46_BTL_matvec_refuted, C46_BTL_quadrature, C46_Cheb2Leg_direct_partial, C46_FMMLeg2Cheb_direct_partial, C46_cheb2leg, C46_leg2cheb, C46_leg2cheb_transpose, C47_cheb2leg_partial, C47_leg2cheb_partial, C47_leg2cheb_transpose_partial, C49_boundary_3d_refuted, C49_empty_refuted, C49_linear_components_refuted, C49_names_refuted, C51_christoffel, C51_classification, C51_contravariant, C51_covariant, C51_curl_2d, C51_curl_3d, C51_curl_left_handed_refuted, C51_curl_surface, C51_div, C51_div_surface, C51_div_tensor, C51_grad, C51_grad_surface, C51_grad_vector, C51_laplace, C51_projection, C51_scaling, C51_volume, C52_classes, C54_derivative, C54_small_N_refuted, C54_vandermonde, C54_variable, C54_variable_domain_partial, C54_variable_domain_refuted, C55_backward_forward, C55_backward_values, C55_composite_backward, C55_composite_forward_backward, C55_composite_scalar_product, C55_forward_backward, C55_mass_quadrature, C55_padding_refuted, C55_rule, C55_scalar_product_values, C56_skew_refuted, C58_kinds, C59_boundary, C59_eval, C59_hermite_derivatives, C59_laguerre_derivative_partial, C59_laguerre_derivatives_partial, C59_laguerre_high_refuted, C59_laguerre_third_refuted, C59_values, C60_even_regular, C60_matvec, C60_odd_refuted, C61_gauss_zeros, C61_newton_fixed, C61_one_refuted, C63_bcs_keyword_refuted, C63_dealiased_partial, C63_dealiased_reset_refuted, C63_domain_refuted, C63_homogeneous_generic_refuted, C63_homogeneous_lower_refuted, C63_homogeneous_partial, C63_orthogonal, C63_refined, C63_tensor, C63_tensor_homogeneous_refuted, C63_tensor_orthogonal, C63_tensor_refined, C63_tensor_testspace_partial, C63_tensor_unplanned_partial, C63_testspace_partial, C63_testspace_refuted, C63_unplanned
* `ClassicalDedekindReals.sig_forall_dec`, `ClassicalDedekindReals.sig_not_dec`, `Classical_Prop.classic`, `FunctionalExtensionality.functional_extensionality_dep` -- 105 theorems: C22_padded_shape_exact_partial, C22_padded_shape_partial, C22_padded_shape_refuted, C22_r2c_trunc_refuted, C22_refine_partial, C22_refine_r2c_odd_refuted, C22_refine_refuted, C22_requested_size, C22_three_halves_size, C29_independent, C29_jacobi, C29_ultraspherical, C33_be_order_partial, C33_imex111_order, C33_imex222_order, C33_imex443_order, C33_irk3_explicit_order, C33_irk3_order3_refuted, C33_irk3_order_partial, C33_rk4_order, C33_rk4_polynomial, C36_chebyshev_dictionary, C36_chebyshev_lobatto_differs, C36_chebyshevu_dictionary, C36_legendre_dictionary, C36_legendre_scaled_partial, C36_legendre_scaled_refuted, C36_legendre_scaled_rp1_refuted, C36_legendre_unused, C39_numba_lines_refuted, C42_to_ortho_classes, C46_BTL_exact, C46_BTL_exact_lobatto_refuted, C46_Cheb2Leg_direct_odd_refuted, C46_FMMLeg2Cheb_direct_odd_refuted, C46_round_trip, C47_cheb2leg_accuracy, C47_conversionmatrix, C47_leg2cheb_accuracy, C47_leg2cheb_transpose_accuracy, C47_sweeps, C47_sweeps_transpose, C53_bc_band_refuted, C53_chebyshev_dual, C53_chebyshev_phi, C53_chebyshevu_dual, C53_chebyshevu_phi, C53_larger_trial_refuted, C53_legendre_dual, C53_legendre_mass, C53_legendre_phi, C53_pattern_refuted, C53_phi_bc_identity_refuted, C53_phi_other_family_refuted, C53_phi_scaled_refuted, C53_phi_test_derivative_refuted, C53_test_derivative_measure_refuted, C54_constant, C54_exact_refuted, C54_variable_exact, C55_mass_exact, C56_chebyshev, C56_chebyshevu, C56_fourier, C56_integral_unique, C56_jacobi, C56_laguerre_refuted, C56_legendre_gauss, C56_legendre_lobatto, C56_legendre_points, C57_backward, C57_backward_stop, C57_forward, C57_scalar_product, C57_scalar_product_refuted, C57_space_backward, C57_space_scalar_product, C57_terminates, C58_domains_refuted, C58_families_refuted, C58_leftover_refuted, C58_orthogonal_to_composite_refuted, C58_projection_partial, C58_scaled_refuted, C58_truncation_refuted, C58_unique, C59_forward, C59_gauss_hermite, C59_gauss_laguerre, C59_integral_unique, C59_orthonormal, C59_roundtrip, C60_laguerre_dirichlet, C60_mass, C60_stiffness_partial, C60_stiffness_quadrature, C60_stiffness_refuted, C61_gauss, C61_lobatto, C61_lobatto_sharp, C61_lobatto_zeros, C61_newton, C68_back_and_forth, C68_converges, C68_unsteady

* `vcheck` additionally lists, as axioms of *loaded libraries*, `Coq.ssr.ssrunder.*` (the sealed
  `Under_rel`/`Under_eq` modules of ssreflect's standard-library part) and the sealed definitions
  `Coq.Reals.Rdefinitions.RbaseSymbolsImpl.*`, `ClassicalDedekindReals.sig_forall_dec`,
  `sig_not_dec`, `functional_extensionality_dep`, `Classical_Prop.classic`.  They come with the
  standard library files that are loaded; the list above says which theorem uses which.
* No axioms, parameters, functors or module types are declared in `rocq/theories`; section
  variables are discharged.
* The faithfulness of the transcription: that each Gallina definition does what the cited Python,
  Cython or numba lines do.  It is argued by the citations and comments only.

## Modelled
* `la.py` and `optimization/{numba,cython}`: the banded solvers DiagMA, TDMA, TDMA_O, FDMA, TwoDMA,
  ThreeDMA, PDMA, HeptaDMA -- factorisation, substitution, constraints, re-use, and the axis loops.
* `matrixbase.py`: SparseMatrix (construction, diags, matvec, algebra, equality, solver cache and
  dispatch), TPMatrix (matvec, simplify), BlockMatrix (assembly, matvec), extract_diagonal_matrix.
* `fourier/bases.py`: wavenumbers, transforms as sums, padding/truncation, dealias masks, energy,
  cython convolve; masks of Nyquist modes.
* stencils and boundary conditions of chebyshev, legendre, chebyshevu, ultraspherical, jacobi,
  laguerre composite bases; to_ortho; `jacobi/recursions.py`.
* `utilities/__init__.py`: cross, outer, dot, wrap_periodic, CachedArrayDict.
* `utilities/findbasis.py` (stencils and boundary bases from conditions), `BoundaryConditions`,
  domain maps of spectralbase.py.
* `utilities/integrators.py`: the time loops (over reals and IEEE doubles) and one step of every integrator.
* evaluation kernels: Clenshaw, three-term recursions (numba/cython), T.eval methods 0, 1, 2 and Expr.eval.
* sizes of padded and refined spaces (IEEE doubles through Flocq's computable binary64; Flocq has no axioms of its own),
  get_dealiased and its cache, composite spaces: offsets, views, flattened vectors.
* `forms/arguments.py` Expr and `forms/operators.py` Dx, div, grad, curl. sympy is a record of operations
  (FormsModel.Sym) whose assumed laws are FormsSpec.SymLaws (premises of the theorems, not axioms; FormsWitness.v
  proves them for a small expression language). Theorems on div, grad, curl are for Cartesian coordinates.
* legendre/matrices.py and chebyshev/matrices.py: every class with a hard coded assemble method, and the dictionaries mat
  ; chebyshev/bases.py points_and_weights.
* Checkpoint (io/__init__.py): update as a list of effects on the two files, arbitrary interleaving of the ranks' element writes, collective
  h5py calls as one effect; files in flight at a crash may contain anything. A crash inside read is not modelled. generate_xdmf is modelled separately (XdmfModel.v).
* inner() (forms/inner.py 273-507, InnerModel.v): bilinear and linear forms, recursive algorithms for vectors and
  tensors, boundary matrices, the lookup of the measure by the names x, y, z, r, s; utilities.split and
  spectralbase.inner_product are parameters with stated laws (an instance is in InnerWitness.v).  Not modelled: Array
  trial functions, sympy test or trial arguments, adaptive and exact assembly, complex coefficients.
* Distributed transforms (tensorproductspace.py 45-541, PencilModel.v): planning (collapse, pencils, transfers, data
  types), forward, scalar_product, backward, and the padded spaces (configure_backwards).  mpi4py_fft is not in /repo:
  Subcomm, Pencil, Transfer (block distribution, exchange of two communicators, Alltoallw, shape and dtype assertions)
  are modelled by what they do.  The serial transforms are arbitrary functions of one line.  All processes run the same
  collective calls; message timing inside MPI is not modelled.
* coordinates.py: class Coordinates without its caches and without `subs`; det and inv of sympy matrices are the Laplace expansion and the
  adjugate. The operators of forms/operators.py are used on these coordinates (all three branches: Cartesian, orthogonal, general).
* Inhomogeneous boundary conditions (BndModel): CompositeBase.to_ortho, _padding_backward, backward, forward along one axis; BoundaryValues.update, set_tensor_bcs, _add_mass_rhs, set_boundary_dofs with one inhomogeneous axis. The transforms along the other axes are arbitrary linear operators. Not modelled: Solver2D for two inhomogeneous axes, Function and Project values.
* assemble_stencil, assemble_stencil_bc, assemble_phi, assemble_phi_bc (matrixbase.py 1964-2131) and Lmat (jacobi/recursions.py
  604-644) as matrix functions; extract_diagonal_matrix keeps the diagonals of the given bands, without its tolerances (C53).
* fourier/matrices.py (FMatModel): every class, the dictionary, SpectralMatrix.__init__ as far as it concerns them, quadrature with Vandermonde matrices. The Riemann integral of the standard library is the reference for the exact product. Test and trial space are the same; padding and coordinates are left out; numpy's complex 1/0 counts as infinite.
* chebyshevu/bases.py 98-264: points, weights, norms and the fast transforms of the second-kind Chebyshev space for both rules, with
  padding; BUUmat; the composite transforms (spectralbase.py 1448-1474). Not: Vandermonde transforms, evaluate_basis_derivative.
* points_and_weights(weighted=False) (chebyshev/bases.py 224-252, chebyshevu/bases.py 131-150, jacobi/bases.py 66-90, fourier/bases.py
  73-82, laguerre/bases.py 69-79), dx (utilities/__init__.py 26-61), the number branch of inner (forms/inner.py 180-216). Not: the tuple
  branch, arrays of vector spaces.
* the fast discrete Legendre transform (legendre/dlt.py: DLT, DCT, DST) with its loop, by families of lines, exact reals; the points and weights are parameters (DLTModel.v);
* project (forms/project.py) of a Function in one dimension, with SpectralBase.__eq__, compatible_base, Function.assign and
  Function.to_ortho, including the arrays left behind when to_ortho raises half way (ProjModel.v). The linear system of the Galerkin
  branch enters by its contract. Not modelled: tensor product spaces, Arrays, sympy functions, the class Project.
* Hermite and Laguerre functions (hermite/bases.py, laguerre/bases.py): values, evaluate_basis_derivative(_all), eval, bnd_values, Vandermonde transforms, and the matrices of hermite/matrices.py and laguerre/matrices.py (matvec of AHHmat in format 'self'). numpy's series routines by their recurrences; Gauss points and weights are any rule exact for degree below 2n. Improper integrals by antiderivatives and limits; the Gaussian integral is proved (GaussInt.v).
* Legendre quadrature (legendre/lobatto.py, legendre/bases.py 114-165): the Newton loop with its two stopping tests and ten iterations over exact reals (division by zero is None), the assembly of the point and weight arrays, l2_norm_sq and the Vandermonde transforms, also with more points than modes. The initial guess is a parameter; fastgl is represented by the zeros of L_N and the documented weights.
* generate_xdmf (io/generate_xdmf.py, XdmfModel.v): which files are written, their times, grids, attributes and geometry (uniform domains and stored meshes, both orders, sections of fields), including the list per that is updated for planes. Text formatting, precision and the grouping of keys by dimension are not modelled: the HDF5 file is the list of its scalar datasets of one dimension.
* Derived spaces (get_unplanned, get_refined, get_dealiased, get_orthogonal, get_homogeneous, get_testspace of spectralbase.py, fourier/bases.py, and their TensorProductSpace versions; DeriveModel.v): constructors reduced to the settings they keep (class, N, quad, domain, dtype, padding, boundary conditions and values, scaled, alpha, beta, coordinates as an opaque label). Transform plans, masks and mpi4py pencils are not modelled.
* chebyshevu/matrices.py: every assemble method (ChebUMatModel.v, C36), reference domain, test and trial space of the same size; the assertions on classes and quad='GU' are left out.
* The solver for several dimensions with one non-diagonal axis (la.py 1183-1434, SolverGeneric1ND): assembling a matrix per wavenumber,
choice of solver, the constraint on rank zero, factorisation at the first call, stored data, fast and slow solution, as a state machine
over histories of calls. SuperLU is an oracle with a contract.
* The solvers for several non-diagonal axes (la.py 846-1181, Solver2D/3D/ND and SolverGeneric2ND, with TPMatrix.diags) and
BlockMatrixSolver (la.py 1436-1540): flattening, Kronecker products, constraints and stored factors, as state machines over histories.
* Helmholtz_2dirichlet (legendre/la.py 9-165), both solvers, on one process. The results of scipy's eigh and eig_banded are
parameters with the property of an eigen decomposition as contract.
* config.py: update and the loop over the configuration files; yaml.load and the values of the leaves are not modelled.
* LagrangianParticles (utilities/lagrangian_particles.py): step, changes of dt and of the velocity, what integer arrays keep.
* The choice of an implementation (optimization/__init__.py), with the names and signatures of all decorated functions and of the
functions of both backends; keyword arguments count as positional.
* leg2cheb and cheb2leg (dlt.py, numba, cython), the direct branches of Leg2Cheb, Cheb2Leg, FMMLeg2Cheb. Lambda is taken by its exact
  values at the integers, not by the asymptotic approximation. For long arrays: the hierarchical decomposition of FMMLevel, FMMcheb and
  FMMdirect1-4 (FMMModel.v); the sweeps of FMMcheb and conversionmatrix (FMMSweepModel.v). getChebyshev (adaptive interpolation) is not modelled: its
  matrices and their sizes are arguments.
* chebyshev/la.py (ADDSolver, ANNSolver, Helmholtz, Biharmonic) with the line kernels of optimization/numba/helmholtz.py, numba/biharmonic.py and
  cython/la.pyx; the matvec methods of chebyshev/matrices.py and legendre/matrices.py and every line kernel of cython/Matvec.pyx
  (hermite AHHmat.matvec, which calls functions that do not exist with its arguments, is not modelled).
* further groups as listed in the table.

## Not modelled
* Floating point rounding (except where SpecFloat doubles are used: C22, C32), NumPy/SciPy/FFTW/sympy internals (their documented results
  are used), MPI communication (a distributed array is modelled by the index ranges of its ranks),
  plotting, file formats (HDF5/NetCDF/XDMF), the run-time optimizer's choice between Python, numba
  and Cython (each implementation is modelled separately where they differ).
* Sympy simplification: coefficients are functions; where the code cancels symbolically the
  cancelled function is a separate definition and its agreement is a theorem.

## Findings (refuted properties of the code as it stands)
The `_refuted` theorems; see the notes in the table.
