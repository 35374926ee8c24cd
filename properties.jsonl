{"id": "C01", "title": "Banded solvers solve the system they were given", "statement": "Calling a freshly built DiagMA, TDMA, TDMA_O, FDMA or TwoDMA solver with right hand side b returns u with A u = b exactly (in exact arithmetic), where A is the banded matrix with the diagonals of that class, whenever no pivot of the elimination is zero.", "quantifier": "every size n above the class's minimum, every choice of diagonals with non-zero pivots, every right hand side, every field", "why_tests_cant": "A test fixes one size and one set of numbers; a wrong boundary row or a wrong slice can be invisible on the matrices the suite happens to use.", "anchors": ["shenfun/la.py:DiagMA,TDMA,TDMA_O,FDMA,TwoDMA", "shenfun/optimization/cython/la.pyx", "shenfun/optimization/numba/tdma.py"]}
{"id": "C02", "title": "Penta- and heptadiagonal solvers solve the system they were given", "statement": "Calling a freshly built PDMA (offsets -4,-2,0,2,4) or HeptaDMA (offsets -4..8 by 2) solver with right hand side b returns u with A u = b, whenever no pivot is zero.", "quantifier": "every size n above the class's minimum, all diagonals with non-zero pivots, all right hand sides, every field", "why_tests_cant": "A test fixes one size and one set of numbers; a wrong boundary row or a wrong slice can be invisible on the matrices the suite happens to use.", "anchors": ["shenfun/la.py:PDMA,HeptaDMA", "shenfun/optimization/numba/pdma.py", "shenfun/optimization/numba/heptadma.py"]}
{"id": "C03", "title": "ThreeDMA solves upper triangular systems with offsets 0, 2, 4", "statement": "Calling a ThreeDMA solver with right hand side b returns u with A u = b for the matrix A with diagonals 0, 2 and 4.", "quantifier": "every size, all diagonals with non-zero main diagonal, all right hand sides", "why_tests_cant": "The library's own matrices with this pattern may have special values; only a universally quantified statement shows whether the second super-diagonal is really used.", "anchors": ["shenfun/la.py:ThreeDMA", "shenfun/optimization/numba/threedma.py", "shenfun/optimization/cython/la.pyx:ThreeDMA"]}
{"id": "C04", "title": "A solver object can be reused", "statement": "The k-th call of one solver object (no constraints) returns the same solution as a fresh object called once with the k-th right hand side: the factorisation is performed exactly once and never corrupted by solves.", "quantifier": "every finite history of calls on one object, every size, all right hand sides", "why_tests_cant": "Histories are unbounded; a double factorisation only shows from the second call on.", "anchors": ["shenfun/la.py:SparseMatrixSolver.__call__,perform_lu"]}
{"id": "C05", "title": "A constrained solve pins the first unknown", "statement": "Calling a fresh solver with constraints=((0, val),) returns u with u[0]=val and every other row of A u = b satisfied.", "quantifier": "every size, all matrices, all values, each banded solver class", "why_tests_cant": "The constraint edits the matrix storage in place before factorisation; whether the edit reaches the solve depends on the class and on the call history.", "anchors": ["shenfun/la.py:apply_constraints"]}
{"id": "C06", "title": "Solving along an axis solves every line independently", "statement": "Solving a multidimensional right hand side along an axis returns an array each of whose lines along that axis is the one-dimensional solution for the same line of the right hand side; no other line influences it.", "quantifier": "arrays of 2, 3 and 4 dimensions of any shape, every axis, any line solver, C-contiguous storage", "why_tests_cant": "The loops use flat pointers and strides; a wrong stride corrupts neighbouring lines only for some shapes.", "anchors": ["shenfun/la.py:BandedMatrixSolver.__call__", "shenfun/optimization/cython/la.pyx:Solve_axis_2D,Solve_axis_3D,Solve_axis_4D", "shenfun/optimization/numba/la.py"]}
{"id": "C07", "title": "The solution is unique and pivots are safe for dominant matrices", "statement": "When the elimination meets no zero pivot the system has exactly one solution, so every solver class (and a solver for a wider band padded with zero diagonals) returns the same vector.", "quantifier": "all sizes and matrices with non-zero pivots", "why_tests_cant": "Agreement between two implementations on sample matrices says nothing about the others.", "anchors": ["shenfun/la.py:TDMA,TDMA_O,FDMA,PDMA"]}
{"id": "C08", "title": "matvec computes the matrix-vector product", "statement": "A.matvec(v, c) with format 'python' leaves in c the product scale * A v for the N x M matrix with the stored diagonals, zero in rows outside, for scalar and array diagonals of rectangular matrices.", "quantifier": "all shapes N x M, all sets of diagonal offsets, all values, all vectors", "why_tests_cant": "The slice bounds min(N, M-key) differ for wide and tall matrices and for both signs of the offset.", "anchors": ["shenfun/matrixbase.py:SparseMatrix.matvec"]}
{"id": "C09", "title": "Sparse matrix algebra is matrix algebra", "statement": "A+B, A-B, A+=B, A-=B, -A, c*A, A/c, A.copy() and incorporating the scale denote the entrywise results, for matrices carrying scale factors (outside the windows |s|<1e-15 and |s-1|<1e-8 in which the code rounds a scale to 0 or 1), and do not change the value of the operands that are not assigned to.", "quantifier": "all shapes, offsets, values, scales (including zero scale)", "why_tests_cant": "Combination of scales, missing keys and zero-scale shortcuts gives many branch combinations.", "anchors": ["shenfun/matrixbase.py:SparseMatrix.__add__,__iadd__,__sub__,__isub__,__neg__,__mul__,__div__,incorporate_scale"]}
{"id": "C10", "title": "Equal sparse matrices represent the same operator", "statement": "If A == B for two SparseMatrix objects then A and B have the same product with every vector.", "quantifier": "all pairs of sparse matrices", "why_tests_cant": "Needs pairs that collide; tests only compare matrices that are equal or visibly different.", "anchors": ["shenfun/matrixbase.py:SparseMatrix.__eq__,same_keys,__hash__"]}
{"id": "C11", "title": "The solver picked for a matrix fits its pattern", "statement": "A.get_solver() returns a class whose assumed diagonal offsets are exactly those of A, so that A.solve(b) is applicable whatever the pattern.", "quantifier": "every set of diagonal offsets", "why_tests_cant": "The number of key sets is unbounded.", "anchors": ["shenfun/la.py:get_solver", "shenfun/matrixbase.py:SparseMatrix.get_solver"]}
{"id": "C12", "title": "Tensor product matrices act as Kronecker products", "statement": "TPMatrix.matvec(v, c) computes scale * (A0 x A1 x ...) v, one factor per axis, in any order of application of the axes.", "quantifier": "all shapes, all factors, any number of non-diagonal axes", "why_tests_cant": "All combinations of diagonal and banded factors and all shapes.", "anchors": ["shenfun/matrixbase.py:TPMatrix.matvec"]}
{"id": "C13", "title": "Simplifying a sum of tensor product matrices preserves the operator", "statement": "get_simplified_tpmatrices(tpmats) returns matrices whose sum acts on every array as the sum of the given ones, and the given matrices still act as before.", "quantifier": "all lists of tensor product matrices with scales", "why_tests_cant": "Needs all combinations of equal/unequal factors and scales.", "anchors": ["shenfun/matrixbase.py:get_simplified_tpmatrices,TPMatrix.simplify_diagonal_matrices,TPMatrix.__iadd__,TPMatrix.__eq__"]}
{"id": "C14", "title": "Block matrices act blockwise", "statement": "BlockMatrix.matvec(v, c) computes c_i = sum_j A_ij v_j, where A_ij is the sum of the matrices added at block (i, j).", "quantifier": "all numbers of blocks and all matrices", "why_tests_cant": "Unbounded lists of blocks and insertion orders.", "anchors": ["shenfun/matrixbase.py:BlockMatrix"]}
{"id": "C15", "title": "Dense to diagonal extraction is lossless", "statement": "extract_diagonal_matrix(M) followed by diags() gives back M when no entry is below the tolerance threshold, and never invents entries otherwise.", "quantifier": "all rectangular matrices", "why_tests_cant": "All shapes and sparsity patterns.", "anchors": ["shenfun/matrixbase.py:extract_diagonal_matrix"]}
{"id": "C16", "title": "Fourier wavenumbers index the modes of the transform", "statement": "C2C wavenumbers are the permutation 0,1,..,-1 of the integers in [-N/2, N/2), R2C wavenumbers are 0..N/2, and both agree modulo N with the index of the discrete Fourier transform.", "quantifier": "all N", "why_tests_cant": "All parities and sizes.", "anchors": ["shenfun/fourier/bases.py:R2C.wavenumbers,C2C.wavenumbers"]}
{"id": "C17", "title": "Fourier forward and backward transforms are inverses", "statement": "backward(forward(u)) = u for every array of physical values and forward(backward(c)) = c for every array of coefficients, with the normalisation the library uses.", "quantifier": "all N, all inputs, any field with a primitive N-th root of unity", "why_tests_cant": "Floating point tests can only sample inputs and sizes.", "anchors": ["shenfun/fourier/bases.py:FourierBase.forward,backward", "shenfun/spectralbase.py:SpectralBase.forward"]}
{"id": "C18", "title": "Padding and truncation of Fourier coefficients is lossless", "statement": "Zero padding the coefficients to a finer grid and truncating back returns the original coefficients, and the padded expansion takes the same values as the unpadded one at every point.", "quantifier": "all sizes, all padding factors, all coefficients, C2C and R2C", "why_tests_cant": "Parities of N and of the padded size interact with the Nyquist mode.", "anchors": ["shenfun/fourier/bases.py:C2C._padding_backward,_truncation_forward,R2C._padding_backward,_truncation_forward"]}
{"id": "C19", "title": "The two-thirds rule removes exactly the high modes", "statement": "With dealias_direct=True exactly the modes with 3|k| >= N (up to rounding of N/3) are set to zero by the backward transform and all lower modes are untouched.", "quantifier": "all N", "why_tests_cant": "Integer division and negative slice bounds behave differently for small N and each residue of N modulo 3.", "anchors": ["shenfun/fourier/bases.py:C2C._padding_backward", "shenfun/spectralbase.py:dealias_direct"]}
{"id": "C20", "title": "Padded products are free of aliasing", "statement": "With 3/2-rule padding the product of two expansions computed in physical space has, for all retained modes, exactly the coefficients of the convolution of the two coefficient vectors.", "quantifier": "all N, all coefficient vectors", "why_tests_cant": "Aliasing errors vanish for the smooth fields tests use.", "anchors": ["shenfun/fourier/bases.py", "shenfun/optimization/cython/convolve.pyx"]}
{"id": "C21", "title": "energy_fourier computes the quadratic energy", "statement": "energy_fourier(u_hat, T) equals the mean square of the physical values (Parseval), counting conjugate modes of real transforms once each.", "quantifier": "all N and all coefficient arrays", "why_tests_cant": "The last mode counts once or twice according to the parity of N.", "anchors": ["shenfun/fourier/__init__.py:energy_fourier"]}
{"id": "C22", "title": "Padded and refined sizes are the requested ones", "statement": "A space padded with factor p has floor(p N) points in physical space everywhere the size is computed, truncating them gives back N modes, copies of the space keep the size, and Function.refine(N') gives a Function with N' modes (N'/2+1 for a real-to-complex axis).", "quantifier": "all N, all factors and target sizes representable as doubles, any number of copies", "why_tests_cant": "The sizes pass through IEEE division and multiplication; failures are isolated values of N.", "anchors": ["shenfun/spectralbase.py:SpectralBase.__init__,shape,_get_truncarray", "shenfun/fourier/bases.py:R2C,C2C", "shenfun/tensorproductspace.py:configure_backwards", "shenfun/forms/arguments.py:Function.refine"]}
{"id": "C23", "title": "get_dealiased and padded backward transforms do not depend on earlier calls", "statement": "T.get_dealiased(padding_factor, dealias_direct) returns a space with exactly those padding factors and that dealias flag, and u.backward(padding_factor=p) an array of the shape of that space, whatever calls were made before.", "quantifier": "every history of calls", "why_tests_cant": "Depends on the history through caches.", "anchors": ["shenfun/tensorproductspace.py:TensorProductSpace.get_dealiased", "shenfun/forms/arguments.py:Function.backward", "shenfun/spectralbase.py:get_dealiased"]}
{"id": "C24", "title": "Composite functions: components, views and flattened vectors", "statement": "Indexing a composite space, test function or Function by integers selects the component the nesting says, every scalar component is reached by exactly one index sequence, and copy_to_flattened/copy_from_flattened are mutually inverse bijections between the degrees of freedom of one Fourier mode and the vector: block sizes match, distinct degrees of freedom never share a slot and nothing else is touched.", "quantifier": "all nestings of composite spaces, all dimensions and Fourier modes", "why_tests_cant": "Unbounded nesting.", "anchors": ["shenfun/tensorproductspace.py:CompositeSpace", "shenfun/forms/arguments.py:Function.copy_to_flattened,copy_from_flattened,__getitem__"]}
{"id": "C25", "title": "Expressions denote linear combinations", "statement": "For Expr objects +, -, negation, multiplication by numbers and simplify() preserve the denoted function of the arguments.", "quantifier": "all expressions, all environments", "why_tests_cant": "Unbounded expressions.", "anchors": ["shenfun/forms/arguments.py:Expr"]}
{"id": "C26", "title": "Dx differentiates expressions", "statement": "Dx(e, i, k) denotes the k-th partial derivative of what e denotes, including the product rule for coefficient functions.", "quantifier": "all expressions, all axes, all orders", "why_tests_cant": "Unbounded orders and expressions.", "anchors": ["shenfun/forms/operators.py:Dx", "shenfun/forms/arguments.py:Expr"]}
{"id": "C27", "title": "Vector calculus identities", "statement": "In Cartesian coordinates div(curl(u)) and curl(grad(f)) simplify to expressions denoting zero, and div(grad(f)) denotes the Laplacian.", "quantifier": "all vector and scalar expressions in 2 and 3 dimensions", "why_tests_cant": "Holds or fails as an identity.", "anchors": ["shenfun/forms/operators.py:div,grad,curl"]}
{"id": "C28", "title": "cross, dot and outer compute vector products pointwise", "statement": "cross(a, b), dot(a, b) and outer(a, b) return the cross, scalar and outer product at every grid point, for distinct and for identical arguments.", "quantifier": "all arrays of two and three components", "why_tests_cant": "The symmetric branch (a is b) fills entries from others in an order that matters.", "anchors": ["shenfun/utilities/__init__.py:cross,dot,outer", "shenfun/optimization/cython/outer.pyx", "shenfun/optimization/cython/cross.pyx"]}
{"id": "C29", "title": "Composite bases satisfy their boundary conditions", "statement": "Every basis function of the ShenDirichlet, Phi1, ShenNeumann, ShenBiharmonic, UpperDirichlet, LowerDirichlet, DirichletNeumann, NeumannDirichlet, UpperDirichletNeumann, LowerDirichletNeumann, Compact3, Compact4, Phi3 ... Chebyshev bases satisfies the homogeneous boundary conditions of the space.", "quantifier": "every index k of the basis, every N", "why_tests_cant": "Tests check the first few basis functions or a fixed N.", "anchors": ["shenfun/chebyshev/bases.py:stencil_matrix", "shenfun/legendre/bases.py:stencil_matrix"]}
{"id": "C30", "title": "Domain maps are inverse affine bijections", "statement": "map_reference_domain and map_true_domain are inverse of each other and send the end points of one domain to those of the other.", "quantifier": "all intervals, all points", "why_tests_cant": "All intervals.", "anchors": ["shenfun/spectralbase.py:SpectralBase.map_reference_domain,map_true_domain"]}
{"id": "C31", "title": "Boundary condition dictionaries keep their meaning", "statement": "BoundaryConditions lists the given boundary values in the order of the names of the space and rescales derivative conditions to the reference domain by the right power of the domain factor.", "quantifier": "all combinations of conditions, all domains", "why_tests_cant": "Combinatorial number of conditions.", "anchors": ["shenfun/spectralbase.py:BoundaryConditions"]}
{"id": "C32", "title": "Time integration takes the right number of steps", "statement": "solve(u, u_hat, dt, trange) performs steps until the end time is reached and never one more or less than the loop condition requires; tstep counts the steps.", "quantifier": "all dt and end times", "why_tests_cant": "Unbounded number of steps.", "anchors": ["shenfun/utilities/integrators.py:IntegratorBase,RK4.solve,ETD.solve,ETDRK4.solve"]}
{"id": "C33", "title": "Runge-Kutta integrators have their order", "statement": "One time step of each integrator differs from the exact solution by O(dt^(p+1)), p being its order (RK4 and ETDRK4 4, IRK3 and IMEXRK443 3, IMEXRK222 2, BackwardEuler, ETD, IMEXRK111 and IMEXRK011 1); RK4 on a linear problem is the Taylor polynomial of exp; a step does not depend on values left in the work arrays.", "quantifier": "all smooth right hand sides, all initial values, all small dt, any number of unknowns", "why_tests_cant": "Convergence tests only estimate a slope for one problem.", "anchors": ["shenfun/utilities/integrators.py:RK4,IRK3,PDEIRK3,PDEIMEXRK,IMEXRK222,IMEXRK443"]}
{"id": "C34", "title": "Evaluating a Function at arbitrary points sums its expansion", "statement": "u.eval(points) (Clenshaw and three-term recursion kernels in 1D; T.eval with method 0, 1 or 2 in two and three dimensions; Expr.eval) returns at every point the value of the expansion, sum_k u_k prod_d phi_k(x_d), where for a real-to-complex Fourier axis each stored mode that has a conjugate partner counts together with it. The three methods and all typed variants of the kernels agree, and the result does not depend on how the coefficients are distributed over ranks.", "quantifier": "all numbers of modes, coefficients, points, positions of the R2C axis and grids of ranks", "why_tests_cant": "All lengths including 0, 1, 2, all parities and all decompositions.", "anchors": ["shenfun/optimization/cython/evaluate.pyx", "shenfun/optimization/numba/chebyshev.py", "shenfun/optimization/numba/transforms.py", "shenfun/optimization/cython/transforms.pyx", "shenfun/tensorproductspace.py:eval", "shenfun/forms/arguments.py:Expr.eval"]}
{"id": "C35", "title": "Recursion matrices of Jacobi polynomials", "statement": "The matrices of multiplication by x and of differentiation built from the recursion coefficients satisfy x P_n = sum_k a_kn P_k exactly.", "quantifier": "all n, all parameters alpha, beta", "why_tests_cant": "Unbounded index.", "anchors": ["shenfun/jacobi/recursions.py"]}
{"id": "C36", "title": "Hard coded spectral matrices equal their definition", "statement": "The diagonals returned for mass and stiffness matrices of composite bases equal the inner products obtained from the stencils and the orthogonal mass/derivative matrices.", "quantifier": "every index, every N", "why_tests_cant": "Formulas in n checked by quadrature only for one N and tolerance.", "anchors": ["shenfun/chebyshev/matrices.py", "shenfun/legendre/matrices.py", "shenfun/chebyshevu/matrices.py"]}
{"id": "C37", "title": "apply_mask and Nyquist masking zero exactly the masked modes", "statement": "mask_nyquist(u_hat) zeroes the Nyquist modes of even-sized axes and leaves every other coefficient unchanged.", "quantifier": "all shapes and parities", "why_tests_cant": "Combinations of parities and axes.", "anchors": ["shenfun/tensorproductspace.py:get_mask_nyquist,mask_nyquist", "shenfun/optimization/cython/applymask.pyx"]}
{"id": "C38", "title": "Cached work arrays are not shared by different keys", "statement": "CachedArrayDict returns the same array for the same (shape, dtype, index) and different arrays otherwise, zeroed unless asked not to.", "quantifier": "every history of requests", "why_tests_cant": "Depends on the history.", "anchors": ["shenfun/utilities/__init__.py:CachedArrayDict"]}
{"id": "C39", "title": "Poisson, Helmholtz and biharmonic solvers solve their systems", "statement": "The special Chebyshev solvers (Poisson with Dirichlet or Neumann conditions, Helmholtz, biharmonic), called with the assembled matrices, the coefficients alpha, beta (, a0) and a right hand side f, return u satisfying every equation of (alpha*A + beta*B (+ a0*S)) u = f, in each of their implementations and for each line of a multidimensional array; for a singular Neumann system they return the solution with zero mean coefficient.", "quantifier": "all sizes, all coefficients for which the matrix is definite, all right hand sides, both quadratures, all domain factors, numba and cython implementations", "why_tests_cant": "Boundary rows and suffix sums depend on the size and its parity; pivots depend on every coefficient.", "anchors": ["shenfun/chebyshev/la.py:ADDSolver, ANNSolver, Helmholtz, Biharmonic", "shenfun/optimization/numba/helmholtz.py", "shenfun/optimization/numba/biharmonic.py", "shenfun/optimization/cython/la.pyx"]}
{"id": "C40", "title": "wrap_periodic closes arrays periodically", "statement": "wrap_periodic(x, axes) returns an array with one more entry along every axis in axes, whose entry at index idx is the entry of x at idx modulo the shape of x along those axes.", "quantifier": "all arrays, shapes and sets of axes", "why_tests_cant": "Holds for every shape and index.", "anchors": ["shenfun/utilities/__init__.py:wrap_periodic"]}
{"id": "C41", "title": "A.solve uses the matrix as it is now", "statement": "A.solve(b) returns the solution of the system with the current value of A, also when A was modified in place (A *= y, A += B) after an earlier A.solve.", "quantifier": "every history of in-place operations and solves on one matrix object", "why_tests_cant": "The result depends on the history through a solver object kept inside the matrix.", "anchors": ["shenfun/matrixbase.py:SparseMatrix.solve,__imul__,__iadd__"]}
{"id": "C42", "title": "to_ortho preserves the function", "statement": "V.to_ortho(u) returns the coefficients, in the orthogonal basis of the family, of the same function that u describes in the composite basis of V (homogeneous boundary conditions).", "quantifier": "every composite basis, every N, every coefficient vector", "why_tests_cant": "Slicing of every diagonal depends on its offset, on N and on the number of boundary conditions.", "anchors": ["shenfun/spectralbase.py:CompositeBase.to_ortho,stencil_matrix"]}
{"id": "C43", "title": "Bases found from boundary conditions satisfy them", "statement": "get_stencil_matrix returns a stencil such that every composite basis function n (unit leading coefficient in Q_n) satisfies every homogeneous boundary condition in the given BoundaryConditions; get_bc_basis returns boundary functions whose combination with orderedvals() satisfies every inhomogeneous condition at its end.", "quantifier": "every Jacobi family, every supported set of boundary conditions on either side, every index n, every first index of the boundary basis", "why_tests_cant": "The number and kind of the conditions, the family parameters and n are all free; sympy solves a different symbolic system for each.", "anchors": ["shenfun/utilities/findbasis.py:get_stencil_matrix,get_bc_basis", "shenfun/jacobi/recursions.py:bnd_values"]}
{"id": "C44", "title": "Chebyshev transforms are inverses and evaluate the expansion", "statement": "For a Chebyshev space (kind='fast'), backward(c) gives the values of the expansion sum_k c_k phi_k at the quadrature points of the (padded) mesh, scalar_product(u) gives the quadrature sums of u with every basis function, forward(backward(c)) = c, and for the orthogonal space backward(forward(u)) = u; this holds for Gauss-Chebyshev and Gauss-Lobatto points, any domain, any padding, and for the composite spaces.", "quantifier": "every N, every padded length, every coefficient or value array, both quadrature rules, every composite class with a stencil", "why_tests_cant": "Sums over all points and modes; end points, parity and padding are special cases in the code.", "anchors": ["shenfun/chebyshev/bases.py:Orthogonal._evaluate_expansion_all,_evaluate_scalar_product,points_and_weights,l2_norm_sq", "shenfun/spectralbase.py:forward,backward,scalar_product,CompositeBase", "shenfun/chebyshev/matrices.py:BTTmat.solve"]}
{"id": "C45", "title": "Special matrix-vector products equal the matrix", "statement": "A.matvec(v) with format='cython' or 'self' (the class specific products of the Chebyshev and Legendre matrices) and Helmholtz.matvec / Biharmonic.matvec return, in every row, the sum over the columns of the matrix entry (as given by A.diags()) times v, including the scale of the matrix and the coefficients alpha, beta, a0, with zeros in the rows beyond the matrix; the result does not depend on the chosen format, nor on what the output array held before.", "quantifier": "every matrix class with a product of its own, every size, every vector, every scale and domain factor", "why_tests_cant": "The unrolled boundary rows, suffix sums by parity and integer arithmetic of the kernels depend on the size and on every entry of the vector.", "anchors": ["shenfun/chebyshev/matrices.py:*.matvec", "shenfun/legendre/matrices.py:CLLmat.matvec", "shenfun/chebyshev/la.py:Helmholtz.matvec,Biharmonic.matvec", "shenfun/optimization/cython/Matvec.pyx", "shenfun/optimization/numba/helmholtz.py", "shenfun/optimization/numba/biharmonic.py"]}
{"id": "C46", "title": "Legendre and Chebyshev coefficients of the same function", "statement": "leg2cheb (numba, cython, Python slices, and Leg2Cheb below its direct limit) returns the Chebyshev coefficients of the polynomial whose Legendre coefficients are given, transpose=True applies the transposed matrix; cheb2leg returns the Legendre coefficients of the polynomial whose Chebyshev coefficients are given, the two are inverse to each other; the mass matrix of Chebyshev test and Legendre trial functions holds the products (L_j, T_k)_w (or the quadrature sums), and its matvec multiplies by it.", "quantifier": "every length N (odd and even), every coefficient array, both quadrature rules", "why_tests_cant": "An identity between two polynomial bases of every degree; the loop bounds depend on the parity of N.", "anchors": ["shenfun/legendre/dlt.py:leg2cheb,cheb2leg,FMMLeg2Cheb,FMMCheb2Leg", "shenfun/optimization/numba/transforms.py:leg2cheb,cheb2leg", "shenfun/optimization/cython/transforms.pyx:leg2cheb,cheb2leg,FMMdirect1,FMMdirect4", "shenfun/optimization/cython/leg2chebm.pyx:Leg2Cheb,Cheb2Leg", "shenfun/chebyshev/matrices.py:BTLmat"]}
{"id": "C47", "title": "The hierarchical decomposition covers the conversion matrix exactly once", "statement": "Leg2Cheb and Cheb2Leg for arrays longer than use_direct split the upper triangular conversion matrix into the first diagonals, triangles along the diagonal and square submatrices: every entry with row <= column is handled by exactly one of these parts, no submatrix reaches outside the padded arrays, the padded length holds the input; the transform (with or without transpose) therefore differs from leg2cheb / cheb2leg only by what the low rank approximation of a submatrix differs from its entries.", "quantifier": "every array length, every list of domain sizes, every block size, every number of diagonals, every input", "why_tests_cant": "The partition depends on the list of domain sizes at all levels; a missed or doubled block only shows for particular sizes.", "anchors": ["shenfun/legendre/dlt.py:FMMLevel,getChebyshev,get_ij,get_h,get_number_of_blocks", "shenfun/optimization/cython/leg2chebm.pyx:FMMLevel,Leg2Cheb,Cheb2Leg", "shenfun/optimization/cython/transforms.pyx:FMMcheb,FMMdirect1,FMMdirect2,FMMdirect3,FMMdirect4"]}
{"id": "C48", "title": "Checkpoints survive crashes and restarts", "statement": "Checkpoint.update stores the contents of the data dictionary with t and tstep whenever tstep is a multiple of checkevery or a killshenfun file is seen by any rank, and touches nothing otherwise; after any history of calls, crashes and restarts the files on disk hold the last completed checkpoint: wherever the next call is interrupted, the .chk.h5 file or the .old.chk.h5 file still holds it completely; Checkpoint.read, on any number of ranks, returns what was stored.", "quantifier": "every history of update calls, crash point, schedule of the ranks, distribution of the arrays, restart", "why_tests_cant": "A crash can hit between any two writes of any rank; tests do not interrupt a parallel HDF5 write.", "anchors": ["shenfun/io/__init__.py:Checkpoint.update,Checkpoint.write,Checkpoint.read,Checkpoint.open,Checkpoint.check_if_kill"]}
{"id": "C49", "title": "inner() assembles the form", "statement": "For test and trial expressions (scalar, vector or tensor; any sums of derivatives with coordinate dependent coefficients, any coordinate system), the matrices returned by inner(test, trial) add up to the discrete inner product: entry (k, l) of block (p, q) is the sum over the quadrature grid of weight * sqrt(g) * (contraction with the metric tensor of the test expression with test function k of component p and the trial expression with trial function l of component q), with the boundary functions of inhomogeneous boundary conditions included as columns. With a Function in place of the trial function, inner returns this form applied to the expansion of the Function.", "quantifier": "every pair of expressions, spaces, dimension, coordinate system, basis functions, coefficients", "why_tests_cant": "The number of terms, factors, axes and boundary matrices is unbounded in combination; tests assemble a few forms in a few spaces.", "anchors": ["shenfun/forms/inner.py:inner", "shenfun/utilities/__init__.py:split", "shenfun/forms/arguments.py:Expr.__getitem__,Expr.__mul__"]}
{"id": "C50", "title": "Distributed tensor product transforms", "statement": "On any Cartesian process grid, for any order of the axes and with or without collapsed Fourier transforms, forward, scalar_product and backward of a TensorProductSpace compute the tensor product of the one-dimensional transforms of its bases: every process ends up with its own block of the global result, the result does not depend on the grid (or, for linear transforms, on the order of the axes), every global entry is stored by exactly one process, planning succeeds whenever no axis is shorter than a communicator and data types fit, and backward undoes forward (and vice versa) if this holds along each axis. The same holds for the padded spaces made by get_dealiased, whose coefficients are distributed as those of the original space.", "quantifier": "every number of dimensions, process grid, array size, axes permutation, bases, input array", "why_tests_cant": "The combinations of grids, remainders of block sizes, axis orders and data types are unbounded; tests run on one to four processes with a few shapes.", "anchors": ["shenfun/tensorproductspace.py:TensorProductSpace.__init__,TensorProductSpace.configure_backwards,ScalarTransform,ForwardTransform,BackwardTransform"]}
{"id": "C51", "title": "Grad, div and curl in curvilinear coordinates", "statement": "For a user-given position vector with one to three parameters, at every point where the tangent vectors are linearly independent: the covariant basis and metric are the derivatives of the position and their scalar products, the contravariant ones their duals/inverses, the scaling factors the lengths of the tangent vectors, the volume element the root of the Gram determinant, the Christoffel symbols the components of the derivatives of the basis; and grad, div (of vectors and tensors), curl and div(grad) of an expression denote the gradient, divergence, curl and Laplacian of the function or field that it represents in R^m, for normal and covariant basis vectors, for Cartesian, orthogonal and general coordinates. On curves and surfaces grad and div are the tangential gradient and divergence and curl the normal component of the curl.", "quantifier": "every position vector, expression, basis function, basis vector convention and regular point", "why_tests_cant": "Quantifies over all coordinate maps, all expressions and all smooth functions; a test checks a handful of sympy coordinate systems on one function.", "anchors": ["shenfun/coordinates.py:Coordinates", "shenfun/forms/operators.py:grad,div,curl"]}
{"id": "C52", "title": "Inhomogeneous boundary conditions", "statement": "In a space with inhomogeneous boundary conditions backward evaluates the expansion in basis functions plus boundary functions (with or without padding, fast or vandermonde); forward returns coefficients whose boundary part is the given values and whose remainder is orthogonal to all basis functions, so functions of the space are recovered exactly and the returned function satisfies every boundary condition, whatever the input. In a tensor product space with one inhomogeneous axis the boundary coefficients are the transforms along the other axes of the given boundary values, on any number of processes, and time dependent values are those of the last update.", "quantifier": "every composite space, size, padding, quadrature, boundary values, input array, order of the axes, number of processes and history of updates", "why_tests_cant": "Quantifies over all input arrays, all boundary values and all update histories; tests use one manufactured solution per case.", "anchors": ["shenfun/tensorproductspace.py:BoundaryValues", "shenfun/spectralbase.py:CompositeBase.to_ortho", "shenfun/spectralbase.py:CompositeBase._padding_backward", "shenfun/spectralbase.py:forward", "shenfun/spectralbase.py:backward"]}
{"id": "C53", "title": "Generated spectral matrices", "statement": "A matrix that inner() generates from the stencils of two spaces (no specific implementation exists) holds in entry (i, j) the scalar product of measure times (derivative of) test function i with (derivative of) trial function j, for every polynomial measure; the same for the test functions Phi_k, which are dual to the k'th derivatives of the orthogonal polynomials, and for the boundary functions of inhomogeneous conditions. No entry is lost when the diagonals are extracted.", "quantifier": "every pair of composite or orthogonal spaces of the Jacobi families, sizes, polynomial measures, numbers of derivatives and row and column", "why_tests_cant": "Quantifies over all spaces, sizes and measures; tests compare a few pairs of spaces with quadrature.", "anchors": ["shenfun/matrixbase.py:assemble_stencil", "shenfun/matrixbase.py:assemble_phi", "shenfun/jacobi/recursions.py:Lmat", "shenfun/legendre/bases.py:Phi1", "shenfun/legendre/bases.py:Phi6"]}
{"id": "C54", "title": "Fourier matrices", "statement": "The matrix inner() returns for a Fourier space holds in entry (i, l) the mean value over the domain of conj(t'th derivative of exp(i k_i x)) times coefficient times s'th derivative of exp(i k_l x), for constant coefficients, for the coefficients with an implementation of their own (cos(x)^2, cos(x), sin(x), sin(2x)/2) and for every other coefficient (by quadrature with the N points), on every domain. Solving with a constant-coefficient matrix solves every equation, and sets the constant mode to 0 when the equation of the zero frequency is 0 = b_0.", "quantifier": "every number of points, domain length, order of derivatives of test and trial function, coefficient, scale, row and column, right hand side", "why_tests_cant": "Quantifies over all sizes, orders, domains and entries; tests check matvec consistency for a few sizes on the standard domain.", "anchors": ["shenfun/fourier/matrices.py:FourierMatrix", "shenfun/fourier/matrices.py:Acos2mat", "shenfun/fourier/matrices.py:Bcosmat", "shenfun/fourier/matrices.py:Csinmat", "shenfun/matrixbase.py:SpectralMatrix", "shenfun/matrixbase.py:_get_matrix"]}
{"id": "C55", "title": "Chebyshev transforms of the second kind", "statement": "On a Chebyshev space of the second kind (Gauss-Chebyshev of the second or the first kind, any domain) backward returns the values of sum c_k U_k at the quadrature points, scalar_product the weighted quadrature of the array with every U_k, the mass matrix holds the norms in the discrete product (and pi/2, the integral with weight sqrt(1-x^2), with exact assembly), and forward and backward are inverses; on every composite space backward and scalar_product do the same with the composite basis and forward recovers the coefficients.", "quantifier": "every size, quadrature rule, domain factor, coefficient or value array, every composite class", "why_tests_cant": "Quantifies over all sizes and arrays; tests compare with the Vandermonde product for random arrays of a few sizes.", "anchors": ["shenfun/chebyshevu/bases.py:Orthogonal", "shenfun/chebyshevu/matrices.py:BUUmat", "shenfun/spectralbase.py:getCompositeBase", "shenfun/spectralbase.py:SpectralBase.forward"]}
{"id": "C56", "title": "inner(number, array) is the integral", "statement": "inner(c, u) for an Array u returns c times the unweighted integral of u over the domain: exactly for polynomials of degree below the number of points on Chebyshev spaces (Gauss, Gauss-Lobatto, both kinds), for every function of a Jacobi, ultraspherical or Gegenbauer space, for trigonometric polynomials of degree below the number of points on Fourier spaces, on every domain; in several dimensions it is the sum over all points with the product weights (the same on every process), so exact on sums of products of such functions, with the curvilinear measure included.", "quantifier": "every size, domain, polynomial, number of dimensions, measure, entry read", "why_tests_cant": "Quantifies over all sizes, polynomials, domains and dimensions; tests integrate a few functions.", "anchors": ["shenfun/forms/inner.py:inner", "shenfun/utilities/__init__.py:dx", "shenfun/chebyshev/bases.py:Orthogonal.points_and_weights", "shenfun/chebyshevu/bases.py:Orthogonal.points_and_weights", "shenfun/jacobi/bases.py:JacobiBase.unweighted_quadrature_weights", "shenfun/fourier/bases.py:FourierBase.points_and_weights", "shenfun/laguerre/bases.py:Orthogonal.points_and_weights"]}
{"id": "C57", "title": "fast discrete Legendre transform", "statement": "DLT(kind='backward') returns the values of the Legendre series in the Gauss-Legendre points, kind='scalar product' the quadrature sums of the array with every L_k, kind='forward' those sums divided by the squared norms, for arrays with any number of lines; the loop over the Taylor terms ends, and the result differs from the exact transform by no more than the Taylor remainder after the passes made; the kind='fast' transforms of a Legendre space (with padding and any domain) inherit this.", "quantifier": "every number of points, lines, coefficients and point values, symmetric points in [-1,1], tolerance", "why_tests_cant": "Quantifies over all sizes and arrays and over an unbounded loop whose number of passes depends on the data; tests compare a few transforms.", "anchors": ["shenfun/legendre/dlt.py:DLT", "shenfun/legendre/dlt.py:DCT", "shenfun/legendre/dlt.py:DST", "shenfun/legendre/bases.py:Orthogonal._evaluate_expansion_all", "shenfun/legendre/bases.py:Orthogonal._evaluate_scalar_product"]}
{"id": "C58", "title": "project returns the projection", "statement": "project(uh, T) of a Function uh of a one-dimensional space W returns the element u of T with (u - uh, v)_w = 0 for every v in T, whichever shortcut is taken (equal spaces, assign, to_ortho) and whatever the sizes of the two spaces; in particular, when uh belongs to T, the same function.", "quantifier": "all source and target spaces (family, class, quadrature, size, domain, boundary values), all coefficient vectors, all settings of use_assign and use_to_ortho", "why_tests_cant": "the shortcuts are chosen from properties of the two spaces; a test compares a few pairs of spaces, while the claim ranges over all pairs, sizes and coefficients, and the pairs where a shortcut is taken wrongly give a plausible result without an error", "anchors": ["shenfun/forms/project.py:project", "shenfun/forms/arguments.py:Function.assign", "shenfun/forms/arguments.py:Function.to_ortho", "shenfun/spectralbase.py:SpectralBase.__eq__", "shenfun/spectralbase.py:SpectralBase.compatible_base", "shenfun/spectralbase.py:SpectralBase._padding_backward", "shenfun/spectralbase.py:SpectralBase._truncation_forward", "shenfun/spectralbase.py:CompositeBase.to_ortho"]}
{"id": "C59", "title": "Hermite and Laguerre functions: evaluation, derivatives, orthonormality, transforms", "statement": "For the unbounded families, evaluate_basis, evaluate_basis_all, vandermonde and eval return the values of the documented functions La_i(x) exp(-x/2) and H_i(x) exp(-x^2/2)/(pi^(1/4) sqrt(2^i i!)); evaluate_basis_derivative(_all) returns the k-th derivative of basis function i at every point or raises; bnd_values are the values and derivatives at x=0; the functions are orthonormal over [0,oo) and the real line; forward after backward returns the coefficients for every set of coefficients.", "quantifier": "every basis function number, point, number of functions and points, derivative order, and every coefficient vector", "why_tests_cant": "A statement about real functions at every point and about improper integrals for every pair of indices; tests compare a few functions at quadrature points (and no test looks at the third derivative of the Laguerre matrix version).", "anchors": [{"file": "shenfun/laguerre/bases.py", "symbols": ["Orthogonal.evaluate_basis_derivative_all", "Orthogonal.evaluate_basis_derivative", "Orthogonal.bnd_values"]}, {"file": "shenfun/hermite/bases.py", "symbols": ["Orthogonal.evaluate_basis_derivative_all", "Orthogonal.factor"]}, {"file": "shenfun/spectralbase.py", "symbols": ["SpectralBase.forward"]}]}
{"id": "C60", "title": "The matrices of the Hermite and Laguerre families are the inner products they are documented to be", "statement": "The assembled mass matrices of the Hermite and Laguerre families, the mass and stiffness matrix classes of the Laguerre Dirichlet functions, and the Hermite stiffness matrix contain the inner products of the basis functions (of their derivatives) for every size; matvec multiplies with this matrix; the mass matrix solve inverts it; the stiffness matrix of the Hermite functions is regular, so that a Poisson problem has one solution.", "quantifier": "every size N, every pair of basis functions, every vector", "why_tests_cant": "Infinitely many sizes and entries; the tests compare with quadrature of the same order, which hides the inexact last entry, and use an even number of functions, which hides that the matrix is singular for odd ones.", "anchors": [{"file": "shenfun/hermite/matrices.py", "symbols": ["BHHmat", "AHHmat"]}, {"file": "shenfun/laguerre/matrices.py", "symbols": ["BLLmat", "BCDCDmat", "ACDCDmat"]}]}
{"id": "C61", "title": "Legendre quadrature rules are the Gauss and Gauss-Lobatto rules", "statement": "legendre_lobatto_nodes_and_weights(N) returns N increasing points symmetric about 0, with the ends -1 and 1 and the zeros of the derivative of L_(N-1) inside, and positive weights that integrate every polynomial of degree at most 2N-3; the points its Newton iteration returns are close to those zeros; the Gauss points with weights 2/((1-x^2)L_N'(x)^2) integrate degree at most 2N-1; with either rule the norms of l2_norm_sq are the discrete ones, and forward and backward (kind='vandermonde') are inverses of each other, also in padded spaces.", "quantifier": "every number of points, every polynomial, every array of values or coefficients, every initial guess and tolerance of the iteration, every padded size", "why_tests_cant": "Exactness is a statement about all polynomials and all N; tests integrate a few at a few sizes.", "anchors": [{"file": "shenfun/legendre/lobatto.py", "symbols": ["legendre_lobatto_nodes_and_weights"]}, {"file": "shenfun/legendre/bases.py", "symbols": ["Orthogonal.points_and_weights", "Orthogonal.l2_norm_sq", "Orthogonal.vandermonde"]}, {"file": "shenfun/spectralbase.py", "symbols": ["SpectralBase._evaluate_scalar_product", "SpectralBase.apply_inverse_mass"]}]}
{"id": "C62", "title": "generate_xdmf describes the data in the HDF5 file", "statement": "generate_xdmf writes one XDMF file for every kind of section stored at the earliest time step and raises if another kind appears later; every file lists all time steps in increasing order and shows every dataset of its kind once, in order of time; the k-th grid belongs to the k-th time whenever that kind was stored at every time; the positions, array lengths and dimensions in the file are those of the mesh of the stored data, for complete fields and sections, in the order the chosen viewer reads them.", "quantifier": "every set of scalar 2D/3D datasets (any number of groups, sections, time steps), every periodicity, both orders, domains given by origin and length or by meshes", "why_tests_cant": "tests only check that the files are written; the correctness of times, spacings and positions depends on the combination of sections, their order, sizes and periodicity", "anchors": [{"file": "shenfun/io/generate_xdmf.py", "symbols": ["generate_xdmf", "get_geometry", "get_topology", "get_attribute", "get_grid"]}]}
{"id": "C63", "title": "Spaces derived from a space are otherwise the same space", "statement": "get_unplanned gives back the space; get_refined(m) the same space with m points; get_dealiased(p) the same space with the padding asked for; get_orthogonal the orthogonal space of the same family and setting without conditions; get_homogeneous the same space with every boundary value zero; get_testspace('PG') a test space with as many functions and the same setting. The TensorProductSpace versions do the same for every axis and keep communicator, order of axes, dtype and coordinates.", "quantifier": "every constructible space: all families (Chebyshev, Legendre, Chebyshev of the second kind, ultraspherical, Jacobi, Laguerre, Hermite, Fourier), all classes, all keywords, boundary values, domains, paddings, numbers of points; all tensor product spaces", "why_tests_cant": "the combinations of family, class, keywords and boundary conditions are unbounded, and tests use default domains and homogeneous or tuple conditions", "anchors": [{"file": "shenfun/spectralbase.py", "symbols": ["SpectralBase.get_unplanned", "SpectralBase.get_refined", "SpectralBase.get_dealiased", "SpectralBase.get_homogeneous", "SpectralBase.get_testspace", "getCompositeBase", "BoundaryConditions"]}, {"file": "shenfun/fourier/bases.py", "symbols": ["FourierBase.get_refined", "FourierBase.get_dealiased", "FourierBase.get_unplanned"]}, {"file": "shenfun/tensorproductspace.py", "symbols": ["TensorProductSpace.get_refined", "TensorProductSpace.get_orthogonal", "TensorProductSpace.get_homogeneous", "TensorProductSpace.get_unplanned"]}]}
{"id": "C64", "title": "Multidimensional solvers solve the tensor product system", "statement": "For terms scale(i,j) * (I (x) J (x) A) with one non-diagonal axis, SolverGeneric1ND(matrices)(b) returns u with sum over terms of scale(i,j) * A u(i,j,.) = b(i,j,.) for every wavenumber (i,j) of the rank, on the first and on every later call of the same object; with constraints ((0, val),) it sets only the zeroth coefficient of the mode of wavenumber (0,0) and solves all other equations.", "quantifier": "every number of terms, every one-dimensional matrix and every scale array, every place of the non-diagonal axis, every size of the local block, every rank of the decomposition, fast and slow solver, every history of right hand sides and constraints on one object, over any field", "why_tests_cant": "the choice of solver and its stored data depend on all matrices and wavenumbers of a rank, and on the calls made before; tests use one rank and a few matrices", "anchors": [{"file": "shenfun/la.py", "symbols": ["SolverGeneric1ND", "SolverGeneric1ND.assemble", "SolverGeneric1ND.apply_constraints", "SolverGeneric1ND.perform_lu", "SolverGeneric1ND.get_data", "SolverGeneric1ND.fast_solve", "SolverGeneric1ND.solve", "Solve", "SparseMatrixSolver"]}]}
{"id": "C65", "title": "Solvers for several non-diagonal axes and for block systems", "statement": "Solver2D, Solver3D and SolverND return u with sum over terms of scale * (A_0 x A_1 x ...) u = b, boundary matrices included, and with constraints ((row, val), ...) they give the unknown with that row-major number the value and keep all other equations, for every call of one object. SolverGeneric2ND does the same for every index of its diagonal axis. BlockMatrixSolver does the same for every key, where constraints (block, dof, val) concern the zeroth mode on rank zero.", "quantifier": "every number of axes (2 to 5), all sizes, all one-dimensional matrices and scales, every number of terms, every right hand side and initial array, every list of constraints, every history of calls of one object, every place of the diagonal axis, every number of blocks and keys, over any field", "why_tests_cant": "a factorisation made in the first call is used in all later ones, and the numbering has to be right for all sizes and axes; tests solve once", "anchors": [{"file": "shenfun/la.py", "symbols": ["Solver2D", "Solver3D", "SolverND", "SolverGeneric2ND", "BlockMatrixSolver"]}, {"file": "shenfun/matrixbase.py", "symbols": ["TPMatrix.diags"]}]}
{"id": "C66", "title": "The Legendre Helmholtz solver for two Dirichlet axes solves its system", "statement": "Helmholtz_2dirichlet(matrices)(b, u, solver) gives u with a_0 (B x B1) u + a_1 (A x B1) u + a_2 (B x A1) u = b, for both values of solver and for the coefficients a_0, a_1, a_2 and matrices of the three given tensor product matrices.", "quantifier": "all sizes along both axes, all mass and stiffness matrices of the stated shape, all coefficients, every right hand side, every eigen decomposition the linear algebra library may return, over any field", "why_tests_cant": "the method relies on identities between eigenvectors and matrices for all sizes, and tests use one form with fixed coefficients", "anchors": [{"file": "shenfun/legendre/la.py", "symbols": ["Helmholtz_2dirichlet.__init__", "Helmholtz_2dirichlet.solve_eigen_problem", "Helmholtz_2dirichlet.__call__"]}]}
{"id": "C67", "title": "Configuration files override exactly what they say", "statement": "After reading ~/.shenfun/shenfun.yaml and then ./shenfun.yaml, config[k1][k2]... is the value of the last file that gives one for that path, and the default if no file mentions it; no other entry changes, and no value appears that is neither a default nor in a file. Reading succeeds unless a section of a file meets a single value.", "quantifier": "all nested dictionaries as defaults and as files, any nesting depth, any number of files of which some may be missing, all paths of keys", "why_tests_cant": "the merge is recursive over arbitrary nested dictionaries; there are no tests of configuration files", "anchors": [{"file": "shenfun/config.py", "symbols": ["config", "update", "locations"]}]}
{"id": "C68", "title": "Lagrangian particles follow the velocity field", "statement": "LagrangianParticles(points, dt, u_hat): after n calls of step() every particle is at the position of the trajectory of the velocity field after the time n*dt, up to an error of first order in dt, also for a negative dt; n steps forwards and, after lp.dt *= -1, n steps backwards lead back to the start up to first order. The path of a particle does not depend on the other particles.", "quantifier": "all numbers of dimensions and particles, all Lipschitz velocity fields, all initial positions, all dt of either sign, all numbers of steps, all histories of steps and of changes of dt and of the velocity", "why_tests_cant": "convergence is a statement about all step sizes and numbers of steps; there is no test of particles", "anchors": [{"file": "shenfun/utilities/lagrangian_particles.py", "symbols": ["LagrangianParticles.__init__", "LagrangianParticles.step", "LagrangianParticles.rhs"]}]}
{"id": "C69", "title": "The optimization mode changes the speed, not the function that runs", "statement": "With config['optimization']['mode'] set to cython or numba, each optimized function or solver method runs the backend's implementation of that very function, as the mode stands at the time of the call; with a missing backend, a missing implementation or any other mode it runs the Python code. Every call that the documented signature allows is accepted in every mode.", "quantifier": "all modes, all installed or missing backends, all decorated functions, all numbers of arguments their signatures allow, all sessions that change the mode between calls", "why_tests_cant": "the tests run in one mode per process and never combine all functions, call forms and mode changes", "anchors": [{"file": "shenfun/optimization/__init__.py", "symbols": ["runtimeoptimizer", "optimizer"]}, {"file": "shenfun/optimization/cython/__init__.py", "symbols": ["namespace"]}, {"file": "shenfun/optimization/numba/__init__.py", "symbols": ["namespace", "__all__ of the submodules"]}, {"file": "shenfun/la.py", "symbols": ["SolverGeneric1ND.fast_solve"]}]}
