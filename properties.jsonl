{"id": "C01", "title": "1D primal cells tile the domain", "statement": "For Grid_1D.periodic/regular/chebyshev(n, xmin, xmax) with xmin < xmax, g.edges are consecutive non-degenerate intervals starting at xmin, ending at xmax, edge j running from vertex j to vertex j+1 (for the periodic grid the last one runs to xmax), and g.delta[True] are their lengths; every array has the length announced by g.N. The constructors fail exactly on a periodic grid of no points (IndexError), a Chebyshev grid of no points (ValueError) and a regular grid with xmin >= xmax (AssertionError).", "quantifier": "every n >= 2 (periodic: n >= 1) and all real xmin < xmax", "why_tests_cant": "Tests try a handful of sizes and random vectors; the claim is about every size and every vector.", "anchors": ["dec/periodic.py:make", "dec/regular.py:make", "dec/chebyshev.py:make", "dec/grid1.py:Grid_1D"]}
{"id": "C02", "title": "1D dual cells tile the domain and straddle the primal vertices", "statement": "On regular and Chebyshev grids g.edges_dual are consecutive non-degenerate intervals from xmin to xmax, dual edge i contains primal vertex i (strictly inside for interior vertices) and dual vertex j lies strictly inside primal edge j; on the periodic grid dual edge i is centred at vertex i and the dual edges are consecutive with total length xmax-xmin; g.delta[False] are the lengths and g.N the counts.", "quantifier": "every n >= 2 (periodic: n >= 1) and all real xmin < xmax", "why_tests_cant": "Tests try a handful of sizes and random vectors; the claim is about every size and every vector.", "anchors": ["dec/periodic.py:make", "dec/regular.py:make", "dec/chebyshev.py:make"]}
{"id": "C03", "title": "g.points is the sorted union of primal and dual vertices", "statement": "Grid_1D.points raises no error, has N[0,True]+N[0,False] entries, has the primal vertices at the even positions and the dual vertices at the odd positions, and is strictly increasing.", "quantifier": "every n >= 2 (periodic: n >= 1) and all real xmin < xmax, on the three grids", "why_tests_cant": "Tests try a handful of sizes and random vectors; the claim is about every size and every vector.", "anchors": ["dec/grid1.py:Grid_1D.points"]}
{"id": "C04", "title": "Discrete derivative commutes with projection (Stokes, primal)", "statement": "D(P0 f) == P1 f' on every grid: differentiating the sampled 0-form gives exactly the edge integrals of the derivative.", "quantifier": "every n, every xmin < xmax, every continuously differentiable f (periodic grid: with f(xmin)=f(xmax))", "why_tests_cant": "The tests try sin, cos, x, x**3 on two sizes up to 1e-6; the claim holds for a function space.", "anchors": ["dec/periodic.py:make D", "dec/regular.py:make D", "dec/chebyshev.py:make D", "dec/common.py:projection", "dec/integrate.py:slow_integration"]}
{"id": "C05", "title": "Dual derivative plus boundary condition (Stokes, dual)", "statement": "On regular and Chebyshev grids with n >= 2, D~(P0d f) + g.boundary_condition(f) == P1d f'; on the periodic grid D~(P0d f) == P1d f' without correction for periodic f. With n = 1 boundary_condition overwrites its only entry and the identity fails.", "quantifier": "every n >= 2, every xmin < xmax, every C1 function f", "why_tests_cant": "Function space and all sizes.", "anchors": ["dec/grid1.py:Grid_1D.boundary_condition", "dec/regular.py:make D", "dec/chebyshev.py:make D", "dec/periodic.py:make D"]}
{"id": "C06", "title": "Primal and dual derivatives are negative adjoints", "statement": "sum(D(f)*g) == -sum(f*D~(g)) for a primal 0-form f and a dual 0-form g, on the three 1D grids (so the matrix of the dual derivative is minus the transpose of the primal one).", "quantifier": "every n >= 1 and all coefficient vectors over any commutative ring", "why_tests_cant": "Tests try a handful of sizes and random vectors; the claim is about every size and every vector.", "anchors": ["dec/periodic.py:make D", "dec/regular.py:make D", "dec/chebyshev.py:make D"]}
{"id": "C07", "title": "Kernel and image of the discrete derivative", "statement": "D f == 0 exactly for constant f; on the periodic grid g is in the image of D exactly when sum(g) == 0, on regular/Chebyshev grids every g is in the image; the dual derivative D~ on regular/Chebyshev is injective.", "quantifier": "every n >= 1 and all vectors over any commutative ring", "why_tests_cant": "Tests try a handful of sizes and random vectors; the claim is about every size and every vector.", "anchors": ["dec/periodic.py:make D", "dec/regular.py:make D", "dec/chebyshev.py:make D"]}
{"id": "C08", "title": "derivative_matrix agrees with the derivative operators", "statement": "periodic.derivative_matrix(n) returns matrices (M, -M^T) with M @ f == D[0,True](f) and (-M^T) @ f == D[0,False](f).", "quantifier": "every n >= 1 and every vector of length n", "why_tests_cant": "Tests try a handful of sizes and random vectors; the claim is about every size and every vector.", "anchors": ["dec/periodic.py:derivative_matrix", "dec/helper.py:sparse_matrix"]}
{"id": "C09", "title": "Fourier transform round trip", "statement": "Finv(F(x)) == x and F(Finv(y)) == y, F is linear, and freq(N) is the increasing list -(N//2), ..., (N-1)//2 so that entry i of F(x) is the coefficient of exp(1j*freq(N)[i]*t).", "quantifier": "every length N >= 1, every complex vector", "why_tests_cant": "Floating point tests sample lengths; the algebraic identity is for all N.", "anchors": ["dec/spectral.py:F", "dec/spectral.py:Finv", "dec/spectral.py:freq"]}
{"id": "C10", "title": "Half-cell shift S evaluates the trigonometric interpolant", "statement": "S(a)[j] and Sinv(a)[j] are the values at x_j+h/2 and x_j-h/2 of the trigonometric interpolant sum_m a[m]*alpha_N(x - x_m), for odd and even N alike.", "quantifier": "every N >= 1, every real vector a", "why_tests_cant": "Tests try a handful of sizes and random vectors; the claim is about every size and every vector.", "anchors": ["dec/spectral.py:S", "dec/spectral.py:Sinv", "dec/spectral.py:S_diag", "dec/spectral.py:alpha0"]}
{"id": "C11", "title": "S and Sinv are mutually inverse", "statement": "Sinv(S(a)) == a and S(Sinv(a)) == a for every real vector of odd length; for even length the alternating vector is sent to 0, so the identity fails exactly on the alternating (Nyquist) component.", "quantifier": "every odd N and every real vector; refuted for every even N", "why_tests_cant": "test_transforms only tries N=11.", "anchors": ["dec/spectral.py:S", "dec/spectral.py:Sinv", "dec/periodic.py:switch"]}
{"id": "C12", "title": "Periodic Hodge stars are mutually inverse", "statement": "On the periodic grid H1d(H0(a)) == a, H0(H1d(a)) == a, H1(H0d(a)) == a, H0d(H1(a)) == a: sp.Hinv and sp.H are inverse of each other; no division by zero occurs and the imaginary parts dropped by .real are zero.", "quantifier": "every N >= 1 and every real vector", "why_tests_cant": "test_hodge_star_inv covers n=3..6.", "anchors": ["dec/spectral.py:H", "dec/spectral.py:Hinv", "dec/spectral.py:I_diag", "dec/periodic.py:make H"]}
{"id": "C13", "title": "Shift and Hodge star commute", "statement": "H(S(a)) == S(H(a)) for every real vector and S(Hinv(Sinv(a))) == Hinv(a) for every real vector of odd length.", "quantifier": "every N >= 1, every real vector", "why_tests_cant": "Tests try a handful of sizes and random vectors; the claim is about every size and every vector.", "anchors": ["dec/spectral.py:H", "dec/spectral.py:Hinv", "dec/spectral.py:S", "dec/spectral.py:Sinv"]}
{"id": "C14", "title": "Spectral exactness of shift, integration and Hodge star", "statement": "If a samples a trigonometric polynomial f of degree < N/2 on the N-point grid then S(a), Sinv(a) sample f(x+h/2), f(x-h/2), I(a,x0,x1) samples the integral of f over [x+x0, x+x1] and H(a) the integral over [x-h/2,x+h/2]; Hinv recovers f from its cell integrals.", "quantifier": "every N, every trigonometric polynomial of degree < N/2, every x0, x1", "why_tests_cant": "Function space and all sizes.", "anchors": ["dec/spectral.py:S", "dec/spectral.py:I", "dec/spectral.py:Iinv", "dec/spectral.py:H", "dec/spectral.py:Hinv"]}
{"id": "C15", "title": "alpha interpolates", "statement": "The periodic 0-form basis functions are cardinal: phi0(N,i,verts[j]) == (i==j) and phid0(N,i,verts_dual[j]) == (i==j) on the default periodic grid, and alpha0 equals the Dirichlet sum wherever it is finite; at non-zero multiples of 2*pi alpha0 is 0/0 (not a number).", "quantifier": "every N >= 1, all 0 <= i,j < N, all real x", "why_tests_cant": "Tests try a handful of sizes and random vectors; the claim is about every size and every vector.", "anchors": ["dec/spectral.py:alpha0", "dec/spectral.py:alpha", "dec/spectral.py:phi0", "dec/spectral.py:phid0"]}
{"id": "C16", "title": "beta histopolates", "statement": "The periodic 1-form basis functions are cardinal for edge integrals: the integral of phi1(N,i,.) over primal edge j is (i==j) and that of phid1(N,i,.) over dual edge j is (i==j).", "quantifier": "every N >= 1, all 0 <= i,j < N", "why_tests_cant": "test_basis_functions covers n=3..5 by numerical quadrature.", "anchors": ["dec/spectral.py:beta0", "dec/spectral.py:beta", "dec/spectral.py:phi1", "dec/spectral.py:phid1"]}
{"id": "C17", "title": "Projection inverts reconstruction (periodic)", "statement": "P(R(a)) == a for the four kinds of form on the default periodic grid.", "quantifier": "every N >= 1, every coefficient vector", "why_tests_cant": "test_projection_reconstruction covers n=2,3,4 with one random vector.", "anchors": ["dec/grid1.py:Grid_1D.reconstruction", "dec/spectral.py:reconstruction", "dec/common.py:projection", "dec/decform.py:R"]}
{"id": "C18", "title": "Periodic Hodge star is project-after-reconstruct", "statement": "H0(a) == P1d(R0(a)), H0d(a) == P1(R0d(a)), H1(a) == P0d(R1(a)), H1d(a) == P0(R1d(a)) on the default periodic grid: the FFT formulas compute exactly the matrices hodge_star_matrix defines from the basis functions.", "quantifier": "every N >= 1, every real vector", "why_tests_cant": "test_hodge_star_basis_fn covers n=2,3.", "anchors": ["dec/spectral.py:hodge_star_matrix", "dec/periodic.py:make H"]}
{"id": "C19", "title": "Hodge star respects the extent of the grid", "statement": "For a constant function c, H0(P0 c) should be P1d c on Grid_1D.periodic(n, xmin, xmax) / chebyshev(n, xmin, xmax) for every xmin < xmax. The code ignores xmin and xmax in H and in the basis functions, so this holds only when xmax-xmin is 2*pi (resp. 2).", "quantifier": "every n and every xmin < xmax", "why_tests_cant": "Tests only use the default extents.", "anchors": ["dec/periodic.py:make", "dec/chebyshev.py:make", "dec/spectral.py:H"]}
{"id": "C20", "title": "Mirror round trips", "statement": "unmirror0(mirror0(f,s)) == f for len(f) >= 2 and unmirror1(mirror1(f,s)) == f; mirror0(f,+1) is even under index negation mod 2n-2, mirror1(f,s) has parity s under j -> 2n-1-j; conversely mirroring undoes unmirroring on arrays with that symmetry.", "quantifier": "every vector over any commutative ring", "why_tests_cant": "Tests try a handful of sizes and random vectors; the claim is about every size and every vector.", "anchors": ["dec/spectral.py:mirror0", "dec/spectral.py:mirror1", "dec/spectral.py:unmirror0", "dec/spectral.py:unmirror1"]}
{"id": "C21", "title": "Fourier padding round trip", "statement": "unextend(extend(f,n),n) == f for 1 <= n <= len(f); extend(f,0) == f but unextend(.,0) raises instead of returning its argument; E_space(n) resamples the trigonometric polynomial of f on the finer grid and E_space_inv(n) undoes it.", "quantifier": "every vector and every n", "why_tests_cant": "Only two literal doctests exist.", "anchors": ["dec/spectral.py:extend", "dec/spectral.py:unextend", "dec/spectral.py:_extend", "dec/spectral.py:_unextend", "dec/spectral.py:E_space"]}
{"id": "C22", "title": "Regular Hodge stars are mutually inverse", "statement": "On the regular grid H1d(H0(f)) == f == H0(H1d(f)) and H1(H0d(f)) == f == H0d(H1(f)).", "quantifier": "every n >= 2, every vector", "why_tests_cant": "test_hodge_star_inv covers n=3..6.", "anchors": ["dec/regular.py:H0_regular", "dec/regular.py:H1d_regular", "dec/regular.py:H1_regular", "dec/regular.py:H0d_regular"]}
{"id": "C23", "title": "Regular basis functions are cardinal", "statement": "kappa0/kappad0 are 1 at their own vertex and 0 at the others, kappa1_symm/kappad1_symm integrate to 1 over their own edge and 0 over the others, hence P(R(a)) == a on the default regular grid, and the regular Hodge stars are project-after-reconstruct.", "quantifier": "every n >= 2, all indices, every vector", "why_tests_cant": "test_basis_functions covers n=3..5.", "anchors": ["dec/spectral.py:kappa0", "dec/spectral.py:kappad0", "dec/spectral.py:kappa1_symm", "dec/spectral.py:kappad1_symm", "dec/regular.py"]}
{"id": "C24", "title": "fourier_K integrates against sine", "statement": "If x are the Fourier coefficients of g (length N) then Finv(fourier_K(x,a,b))[j] is the integral of g(t)*sin(t) over [x_j+a, x_j+b].", "quantifier": "every N >= 1, every coefficient vector, all real a,b", "why_tests_cant": "Only linearity and invertibility for N=4..9 are tested.", "anchors": ["dec/spectral.py:fourier_K", "dec/spectral.py:I_diag"]}
{"id": "C25", "title": "fourier_K_inv inverts fourier_K", "statement": "With M(n) the integral of exp(1j*n*t) over [a,b] and lo, hi = -((N+2)//2), (N+1)//2: fourier_K_inv(x,a,b) raises ValueError (Singular operator) exactly when isclose holds between M(lo) and M(hi-1), or M(lo+1) and M(hi), or the products M(lo)M(lo+1) and M(hi-1)M(hi). Otherwise, if the moments it divides by (frequencies of freq(N), for odd N also +-(N+1)/2) are non-zero, fourier_K(fourier_K_inv(x,a,b),a,b) == x and fourier_K_inv(fourier_K(x,a,b),a,b) == x for every x of length N.", "quantifier": "every N >= 1 (odd and even), every complex vector, all a,b", "why_tests_cant": "test_fourier_K_inv covers N=4..9 with one random vector; the even and odd branches are different closed formulas.", "anchors": ["dec/spectral.py:fourier_K", "dec/spectral.py:fourier_K_inv"]}
{"id": "C26", "title": "Chebyshev Hodge stars on edges are mutually inverse", "statement": "H0d_cheb(H1_cheb(f)) == f and H1_cheb(H0d_cheb(f)) == f on the Chebyshev grid, provided the singularity guard in fourier_K_inv does not fire; with numpy's isclose tolerances it never fires for 2 <= n <= 927 vertices, and for n >= 928 H1_cheb raises ValueError('Singular operator') on every input although the operator is invertible.", "quantifier": "every n >= 2, every real vector of length n-1", "why_tests_cant": "test_hodge_star_inv covers n=3..6 only.", "anchors": ["dec/chebyshev.py:H0d_cheb", "dec/chebyshev.py:H1_cheb"]}
{"id": "C27", "title": "Chebyshev Hodge stars integrate the interpolating polynomial", "statement": "H0d_cheb(f) are the primal-edge integrals of the function R0d(f), and H0_cheb(f) the dual-edge integrals of R0(f) (half edges at both ends included).", "quantifier": "every n >= 2, every real vector", "why_tests_cant": "test_hodge_star_basis_fn covers n=2,3.", "anchors": ["dec/chebyshev.py:H0d_cheb", "dec/chebyshev.py:H0_cheb", "dec/spectral.py:psi0", "dec/spectral.py:psid0", "dec/spectral.py:fold0"]}
{"id": "C28", "title": "Chebyshev Hodge stars on dual edges are mutually inverse", "statement": "H1d_cheb(H0_cheb(f)) == f and H0_cheb(H1d_cheb(f)) == f.", "quantifier": "every n >= 2, every real vector of length n", "why_tests_cant": "test_hodge_star_inv covers n=3..6 only.", "anchors": ["dec/chebyshev.py:H1d_cheb", "dec/chebyshev.py:H0_cheb", "dec/spectral.py:matB", "dec/spectral.py:matB1", "dec/spectral.py:matC", "dec/spectral.py:half_edge_base"]}
{"id": "C29", "title": "Chebyshev basis functions are cardinal", "statement": "psi0(n,i,verts[j]) == (i==j), psid0(n,i,verts_dual[j]) == (i==j), and the integrals of psi1(n,i,.) over primal edge j and of psid1(n,i,.) over dual edge j are (i==j).", "quantifier": "every n >= 2 and all indices", "why_tests_cant": "test_basis_functions covers n=3..5.", "anchors": ["dec/spectral.py:psi0", "dec/spectral.py:psid0", "dec/spectral.py:psi1", "dec/spectral.py:psid1"]}
{"id": "C30", "title": "Interpolation between primal and dual Chebyshev vertices", "statement": "S_cheb(f) are the values at the dual vertices of the polynomial through the primal values, S_cheb_pinv(f) the values at the primal vertices of the polynomial through the dual values, and S_cheb(S_cheb_pinv(f)) == f.", "quantifier": "every n >= 2, every real vector", "why_tests_cant": "Doctests use n=3 and two vectors.", "anchors": ["dec/chebyshev.py:S_cheb", "dec/chebyshev.py:S_cheb_pinv"]}
{"id": "C31", "title": "Refinement round trip (periodic)", "statement": "U0(T0(f)) == f, U0d(T0d(f)) == f, U1(T1(f)) == f, U1d(T1d(f)) == f, all T outputs have length 2N, and T samples the reconstructed form at g.points.", "quantifier": "every N >= 1 (odd and even), every real (floating point) vector", "why_tests_cant": "Doctest uses lengths 8, 9, 10.", "anchors": ["dec/periodic.py:to_refine", "dec/periodic.py:from_refine", "dec/spectral.py:interweave", "dec/helper.py:interweave"]}
{"id": "C32", "title": "Refinement round trip (Chebyshev)", "statement": "U0(T0(f)) == f, U0d(T0d(f)) == f, U1(T1(f)) == f, U1d(T1d(f)) == f on the Chebyshev grid, with T0,T1d of length 2n-1 on n entries and T1,T0d of length 2n-1 on n-1 entries, and T samples the polynomial with the given projection at g.points. T1 needs n <= 927: from n = 928 on it raises ValueError (see C26).", "quantifier": "every n >= 2, every real vector", "why_tests_cant": "Doctest uses lengths 8, 9, 10.", "anchors": ["dec/chebyshev.py:to_refine", "dec/chebyshev.py:from_refine"]}
{"id": "C33", "title": "Integer arrays are refined like floating point arrays", "statement": "Refining a dual 0-form should not depend on whether its array holds integers or floats. interweave allocates its output with the dtype of its second argument, so T0d on an integer array truncates the interpolated values.", "quantifier": "every integer-valued array", "why_tests_cant": "The doctest with arange(10) checks only the entries that are copied.", "anchors": ["dec/helper.py:interweave", "dec/periodic.py:to_refine", "dec/chebyshev.py:to_refine"]}
{"id": "C34", "title": "Periodic Leibniz rule", "statement": "D(a^b) == a^D(b) + b^D(a) for primal 0-forms a, b on the periodic grid.", "quantifier": "every N >= 1 and all real vectors a, b", "why_tests_cant": "test_leibniz covers N=7 and one random pair.", "anchors": ["dec/common.py:wedge", "dec/periodic.py:to_refine", "dec/periodic.py:from_refine"]}
{"id": "C35", "title": "Discrete wedge is bilinear and graded commutative, not associative", "statement": "For every key of g.dec.W on periodic and Chebyshev grids a^b == b^a (degrees 0 and at most one 1), the product is bilinear, 1 is neutral on 0-forms to the same kind, and it is not associative.", "quantifier": "every size, every pair of vectors, every key (degrees and primal/dual kinds)", "why_tests_cant": "Tests use one pair of functions per key; bilinearity and commutativity are never tested on all inputs.", "anchors": ["dec/common.py:wedge", "dec/symbolic.py:wedge_1d", "dec/symbolic.py:antisymmetrize_wedge"]}
{"id": "C36", "title": "Operator tables are complete and type correct in 1D", "statement": "g.dec.D/H/W/C have exactly the keys of the exterior calculus: for every pair of forms whose wedge degree is at most 1 and every target kind W has an entry; C has an entry exactly for 1-forms; results of D, H, W, C have the length N[degree,kind] of their codomain.", "quantifier": "every key, every size, every vector", "why_tests_cant": "Tests iterate the existing keys only, so missing or mis-sized entries go unnoticed.", "anchors": ["dec/common.py:wedge", "dec/common.py:contraction", "dec/common.py:wrap_refine", "dec/periodic.py:make", "dec/chebyshev.py:make"]}
{"id": "C37", "title": "Arithmetic on discrete forms never mixes kinds", "statement": "a+b, a-b, a*b of two decforms either returns a decform with the same degree, kind and grid as both operands, with entrywise result, or raises AssertionError because degree, kind or grid differ; -a and scalar operations (both sides) keep degree, kind and grid.", "quantifier": "every pair of forms and every scalar", "why_tests_cant": "Unit tests use well-typed operands.", "anchors": ["dec/decform.py:decform_factory.binary", "dec/decform.py:decform_factory.unary"]}
{"id": "C38", "title": "Discrete form operators track degree and kind", "statement": ".D raises the degree by one and keeps the kind (and returns 0 on 1D top forms), .H maps degree d to n-d and flips the kind, .W adds degrees and uses the requested kind, .C lowers the degree; .H.H returns to the same degree, kind and grid with the same coefficients on 1D grids; wedges over different grids raise.", "quantifier": "every form on every grid", "why_tests_cant": "The operators compose, so the type discipline must hold for every history of operations.", "anchors": ["dec/decform.py:D", "dec/decform.py:H", "dec/decform.py:W", "dec/decform.py:C"]}
{"id": "C39", "title": "Interpolation property of discrete forms", "statement": "decform.I returns a function interpolating the form. No grid defines dec.I, so reading the property raises KeyError for every form.", "quantifier": "every form on every grid", "why_tests_cant": "No test reads the property.", "anchors": ["dec/decform.py:I", "dec/helper.py:bunch", "dec/periodic.py:make"]}
{"id": "C40", "title": "Equality of discrete forms", "statement": "== is True only for forms with equal degree, kind and grid and arrays equal up to numpy tolerance, != is its negation, == is reflexive on finite arrays; it is neither symmetric nor transitive.", "quantifier": "all pairs and triples of forms", "why_tests_cant": "Needs all pairs/triples.", "anchors": ["dec/decform.py:__eq__", "dec/decform.py:__ne__"]}
{"id": "C41", "title": "Flattening 2D arrays is a bijection", "statement": "unshape(reshape(x, shape)) == (x, shape) for every flat array of matching size and reshape(*unshape(X)) == X for every block (single or pair); unravel_idx(i, shape) is the unique (block, row, column) holding entry i of arange2(shape), raising ValueError exactly when i is out of range; countshape counts the entries.", "quantifier": "all shapes and all indices", "why_tests_cant": "Doctests use one shape and three indices.", "anchors": ["dec/grid2.py:reshape", "dec/grid2.py:unshape", "dec/grid2.py:unravel_idx", "dec/grid2.py:arange2", "dec/grid2.py:cumul_index", "dec/grid2.py:countshape"]}
{"id": "C42", "title": "d after d is zero on 2D product grids", "statement": "D1(D0 f) == 0 for primal 0-forms and D1d(D0d f) == 0 for dual 0-forms on Grid_2D.product(gx, gy) for every combination of 1D grids.", "quantifier": "every pair of grid kinds and sizes, every array", "why_tests_cant": "No test checks it for general arrays.", "anchors": ["dec/grid2.py:derivative", "dec/grid2.py:reshapeO"]}
{"id": "C43", "title": "d of a top form is zero in 2D", "statement": ".D of a 2-form on a 2D grid should be 0 as in 1D. reshapeO passes the integer 0 to unshape, which raises TypeError.", "quantifier": "every 2-form on every flattened 2D grid", "why_tests_cant": "No test differentiates a 2-form.", "anchors": ["dec/grid2.py:reshapeO", "dec/grid2.py:unshape", "dec/decform.py:D"]}
{"id": "C44", "title": "2D Hodge stars", "statement": "On product grids whose 1D Hodge stars are linear and mutually inverse, H2d(H0 f) == f, H0(H2d f) == f, H2(H0d f) == f, H0d(H2 f) == f, H1d(H1 f) == -f and H1(H1d f) == -f.", "quantifier": "every pair of grids, every array", "why_tests_cant": "Tests use a few polynomials on one grid.", "anchors": ["dec/grid2.py:hodge_star", "dec/grid2.py:apply_operators"]}
{"id": "C45", "title": "2D Stokes: derivative commutes with projection", "statement": "D0(P0 f) == P1(df) and D1(P1 w) == P2(dw) on primal cells; on dual cells after adding g.BC(f) (non-periodic) or directly for periodic data.", "quantifier": "every pair of 1D grids, every C1 function / 1-form", "why_tests_cant": "Tests use a few functions on small grids.", "anchors": ["dec/grid2.py:derivative", "dec/grid2.py:symprojection", "dec/grid2.py:numprojection", "dec/grid2.py:symboundary", "dec/grid2.py:product_cells"]}
{"id": "C46", "title": "Flattened cells agree with block cells", "statement": "flatten_cells lists the same cells as product_cells in the same order as unshape, with edges as (start, end) and faces as the four corners counter-clockwise; g.shape and g.N match; every face is a closed loop whose boundary edges are edges of the grid.", "quantifier": "every pair of grids", "why_tests_cant": "All sizes.", "anchors": ["dec/grid2.py:flatten_cells", "dec/grid2.py:product_cells", "dec/grid2.py:countshape"]}
{"id": "C47", "title": "Refinement round trip in 2D", "statement": "U(T(f)) == f for every degree and kind on product grids whose 1D refinements round-trip and are linear.", "quantifier": "every pair of grids, every array", "why_tests_cant": "Tests use a few functions.", "anchors": ["dec/grid2.py:to_refine", "dec/grid2.py:from_refine", "dec/grid2.py:reshapeT", "dec/grid2.py:reshapeU"]}
{"id": "C48", "title": "2D wedge is graded commutative", "statement": "a^b == (-1)^(kl) b^a for a of degree k and b of degree l, for every kind of operands and result; bilinear; W has an entry for every k+l <= 2.", "quantifier": "every pair of grids, every pair of arrays, every key", "why_tests_cant": "Tests use one pair of forms per key.", "anchors": ["dec/grid2.py:wedge", "dec/symbolic.py:wedge_2d", "dec/symbolic.py:antisymmetrize_wedge"]}
{"id": "C49", "title": "2D contraction", "statement": "The discrete contraction i_X is bilinear, i_X i_X w == 0 at component level, C has entries exactly for degrees 1 and 2, and lowers the degree by one.", "quantifier": "every pair of grids, every array", "why_tests_cant": "All inputs.", "anchors": ["dec/grid2.py:contraction", "dec/symbolic.py:contraction_2d"]}
{"id": "C50", "title": "2D basis functions are cardinal", "statement": "The basis form B[d,p](i) of a product grid projects (point values, edge integrals, face integrals) to the i-th unit vector when the 1D bases are cardinal.", "quantifier": "every pair of grids and all indices", "why_tests_cant": "test_basis_functions covers n=2,3 on periodic grids.", "anchors": ["dec/grid2.py:basis_fn", "dec/grid2.py:reshapeB", "dec/grid2.py:unravel_idx"]}
{"id": "C51", "title": "Symbolic exterior derivative squares to zero and obeys Leibniz", "statement": "d(d f) == 0 for every form, and d(a^b) == da^b + (-1)^k a^db for a k-form a, in 1 and 2 dimensions.", "quantifier": "all smooth component expressions", "why_tests_cant": "Doctests use a few monomials.", "anchors": ["dec/symbolic.py:derivative_1d", "dec/symbolic.py:derivative_2d", "dec/symbolic.py:wedge_2d", "dec/symform.py:D", "dec/symform.py:W"]}
{"id": "C52", "title": "Symbolic wedge is a graded commutative associative algebra", "statement": "a^b == (-1)^(kl) b^a, (a^b)^c == a^(b^c), 1^a == a, bilinear; a^a == 0 for odd degree.", "quantifier": "all forms of all degrees with degree sum at most the dimension", "why_tests_cant": "Doctests use atoms.", "anchors": ["dec/symbolic.py:wedge_1d", "dec/symbolic.py:wedge_2d", "dec/symbolic.py:antisymmetrize_wedge"]}
{"id": "C53", "title": "Symbolic Hodge star and inner product", "statement": "H(H(a)) == (-1)^(k(n-k)) a; Dot is symmetric and Dot(a,a) is the sum of squares of the components; a^H(b) == Dot(a,b) vol.", "quantifier": "all forms of all degrees in 1D and 2D", "why_tests_cant": "Doctests use atoms.", "anchors": ["dec/symbolic.py:hodge_star_1d", "dec/symbolic.py:hodge_star_2d", "dec/symbolic.py:Dot"]}
{"id": "C54", "title": "Symbolic contraction is an antiderivation; Cartan calculus", "statement": "i_X(i_X w) == 0, i_X(a^b) == (i_X a)^b + (-1)^k a^(i_X b), Lie(X, f) agrees with the coordinate formula for degrees 0,1,2, Lie commutes with d.", "quantifier": "all vector fields and all forms", "why_tests_cant": "Doctests use one generic symbol set.", "anchors": ["dec/symbolic.py:contraction_2d", "dec/symbolic.py:C", "dec/symbolic.py:Lie"]}
{"id": "C55", "title": "Vector calculus identities", "statement": "Laplacian(f) == f_xx + f_yy componentwise for degree 0, 1, 2; div(grad f) is the Laplacian, vort(grad f) == 0, div of the rotated gradient is 0, adv(V) == (V.grad)V.", "quantifier": "all smooth functions and fields", "why_tests_cant": "Doctests on one generic symbol set.", "anchors": ["dec/symbolic.py:Laplacian", "dec/symbolic.py:grad", "dec/symbolic.py:div", "dec/symbolic.py:vort", "dec/symbolic.py:adv"]}
{"id": "C56", "title": "Scalar multiplication of symbolic forms", "statement": "c*form should scale every component. __rmul__ omits the chart argument, so it raises TypeError for every non-callable scalar, and form*c is not defined.", "quantifier": "every scalar and every form", "why_tests_cant": "No test multiplies a form by a scalar.", "anchors": ["dec/symform.py:__rmul__"]}
{"id": "C57", "title": "Symbolic differentiation is the analytic derivative", "statement": "The components of D(form), read as functions, are the partial derivatives of the components of the form.", "quantifier": "all expressions built from the operations the library uses, all points", "why_tests_cant": "Function space.", "anchors": ["dec/symbolic.py:derivative_1d", "dec/symbolic.py:derivative_2d"]}
{"id": "C58", "title": "nCr is the binomial coefficient and guards form construction", "statement": "nCr(n,r) is the binomial coefficient for 0 <= r <= n, and form(degree, chart, comps) succeeds exactly when degree <= dimension and the number of components is C(dimension, degree).", "quantifier": "all n, r; all component lists", "why_tests_cant": "All inputs.", "anchors": ["dec/helper.py:nCr", "dec/symform.py:__init__"]}
{"id": "C59", "title": "Triangle measure", "statement": "simplex_measure of a triangle in the plane should be its signed area; the unpacking in the code misnames the third vertex and x2 is unbound there, so every call raises UnboundLocalError. Points and segments get their measure.", "quantifier": "all simplices", "why_tests_cant": "No test calls the function.", "anchors": ["dec/symbolic.py:simplex_measure"]}
{"id": "C60", "title": "to_matrix represents linear operators", "statement": "to_matrix(f, N) @ x == f(x) for every linear f; conversely the matrix of x -> M@x is M; to_matrix of a composition is the product.", "quantifier": "every linear operator and every vector", "why_tests_cant": "All linear maps.", "anchors": ["dec/helper.py:to_matrix"]}
{"id": "C61", "title": "interweave, bndry_with_zeros, apply_map", "statement": "interweave(a,b) has a at even and b at odd positions when len(a)-len(b) is 0 or 1 and raises otherwise; bndry_with_zeros pads; apply_map replaces every index by its image and leaves the others unchanged.", "quantifier": "all arrays", "why_tests_cant": "Tests try a handful of sizes and random vectors; the claim is about every size and every vector.", "anchors": ["dec/helper.py:interweave", "dec/helper.py:bndry_with_zeros", "dec/helper.py:apply_map"]}
{"id": "C62", "title": "Operator signatures", "statement": "forms.operators(n) and operators_by_degree(n) list every operator exactly once with domain and codomain in range, closed under composition: D after D and H after H are typed consistently with operators_lambda.", "quantifier": "every dimension n", "why_tests_cant": "Doctests use n=1,2.", "anchors": ["dec/forms.py:operators", "dec/forms.py:operators_by_degree", "dec/forms.py:operators_lambda"]}
{"id": "C63", "title": "Schur complement solver", "statement": "If Ainv inverts A and the Schur complement is invertible then schur(Ainv,B,C,D)(f,g) returns the unique (x, l) with A x + B l = f and C x + D l = g; schurλ agrees with schur.", "quantifier": "all sizes n, m >= 0, all matrices, all right-hand sides", "why_tests_cant": "test_schur uses five sizes with random data.", "anchors": ["dec/schur.py:schur", "dec/schur.py:schurλ"]}
{"id": "C64", "title": "Memoization is transparent", "statement": "A function decorated with memoize returns, for every sequence of calls, the result the undecorated function would return (given that serialisation round-trips and equal keys mean equal results); exceptions are not cached; each key is computed at most once per cache file history.", "quantifier": "every sequence of calls, every number of clean process runs", "why_tests_cant": "All histories.", "anchors": ["dec/data.py:memoize", "dec/integrate.py:process"]}
{"id": "C65", "title": "Memoization survives crashes", "statement": "A crash at any point should leave the library usable. The cache is rewritten in place at exit: a crash before exit loses only the new entries, but a crash while json.dump is writing leaves a partial file and every later import fails with a ValueError.", "quantifier": "every crash point", "why_tests_cant": "Crash points.", "anchors": ["dec/data.py:memoize", "dec/data.py:setitem", "dec/integrate.py"]}
{"id": "C66", "title": "Data store behaves like a map from names to JSON values", "statement": "After d[name] = v, d[name] returns the JSON image of v (arrays and tuples as lists), other names are unaffected, del removes exactly that name; a failed (non-serialisable) store destroys the previous value. The store stays a tree: everything that exists lies in existing directories; a non-empty directory cannot be deleted; a store raises OSError exactly when the name is a directory or a file is in the way.", "quantifier": "every sequence of operations", "why_tests_cant": "All histories.", "anchors": ["dec/data.py:Data", "dec/data.py:setitem", "dec/data.py:getitem", "dec/data.py:delitem"]}
{"id": "C67", "title": "Quadrature rules are exact to their order", "statement": "integrate_simpson is exact on polynomials of degree <= 3 and integrate_boole on degree <= 5 (and not beyond); both are linear in f and reverse sign when the end points are swapped.", "quantifier": "every interval and every polynomial of the degree", "why_tests_cant": "Coefficient space.", "anchors": ["dec/integrate.py:integrate_simpson", "dec/integrate.py:integrate_boole", "dec/integrate.py:integrate_boole1"]}
{"id": "C68", "title": "Integration of forms over edges and polygons", "statement": "integrate_1form of an exact form is the difference of end values, reversing the edge negates it; integrate_2form of a constant over a polygon is the constant times the shoelace area, independent of the starting vertex; and for every C1 1-form integrate_2form of its exterior derivative over the polygon is the sum of integrate_1form over its edges (Stokes).", "quantifier": "every edge, every polygon, every C1 function", "why_tests_cant": "Function space.", "anchors": ["dec/integrate.py:integrate_1form", "dec/integrate.py:integrate_2form", "dec/integrate.py:_integrate_2form"]}
{"id": "C69", "title": "Lagrange polynomials", "statement": "lagrange_polynomials(x)[i](x[j]) == (i==j) for distinct nodes and at least two nodes, they sum to 1 and reproduce polynomials of degree < N; one node raises TypeError.", "quantifier": "every list of distinct nodes", "why_tests_cant": "Node space.", "anchors": ["dec/spectral.py:lagrange_polynomials"]}
{"id": "C70", "title": "Spectral quadrature helpers", "statement": "subdivide inserts exactly the midpoints; split_args(I)(x0,x1,f) == I(x,f) for the node list x; integrate_spectral is exact on trigonometric polynomials of degree < 4N.", "quantifier": "all node lists and trigonometric polynomials", "why_tests_cant": "Function space.", "anchors": ["dec/spectral.py:subdivide", "dec/spectral.py:split_args", "dec/spectral.py:integrate_spectral", "dec/spectral.py:integrate_spectral_coarse"]}
{"id": "C71", "title": "Hodge star is exact on resolved functions", "statement": "For a form g.P(d, primal, f) of a function f that the grid resolves (trigonometric polynomial of degree K with 2K < number of cells; cosine polynomial; polynomial), form.H is exactly the projection of the same f as a form of degree 1-d on the other side: H(P_d f) = P*_{1-d} f.", "quantifier": "every default grid of the three families and every size, every degree and side, every resolved function", "why_tests_cant": "The identity is between integrals and samples of every function of a space whose dimension grows with N.", "anchors": ["dec/decform.py:H", "dec/grid1.py", "dec/spectral.py:H0", "dec/spectral.py:H1"]}
{"id": "C72", "title": "Reconstruction is exact on resolved functions", "statement": "g.P(d, primal, f).R(x) == f(x) for every point x of the grid's interval where the basis functions are defined.", "quantifier": "every default grid, every degree and side, every resolved function, every point", "why_tests_cant": "Continuum of points and functions.", "anchors": ["dec/decform.py:R", "dec/grid1.py", "dec/spectral.py"]}
{"id": "C73", "title": "Refinement, wedge and contraction are exact on resolved functions", "statement": "Refining g.P(d,primal,f) gives f at g.points; f0.W(f1) is the projection of the product f0*f1; X.C(u) is the projection of X*u, with no aliasing although the product need not be resolved by the grid.", "quantifier": "every default periodic and Chebyshev grid, degrees, sides, target side, resolved functions (on Chebyshev grids the product, when a 1-form, has degree at most 2N-3)", "why_tests_cant": "Function spaces of unbounded dimension.", "anchors": ["dec/decform.py:W", "dec/decform.py:C", "dec/common.py:wedge", "dec/common.py:contraction", "dec/grid1.py"]}
{"id": "C74", "title": "Exterior derivative and Laplacian are exact", "statement": "g.P(0,.,f).D == g.P(1,.,f') for every continuously differentiable f (with g.boundary_condition(f) added for dual forms on intervals), and f.D.H.D.H == g.P(0,.,f'') for every resolved f (with boundary_condition(f') before the last step on Chebyshev grids).", "quantifier": "every grid of the three families; every C1 function; every resolved function for the Laplacian (periodic, Chebyshev)", "why_tests_cant": "Function spaces.", "anchors": ["dec/decform.py:D", "dec/decform.py:H", "dec/grid1.py"]}
{"id": "C75", "title": "Averages and integrals over segments and triangles", "statement": "The average over a segment or triangle times its (signed) length or area is the integral over it; averages are independent of the order of the vertices, lie between the bounds of the function and are the value at the centroid for affine functions; symbolic, numeric and polygon versions of the triangle integral agree, change sign with the orientation, and satisfy Stokes' theorem.", "quantifier": "every segment, triangle (also degenerate), every continuous (C1 for Stokes) function", "why_tests_cant": "Function spaces and all reals.", "anchors": ["dec/integrate.py:averages_1d", "dec/integrate.py:averages_2d", "dec/integrate.py:integration_1d", "dec/integrate.py:integration_2d", "dec/integrate.py:n_integration_2d"]}
{"id": "C76", "title": "Discretising a symbolic form samples or integrates it", "statement": "form.P(grid, isprimal) is the discrete form, of the same degree and on the chosen complex, whose entries are the values of the component at the vertices (0-forms) or its integrals over the edges or faces, in 1D and on 2D product grids; a chart of another dimension, an integral sympy cannot evaluate, or a component that depends on another symbol raise instead. In 1D a constant component is stored as a bare number, not as an array (refuted).", "quantifier": "every symbolic form, every grid kind, size and extent, and every sympy rewriting and integration that is sound", "why_tests_cant": "The components are arbitrary expressions and the grids have arbitrary size; a test evaluates a few expressions on one grid.", "anchors": ["dec/symform.py:to_discrete", "dec/symform.py:P", "dec/grid2.py:Grid_2D.P", "dec/grid2.py:symprojection", "dec/integrate.py:integration_1d", "dec/symbolic.py:enumerate_coords"]}
{"id": "C77", "title": "Discretisation commutes with the operators", "statement": "Applying D, H, W or C to symbolic forms and discretising the result gives what the discrete D, H, W or C make of the discretised forms (with the boundary form added for dual derivatives on bounded grids; H, W and C for functions the grid resolves). In 2D this needs the chart Chart(x, y): other symbols raise NameError, and with the coordinates in the other order it is false (refuted).", "quantifier": "every smooth symbolic form, every grid kind, size and extent", "why_tests_cant": "The repository's tests compare a handful of expressions on one grid; the property is about all of them.", "anchors": ["dec/symform.py:to_discrete", "dec/decform.py:D", "dec/decform.py:H", "dec/decform.py:W", "dec/decform.py:C", "dec/symbolic.py:Chart", "dec/grid1_sym_test.py", "dec/grid2_sym_test.py"]}
{"id": "C78", "title": "Arithmetic of symbolic forms is componentwise and guarded", "statement": "+, -, /, their reflected versions and unary minus on symbolic forms combine the components one by one and keep degree and chart; a number acts on every component; operands of different degree or on different charts raise AssertionError, also for wedge and contraction; the derivative of a form of top degree is the number 0, and wedging that with a form raises AttributeError.", "quantifier": "every pair of valid symbolic forms and every scalar expression", "why_tests_cant": "The components are arbitrary expressions.", "anchors": ["dec/symform.py:binary", "dec/symform.py:unary", "dec/symform.py:W", "dec/symform.py:C", "dec/symbolic.py:simplified_forms"]}
{"id": "C79", "title": "Matrices from indices, diagonals and triplets; equidistance test", "statement": "sparse_matrix(ijk, N, M) succeeds exactly when all row and column indices are in range, has the sum of the values given for (i,j) as entry (i,j), and times a vector adds v*x[c] to entry r for every triplet (r,c,v); sparse_diag(x) times y is x*y; to_matrix_by_index(f,N)[i,j] == f(i,j). is_equidistant(x) raises IndexError exactly for fewer than two points, is True for exactly equidistant points, and when True all distances agree up to 1e-8.", "quantifier": "for all triplet lists, sizes, vectors and point lists", "why_tests_cant": "Triplet lists, sizes and values are unbounded; duplicates and out-of-range indices are easy to miss.", "anchors": ["dec/helper.py:sparse_matrix", "dec/helper.py:sparse_diag", "dec/helper.py:to_matrix_by_index", "dec/helper.py:is_equidistant", "dec/periodic.py:derivative_matrix"]}
{"id": "C80", "title": "The Hodge star, wedge product and contraction of a product grid are exact on resolved forms", "statement": "On Grid_2D built from two 1D grids (default extents): discretise a form whose components are sums of products of functions the two grids represent exactly (trigonometric polynomials, cosine polynomials, polynomials of low enough degree). Then H gives exactly the discretisation of the continuous star (*1=dx^dy, *dx=dy, *dy=-dx, *(dx^dy)=1), refining gives the values at the points of both factors, W gives exactly the discretisation of the wedge product, C that of the contraction with the vector field. For W and C the result must be one the projection of the refined grid integrates exactly: this always holds except for mixed primal/dual factors on a Chebyshev axis.", "quantifier": "every pair of grid kinds (W, C: periodic and Chebyshev), every pair of sizes, every resolved form", "why_tests_cant": "The tests compare a handful of expressions on one small product grid; the claim is about all sizes and an infinite family of forms.", "anchors": ["dec/grid2.py:Grid_2D", "dec/grid2.py:hodge_star", "dec/grid2.py:to_refine", "dec/grid2.py:from_refine", "dec/decform.py:H", "dec/decform.py:W", "dec/decform.py:C", "dec/grid2_test.py"]}
{"id": "C81", "title": "The Laplacian of a product grid is exact on resolved functions", "statement": "On a product of periodic and Chebyshev grids, f.D.H.D (+ boundary_condition of *df) .H is exactly the discretisation of f_xx + f_yy; when both grids are periodic the boundary form is zero.", "quantifier": "every pair of periodic or Chebyshev grids, every pair of sizes, every resolved function", "why_tests_cant": "Pointwise exactness on all trigonometric polynomials and polynomials up to a degree that grows with the grid; tests check a few functions with tolerances.", "anchors": ["dec/grid2.py:Grid_2D", "dec/grid2.py:boundary_condition", "dec/decform.py:D", "dec/decform.py:H"]}
{"id": "C82", "title": "Every 1D discrete form is one resolved function, and the operators act on it", "statement": "On a 1D grid (default extent; an odd number of points if periodic) every array of the right length is the discretisation g.P of exactly one function the grid resolves, and form.R evaluates to that function. In these terms: f.H is the same function discretised on the dual cells (and reconstructs to the same function), f^g and contraction multiply the functions, and form.D reconstructs to the derivative of the reconstruction (periodic, primal Chebyshev; dual Chebyshev with the boundary form). On regular grids the last is false (refuted): the derivative of a cosine polynomial is not resolved.", "quantifier": "every grid kind and size, every degree and kind of form, every array", "why_tests_cant": "All arrays of all lengths; tests reconstruct a few arrays on one grid.", "anchors": ["dec/decform.py:R", "dec/decform.py:H", "dec/decform.py:D", "dec/decform.py:W", "dec/decform.py:C", "dec/grid1.py:Grid_1D", "dec/spectral.py:phi0", "dec/spectral.py:psi0"]}
{"id": "C83", "title": "Every discrete form on a product grid is one resolved form, and the operators act on it", "statement": "On Grid_2D (product of default grids; odd numbers of points on periodic axes) every array of length N[d, isprimal] is the discretisation of exactly one form whose components are sums of products of resolved functions, and form.R evaluates to its components. H reconstructs to the continuous star of the reconstruction, W and C discretise the wedge product and contraction of the reconstructions, D of primal 0- and 1-forms reconstructs to the exterior derivative (periodic and Chebyshev axes).", "quantifier": "every pair of grid kinds and sizes, every degree and kind, every array", "why_tests_cant": "All arrays on all product grids.", "anchors": ["dec/grid2.py:Grid_2D", "dec/grid2.py:basis_fn", "dec/grid2.py:reshapeB", "dec/decform.py:R", "dec/decform.py:H", "dec/decform.py:D", "dec/decform.py:W", "dec/decform.py:C"]}
{"id": "C84", "title": "The Fourier-space operators shift and integrate the trigonometric interpolant by arbitrary amounts", "statement": "fourier_S, fourier_T and their grid versions S_space, T_space(h) return the samples of the band-limited interpolant of the input shifted by any real h, form a group, and have the _inv versions as two-sided inverses. fourier_I(., a, b), I_space and I return its integrals over [x+a, x+b]; K_space returns the integrals against sin. The inverse integrations undo them exactly when no oscillation that occurs fits a whole number of periods in the window, otherwise two different arrays have the same integrals; K_space_inv undoes K_space or raises ValueError when its system is singular.", "quantifier": "every array length, every complex array, every real shift and window", "why_tests_cant": "All real shifts and windows and all lengths; the failure set is a countable set of windows per length.", "anchors": ["dec/spectral.py:fourier_S", "dec/spectral.py:fourier_T", "dec/spectral.py:fourier_I", "dec/spectral.py:fourier_K", "dec/spectral.py:S_space", "dec/spectral.py:T_space", "dec/spectral.py:I_space", "dec/spectral.py:K_space", "dec/spectral.py:K_space_inv", "dec/spectral.py:method_in_fourier_space"]}
{"id": "C85", "title": "refine, half_edge_integrals, gamma and alpha0_alt against the interpolants they stand for", "statement": "refine returns the trigonometric interpolant of its input at twice as many points, and refining twice the same interpolant at four times as many. gamma(N, k) is the integral of the k-th edge basis function over the half edge [0, pi/N]. The real part of half_edge_integrals(f) is the integral over that half edge of the reconstruction of f; its imaginary part is 0 for odd N and an explicit alternating sum for even N (so the result is not the real integral then). alpha0_alt agrees with alpha0 at the grid points but is antiperiodic where alpha0 is periodic, and differs from it off the grid.", "quantifier": "every N >= 1 and every real array", "why_tests_cant": "Equalities of integrals of functions for every size; the even sizes behave differently.", "anchors": ["dec/spectral.py:refine", "dec/spectral.py:half_edge_integrals", "dec/spectral.py:gamma", "dec/spectral.py:alpha0_alt", "dec/spectral.py:alpha0"]}
{"id": "C86", "title": "Folding, unfolding, matA, matC, pick and reverse compute the stated index maps", "statement": "fold1 and fold0 add the mirrored half of an array of even length with the given sign, fold the mirror images back to (twice) the original, unfold0 is a right inverse of fold0 and a left inverse exactly on antisymmetric arrays. matA adds neighbouring half edges into edges and preserves the total on even lengths (on odd lengths it raises or returns broadcast values). matC zeroes both ends. pick returns a constant array of one entry with numpy index rules (IndexError out of range). reverse is an involution.", "quantifier": "every array, every sign, every index", "why_tests_cant": "Index arithmetic for every length and index.", "anchors": ["dec/spectral.py:fold0", "dec/spectral.py:fold1", "dec/spectral.py:unfold0", "dec/spectral.py:mirror0", "dec/spectral.py:mirror1", "dec/spectral.py:matA", "dec/spectral.py:matC", "dec/spectral.py:pick", "dec/spectral.py:reverse"]}
{"id": "C87", "title": "The explicit wedge products, the switch between primal and dual 0-forms and the Toeplitz Hodge star", "statement": "On the default periodic grid wedge_explicit()'s w01 of vertex samples of p and edge integrals of q returns the edge integrals of p*q, and _w01 the edge integrals of the resolved function with the same vertex values as p*q. w01 equals the entry W[(0,True),(1,True),True] of the operator table for odd N (for even N when the alternating sum of the 1-form is 0, and not otherwise). _w01 is associative with w00 for odd N and not for even N; w01 has unit 1 and is not associative for any odd N >= 3. switch() carries samples of resolved functions between primal and dual vertices (periodic and Chebyshev), and is not injective for even N although both kinds have the same size. hodge_star_toeplitz(g) is the circulant matrix of the primal Hodge star. differentiation_toeplitz(n) raises TypeError for every n.", "quantifier": "every N >= 1, every array, every resolved function", "why_tests_cant": "Algebraic laws for all arrays of all sizes; the parity of N decides them.", "anchors": ["dec/periodic.py:wedge_explicit", "dec/periodic.py:switch", "dec/chebyshev.py:switch", "dec/periodic.py:hodge_star_toeplitz", "dec/spectral.py:refine", "dec/common.py:wedge"]}
{"id": "C88", "title": "The numerical 2D projections and boundary terms agree with the symbolic ones and satisfy Stokes' theorem", "statement": "On every product of two 1D grids the rules of projection_2d (evaluate on the vertices, integrate along the edges, integrate over two triangles per face) return the coefficients dec.P returns for the same continuous form. The boundary terms BC0(f) of Grid_2D.boundary_condition equal dec.BC[1, False], and BC1(f) equals dec.BC[2, False] when both axes are bounded; with a periodic axis BC1 raises ValueError for every form. The dual discrete derivative of the projected form plus the boundary term is the projection of the exterior derivative (degree 0 and 1).", "quantifier": "every pair of valid 1D grids of any kind and size, every continuous (C1 for Stokes) form", "why_tests_cant": "An identity of integrals for all forms and all grids.", "anchors": ["dec/grid2.py:projection_2d", "dec/grid2.py:boundary_condition", "dec/grid2.py:Grid_2D.boundary_condition", "dec/integrate.py:integrate_1form", "dec/integrate.py:integrate_2form"]}
{"id": "C89", "title": "The discrete Poisson problem: kernel, range, unique solvability and exact solutions of laplacian(g)", "statement": "laplacian(g) returns operators L and Ld defined on every primal and dual 0-form. L u = 0 exactly for the constant u; two solutions of L u = q differ by a constant; L u = q has a solution exactly when the entries of H0(q) (the integral of q) sum to 0. On periodic grids the same holds for Ld. On regular and Chebyshev grids Ld u = q has exactly one solution for every q (zero boundary values). On the default Chebyshev grid, with the boundary terms of boundary_condition moved to the right hand side, the Dirichlet problem has the solution P(f) exactly for every polynomial f of degree <= n, the Neumann problem for degree <= n-1; on the default periodic grid the solution is exact for every resolved trigonometric polynomial.", "quantifier": "every grid kind and size, every right hand side, every resolved function", "why_tests_cant": "Existence and uniqueness for all right hand sides of all sizes.", "anchors": ["dec/spectral.py:laplacian", "dec/grid1.py:Grid_1D.derivative", "dec/grid1.py:Grid_1D.hodge_star", "dec/grid1.py:Grid_1D.boundary_condition"]}
{"id": "C90", "title": "Cohomology of the discrete de Rham complex on product grids", "statement": "On every product grid, primal (t = true) or dual (t = false): a 0-form has derivative 0 exactly when it is constant, and is 0 if one of the factors is an interval and the form is dual; two 0-forms with the same derivative differ by such a constant. The sums of a closed 1-form along all horizontal lines are equal, and along all vertical lines, whenever the derivative along that factor sums to 0. A 1-form is the derivative of a 0-form exactly when it is closed and those sums vanish (in the directions in which they are not forced to), closed 1-forms with any prescribed sums exist, and a 2-form is the derivative of a 1-form exactly when its total is 0 or one of the factors is a primal interval. In particular on the primal cells of a rectangle closed means exact (Poincare lemma), and on a torus exactly two periods obstruct.", "quantifier": "all pairs of 1D grids (every kind, size from the smallest working one, extent), primal and dual, all 0-, 1- and 2-forms on their product", "why_tests_cant": "existence of a potential is an existential statement over all arrays for every closed form and every grid size; tests only see derivatives of chosen forms.", "anchors": ["dec/grid2.py: derivative, cartesian_product_grids, flatten_grid", "dec/periodic.py: make, D0, D0d", "dec/regular.py: D0, D0d", "dec/chebyshev.py: D0, D0d", "dec/common.py"]}
{"id": "C91", "title": "Constructors and accessor methods of Grid_1D and Grid_2D return what their names say", "statement": "Grid_2D.periodic/regular/chebyshev(N, M) make the product of the two default 1D grids, with the corresponding numbers of cells, for every working N and M. The points of a 2D grid contain its vertices at the even and its dual vertices at the odd positions, in the order of verts and verts_dual. derivative() returns D0, D1, D0d, D1d, mapping forms to forms of the next degree with D1 D0 = 0 and D1d D0d = 0. hodge_star() returns six maps, each undone by the one of complementary degree and other kind up to the sign of 1-forms. reconstruction() returns, in the documented order, the functions F.R of the discrete forms; projection() undoes it on every array. D(Pn(w, dual)) + BC(w) = Pn(dw, dual) for every continuously differentiable 0-form and 1-form w. rand(d, t) gives a form of the size of the grid whatever the random numbers.", "quantifier": "all pairs of 1D grids of every kind and working size (default extent, and odd size for periodic factors, where reconstruction is involved), all degrees, primal and dual, all arrays, all points, all continuously differentiable forms, all random streams", "why_tests_cant": "the tuples are unpacked by position by every caller; a permuted tuple or a swapped sign on one grid kind, degree and parity is visible only for arrays a test does not choose.", "anchors": ["dec/grid2.py: Grid_2D.periodic, regular, chebyshev, points, projection, derivative, hodge_star, basis_fn, reconstruction, rand, Pn, BC", "dec/grid1.py: Grid_1D.projection, reconstruction, rand", "dec/spectral.py: reconstruction"]}
{"id": "C92", "title": "On periodic and regular grids the Hodge star is an inner product of forms", "statement": "On periodic and regular grids the pairing sum(a * H b) of two forms of the same kind is symmetric, positive and 0 only for a = 0, and satisfies the Cauchy-Schwarz inequality, for both degrees and for primal and dual forms; the same holds on products of such grids for 0-, 1- and 2-forms (1-forms pair their horizontal component with the vertical one of the star, with the sign of the rotation). On a Chebyshev grid the pairing is not symmetric.", "quantifier": "every periodic or regular grid of every working size, every product of two such grids, every degree, primal and dual, every pair of arrays", "why_tests_cant": "positive definiteness is a statement about all arrays and all grid sizes; a test samples a few random vectors.", "anchors": ["dec/periodic.py: make", "dec/regular.py: H0_regular, H1_regular, H0d_regular, H1d_regular", "dec/chebyshev.py: H0_cheb, H1_cheb, H0d_cheb, H1d_cheb", "dec/grid2.py: hodge_star", "dec/spectral.py: H, Hinv"]}
{"id": "C93", "title": "Green's identity, definiteness of the Laplacians, and the Poisson problem on product grids", "statement": "For the Laplacians of every 1D grid, and for f.D.H.D.H on every product grid, primal or dual: the pairing of g with H(Lap f) is minus the pairing of D g with H(D f). On periodic and regular grids and their products the Laplacian is therefore self-adjoint and negative, and the energy of f is 0 exactly for constant f (only f = 0 for dual forms when an axis is an interval). On products of periodic and regular grids the Poisson equation f.D.H.D.H = q has a solution exactly when H q sums to 0, and for every q when the forms are dual and an axis is an interval; the solution is unique up to a constant, respectively unique.", "quantifier": "every pair of 1D grids of any kind (periodic and regular for definiteness and solvability), size and extent, primal and dual, every right hand side", "why_tests_cant": "Existence and uniqueness for all right hand sides and all sizes; definiteness for all arrays.", "anchors": ["dec/grid2.py: derivative, hodge_star", "dec/spectral.py: laplacian", "dec/periodic.py: make", "dec/regular.py: make", "dec/chebyshev.py: make", "dec/decform.py: decform.D, decform.H"]}
{"id": "C94", "title": "Hodge decomposition of 1-forms on product grids", "statement": "On every product of two 1D grids the derivatives of 0-forms, the forms g.H.D.H of 2-forms g and the harmonic 1-forms (h.D = 0 and h.H.D = 0) are orthogonal for the pairing of a with b.H. On products of periodic and regular grids every 1-form is the sum of one of each in exactly one way, and for any two prescribed periods (the sums along a horizontal and a vertical line, in the directions in which they are not forced to vanish) there is exactly one harmonic 1-form with these periods: two free parameters on a torus, one on a cylinder, none on a rectangle.", "quantifier": "all pairs of 1D grids (every kind for orthogonality, periodic and regular for existence and uniqueness), every size and extent, primal and dual, all 1-forms", "why_tests_cant": "existence and uniqueness of a decomposition for every form on every grid size is an existential statement over all arrays.", "anchors": ["dec/grid2.py: derivative, hodge_star, cartesian_product_grids", "dec/decform.py: decform.D, decform.H", "dec/periodic.py: make", "dec/regular.py: make"]}
{"id": "C95", "title": "Attribute dictionaries, named tuples, dispatch tables and array helpers", "statement": "bunch: b.k is the item stored last under k unless k is an attribute of dict, in which case it is that attribute; a missing name is a KeyError. nametuple(name, fields, d) succeeds exactly when fields is a non-empty list of distinct valid names separated by single commas without blanks, all keys of d, and then holds their values in this order; a missing key is a KeyError. make_namedtuple, NamedTuple, set_attributes and set_dictionary read and store exactly the fields, and storing then reading gives the tuple back. A dispatched function calls the function registered last under exactly the degrees of its arguments and applies T to the computed degree and result; the function registered without key is never called. assignfunctionto holds the last assignment per key. cartesian_product enumerates all pairs with x running fastest. n_integration_1d and slow_integration give the increments of an antiderivative cell by cell. Omega and Omega_d sample the sine at the vertices and dual vertices of the periodic grid.", "quantifier": "every dictionary, every field string, every registration history and argument list, every pair of arrays, every continuous integrand with an antiderivative", "why_tests_cant": "Registration histories, field strings and dictionaries are unbounded; the doctests check one literal each.", "anchors": ["dec/helper.py: bunch, nametuple, NamedTuple, set_attributes, set_dictionary, make_namedtuple, multipledispatch, register", "dec/grid2.py: assignfunctionto, cartesian_product", "dec/integrate.py: n_integration_1d, slow_integration", "dec/spectral.py: Omega, Omega_d"]}
{"id": "C96", "title": "The Hodge Laplacian of product grids is exact on forms of every degree, with boundary terms", "statement": "On a product of periodic and Chebyshev grids, with forms whose components are sums of products of functions the factors resolve: the discrete derivative of a discretised 0- or 1-form, plus the boundary condition array of the form on dual cells, is the discretisation of the exterior derivative, which is again resolved. Hence f.D.H.D.H on 0-forms and f.H.D.H.D on 2-forms give the discretisation of f_xx + f_yy, and f.D.H.D.H + f.H.D.H.D on 1-forms u dx + v dy gives that of (u_xx + u_yy, v_xx + v_yy), on primal and on dual cells alike, when the boundary values of the form, of its curl, of its Hodge star and of its divergence are supplied to the derivatives of dual forms. On doubly periodic grids no boundary values enter.", "quantifier": "every product of periodic and Chebyshev grids of any sizes, primal and dual forms of degree 0, 1, 2, every resolved form", "why_tests_cant": "The convergence scripts try exp(x)+exp(y) on thirty sizes and look at the error plot; exactness is for all sizes and all resolved forms.", "anchors": ["dec/grid2.py: product, boundary conditions, derivative and Hodge tables", "dec/decform.py: decform.D, decform.H, binary", "doc/plot/cheb/poisson2d_cheb.py: run"]}
{"id": "C97", "title": "The retired Fourier formulas compute what the current ones compute", "statement": "The Chebyshev Hodge stars kept in deprecated/spectral.py (both versions of the star of 0-forms) return the same arrays as the current stars on every array of every admissible size, and whenever the current star of 1-forms returns a value the retired one returns the same; they are mutually inverse for all sizes, including those (927 entries and more) where the current star of 1-forms raises \"Singular operator\"; the retired star of dual 1-forms returns complex numbers with zero imaginary part. H_exp, H_sin and H_sin_dual integrate the trigonometric polynomial through the values times exp(i t), sin t and sin(t + h/2) over the cells; I_sin multiplies the integral with the sine at the vertex instead. H_sin loses information for every size, as documented; H_exp, documented as singular, is injective for every N >= 2. Arrays that are too short raise.", "quantifier": "all arrays of all lengths; all integration limits", "why_tests_cant": "The doctests evaluate single arrays of five entries; agreement of two different formulas must hold for all arrays and sizes.", "anchors": ["dec/deprecated/spectral.py: H_exp, H_sin, H_sin_dual, I_sin, H0d_cheb, H1_cheb, H0_cheb_alternate, H0_cheb, H1d_cheb", "dec/chebyshev.py: H0_cheb, H1_cheb, H0d_cheb, H1d_cheb"]}
{"id": "C98", "title": "Several processes sharing one memo cache file never get a wrong answer, as long as writes do not overlap", "statement": "Any number of processes may import the module, call the memoized function, end normally or die, in any interleaving, with the cache file written chunk by chunk. As long as no two processes have the file open for writing at the same time, every call returns or raises what the undecorated function does; an import may fail, but only with ValueError, and then only because of an unfinished write; if nobody starts or dies during a write, no import fails and the file is right between writes. An import during an unfinished write fails. A process keeps everything it has read, and the last process to end determines the file: entries stored by others in the meantime are lost and computed again. A torn file is repaired by a process that had already started. If two processes write at the same time, the file can end up well formed with a wrong entry, and a later process is silently given a wrong answer.", "quantifier": "all numbers of processes, all schedules of imports, calls, chunk writes, normal ends and deaths, all functions with a faithful serialisation", "why_tests_cant": "Tests run one process; races between processes depend on the schedule and on where writes are cut.", "anchors": ["dec/data.py: memoize, getitem, setitem"]}
{"id": "C99", "title": "plot shows the acceleration and the vorticity of an incompressible flow, and the sample flows V, p are solutions", "statement": "For every velocity (u, v) and pressure q given by formulas defined on the whole plane, plot(V, p) is defined, its omega is the vorticity of the field, and its vdot together with V and p satisfies the equations of incompressible flow (Euler equations, with V and vdot free of divergence) exactly if div(V) and the expression that 'must be zero', div(adv(V)) + div(grad(p)), vanish everywhere; no other acceleration does. The five samples V[i], p[i] of the module satisfy them, with the velocity, vorticity and acceleration printed in the documentation; samples 0, 2, 3, 4 and all pressures are 2 pi-periodic in both coordinates, sample 1 changes sign instead. The pressures printed in the documentation for examples 1, 3 and 4 have the wrong sign: no acceleration goes with them.", "quantifier": "all velocity fields and pressures given by formulas defined everywhere; all points of the plane; all five samples", "why_tests_cant": "Identities between functions of two real variables; a test evaluates finitely many points (the check in the code is commented out).", "anchors": ["dec/symbolic.py: V, p, plot, lambdify2, div, adv, grad, vort", "doc/sample_advection.rst"]}
{"id": "C100", "title": "The discrete Laplacian of a periodic grid has exactly the eigenvalues -k^2 of the second derivative", "statement": "On a periodic grid with n points (any n >= 1), both operators returned by laplacian(g) have the eigenvalues 0, -1, -4, .., -(n//2)^2 and no others; the eigenvectors to -k^2 are exactly the discretisations of the functions a cos(kx) + b sin(kx); and every 0-form is a combination of these modes, on which the operator acts mode by mode (it is diagonalisable). So the operator has no spurious modes and no zero mode except the constants.", "quantifier": "all numbers of points, both kinds of 0-forms, all arrays, all real numbers as candidates for eigenvalues", "why_tests_cant": "A numerical eigenvalue computation treats one size at a time and is approximate; that no other eigenvalue exists is a universal statement.", "anchors": ["dec/spectral.py: laplacian", "dec/periodic.py", "dec/grid1.py: Grid_1D.derivative, hodge_star, P0, P0d"]}
{"id": "C101", "title": "The Laplacian on product grids acts axis by axis, and its eigenvalues are the sums of those along the axes", "statement": "On every product grid, for 0-forms f, primal or dual, the value of f.D.H.D.H at vertex (i, j) is the sum of the 1D Laplacian (as returned by laplacian) of row i at j and of that of column j at i. If the first axis is periodic with n points, the eigenvalues of f.D.H.D.H are exactly the numbers -k^2 + mu with 2k <= n and mu an eigenvalue of the 1D Laplacian of the second axis, of any kind; on a torus they are exactly -(k^2 + l^2).", "quantifier": "all pairs of 1D grids of any kind, size and extent (the Chebyshev guard permitting), primal and dual, all 0-forms, all candidate eigenvalues", "why_tests_cant": "A test evaluates single forms on single grids; that two composed 2D operators split into 1D operators, and that no other eigenvalue exists, are universal statements.", "anchors": ["dec/grid2.py: derivative, hodge_star, apply_operators", "dec/spectral.py: laplacian", "dec/decform.py: D, H"]}
{"id": "C102", "title": "On the periodic grid the Hodge stars, the Laplacian and the reconstruction converge with an error bounded by the unresolved Fourier coefficients", "statement": "On the default periodic grid with n points, for every function f that is the sum of its Fourier series with absolutely summable coefficients (not only those the grid resolves): the Hodge star of the discretised 0-form differs from the exact integrals of f over the cells by at most 2 (2 pi/n) T, that of the discretised 1-form from the values of f at the points by at most 2 T, and the reconstruction of the discretised 0-form (1-form) from f, anywhere on the domain, by at most 2 T, where T is the sum of |a_k| + |b_k| over the modes with 2k >= n. If k^2 (|a_k| + |b_k|) is summable, the discrete Laplacian differs from f'' by at most twice the sum of these terms over 2k >= n. The sums tend to zero as n grows, so all these converge.", "quantifier": "all numbers of points n >= 1, primal and dual forms, all functions with absolutely summable Fourier coefficients, all points of the domain", "why_tests_cant": "A test measures the error of one function on a few sizes; a bound for all functions and the convergence as n tends to infinity are statements about limits.", "anchors": ["dec/periodic.py: make", "dec/spectral.py: H, Hinv, laplacian", "dec/grid1.py: Grid_1D.derivative, hodge_star, projection", "dec/grid1.py: Grid_1D.reconstruction"]}
{"id": "C103", "title": "On the regular and Chebyshev grids the Hodge star and the reconstruction of 0-forms converge with an error bounded by the unresolved series coefficients", "statement": "On the default regular (Chebyshev) grid, for every function f that is on the domain the sum of its cosine (Chebyshev) series with absolutely summable coefficients: the Hodge star of the discretised 0-form, primal or dual, differs from the exact integral of f over each dual cell by at most 2 T times the length of the cell, and the reconstruction of the discretised 0-form from f, anywhere on the domain, by at most 2 T, where T is the sum of |a_k| over k >= m and m is the number of vertices. T tends to zero as the grid is refined.", "quantifier": "all sizes (for Chebyshev those for which the Hodge star exists), primal and dual 0-forms, all functions with absolutely summable coefficients, all points of the domain", "why_tests_cant": "A test measures the error of one function on a few sizes; a bound for all functions and the convergence as n tends to infinity are statements about limits.", "anchors": ["dec/regular.py: make", "dec/chebyshev.py: make, H0_cheb, H0d_cheb", "dec/decform.py: H, R", "dec/grid1.py: Grid_1D.P, reconstruction"]}
{"id": "C104", "title": "On periodic grids with an odd number of points the wedge product and the contraction converge with an error bounded by the unresolved Fourier coefficients of the factors", "statement": "On the default periodic grid with an odd number n of points, for all functions f and g that are sums of their Fourier series with absolutely summable coefficients and all kinds of discrete forms (degrees with sum at most 1, primal or dual arguments and result): the wedge product of the two discretisations differs from the discretisation of f g by at most 2 (S_f T_g + T_f S_g), times the length 2 pi/n of a cell if the result is a 1-form, where S is the sum of the amplitudes of all modes and T that of the modes with 2k >= n. Likewise the contraction of the 1-form f dx by the field whose 1-form is g dx differs from the discretisation of the 0-form f g by at most 2 (S_f T_g + T_f S_g). The bounds tend to zero as n grows.", "quantifier": "all odd numbers of points, all degrees and kinds of the factors and the result, all pairs of functions with absolutely summable Fourier coefficients, all components of the result", "why_tests_cant": "A test multiplies two particular functions on a few grids; a bound for all functions and the convergence as n tends to infinity are statements about limits.", "anchors": ["dec/common.py: wedge, get_w", "dec/periodic.py: to_refine, from_refine", "dec/decform.py: W", "dec/common.py: contraction, get_c", "dec/decform.py: C"]}
{"id": "C105", "title": "The total of the Hodge star of a 0-form is a convergent quadrature rule; on periodic grids its error is bounded by the Fourier coefficients of frequency n and more", "statement": "On the default periodic grid with n points, for every function f that is the sum of its Fourier series with absolutely summable coefficients, the sum of the components of the Hodge star of the discretised 0-form, primal or dual, differs from the integral of f over the period by at most 2 pi T, where T is the sum of the amplitudes of the modes of frequency n and more (twice the frequency up to which the single components are exact). The bound is attained: for f = cos(n x) the total is 2 pi and the integral is 0. On the default regular and Chebyshev grids the total differs from the integral over the domain by at most 2 L T, where L is the length of the domain and T the sum of the absolute coefficients of the cosine, resp. Chebyshev, series from index m on, m the number of components of the 0-form. On default periodic grids with an odd number of points the total of the wedge product of a 0-form and a 1-form differs from the integral of f g over the period by at most 4 pi (S_f T_g + T_f S_g), with S and T as in C104.", "quantifier": "all numbers of points, primal and dual 0-forms, all functions with absolutely summable Fourier, cosine or Chebyshev coefficients", "why_tests_cant": "A test integrates a few functions on a few grids; a bound for all functions with infinitely many modes is a statement about limits.", "anchors": ["dec/periodic.py: make", "dec/regular.py: make", "dec/chebyshev.py: make", "dec/grid1.py: Grid_1D.derivative, hodge_star, projection", "dec/grid1.py: Grid_1D.reconstruction", "dec/decform.py: W"]}
