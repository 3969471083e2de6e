# Formal model of knut0815/dec in Rocq (Coq 8.16.1)

## What is modelled, in one paragraph

`dec` is a spectral discrete-exterior-calculus library: 1D grids (periodic, regular, Chebyshev), their
tensor products in 2D, FFT-based Hodge stars, refinement operators, wedge/contraction, a thin typed
`decform` wrapper, a symbolic (`sympy`) twin, quadrature helpers, a Schur-complement solver and a
JSON-backed memo cache. Every function we model is a small Gallina function mirroring the Python
branch by branch; each carries a comment with the file and lines it models.

## Modelling decisions (global)

* **Numbers.** Floating point numbers are modelled by exact real numbers (`R`) and complex numbers
  (Coquelicot's `C = R*R`). Rounding, overflow and NaN propagation are *not* modelled. Where Python would
  divide by zero (giving `nan`/`inf`) on inputs a user can supply, the model returns `None`/an error
  value and the theorems say when that happens. Purely structural functions are polymorphic; functions
  that only add/subtract/multiply are written over a small class `Num` of ring operations, so the same
  definition is used at `Z` (integer arrays), `R` and `C`, and theorems hold for every commutative ring.
* **Arrays.** 1D numpy arrays are lists; 2D arrays are records (number of rows, number of columns, flat row-major list).
  Mutation through views (`x[1:-1]`, `bc[0] = ..`) becomes a function returning the new value.
* **numpy / scipy / sympy.** `fft`, `roll`, `diff`, slicing, `linspace`, `concatenate`, `meshgrid`,
  `apply_along_axis`, ... are modelled from their documented semantics in `Model/Np.v`. `quad`/`dblquad`
  are modelled as the exact Riemann integral (`RInt`); `np.linalg.inv` as an arbitrary function
  satisfying the inverse equations (a hypothesis of C63); sympy expressions by an expression type with an
  evaluation into the reals and a structural derivative; sympy's automatic simplification and
  `integrate(...).doit()` (which either finds a closed form or does not) as function parameters whose
  soundness is a hypothesis of C76/C77 (`Spec/Sympy.v`), never an axiom. These are part of the trusted base.
* **Old numpy.** The code (2015) slices with `len(f)/2`, a float under Python 3, which numpy < 1.12
  truncated to an integer; we model that truncation. (Current numpy raises.)
* **Exceptions** are values (`res A = Ok a | Err e`) wherever the property concerns them.

## Trusted base

1. Coq 8.16.1's kernel (`coqc`; `vm_compute` is used in examples and finite checks).
2. The axioms printed by `Print Assumptions` under each property theorem. They are only axioms of the
   standard library, used by its real numbers: `ClassicalDedekindReals.sig_forall_dec`,
   `ClassicalDedekindReals.sig_not_dec`, `FunctionalExtensionality.functional_extensionality_dep`
   (and `Classical_Prop.classic` where listed). Coquelicot adds no axioms of its own. Purely structural
   theorems are closed under the global context. `ASSUMPTIONS.md` lists them theorem by theorem
   (generated by `tools/assumptions.py` from `Print Assumptions` of every theorem in MANIFEST.json).
3. The reading of the Python source (comments cite lines) and the semantics of numpy/scipy/sympy above.

## Layout

* `theories/Model/*.v` – the model: definitions only.
* `theories/Spec/*.v` – small, independent vocabulary used by statements (cardinality, tiling, integrals,
  trigonometric polynomials, linear maps ...).
* `theories/Proofs/*.v` – lemmas.
* `theories/Props/*.v` – the property theorems (`C01_...`), each closed by `exact`, followed by
  `Print Assumptions` and by examples showing the hypotheses are met by concrete cases.

## Plan per property

| id | modelled | proof idea |
|----|----------|-----------|
| C01–C03 | `make` of the three grids, `Grid_1D.points` | explicit `nth` formulas for cells, monotonicity of `sin` on [-pi/2,pi/2] |
| C04, C05 | D, P (projection) with `quad` = `RInt`, `boundary_condition` | fundamental theorem of calculus cell by cell; witness n=1 for the failing case |
| C06, C07, C08 | D operators over any ring; `derivative_matrix` as triplet list | summation by parts, telescoping |
| C09 | fft/ifft/fftshift/ifftshift/fftfreq | orthogonality of roots of unity (real telescoping lemma) |
| C10–C14 | S, Sinv, H, Hinv, I, Iinv, I_diag, S_diag | reduce to real circulant kernels; orthogonality; RInt of cosines |
| C15–C18 | alpha0/beta0/phi*, R, P, hodge_star_matrix | Dirichlet kernel closed form; histopolation; kernels of C10–C12 |
| C19 | periodic/chebyshev `make` with arbitrary extent | evaluate H on constants; refutation witness |
| C20, C21 | mirror/unmirror/extend/unextend/E_space | list reasoning; Fourier characterisation |
| C22, C23 | regular.py Hodge stars, kappa functions | mirror symmetry preserved by even circulants |
| C24, C25 | fourier_K, fourier_K_inv (with its `isclose` guards) | exact integrals coefficientwise; linear recurrences for both parities |
| C26–C30 | chebyshev.py Hodge stars, S_cheb, psi functions | C24/C25 + mirror parity; substitution x = -cos t |
| C31–C36 | refine (T/U), wedge, contraction, tables | trigonometric interpolation reproduces low degree polynomials; finite key enumeration |
| C37–C40 | decform | case analysis over the typed state |
| C41–C50 | grid2.py | 2D arrays; commuting row/column operators; iterated integrals |
| C51–C59 | symbolic.py, symform.py | commutative ring with commuting derivations; expression type with evaluation |
| C60–C62 | helper.py, forms.py | lists, finite enumeration |
| C63 | schur.py | linear algebra over R on lists |
| C64–C66 | data.py | state machine over a file map with crash points |
| C67–C70 | integrate.py and quadrature helpers of spectral.py | polynomial identities, RInt |
| C71–C74 | the 1D tables again, on projections of *functions* | `Spec/Resolved.v` says which functions a grid resolves; cardinality + uniqueness of the interpolant |
| C75 | `averages_*`, `integration_*`, `simplex_measure` | change of variables, Fubini on triangles, barycentric symmetry |
| C76, C77 | `form.P`, `to_discrete`, `Grid_2D.P`, `integration_1d`, `lambdify`/`subs` | evaluation lemmas for substitution; C04/C05/C45/C71/C73; in the plane H, W and C by C80 (`Props/Commute2.v`) |
| C78 | arithmetic dunder methods of `symform.form`, `F0/F1/F2` | case analysis over valid forms |
| C79 | `sparse_matrix`, `sparse_diag`, `to_matrix_by_index`, `is_equidistant` | sums over triplet lists; rounding lemmas |
| C80 | `Grid_2D` tables H, R(fined), W, C through `form_H`, `form_W`, `form_C` | separable functions (`Spec/Separable.v`): 1D exactness (C71–C73) tensored; `fine2` states which results the restriction projects exactly, and C80_*_fine proves when products satisfy it |
| C81 | `Grid_2D` tables D, H, BC | C45 (Stokes) with C80 (Hodge) |
| C82 | `form_R`, `form_H`, `form_W`, `form_C`, `form_D` on 1D grids | interpolation exists in the resolved space (Fourier, Chebyshev through x = -cos t); 1-forms by the inverse Hodge star; identity theorem for polynomials; then C71–C74 |
| C83 | the same on `Grid_2D` | arrays decompose into rows times unit vectors, each resolved in 1D; slices for uniqueness; then C45, C80 |
| C84 | shifts, integrals and sine integrals by arbitrary amounts in Fourier space | each operator is diagonal (or three-banded for K) on the coefficients; evaluate the interpolant and integrate term by term; singular windows by an explicit kernel vector |
| C85 | `refine`, `half_edge_integrals`, `gamma`, `alpha0_alt` | uniqueness of the interpolant; the half edge integral of each harmonic; explicit antiperiodicity of `alpha0_alt` |
| C86 | `fold0/1`, `unfold0`, `matA`, `matC`, `pick`, `reverse` | list lemmas on nth with parity cases |
| C87 | `wedge_explicit`, `switch`, `hodge_star_toeplitz` (Model/Explicit.v) | operators commute in Fourier space; products of resolved functions are resolved on the doubled grid; circulant entries from the period of alpha0 |
| C88 | `projection_2d`, `Grid_2D.boundary_condition` (Model/Project2.v) | each cell as a map over positions; edge and triangle integrals by substitution and Fubini; Stokes from C45 |
| C89 | `laplacian`, `Grid_1D.derivative`, `Grid_1D.hodge_star` (Model/Laplacian.v) | kernels and images of the derivatives (C07), Hodge stars are bijections, the star of the constant 1 has positive sum (tilings C01, C02); exactness from C04, C05, C71 |
| C90 | Kernel and image of D on 0-, 1- and 2-forms of `product close gx gy`, by a Kuenneth argument: solve along the rows with the 1D images of C89's lemmas (`Proofs/Cohomology.v` [line]: kernel, constants, sums, image of one factor), correct by a function of the other coordinate. Specification in `Props/Cohomology.v`: `isform`, `deriv`, `closed`, `exact`, `free`/`tied`, `xsum`/`ysum` (sums over one grid line). Both directions of each characterisation, existence of closed forms with any periods, corollaries for rectangles and tori; instance: the non-exact closed form dx on a 3x3 torus. |
| C91 | `Model/Access.v` models the methods as tuples read from the tables of `product`. Each theorem states the law of the tuple's components directly (d d = 0, star star = +-1, P R = id, Stokes with boundary terms, sizes) or identifies them with the methods of the discrete forms (form_R), by the earlier theorems for the table entries (C03, C42, C44, C45, C82, C83) and a proof that `basis_fn` succeeds on every index. Instances: Grid_2D.periodic(3, 5); projection and reconstruction on periodic(3) x chebyshev(3). |
| C92 | `Props/Energy.v` states the pairing as sums of the operator tables' results. Proof: a Gram form (`Proofs/Gram.v`: b . g(a) = sum over k of w_k(a) w_k(b)) exhibits symmetry, positivity and Cauchy-Schwarz at once. The circulant H has positive Fourier symbol (kernel sums of cosines with weights > 0), the regular stars are its compressions to mirrored arrays, inverses, tensor products and direct sums of Gram forms are Gram forms; definiteness by invertibility (C44). The Chebyshev refutation computes the star of the 3 point grid: 2/3 against 2 - sqrt 2. |
| C93 | `Props/Poisson2.v`: `lap` is the relation f.D.H.D.H through the tables of `product`. Green by summation by parts along rows and columns (C06) and the array forms of D and H; definiteness by C92 and the kernel of D (C90); solvability by `Proofs/InjSurj.v` (an injective linear map R^n -> R^n is onto, by elimination) applied to the Laplacian, or to f -> (sum f) 1 + H Lap f when both axes are free. Chebyshev factors are excluded from definiteness and solvability because their star is not symmetric (C92). |
| C94 | `Props/HodgeDec.v`: exact, coexact, harmonic and orthogonal are relations through the tables of `product`. `Proofs/Ops2.v` gives the table entries as linear functions of the flat arrays and Stokes' theorem between a 0-form and a dual 1-form, from which orthogonality follows for every grid kind. Existence: solve two Poisson problems (C93), one for primal and one for dual 0-forms; uniqueness by definiteness (C92); harmonic forms by the period theorems of C90. |
| C95 | `Model/Records.v` models Python dictionaries as association lists with in-place replacement, str.split and namedtuple's validity checks on ASCII strings, and the dispatch decorator with its table; `Props/Records.v` proves the statements by induction over the history of stores and over the characters of the field string. `Props/Helpers2.v` has the array helpers. Field names are ASCII; frames (inspect) are a dictionary of local variables. |
| C96 | `Props/Laplace2.v`: the same model as C80/C81. `is_d` is the exterior derivative of the plane in terms of partial derivatives, `dplus` is the program's derivative with the boundary array. One step is C45's Stokes theorem plus closure of the resolved classes under differentiation; the Laplacians chain four steps; mixed derivatives agree by induction over the sum of products. The scripts under doc/plot call a `laplacian2` that does not exist in the repository: the theorems are about the operators it would compose. |
| C97 | `Model/Deprecated.v`, `Proofs/DeprecatedP.v`, `DeprecatedQ.v`, `Props/Deprecated.v`: both formulas of each star are shown to integrate the same interpolant times the sine over the same cells; multiplication with a sine on a grid with two more points is exact because the product is again determined by its samples; rolls of the coefficients are multiplications with exp(i x) by aliasing; the kernel of H_sin is explicit in Fourier space and its image telescopes. |
| C98 | `Props/Processes.v`: a transition system of processes over the file system of `Model/Data.v` (import, call, open, write a chunk at the own offset, close, die), with the calls and the start of the model of `memoize`; an undisturbed open-and-close is shown to be the model's commit; safety by an invariant (every dictionary in memory is right; the file is a prefix of its only writer's text, or right, or unreadable); the lost update and the wrong answer after overlapping writes are proved as refutations by concrete schedules. Offsets are counted in tokens. |
| C99 | `Model/Samples.v` (the module's V and p as expressions, the four expressions of plot, lambdify2), `Spec/Euler.v` (the flow equations by Coquelicot derivatives; the documented examples): `Props/Samples.v`; the general statement by C57 (diff is the derivative) and uniqueness of derivatives, the samples by trigonometric identities. sympy's simplify and the drawing calls are not modelled. |
| C100 | `Props/Spectrum.v`: the Laplacian of the discretisation of a trigonometric polynomial of degree at most n/2 is the discretisation of its second derivative (Stokes and exactness of the Hodge stars; for even n the sine, resp. cosine, of the top mode vanishes at all points and is removed first); every array is such a discretisation (the interpolant); a combination of modes that vanishes at all points has only invisible modes (induction on the degree, applying the operator). |
| C101 | `Props/Spectrum2.v`: 2D Hodge star of the sum of the two 1D Laplacians equals D.H.D (1D operators along different axes commute, the Hodge stars of one axis cancel); spectrum: expand every row in the periodic modes (C100), whose independence turns the 2D eigenvalue equation into one for the column of each mode. |
| C102 | `Spec/Series.v`, `Proofs/SeriesP.v`, `Props/Convergence.v`: at the points, and up to a factor of modulus at most 1 on the cells, a mode of any frequency coincides with a mode of frequency at most n/2 (aliasing), on which the operators are exact; linear functionals of arrays act on the series term by term (finite sums; integrals and derivatives by uniform convergence), and only the unresolved terms contribute to the error, each at most twice its amplitude. |
| C103 | `Spec/Series.v`, `Props/Convergence1.v`: as C102; at the vertices (angles) a function of the series coincides up to sign with a resolved one (or vanishes, the top mode at dual vertices), on which the Hodge star and reconstruction are exact (C71, C72). The Hodge star of 1-forms is not covered: its edge integrals do not alias to those of one resolved function. |
| C104 | `Props/Convergence2.v`: error estimate for bilinear functionals of two series (row by row, then over the rows); the wedge product of two modes is that of their aliases, which for odd n are resolved and on which it is exact (C35, C73); the contraction in the same way. Even n is not covered: there the top mode n/2 is an alias that the product does not treat exactly. |
| C105 | `Props/Convergence3.v`: the total of the Hodge star is a linear functional; on a mode it is a positive factor (at most the cell length) times the sum of the values at the points, which vanishes unless n divides the frequency; error estimate of C102 for functionals. Attained by cos(n x). On regular and Chebyshev grids: the componentwise bound of C103 summed over the tiling; the total of a wedge product likewise from C104. |

Properties the code violates are proved in the negative (`..._refuted`), with a witness; the text of the
property says what the code does.

## What is modelled, file by file

| file in /repo/dec | modelled in | left out |
|---|---|---|
| spectral.py | Model/Spectral.v (Fourier part), Model/Basis.v (basis functions), Model/Quad.v (quadrature helpers), Model/Integrate.v (Lagrange polynomials) | doctest-only plotting helpers |
| periodic.py, regular.py, chebyshev.py | Model/Grids1.v (cells, derivatives, bases, boundary condition), Model/Spectral.v, Model/Regular.v, Model/Chebyshev.v (Hodge stars, refinements), Model/Explicit.v (explicit wedge products, switch, Toeplitz matrices) | `differentiation_toeplitz` (always raises) |
| common.py | Model/Common.v (refine tables, wedge, contraction, interweave on one axis), Model/Grids1.v (projections) | |
| grid1.py | Model/Grids1.v (points, D/P/H tables), Model/Decform.v | `__repr__`, `_draw` |
| decform.py | Model/Decform.v (heap of grids, every operator and dunder method) | repr, plotting |
| grid2.py | Model/Project2.v (numerical projections and boundary terms), Model/Grid2.v (shapes, cells, derivatives, Hodge, bases, projection, refine, wedge, contraction, BC) | plotting |
| forms.py | Model/Forms.v | |
| helper.py | Model/Helper.v, Model/Common.v, Model/Records.v (named tuples, `bunch`, dispatch tables) | the parsing of signatures by `inspect` |
| schur.py | Model/Helper.v (Section Schur; the section variable `inv` is discharged into an argument) | |
| integrate.py | Model/Integrate.v | error estimates of quad |
| symbolic.py, symform.py | Model/Sym.v, Model/Discretise.v | symbolic `__eq__` (sympy simplification), pretty printing |
| data.py | Model/Data.v (file system map with crash points, JSON values, memo cache), Model/Processes.v (several processes, writes in chunks) | file permissions |

Simplifications are stated in the comment of each definition. The main ones: exact reals for floats;
`assert approx(..)` guards are modelled with their rounding where they decide an outcome; `closed`-form
search of sympy is a parameter; in `Grid_2D.P` the names `x0, y0, x1, y1` of the integration bounds are
distinct from the coordinate symbols.

## Deviations found (properties the code does not have)

Each is proved as `..._refuted` or stated in the property: C05 (n = 1), C11 (even N), C19 (extent ignored), C21 (`unextend(.,0)`),
C33 (integer dtype), C39 (`.I`), C40 (`==` not symmetric), C43 (`.D` of 2-forms), C47 (regular grids have no
refinement), C56 (`__rmul__`), C59 (triangle), C61 (multi-row interweave), C63 (m = 0), C65 (crash while
writing), C66 (failed store), C69 (one node), C76 (constants), C85 (even N, `alpha0_alt`), C86 (`matA` of odd length), C87 (even N), C88 (`BC1` with a periodic axis), C77 (coordinate order), C26/C32 (spurious
"Singular operator" from n = 928 on).

## Not modelled

Plotting (`plot.py`, `_draw`, ...), `rand`, documentation scripts under `doc/`, `deprecated/symbolic.py` (a Mathematica session),
`__repr__`, floating point rounding, performance.
