# Formal model of nschloe/quadpy in Coq 8.16.1

Everything is in `rocq/theories/`. `properties.jsonl` lists the properties, `MANIFEST.json`
maps them to theorems, `seeded/LOG.jsonl` records the mutation experiments.

## 1. What is modelled, and how

* **Numbers.** Python ints are `nat`/`Z`; sympy rationals/`sqrt`, floats and mpmath numbers are the
  mathematical real numbers `R` of the standard library (`sqrt`, `cos`, `PI`, ...).  Rounding is
  modelled only for `integrate` on intervals, balls, spheres, whole spaces and simplices (`FloatModel.v`, `FloatRoundModel.v`, C82, C83, with
  Flocq's binary64 numbers); the other theorems are about the
  formulas the code evaluates, not about their last bits.
* **numpy arrays.** Point sets are lists of points (a point is a `list R`), weights lists of reals; a scheme is the
  list of (weight, point) pairs (`rule`), i.e. `zip(weights, points.T)`.  Where memory layout matters
  (`expand_symmetries`: reshape/tile; `meshgrid`; `np.repeat`), the layout itself is modelled.
* **Exceptions** are values: `option`/`result` with the Python exception as the error branch (assert -> `None`, ...).
* **Calls into external libraries** are either parameters of the model with the contract that is used
  (numpy `eigh_tridiagonal`, `np.linalg.solve`, `np.roots`, `scipy.optimize`, `ndim`, `orthopy`) or modelled by
  their mathematical definition (`np.fft.ihfft` = inverse DFT, sympy `integrate` of a polynomial).
* **Integrands** are arbitrary functions; loops with data dependent trip count (adaptive integration) are modelled
  as step relations/fuelled iteration, theorems quantify over all traces.

Each definition in a `*Model.v`/`M_*.v` file cites `/repo` file and lines in a comment and says where it simplifies.

## 2. Specifications

Specification files never mention the model.  The main ones:

* `Spec.v`: points, rules (`list (weight * point)`), the weighted sum `apply`, monomials `mono`, `tdeg`, exactness
  (`exact n d I q`: the points have n coordinates and for every exponent vector of total degree at most d the weighted sum of the
  monomial is its mean).
* `IntegralSpec.v`, `SphereSpec.v`, `PowerBallSpec.v`, `RoundSpec.v`, `PyraSpec.v`, `WeightSpec.v`: the integrals as iterated
  (improper) Riemann integrals of Coquelicot: cube, box, simplex, ball, sphere in polar coordinates, `exp(-|x|)`, `exp(-|x|^2)`,
  power weights, pyramid, wedge, one-dimensional weights.
* `CombSpec.v`, `OrbitSpec.v`, `MiscSpec.v`: arrangements, sign patterns, symmetry groups.
* `Spec1.v`, `GwSpec.v`, `LegSpec.v`: one-dimensional rules, contracts of the eigenvalue and banded solvers and of
  `numpy.polynomial.legendre.leggauss`.
* `RootSpec.v`: contracts of root finders and linear solvers; `RootSat.v` shows they can be met.
* `NearSpec.v`: exactness up to a tolerance.
* `RcSpec.v`: contracts of sytrd, sympy's eigenvects and mpmath's tridiag_eigen.
* `FloatSpec.v`: binary64 numbers, rounding to nearest, unit roundoff.
* `ConvSpec.v`: continuity on an interval, convergence of a family of calls, size of a rule.
* `DecSpec.v`: error of a rule on polynomials in terms of its stated tolerance.
* `FixSpec.v` (`delivers M nc d r`: the constructor returns a scheme which declares degree d and is exact to degree d for the mean
  M in nc coordinates), `GoodSpec.v`, `ShapeSpec.v`, `ConstructSpec.v`, `OptSpec.v`, `SphericalSpec.v`.

## 3. Plan per property

| id | model | method |
|----|-------|--------|
| C01 | `get_all_exponents` with its inner recursion `augment` | induction on dim; membership + NoDup + level counts |
| C02 | `combine` with `partitions` (fuel = sum of sizes, shown exactly sufficient) and `itertools.product` | induction; membership characterised by labelings; NoDup; length = multinomial |
| C03 | `rd` | from C02; error branch characterised exactly |
| C04 | `fsd`, `fs_array` | from C02; closure under permutation and sign change |
| C05 | `pm`, `pm_roll` | induction on the vector |
| C06 | `untangle` (concatenate / repeat) | induction over groups |
| C07 | `expand_symmetries` with the (dim, orbit, n) -> (dim, orbit*n) reshape and tile | index arithmetic on lists |
| C08-C10 | orbit generators | multiset equality (Permutation) under group generators; algebra for the constraints |
| C11 | `get_nsimplex_points`, `_nsimplex` | sums telescoping, induction |
| C12 | `comb`, `prod`, `gamma_n_2` | induction, factorial identities |
| C13 | `n_outer`, `product` (meshgrid and outer flattening orders) | permutation of index pairs; Fubini for sums |
| C14, C15 | monomial integrals | iterated RInt, Beta integral by induction |
| C16-C18 | cn schemes | moment formula for `combine` point sets valid for every n (lemma: average over all arrangements = closed form in the counts), then field identities in n; non symmetric ones by trigonometric sums |
| C19 | McNamee-Stenger builders, integrator abstract | same with abstract fully symmetric moments |
| C20-C22 | tn schemes | same moment lemma in barycentric coordinates |
| C23 | `grundmann_moeller` | coefficient argument for all n, s (type-B Eulerian polynomials, palindromic symmetry) |
| C24 | `silvester` | binomial basis argument, all dim, n |
| C25-C28 | un, sn, enr, enr2 schemes | moment lemma |
| C29 | Newton-Cotes | Lagrange basis via vanishing polynomials, symmetry for the extra degree |
| C30 | Clenshaw-Curtis, Fejer | discrete cosine orthogonality; over-claims refuted |
| C31 | Chebyshev-Gauss | discrete orthogonality of cosines; functional given by its Chebyshev moments |
| C32, C37 | `C1Scheme.integrate` | RInt change of variables |
| C33 | `scheme_from_rc` with the eigen-decomposition as contract | spectral argument over finite sums |
| C34 | Radau/Lobatto modified coefficients | recurrence evaluated at the endpoint |
| C35 | declared degrees | over-claims refuted by explicit polynomials; general bound 2n-1 |
| C36 | `krylov` | roots of unity sums |
| C38 | `_find_shapes` | list reasoning over shapes |
| C39-C41 | simplex/cube transforms, volumes | substitution lemma for polynomials; mathcomp determinants for Cayley-Menger |
| C42 | pyramid/wedge | derivative of polynomials |
| C43, C44 | ball/sphere integrate, points_inside | algebra; the `einsum` axis bug refuted |
| C45-C48 | adaptive loops | invariants over all iterations |
| C49 | error estimate | real inequalities |
| C50 | `quad` | variable substitution |
| C51 | `get_good_scheme` tables | for all integers; failures refuted |
| C52 | `_optimize`, CLI | optimizer as arbitrary oracle |
| C53 | `QuadratureScheme.__init__` and subclasses | state model of attribute initialisation |
| C54 | McNamee-Stenger builders with the moments of ball, `exp(-r)`, `exp(-r^2)` | C19 plus the moment relations; the degree 9 variants with `exp(-r)` are refuted |
| C55 | `dobrodeev_1978` on sphere and ball with its configuration table | moment lemma; the table checked entry by entry with symbolic square roots |
| C56 | `franke_1`, `waldron`, `hammer_wymore`, ... with real parameters | field identities for every parameter; end points refuted |
| C57 | s2 product families (`lether`, `peirce_1957`, ...) | trigonometric sums times Gauss-Legendre contract, all orders |
| C58-C65 | closed-form schemes of c2, c3, s2, s3, t2, t3, u3, e2r, e2r2, e3r, e3r2 | reflective checker over towers of square roots (`Tower.v`, `TowerSym.v`), its soundness proved once; moments of the domain proved separately (`TowerMoments.v`) |
| C66 | p3 and w3 `felippa_*` | iterated integrals over pyramid and wedge, same checker |
| C67 | `cartesian_to_spherical`, `integrate_spherical` | trigonometry (atan2 by cases) |
| C68 | the JSON readers `_read`, `_scheme_from_dict` | list reasoning on the expansion |
| C69 | `gauss_kronrod`, `_r_kronrod` (Laurie's algorithm) | invariant of the two loops: the array holds a table of mixed moments that satisfies its recurrence; hence p_n divides the node polynomial, and a Wronskian gives the interlacing; concrete n by running the same function on rationals |
| C70 | `gauss_patterson`, `_get_points`, `_get_weights` with all tables | Lagrange interpolation for arbitrary points; the tables in verified fixed-point arithmetic, a bound on the Lagrange polynomials carries approximate weights over to the exact interpolatory ones |
| C71 | the schemes of `t2`, `t3`, `c2`, `c3`, `s2`, `w3` written as decimal literals, with their `test_tolerance` (`DecModel.v`, written by `tools/gen_dec.py`) | ball arithmetic with 64 fractional bits, proved sound; square roots and pi enclosed; all monomials up to the degree at once, then linearity |
| C72 | `tools/main.py:coefficients_from_gauss`, LAPACK's sytrd by its contract (`RcModel.v`, `RcSpec.v`) | orthonormal eigenvectors of the reversed tridiagonal matrix are the orthogonal polynomials; Stieltjes procedure for existence; uniqueness of recurrences and of Gauss rules |
| C73 | the three modes of `tools/main.py:scheme_from_rc` with their eigenvalue routines by contract | eigenvalues are the simple zeros of p_n, eigenvectors are determined up to scale |
| C74 | `e1r2.genz_keister` with its decimal literals (`GkModel.v`, generated by `tools/gen_gk.py`) | interval arithmetic with 200 fractional bits on all even moments, odd ones by symmetry; linearity from moments to polynomials |
| C75 | `sn.stoyanova` with its point lists, coefficients and asserted lengths (`StoyModel.v`) | polarisation (`LinForm.v`): a rule is exact iff it is on powers of linear forms; power sums over the vertices of a regular simplex, their pairs and triples; signs of explicit polynomials in n for the default delta |
| C76 | `sn.stenger_*`, `enr2.stenger_*`, `sn.stroud_1967_5_a/b`, `enr2.stroud_1967_5_a/b` with their dictionaries of decimal data per dimension and their `test_tolerance` (`StengerModel.v`, written by `tools/gen_stenger.py`) | moments of `combine` sets without listing the points (`FsNear.v`), in exact integers or in interval arithmetic with 80 fractional bits (`FsInterval.v`), pi and ball volumes enclosed; one check per orbit of exponents under permutation, odd exponents by symmetry; then linearity. `enr2.stroud_1967_5_a(6)` exactly |
| C77 | `c3.sarma_stroud`, `s2.mysovskih_3`, `p3.felippa_9`, `t2.stroud_t2_7_1`, `t3.stroud_t3_7_1`, `u3.mclaren_10`, `s3.stroud_14_1`, `e3r2.stroud_e3r2_14_1` (`RestModel.v`) | ball arithmetic as in C71; product rules: one-dimensional moments against Beta integrals or radial moments, times the inner rule; the tetrahedral symmetry of McLaren's rule reduces it to 18 points |
| C78 | the closed-form schemes in the files that otherwise read JSON tables, `c2.cohen_gismalla_2` (`ClosedModel.v`) | exact arithmetic in square root towers; pairs of opposite points for cohen_gismalla_2 |
| C79 | the schemes marked as broken as they stand, and with one token corrected (`RepairModel.v`) | an explicit monomial for the shortfall; towers and ball arithmetic for the repaired rules; for `walkington_2` the second moments as a function of its parameter, for all d |
| C80 | `integrate` on one interval and summed over a tiling; the families of rules in n, `gauss_legendre` in both modes (`ConvModel.v`) | Bernstein's proof of Weierstrass' theorem, Lebesgue's lemma, uniform continuity, Taylor-Lagrange; positivity of Gauss weights by squares of polynomials, of Clenshaw-Curtis and Fejer weights by their cosine sums |
| C81 | the loop of `integrate_adaptive` (`AdaptModel.v`) on continuous integrands, with the rules of C69 | uniform continuity makes every error estimate small against the remaining allowance after finitely many halvings; for the converse an explicit function (a kink and a spike) and an invariant: both allowances stay negative |
| C82 | `C1Scheme.integrate` operation by operation in binary64 arithmetic; `np.dot` as a relation that allows every order and fused operations (`FloatModel.v`) | standard model of rounding derived from Flocq's definitions; induction over the evaluations of `np.dot`; composition of relative errors; two computed witnesses for the findings |
| C83 | `integrate` of the round domains, whole spaces and simplices in binary64 arithmetic (`FloatRoundModel.v`); `pow`, `ndim` volumes and `get_vol` by their accuracy | relative errors of the volumes composed; the dot product bound of C82; error of the mapped points; combined with C43 for polynomials |
| C84 | `integrate` of cubes, simplices, balls, spheres as in C39, C41, C43; `c2_product`, `c3_product`, `s2_lether`, `s2_peirce_1957`, `t2_lether`, `krylov` | Weierstrass' theorem in n variables (Bernstein polynomials, induction on n, Heine's theorem); iterated integrals are monotone and continuous; retractions onto ball, sphere and simplex; substitution x = u y + v for continuous integrands; non-negative weights give sum |w_i| = 1 |
| C85 | `register` of the twelve domains as assignments to a dictionary (`RegModel.v`); the calls of `register` with every identifier resolved to the def statement it is bound to, read from `/repo` by `tools/gen_registry.py` (`RegTables.v`) | for any list of calls by induction; a lookup gives the last function of that name. For the twelve domains one computation shows that names determine functions, from which order independence follows. `C85_alias_refuted` lists the identifiers that are not keys |
| C86 | `transpose`, `np.swapaxes`, `np.multiply.outer`, broadcasting, `np.dot` on shapes and multi-indices, and with them `integrate` of every domain on arrays (`NdModel.v`); `NdSpec.v`: integrands that work point by point | index computations by induction over the shapes; the entries are those of the `integrate` functions for one domain. `C86_two_axes_refuted`, `C86_two_axes_simplices_refuted`, `C86_one_radius_refuted`, `C86_sphere_arrays_refuted`, `C86_unchecked_refuted` state what happens otherwise |
| C87 | the constructors of schemes from symmetry data (`C2Model.v`, `S2Model.v`, ..., `U3Model.v`), `OrbitSpec.v` for the groups | C07 shows which points carry which weight, C08 to C10 that each orbit is mapped onto itself; lifted to dictionaries with any number of keys |
| C88 | `plot`, `show` of every domain and `helpers/plot.py`, up to the marks handed to matplotlib or vtk (`PlotModel.v`, with the axes of the arrays of points); `PlotSpec.v`: a mark for each point with its share of the measure | the radii solve measure(r) = share; refuted where the code uses another total, another place or the wrong axis |
| C89 | `QuadratureScheme.__str__` as a string (`StrModel.v`), with the formats of floats as arguments; `StrSpec.v`: the lines of a text, the entry after a label, decimal numbers, the largest ratio | each appended piece adds its lines; labels are told apart by computation |
| C90 | `U3Scheme.compute_residuals` (`ResModel.v`), orthopy's evaluator as an argument with the contract `spherical_harmonics` (`ResSpec.v`) | the sphere integral and the rule are linear on polynomials; both directions through the span of the harmonics |
| C91 | `CnScheme.integrate` and `TnScheme.integrate` called for each part (`CubeModel.v`, `GeomModel.v`); `MeshSpec.v`: what can be obtained by cutting | the integral is additive under a cut (polynomials first, continuous functions by the Weierstrass theorem of C84); C84's error bound for each part; uniform continuity; bisection of long edges for the existence of fine meshes |
| C92 | the integrate() functions of C84 and C91; `OrderSpec.v`: partial derivatives along segments | Taylor's theorem in n variables with words of directions in place of multi-indices (`OrderProofs.v`), put into the error bounds of C84 and C91 |
| C93 | `e1_integrate` (`LineModel.v`): integrate() of E1rScheme and E1r2Scheme; constructors of C33 | Taylor polynomial at 0, integrated exactly by the rule; the rest is dominated by M x^k / k!, which also gives existence of the integral (Cauchy criterion for improper integrals); points positive by testing against x prod (x - x_i)^2; limits by cv_speed_pow_fact and the ratio test |
| C94 | the constructors of C33; `GaussShapeSpec.v`: the four notions | any n-point rule of degree 2n-1 for a positive functional (`GaussShapeProofs.v`): test polynomials prod (x - x_i)^2, linear factor times such a square, and products of the nodal polynomials of two rules; symmetry from uniqueness; rules with end points in `GaussEndProofs.v` |
| C95 | the constructors of C33; `GaussErrSpec.v`: the square of the nodal polynomial | interpolation of f and f' at the points (`double_interp`), its error by Rolle's theorem applied 2n times on the open domain (`double_error`), dominated improper integrals (`GaussErrProofs.v`); N from the recurrence, mu_0 beta_1 ... beta_n (`GaussNormProofs.v`) |

Reading a status: *proved* means that what the English statement says of the code is proved; where the code itself violates an
instance, the exact boundary is stated, and the violation is proved as a theorem with the suffix `_refuted`.  *partial* means that
some instance named in the statement is missing or false of the code; the note in `MANIFEST.json` says which.

## 4. Trusted base

* Coq 8.16.1's kernel (with its bytecode VM, used by `vm_compute` in the reflective checkers), the parser and `coqc`.
* The axioms listed by `Print Assumptions` (section 7).  All of them come from the standard library:
  `ClassicalDedekindReals.sig_forall_dec`, `ClassicalDedekindReals.sig_not_dec` (the real numbers),
  `FunctionalExtensionality.functional_extensionality_dep` (real numbers, Coquelicot), `Classical_Prop.classic`, and, in a few theorems
  only, `ClassicalEpsilon.constructive_indefinite_description` (to exhibit solvers that meet their contracts).  No axiom is added.  Tools that list the
  constants of sealed modules (mathcomp's and the standard library's opaque module signatures) may show further names; they are
  definitions, not axioms.
* That the definitions in the `*Model.v` files say what the cited Python lines do, over exact real numbers.
* That the specification files say what the English property says.
* The contracts of external routines, which are hypotheses of the theorems that use them: numpy/scipy eigenvalue, banded, linear,
  least squares and root solvers, `leggauss`, scipy's `minimize`, the recurrence coefficients of `orthopy`, the moments and volumes of
  `ndim` (modelled as the true integrals).  For each contract there is a lemma that some function meets it.

## 5. What is modelled and what is not

Modelled (file of the model -> part of `/repo/quadpy`):

| model | code |
|-------|------|
| `CombModel.v`, `SymmModel.v`, `MiscModel.v` | `helpers/misc.py`, `helpers/combinatorics.py`, `helpers/symmetries.py`: exponents, combine, rd, fsd, pm, untangle, expand_symmetries, comb, n_outer, regular simplices |
| `OrbitModel.v` | orbit generators of `helpers/symmetries.py`, `t3/_helpers.py`, `u3/_helpers.py` |
| `CnModel.v`, `MsModel.v`, `TnModel.v`, `TnModel2.v`, `UnModel.v`, `UnModel2.v`, `SnModel.v`, `StoyModel.v`, `EnrModel.v` | all schemes of `cn`, `tn`, `un`, `sn`, `enr`, `enr2`, except the decimal tables listed below |
| `C1Model.v`, `GwModel.v`, `KronrodModel.v`, `PattersonModel.v` | `c1` (Newton-Cotes, Clenshaw-Curtis, Fejer, Chebyshev-Gauss, midpoint, trapezoidal, Gauss-Legendre/-Jacobi/-Lobatto/-Radau/-Kronrod/-Patterson), `e1r`, `e1r2` (Gauss-Laguerre/-Hermite, Genz-Keister in `GkModel.v`), `tools/main.py:scheme_from_rc`, `u2` |
| `C2Model.v`, `C3Model.v`, `S2Model.v`, `S3Model.v`, `T2Model.v`, `T3Model.v`, `U3Model.v`, `E23Model.v`, `FelippaModel.v` | closed-form schemes of `c2`, `c3`, `s2`, `s3`, `t2`, `t3`, `u3`, `e2r`, `e2r2`, `e3r`, `e3r2`, `p3`, `w3` |
| `FloatModel.v` | `C1Scheme.integrate` in binary64 arithmetic without overflow |
| `FloatRoundModel.v` | `integrate` of `s2`, `s3`, `sn`, `u2`, `u3`, `un`, `e2r`, `e2r2`, `e3r`, `e3r2`, `tn` in binary64 arithmetic without overflow |
| `ConvModel.v` | `gauss_legendre` in its default mode, which calls numpy |
| `ClosedModel.v`, `RestModel.v` | closed-form schemes beside the data files of `c2`, `t2`, `t3`; schemes that mix closed forms with decimals |
| `RepairModel.v` | not in the code: five constructors marked as broken with one token corrected, for C79 |
| `RcModel.v` | `tools/main.py`: `coefficients_from_gauss`, `scheme_from_rc` with its modes |
| `StengerModel.v` | the decimal tables of `sn/_stenger.py`, `enr2/_stenger.py`, `sn/_stroud_1967_5.py`, `enr2/_stroud_1967_5.py`, as exact decimal numbers; `ndim.nball.volume` as the integral it computes |
| `DecModel.v` | schemes of `t2`, `t3`, `c2`, `c3`, `s2`, `w3` written as decimal literals (the literals as exact decimal numbers) |
| `CubeModel.v`, `GeomModel.v`, `PyraModel.v`, `RoundModel.v`, `SphericalModel.v`, `ShapeModel.v` | `integrate()` of every domain, volumes, Jacobians, `points_inside`, shape inference, spherical coordinates |
| `AdaptModel.v` | `c1/_adaptive.py`, `t2/_adaptive.py`, `_scipy_compat.py`, the error estimate of `c1/_gauss_kronrod.py` |
| `NdModel.v` | `integrate()` of every domain on arrays of domains and for integrands with array values, with the check of the shape of the value |
| `RegModel.v`, `RegTables.v` | `register` and `schemes` of the twelve domains that have them, and every call of `register` |
| `PlotModel.v` | `plot` and `show` of every domain and `helpers/plot.py`, up to the marks and wire frames handed to matplotlib or vtk |
| `StrModel.v` | `QuadratureScheme.__str__` |
| `ResModel.v` | `U3Scheme.compute_residuals` |
| `LineModel.v` | e1r/_helpers.py, e1r2/_helpers.py: integrate |
| `GoodModel.v`, `ConstructModel.v`, `OptModel.v` | `get_good_scheme`, data file readers, `QuadratureScheme.__init__` and subclasses, `_optimize.py`, `_cli.py` |

Not modelled: rounding errors outside the `integrate` functions of C82 and C83 (cubes, pyramids and wedges, whose Jacobian determinants are products of several matrices, and the construction of the schemes); the rendering of the marks of C88 by matplotlib and vtk and `savefig`; the formats of floating-point numbers in print(scheme); the contents of the bibliography records; the contents of the JSON tables
(git-LFS pointers in this checkout).

## 6. Findings

Places where the code does not do what it says, each a theorem named `..._refuted` (or a negative clause of the theorem named):

* `C1Scheme.integrate` ignores the orientation of the interval (C37); a vector field on one segment without shapes is misread (C38).
* `integrate_adaptive` with several intervals never returns; its subinterval limit counts only accepted intervals (C45, C47).
* `integrate_adaptive` with both tolerances (the default) can run forever on one interval and a continuous integrand: an interval is accepted for good under an estimate of the total that later proves too large (C81).
* `C1Scheme.integrate` returns 0 for every function if the interval is shorter than 2^-538, because the length is computed as sqrt(diff ** 2); on two neighbouring numbers it can call the function outside the interval (C82).  `S2Scheme.integrate` and `U3Scheme.integrate` return 0 for every function if the radius is at most 2^-539 (C83).
* `quad(-inf, inf, args)` drops `args` on the negative half; reversed infinite limits fail an assertion (C50).
* `CnScheme.integrate` for an array of cubes returns twice the integral (C41); `SnScheme.points_inside` adds along the wrong axis (C44).
* Declared degrees that are not reached: `clenshaw_curtis`, `fejer_1`, `fejer_2` with even n (C30), `gauss_radau` for n >= 2, `gauss_kronrod` for n = 1, ..., 12, `gauss_patterson` (only up to rounding; C35),
  `cn.cools_haegemans_2` with delta2 <> 1, `cn.stroud_1968(1)` (C17), `enr.mcnamee_stenger_9a/9b` for n >= 4 (C54).
* Constructors that raise inside their documented range: `cn.dobrodeev_1970(3)`, `(4)`, `cn.stroud_1966_d(1)`, `(2)`, `tn.stroud_1966_2(2)`, `silvester(dim, variant, 0)`,
  `enr2.stroud_enr2_5_5b` for n >= 3, `enr2.cools_haegemans_2` with delta2 = 1/2, `c2.franke_1` with lmbda = -9/5 or 9/4, `c2.waldron` with r^2 = 1/3 (C56),
  `s2.lether(0)` (C57), `sn.stoyanova(n)` with default arguments for n = 10, ..., 85 and with `variant_v_plus=False` for every n >= 85 (C75), several one-dimensional rules with 0 points.
* `get_good_scheme`: negative degrees raise KeyError, `c2` degree 22 raises, `u2` degree n declares n - 1, `s3` has None for 8..14 (C51).
* `_get_weights` of `_gauss_patterson.py` uses a Gauss rule with one point too few for an even number of points (not used by the library; C70).
* `t2.lyness_jespersen_13` and `w3.kubatko_yeager_maggi_5a`, `6a`, `8a` miss a monomial by more than their `test_tolerance` (by less than twice; C71).
* The weights of `sn.stenger_7a(6)`, `sn.stenger_7b(4)`, `sn.stenger_11b(5)`, `enr2.stenger_7a(4)` do not sum to 1 within their `test_tolerance`; those of `enr2.stenger_7a(6)` miss it by more than six times (C76).
* `e3r2.stroud_e3r2_14_1` misses its `test_tolerance` on x^14 by more than a factor 20 (C77).
* Typing errors behind schemes that declare degree 1, found by repairing them (C79): `c2.franke_8` has 0.939565... for 0.939655... (degree 9); line 75 of `c2/_stroud.py` overwrites r (degree 7);
  `e2r2.stroud_7_2` uses d4_a0 for d4_aa (degree 7); `c2.cohen_gismalla_2` divides by weights already divided by 4 and pairs r with r (degree 7 on symmetric integrands);
  `tn.walkington_2` needs (1 - 1/sqrt(d+2))/(d+1) for 1/sqrt(d+1) (degree 2).
* `scheme_from_rc(..., mode="sympy")` overwrites `beta[0]` of the caller's array with `int_1`; the other modes do not (C73).
* `register` keys by `__name__`: 116 identifiers passed to it are aliases, so that `quadpy.c2.schemes["stroud_c2_5_1"]` and others raise KeyError (C85).
* Arrays of disks, balls or simplices with two axes: centres (or volumes) are taken from the transposed array, without an error if both axes have the same length; one radius with as many centres as points of the scheme gives one number that mixes the centres;
  three radii for `u3` scale the three coordinates; `u2`, `un` and the whole spaces return an array for an integrand that returns a number (C86).
* The low precision warning raises AttributeError in E3r2, P3, S3, U2, Un schemes (C53).
* `quadpy-optimize` works for T2 files only; from a rank deficient start it can replace a scheme by a much worse one (C52).
* `C1Scheme.plot(interval)` draws the disks at the reference points, outside the interval; `C2Scheme.plot` sizes the disks by two overlapping triangles;
  `E2r2Scheme.plot` and `E3r2Scheme.show` use the total of the weight exp(-r); `P3Scheme.show` gives every pyramid the volume 1 (C88).
* `T3Scheme.show` always raises; `show(backend="vtk")` for hexahedra, wedges and pyramids raises unless the scheme has 3 points;
  `show(backend="mpl")` for balls and space raises for fewer than 3 points and otherwise draws three balls, whose centres mix coordinates of different points (C88).
* `print(scheme)`: the position of the points is wrong for `SnScheme`; the authors of `u2.krylov` appear as `V, ., I, ., ...` because the field is a string and not a list (C89).

Observed while reading, not formalised: `c2.product`/`c3.product` with a list raise AttributeError; `_scheme_from_dict` of c2/t2/s2 passes weights and points to a constructor that takes
symmetry data; `un.stroud_un_7_2` calls itself "Stroud Un 7-1"; the two variants of `e3r2.stroud_secrest_11` share one name; `t2/_vioreanu_rokhlin/__init__.py`
registers `vioreanu_rokhlin_10` twice (harmless: the registry is a dict, see C85).

## 7. Print Assumptions

`ASSUMPTIONS.md` lists the output of `Print Assumptions` for every theorem of the manifest (written by `tools/assumptions.py`).
