{
"C01": [
"proved",
""
],
"C02": [
"proved",
""
],
"C03": [
"proved",
"Counts are natural numbers in the model; the code's assert rejects every non-positive count."
],
"C04": [
"proved",
"The rows are distinct when the values are distinct and non-zero; with a zero value they repeat (refuted variant)."
],
"C05": [
"proved",
""
],
"C06": [
"proved",
""
],
"C07": [
"proved",
"For the three expand_symmetries functions; entries must supply one weight per parameter column."
],
"C08": [
"proved",
""
],
"C09": [
"proved",
""
],
"C10": [
"proved",
""
],
"C14": [
"proved",
""
],
"C15": [
"proved",
""
],
"C16": [
"proved",
""
],
"C17": [
"proved",
"Refuted for cools_haegemans_2 with delta2 <> 1 and stroud_1968(1); stroud_1966_d raises for n <= 2 (theorems with suffix _refuted)."
],
"C18": [
"proved",
"dobrodeev_1970 raises for n = 3, 4 although its assertion admits them."
],
"C19": [
"proved",
"Degree 9 needs one relation between the moments beyond full symmetry; the theorem shows it is necessary and sufficient."
],
"C20": [
"proved",
""
],
"C21": [
"proved",
"stroud_1966_2 has no value at n = 2 (a zero denominator), proved as the refuted variant; root finders are parameters with an explicit contract."
],
"C22": [
"proved",
"stroud_1969 takes its linear solver as a parameter with an explicit contract; walkington_5/7 exist only in dimensions 2, 3 / 3."
],
"C23": [
"proved",
""
],
"C24": [
"proved",
"n = 0 raises in both variants (refuted variant)."
],
"C32": [
"proved",
"midpoint and trapezoidal rules."
],
"C37": [
"proved",
"Exactness and linearity on every interval; the orientation-sensitive reading is refuted (reversed limits give the same sign)."
],
"C45": [
"proved",
"For a single interval, the only call the code completes; with several intervals it never returns (refuted variant)."
],
"C46": [
"proved",
""
],
"C47": [
"partial",
"The subinterval limit counts accepted subintervals only, so the unconditional bound is refuted; the bound is proved for accepted subintervals."
],
"C49": [
"proved",
""
],
"C50": [
"partial",
"Whole-line calls are proved without extra args; with args the negative half drops them (refuted), and reversed infinite limits are rejected by an assertion (refuted)."
],
"C48": [
"proved",
"Triangles in any ambient dimension; the two schemes are arbitrary functions of the triangle."
],
"C39": [
"proved",
"TnScheme.integrate modelled with the Cayley-Menger volume and the barycentric map; exact over every simplex of n-space for every scheme exact on the unit simplex. simplex_integral is the reference integral under the affine map times |det|, i.e. the change of variables formula is the specification of the integral over a general simplex."
],
"C40": [
"proved",
"get_vol equals |det of edges|/n! for every simplex in n-space (Cayley-Menger determinant proved in general), and the Gram formula for triangles in any space."
],
"C13": [
"proved",
"n_outer entry by entry in row-major order; c2.product and c3.product exact for all exponents up to the 1D degree. A list argument raises at scheme1d.name (not modelled further)."
],
"C41": [
"proved",
"Exact over every box for every scheme exact on the reference cube; corners to corners and rows of the Jacobian = partial derivatives for arbitrary corner arrays. For an array of several cubes the result is twice the integral (C41_vectorised_refuted)."
],
"C42": [
"proved",
"Determinant = Jacobian determinant of the placing map for every pyramid and wedge, and corners to corners."
],
"C44": [
"partial",
"Cube and simplex proved; for balls the claim is false of the code (C44_ball_refuted): the squares are added along the wrong axis."
],
"C11": [
"proved",
""
],
"C12": [
"proved",
"comb: the factorial fallback branch; prod: the reduce over multiplication. C12_gamma_integral relates gamma_n_2 to the integral of Gamma."
],
"C25": [
"proved",
"All un schemes; stroud_1969 relative to the contract of np.linalg.solve."
],
"C26": [
"proved",
""
],
"C27": [
"proved",
""
],
"C28": [
"proved",
"Ranges of n are those for which the code's square roots are real; stroud_enr2_5_5b raises from n = 3 on, cools_haegemans_2 raises for delta2 = 1/2."
],
"C54": [
"partial",
"Proved for the ball and the Gaussian weight and for degrees 3, 5, 7 with exp(-|x|); for mcnamee_stenger_9a/9b with exp(-|x|) the claim is false of the code in every dimension (C54_enr_mcnamee_stenger_9_refuted)."
],
"C55": [
"proved",
"The configuration table of the code covers exactly n = 2..20."
],
"C29": [
"proved",
"Every point count n: closed n>=1, open n>=1; closed(0) raises, open(0) is the empty rule."
],
"C30": [
"proved",
"Exact for the interpolation degree (n-1, or n for odd n); C30_declared_degree_refuted: the declared degree n is false for every even n."
],
"C31": [
"proved",
"Exactness against the weight, as integrals over the angle and over (-1,1); chebyshev_gauss_1(0) raises."
],
"C35": [
"partial",
"Gauss, Gauss-Lobatto, Newton-Cotes, odd Fejer / Clenshaw-Curtis and Chebyshev-Gauss rules do not over-claim; even Fejer / Clenshaw-Curtis (C30), Gauss-Radau, Gauss-Kronrod (n = 1..12) and Gauss-Patterson (by its rounded points only) do (refuted)."
],
"C36": [
"proved",
"krylov(0) raises."
],
"C43": [
"proved",
"Polynomials on every centre and non-negative radius; any integrand as volume times reference rule; arrays entrywise."
],
"C33": [
"proved",
"scheme_from_rc with numpy and mpmath modes (eigenvalue routine is a parameter with its contract as hypothesis, shown satisfiable); every recurrence and functional, and the Jacobi, Legendre, Laguerre and Hermite constructors against improper Riemann integrals. The coefficients orthopy returns are modelled by their documented values."
],
"C34": [
"proved",
"for every recurrence with non-vanishing polynomials at the ends, and for all Jacobi weights with a, b > -1"
],
"C56": [
"partial",
"Proved on the open parameter ranges; at the end points that the assertions admit (franke_1 with lmbda=-9/5 or 9/4, waldron with r^2=1/3) the constructor divides by zero (C56_end_points_refuted). hammer_wymore: for every parameter for which all divisions and square roots are defined."
],
"C58": [
"proved",
"All closed-form c2 schemes; the schemes given by decimal literals or data files are not modelled."
],
"C59": [
"proved",
"All closed-form c3 schemes; the schemes given by decimal literals or data files are not modelled."
],
"C57": [
"proved",
"numpy's leggauss enters as an argument with its documented contract (LegSpec.v), which is shown satisfiable."
],
"C60": [
"proved",
"All closed-form s2 schemes; for albrecht_5..8 under the contract of np.roots and np.linalg.solve. The schemes given as decimal literals or data files are not closed forms."
],
"C61": [
"proved",
"All closed-form s3 schemes with fixed data; both variants of hammer_stroud_14_3 and 15_3. Degree-parametrised or decimal schemes are outside the claim."
],
"C62": [
"proved",
"All closed-form t2 schemes (decimal and JSON tables are outside the claim) and lether(n) for every n >= 1 relative to the eigenvalue solver contract."
],
"C63": [
"proved",
"All closed-form t3 schemes, liu_vinokur_12 with its trigonometric cubic included; decimal and JSON tables are outside the claim."
],
"C64": [
"proved",
"All closed-form u3 schemes; mclaren_03 and _04 relative to the contract of mp.polyroots, stroud_u3_11_2 (= un.stroud_1969(3)) relative to the contract of np.linalg.solve. Decimal and JSON tables (mclaren_10, Lebedev, ...) are outside the claim."
],
"C67": [
"proved",
"Over the reals, where there is a single zero (numpy's signed zeros at the poles only choose between names of the same point)."
],
"C65": [
"proved",
"All closed-form schemes of the four modules; decimal and JSON tables are outside the claim."
],
"C51": [
"partial",
"For every domain: the declared degree for every degree in the table and None above the bound, under the hypothesis that the JSON data files (not in the source tree) declare the degrees the table expects; exactness against the true integral for every table entry served by a closed-form scheme. The full statement is refuted: negative degrees raise KeyError everywhere, c2.get_good_scheme(22) raises, u2.get_good_scheme(n) declares n-1, s3 returns None for 8..14 although its table has an entry."
],
"C68": [
"proved",
"All six loaders."
],
"C38": [
"proved",
"With the shapes given or recoverable, every component is the scheme's value; without shapes a vector field on one segment is ambiguous and misread (C38_ambiguous_refuted)."
],
"C52": [
"proved",
"For the triangle and starting points that determine the weights; if they do not, a worse scheme can be written (C52_rank_deficient_refuted); files of other domains always fail (C52_other_domains_refuted). Solver and minimizer enter by contract; least_squares_exists and try_point_reports show the contracts can be met."
],
"C53": [
"partial",
"The warning is issued exactly above the tolerance in the classes that set the domain first; the classes E3r2, P3, S3, U2 and Un raise AttributeError instead (C53_warning_refuted)."
],
"C66": [
"proved",
"p3.felippa_9 and w3.felippa_4, 5, 6 are given by decimals and not covered."
],
"C69": [
"proved",
"For every weight and every n for which the constructor returns; for the plain weight and n = 1..12 (the code's adaptive integration uses n = 10) it is also proved that it returns and that all points lie inside (-1, 1). gauss_kronrod(0) raises. The declared degree is too high, see C35."
],
"C70": [
"proved",
"For every leggauss that meets its contract. The documented property of the private _get_weights fails for every even number of points (C70_weights_even_refuted); the library only calls it with odd numbers."
],
"C71": [
"proved",
"All inline decimal schemes of these domains, checked by verified ball arithmetic inside the kernel; four schemes need twice their tolerance and the bound by the tolerance itself is refuted for them (C71_tolerance_refuted)."
],
"C72": [
"proved",
"sytrd by its contract (RcSpec.v), whose existence is proved for these matrices"
],
"C73": [
"proved",
"eigh_tridiagonal, Matrix.eigenvects, tridiag_eigen by their contracts; that arguments are left alone is refuted for sympy mode"
],
"C74": [
"proved",
"literals stand for exact decimals; error bound relative to the polynomial with absolute coefficients"
],
"C75": [
"proved",
"exactness for all n, all delta, both roots (polarisation: power sums of linear forms over the simplex vertices); existence and failure of the default delta settled for every n"
],
"C76": [
"proved",
"The factor 1 is refuted for the constant 1 in five cases (C76_within_own_tolerance_refuted). Decimal literals stand for exact decimal numbers."
],
"C77": [
"proved",
"C77_tolerance_refuted: e3r2.stroud_e3r2_14_1 misses its own test_tolerance on x^14 by more than a factor 20, so its bound is stated with the factor 40. Gauss-Legendre points enter by contract."
],
"C78": [
"proved",
"Closed forms as exact reals; the constructors of the same files that read JSON tables are not included."
],
"C79": [
"proved",
"The repaired constructors are in RepairModel.v; each comment says which token of the code is changed."
],
"C80": [
"proved",
"The numerical routines (eigh_tridiagonal, solve_banded, numpy's leggauss) are arguments whose contract is a hypothesis; the integral of f with a Jacobi or Chebyshev weight is assumed to exist."
],
"C81": [
"partial",
"termination proved for an absolute tolerance alone; refuted when a relative tolerance is given too: an interval accepted under a transiently large estimate of the total uses up all later allowances (finding)"
],
"C82": [
"proved",
"the claims that the points stay inside and that very short intervals are integrated accurately are refuted (findings)"
],
"C83": [
"proved",
"The volume functions of the package ndim and the determinant of get_vol are external: their accuracy is the hypothesis near k. The C function pow is assumed accurate to two roundings. Overflow is not modelled."
],
"C84": [
"proved",
"One-call error bounds and convergence theorems for boxes, simplices, balls and spheres of any dimension, and all families of unbounded degree with non-negative weights."
],
"C85": [
"proved",
"for any history of calls (last one wins, unique keys, no name lost, order irrelevant when names are distinct) and for the twelve domains with the calls read from /repo; the 116 identifiers that are passed to register but are not keys are listed in C85_alias_refuted"
],
"C86": [
"proved",
"Each way of passing arrays of domains is either proved to be componentwise or, in the _refuted theorems, shown to give other values or to raise. Not covered: axes of length 1 stretched by broadcasting in the refuted cases."
],
"C87": [
"proved",
""
],
"C88": [
"partial",
"Proved for triangles, disks, the plane with weight exp(-r), circles, parallelograms, the sphere, balls with vtk, hexahedra and wedges with mpl; the full claim is false of the code and refuted for intervals, general quadrilaterals, exp(-r^2), pyramids and the combinations of domain and backend that raise. Rendering by matplotlib and vtk is not modelled."
],
"C89": [
"partial",
"Proved for all schemes with at least one point, for cubes and simplices as far as positions go; false of the code, and refuted, for the positions of SnScheme, for authors given as one string and for schemes without points. The formats of floating-point numbers are functions passed to the model."
],
"C90": [
"proved",
"The evaluator of orthopy is an argument whose contract (ResSpec.spherical_harmonics) is a hypothesis; an evaluator that meets it is exhibited (C90_contract)."
],
"C91": [
"proved",
"one call of integrate for each part; MeshSpec.v defines the meshes without reference to the model"
],
"C92": [
"proved",
"partial derivatives are given by OrderSpec.v as derivatives along segments of the domain"
],
"C93": [
"proved",
"exact arithmetic; the eigenvalue routine is an argument with its contract as hypothesis; the integrand acts entry by entry"
],
"C94": [
"proved",
"exact arithmetic; the eigenvalue routine is an argument with its contract as hypothesis; uniqueness is as sets of (weight, point) pairs, the order of the points is C33"
],
"C95": [
"proved",
"the four Gauss families; N in closed form for three of them; C95_attained shows that the bound cannot be improved"
]
}