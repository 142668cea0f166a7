{"id": "C01", "title": "get_all_exponents enumerates every multi-index exactly once", "statement": "quadpy.helpers.get_all_exponents(dim, D) returns D+1 lists; list number d contains precisely the vectors of dim non-negative integers summing to d, and contains none of them twice.", "quantifier": "every dimension dim and every maximal degree D", "why_tests_cant": "The set of monomials grows without bound with dim and D; a test checks a handful of (dim, D) pairs, and this function is what all other exactness tests rely on to list the monomials.", "anchors": ["quadpy/helpers/combinatorics.py:get_all_exponents"]}
{"id": "C02", "title": "combine enumerates all arrangements, each exactly once", "statement": "combine((values_0,c_0),...,(values_m,c_m)) returns exactly the vectors of length sum c_i that can be cut into positions so that c_i positions carry a value of values_i; the number of rows is multinomial(c_0..c_m) * prod |values_i|^c_i, and rows are pairwise distinct when all values are.", "quantifier": "every list of (values, count) pairs", "why_tests_cant": "The number of arrangements is combinatorially large in the counts; tests only ever see small literals.", "anchors": ["quadpy/helpers/combinatorics.py:combine"]}
{"id": "C03", "title": "rd validates its arguments and enumerates all distinct rearrangements", "statement": "rd(n, items) raises exactly when some count is not positive or the counts add up to more than n; otherwise it returns each vector of length n that contains every value its prescribed number of times and zero elsewhere, and is closed under permuting coordinates.", "quantifier": "every n and every list of (value, count) items", "why_tests_cant": "Quantifies over all dimensions and item lists.", "anchors": ["quadpy/helpers/combinatorics.py:rd"]}
{"id": "C04", "title": "fsd/fs_array point sets are fully symmetric and complete", "statement": "fsd(n, (v_1,c_1), ...) raises exactly when the counts exceed n; otherwise the point set is closed under all coordinate permutations and all sign changes, consists of vectors of length n with c_i entries +-v_i and zeros elsewhere, and has multinomial * 2^(sum c_i) rows.", "quantifier": "every n and every list of (value, count) tuples", "why_tests_cant": "Every fully symmetric scheme in every dimension rests on this; a test can only try a few dimensions.", "anchors": ["quadpy/helpers/combinatorics.py:fsd", "quadpy/helpers/combinatorics.py:fs_array"]}
{"id": "C05", "title": "pm and pm_roll enumerate all sign patterns of the non-zero entries", "statement": "pm(v) returns every vector obtained from v by choosing signs of the non-zero entries, each once (2^k rows for k non-zero entries); pm_roll does so for every cyclic shift.", "quantifier": "every vector v of every length", "why_tests_cant": "Exponential in the length of v; unbounded.", "anchors": ["quadpy/helpers/combinatorics.py:pm", "quadpy/helpers/combinatorics.py:pm_roll"]}
{"id": "C06", "title": "untangle keeps each weight next to its own points", "statement": "After untangle(data), there are as many weights as points, the k-th weight belongs to the group the k-th point came from, and for every f the weighted sum over the result is the sum over groups of weight * sum of f over the group.", "quantifier": "every list of (weight, point list) groups and every integrand", "why_tests_cant": "Alignment must hold for all groupings and all integrands.", "anchors": ["quadpy/helpers/misc.py:untangle"]}
{"id": "C07", "title": "expand_symmetries pairs every generated point with its orbit's weight", "statement": "For every symmetry dictionary, expand_symmetries returns equally many points and weights, and every generated point is paired with the weight of the generator whose orbit it lies in; an unknown symmetry key raises KeyError.", "quantifier": "every symmetry dictionary (any keys, any number of orbits per key) and every integrand", "why_tests_cant": "Points are flattened orbit-element-major while weights are tiled; the agreement of the two layouts must hold for arbitrary numbers of orbits.", "anchors": ["quadpy/helpers/symmetries.py:expand_symmetries", "quadpy/helpers/symmetries.py:expand_symmetries_points_only"]}
{"id": "C08", "title": "planar symmetry orbits are closed under their symmetry group", "statement": "For every key of the planar schemes the generated orbit, as a multiset, is invariant under the symmetry group the key names (dihedral group of the square for d4_*, rotations for c4, reflections for sx/sy/sxy, point reflection for c2_*, regular n-gon rotations for dn), so integration over the square/disk/plane does not depend on orientation.", "quantifier": "every parameter value of every orbit", "why_tests_cant": "All real parameter values.", "anchors": ["quadpy/helpers/symmetries.py:_d4_ab", "quadpy/helpers/symmetries.py:_d4_aa", "quadpy/helpers/symmetries.py:_d4_a0", "quadpy/helpers/symmetries.py:_c4", "quadpy/helpers/symmetries.py:_sxy", "quadpy/helpers/symmetries.py:_d"]}
{"id": "C09", "title": "barycentric orbits on triangle and tetrahedron stay in barycentric coordinates and are S3/S4 closed", "statement": "Every point generated for triangle and tetrahedron symmetry keys has barycentric coordinates adding up to one, and the orbit is invariant (as a multiset) under all permutations of the vertices the key names; consequently a scheme's result does not depend on vertex order.", "quantifier": "every parameter value and every vertex permutation", "why_tests_cant": "All real parameters.", "anchors": ["quadpy/helpers/symmetries.py:_d3_aa", "quadpy/helpers/symmetries.py:_d3_ab", "quadpy/helpers/symmetries.py:_c3_ab", "quadpy/t3/_helpers.py:_s31", "quadpy/t3/_helpers.py:_s22", "quadpy/t3/_helpers.py:_s211", "quadpy/t3/_helpers.py:_s1111"]}
{"id": "C10", "title": "octahedral orbits in 3D are closed under the octahedral group and stay on the sphere", "statement": "For cube, ball and 3D-space keys (symm_*) and sphere keys (a1, a2, a3, llm, pq0, rs0, rsw, rst ...) the orbits are multiset-invariant under the coordinate permutations and sign changes that the key stands for, and sphere orbits lie on the unit sphere.", "quantifier": "every parameter value", "why_tests_cant": "All real parameters.", "anchors": ["quadpy/helpers/symmetries.py:_symm_rss_pm", "quadpy/u3/_helpers.py:_rsw2", "quadpy/u3/_helpers.py:_llm2", "quadpy/u3/_helpers.py:_pq02"]}
{"id": "C11", "title": "the regular simplex constructors return a regular simplex in every dimension", "statement": "get_nsimplex_points(n) returns n+1 vectors of length n with unit norm, pairwise inner product -1/n and zero sum; the enr2/enr Stroud-Secrest variant is sqrt(n) times as large.", "quantifier": "every n >= 1", "why_tests_cant": "Arbitrary dimension.", "anchors": ["quadpy/helpers/misc.py:get_nsimplex_points", "quadpy/enr2/_stroud_secrest.py:_nsimplex"]}
{"id": "C12", "title": "comb, prod and gamma_n_2 compute binomials, products and half-integer gamma values", "statement": "The pure Python fallback of comb returns the binomial coefficient for all non-negative arguments (0 when k > n), prod returns the product of any list, and gamma_n_2 satisfies Gamma(1/2)=sqrt(pi), Gamma(1)=1 and Gamma(x+1)=x*Gamma(x) on half-integers.", "quantifier": "all natural arguments / all lists", "why_tests_cant": "Unbounded arguments.", "anchors": ["quadpy/helpers/misc.py:comb", "quadpy/helpers/misc.py:prod", "quadpy/helpers/misc.py:gamma_n_2"]}
{"id": "C13", "title": "n_outer and product schemes are tensor products", "statement": "n_outer(x) returns the tensor whose (i_1..i_n) entry is x[i_1]*...*x[i_n]; c2.product(s) and c3.product(s) of a 1D scheme s exact to degree d integrate every monomial whose exponents are all <= d exactly over the square and the cube, each point carrying its own weight.", "quantifier": "every 1D scheme with any number of points, every degree d, every array length and dimension", "why_tests_cant": "All schemes and all degrees.", "anchors": ["quadpy/helpers/misc.py:n_outer", "quadpy/c2/_product.py:product", "quadpy/c3/_product.py:product"]}
{"id": "C14", "title": "the monomial integral over the cube is the true integral", "statement": "integrate_monomial_over_ncube(limits, exp) equals the iterated Riemann integral of the monomial over the box, and the reference moments used for the cube are the iterated integrals over [-1,1]^n.", "quantifier": "every dimension, box and exponent vector", "why_tests_cant": "Unbounded dimension and degree.", "anchors": ["quadpy/cn/_helpers.py:integrate_monomial_over_ncube"]}
{"id": "C15", "title": "the monomial integral over the unit simplex is the true integral", "statement": "integrate_monomial_over_unit_simplex(k) equals the iterated Riemann integral of x^k over the unit simplex.", "quantifier": "every dimension and exponent vector", "why_tests_cant": "Unbounded dimension and degree; the code computes it by a recursion.", "anchors": ["quadpy/tn/_helpers.py:integrate_monomial_over_unit_simplex"]}
{"id": "C16", "title": "n-cube schemes of degree 1 and 3 are exact in every dimension", "statement": "For every n, stroud_cn_1_1, stroud_cn_1_2 (degree 1), and the degree-2/3 schemes of cn (ewing, tyler, stroud_cn_3_4, stroud_cn_3_6 / stroud 3_2, hammer_stroud_1n, mcnamee_stenger_3, thacher, stroud_1957_2, stroud_1957_3, cools_haegemans_1) integrate every polynomial up to their declared degree exactly over [-1,1]^n.", "quantifier": "every dimension n admitted by the scheme and every monomial up to the declared degree", "why_tests_cant": "Tests check n up to about 5; users may pass any n.", "anchors": ["quadpy/cn/_ewing.py:ewing", "quadpy/cn/_tyler.py:tyler", "quadpy/cn/_stroud.py", "quadpy/cn/_hammer_stroud.py:hammer_stroud_1n", "quadpy/cn/_thacher.py:thacher", "quadpy/cn/_stroud_1957.py"]}
{"id": "C17", "title": "n-cube schemes of degree 5 are exact in every dimension", "statement": "For every admissible n, hammer_stroud_2n, mustard_lyness_blatt, stroud_cn_5_9, stroud_1966_a..d, stroud_1968, cools_haegemans_2 and mcnamee_stenger_5 integrate every polynomial of degree <= 5 exactly over [-1,1]^n.", "quantifier": "every admissible n and every monomial of degree <= 5", "why_tests_cant": "Unbounded n.", "anchors": ["quadpy/cn/_hammer_stroud.py:hammer_stroud_2n", "quadpy/cn/_mustard_lyness_blatt.py:mustard_lyness_blatt", "quadpy/cn/_stroud_1966.py", "quadpy/cn/_stroud_1968.py:stroud_1968"]}
{"id": "C18", "title": "n-cube schemes of degree 7 and 9 are exact in every dimension", "statement": "For every admissible n, phillips, dobrodeev_1970, and mcnamee_stenger_7a/7b (9a/9b) integrate every polynomial up to the declared degree exactly over [-1,1]^n.", "quantifier": "every admissible n and every monomial up to the declared degree", "why_tests_cant": "Unbounded n.", "anchors": ["quadpy/cn/_phillips.py:phillips", "quadpy/cn/_dobrodeev_1970.py:dobrodeev_1970", "quadpy/cn/_mcnamee_stenger.py"]}
{"id": "C19", "title": "McNamee-Stenger builders are exact for every fully symmetric region they are instantiated with", "statement": "For every fully symmetric moment functional (the integrator argument), the schemes built by _mcnamee_stenger_3, _5, _7, _9 are exact to degree 3, 5, 7, 9 whenever the divisions and square roots they perform are defined; instantiated for the cube, ball, r and r2 weights.", "quantifier": "every dimension n and every fully symmetric integrator", "why_tests_cant": "Parametric in an arbitrary functional.", "anchors": ["quadpy/cn/_mcnamee_stenger.py:_mcnamee_stenger_3", "quadpy/cn/_mcnamee_stenger.py:_mcnamee_stenger_5", "quadpy/cn/_mcnamee_stenger.py:_mcnamee_stenger_7", "quadpy/cn/_mcnamee_stenger.py:_mcnamee_stenger_9"]}
{"id": "C20", "title": "n-simplex schemes of degree 1 and 2 are exact in every dimension", "statement": "For every n, stroud_tn_1_1, lauffer_1 (degree 1), lauffer_2, hammer_stroud_1a, hammer_stroud_1b, (degree 2) integrate every polynomial up to the declared degree exactly over the n-simplex.", "quantifier": "every n >= 1 and every monomial up to the declared degree", "why_tests_cant": "Unbounded n.", "anchors": ["quadpy/tn/_lauffer.py:lauffer_1", "quadpy/tn/_lauffer.py:lauffer_2", "quadpy/tn/_hammer_stroud.py", "quadpy/tn/_stroud.py"]}
{"id": "C21", "title": "n-simplex schemes of degree 3 are exact in every dimension", "statement": "For every admissible n, lauffer_3, hammer_stroud_2, stroud_1961, stroud_1964a/b, stroud_1966_1..7, walkington_1, 2, 3 integrate every polynomial up to the declared degree exactly over the n-simplex.", "quantifier": "every admissible n and every monomial of degree <= 3", "why_tests_cant": "Unbounded n.", "anchors": ["quadpy/tn/_lauffer.py:lauffer_3", "quadpy/tn/_hammer_stroud.py:hammer_stroud_2", "quadpy/tn/_stroud_1961.py", "quadpy/tn/_stroud_1964.py", "quadpy/tn/_stroud_1966.py", "quadpy/tn/_walkington.py"]}
{"id": "C22", "title": "n-simplex schemes of degree 4, 5 and higher are exact in every dimension", "statement": "For every admissible n, lauffer_4, lauffer_5, stroud_1969, walkington_5, walkington_7 integrate every polynomial up to the declared degree exactly over the n-simplex.", "quantifier": "every admissible n and every monomial up to the declared degree", "why_tests_cant": "Unbounded n.", "anchors": ["quadpy/tn/_lauffer.py:lauffer_4", "quadpy/tn/_lauffer.py:lauffer_5", "quadpy/tn/_stroud_1969.py", "quadpy/tn/_walkington.py"]}
{"id": "C23", "title": "Grundmann-Moeller schemes are exact to degree 2s+1 for every s and every dimension", "statement": "grundmann_moeller(n, s) integrates every polynomial of degree <= 2s+1 exactly over the n-simplex.", "quantifier": "every n and every s", "why_tests_cant": "Two unbounded parameters; tests try n <= 6, s <= 4 or so.", "anchors": ["quadpy/tn/_grundmann_moeller.py:grundmann_moeller"]}
{"id": "C24", "title": "Silvester's Newton-Cotes schemes on simplices are exact to degree n", "statement": "silvester(dim, 'closed'|'open', n) integrates every polynomial of degree <= n exactly over the dim-simplex.", "quantifier": "every dim and every n (closed: n >= 1)", "why_tests_cant": "Two unbounded parameters.", "anchors": ["quadpy/tn/_silvester.py:silvester", "quadpy/tn/_silvester.py:integrate_bary"]}
{"id": "C25", "title": "sphere-surface schemes are exact in every dimension", "statement": "For every admissible n, the un schemes (stroud_un_3_1, 3_2, 5_1, 5_2, 5_3, 5_4, 7_1 = stroud_1967, 7_2, mysovskikh_1, 2, stroud_1969) integrate every polynomial up to their declared degree exactly over the unit sphere in R^n.", "quantifier": "every admissible n and every monomial up to the declared degree", "why_tests_cant": "Unbounded n.", "anchors": ["quadpy/un/_stroud.py", "quadpy/un/_stroud_1967.py", "quadpy/un/_mysovskikh.py", "quadpy/un/_stroud_1969.py"]}
{"id": "C26", "title": "ball schemes are exact in every dimension", "statement": "For every admissible n, the sn schemes (stroud_1957, hammer_stroud_11n/12n with alpha=0, stroud_sn_3_2, stroud_1966_a..d, stroud_1967_7_a/b/c, dobrodeev_1970) integrate every polynomial up to the declared degree exactly over the unit ball in R^n.", "quantifier": "every admissible n and every monomial up to the declared degree", "why_tests_cant": "Unbounded n.", "anchors": ["quadpy/sn/_hammer_stroud.py", "quadpy/sn/_stroud.py", "quadpy/sn/_stroud_1966.py", "quadpy/sn/_stroud_1967_7.py", "quadpy/sn/_dobrodeev_1970.py"]}
{"id": "C27", "title": "schemes for the weight exp(-r) on R^n are exact in every dimension", "statement": "For every admissible n, enr schemes stroud_secrest_1..4, stroud_enr_5_3 and stroud_enr_5_4 integrate every polynomial up to the declared degree exactly against exp(-|x|).", "quantifier": "every admissible n and every monomial up to the declared degree", "why_tests_cant": "Unbounded n.", "anchors": ["quadpy/enr/_stroud_secrest.py", "quadpy/enr/_stroud.py"]}
{"id": "C28", "title": "schemes for the Gaussian weight on R^n are exact in every dimension", "statement": "For every admissible n, enr2 schemes stroud_secrest_1..4, phillips, xiu, lu_darmofal_1, stroud_enr2_5_3..5_6, stroud_1967_7_2a/2b/7_4 and cools_haegemans_1..3 integrate every polynomial up to the declared degree exactly against exp(-|x|^2).", "quantifier": "every admissible n and every monomial up to the declared degree", "why_tests_cant": "Unbounded n.", "anchors": ["quadpy/enr2/_stroud_secrest.py", "quadpy/enr2/_phillips.py", "quadpy/enr2/_stroud.py", "quadpy/enr2/_xiu.py", "quadpy/enr2/_lu_darmofal.py"]}
{"id": "C29", "title": "Newton-Cotes rules reach their declared degree for every index", "statement": "newton_cotes_closed(n) (n>=1) and newton_cotes_open(n) (n>=2) integrate every polynomial of degree <= their .degree exactly on [-1,1], where .degree gains one over the number of points minus one when the number of points is odd.", "quantifier": "every index n and every polynomial up to the declared degree", "why_tests_cant": "Unbounded n.", "anchors": ["quadpy/c1/_newton_cotes.py:newton_cotes_closed", "quadpy/c1/_newton_cotes.py:newton_cotes_open"]}
{"id": "C30", "title": "Clenshaw-Curtis and Fejer rules are interpolatory for every number of points", "statement": "clenshaw_curtis(n), fejer_1(n) and fejer_2(n) integrate every polynomial of degree < n exactly on [-1,1], and of degree <= .degree.", "quantifier": "every n and every polynomial up to the degree", "why_tests_cant": "Unbounded n; weights come out of an inverse FFT.", "anchors": ["quadpy/c1/_clenshaw_curtis.py", "quadpy/c1/_fejer.py"]}
{"id": "C31", "title": "Chebyshev-Gauss rules are exact for every number of points", "statement": "chebyshev_gauss_1(n) and chebyshev_gauss_2(n) integrate every polynomial up to the declared degree exactly against 1/sqrt(1-x^2) and sqrt(1-x^2).", "quantifier": "every n and every polynomial up to the degree", "why_tests_cant": "Unbounded n.", "anchors": ["quadpy/c1/_chebyshev_gauss.py"]}
{"id": "C32", "title": "midpoint and trapezoidal rules are exact to degree one on every interval", "statement": "midpoint() and trapezoidal() integrate every affine function exactly over every interval when used through integrate().", "quantifier": "every interval and every affine function", "why_tests_cant": "All intervals and functions.", "anchors": ["quadpy/c1/_midpoint.py", "quadpy/c1/_trapezoidal.py", "quadpy/c1/_helpers.py:C1Scheme.integrate"]}
{"id": "C33", "title": "Golub-Welsch: schemes from recurrence coefficients are Gauss rules", "statement": "scheme_from_rc(rc, mu_0) yields points and weights such that every polynomial of degree <= 2n-1 is integrated exactly by the n-point rule, for the functional whose orthogonal polynomials obey the recurrence rc; the weights are non-negative and add up to mu_0.", "quantifier": "every n, every recurrence with positive beta, every functional it is orthogonal for", "why_tests_cant": "All functionals, all n.", "anchors": ["quadpy/tools/main.py:scheme_from_rc", "quadpy/c1/_gauss_jacobi.py", "quadpy/c1/_gauss_legendre.py"]}
{"id": "C34", "title": "Gauss-Radau and Gauss-Lobatto contain their prescribed nodes and reach their true degree", "statement": "The modified recurrences used by gauss_radau and gauss_lobatto have the prescribed endpoints among the points and the n-point rules are exact to degree 2n-2 and 2n-3.", "quantifier": "every n and every recurrence", "why_tests_cant": "All n.", "anchors": ["quadpy/c1/_gauss_radau.py:gauss_radau", "quadpy/c1/_gauss_lobatto.py:gauss_lobatto"]}
{"id": "C35", "title": "declared degrees never exceed what the rule can do", "statement": "For every scheme constructor in c1, the .degree attribute d is such that all polynomials of degree <= d are integrated exactly (no over-claim).", "quantifier": "every constructor argument", "why_tests_cant": "A test that searches for the first failing degree on a fixed tolerance cannot establish the claim for all n.", "anchors": ["quadpy/c1/_gauss_kronrod.py:gauss_kronrod", "quadpy/c1/_gauss_radau.py", "quadpy/c1/_clenshaw_curtis.py", "quadpy/c1/_fejer.py"]}
{"id": "C36", "title": "krylov(n) integrates trigonometric polynomials exactly", "statement": "u2.krylov(n) integrates every polynomial in x, y of degree <= n-1 exactly over every circle.", "quantifier": "every n, centre and radius, every polynomial up to the degree", "why_tests_cant": "Unbounded n.", "anchors": ["quadpy/u2/_krylov.py:krylov", "quadpy/u2/_helpers.py:U2Scheme.integrate"]}
{"id": "C37", "title": "1D integrate() transforms exactness to every interval", "statement": "If a 1D scheme is exact to degree d on [-1,1] then scheme.integrate(f,[a,b]) equals the Riemann integral of f from min(a,b) to max(a,b) for every polynomial f of degree <= d and is linear in f.", "quantifier": "every scheme, every interval [a,b] with a <= b, every polynomial", "why_tests_cant": "All intervals and polynomials.", "anchors": ["quadpy/c1/_helpers.py:C1Scheme.integrate"]}
{"id": "C38", "title": "integrating vector-valued functions over many segments attributes the axes correctly or raises", "statement": "C1Scheme.integrate(f, segments, domain_shape, range_shape) with both shapes given, or with shapes that can be recovered unambiguously from the shapes of the segments, the points and f's output, returns for every segment and every component the scheme's value of that component on that segment; inconsistent shapes raise an AssertionError instead of returning a number.", "quantifier": "all shapes, all integrands, all segment arrays", "why_tests_cant": "Shape tuples have unbounded length and size.", "anchors": ["quadpy/c1/_helpers.py:_find_shapes", "quadpy/c1/_helpers.py:C1Scheme.integrate"]}
{"id": "C39", "title": "simplex integrate() transforms exactness to every simplex", "statement": "If a barycentric scheme is exact to degree d for the reference moments then TnScheme.integrate(f, simplex) is the exact integral of every polynomial of degree <= d over an arbitrary simplex, in particular it does not depend on vertex order if the scheme is symmetric and scales with the volume.", "quantifier": "every scheme, every simplex in every dimension, every polynomial", "why_tests_cant": "All simplices.", "anchors": ["quadpy/tn/_helpers.py:TnScheme.integrate", "quadpy/tn/_helpers.py:transform", "quadpy/tn/_helpers.py:get_vol"]}
{"id": "C40", "title": "simplex volumes by Cayley-Menger are |det|/n!", "statement": "get_vol(simplex) equals |det of the edge matrix| / n! for n-simplices in R^n and the triangle area formula agrees with half the cross product in 2D.", "quantifier": "every simplex in every dimension", "why_tests_cant": "All simplices in all dimensions.", "anchors": ["quadpy/tn/_helpers.py:get_vol"]}
{"id": "C41", "title": "cube integrate() transforms exactness to every box", "statement": "For every axis-parallel box (cube_points / ncube_points) CnScheme.integrate of a scheme exact to degree d is the exact integral over the box for every polynomial of degree <= d; the multilinear map sends corners to corners.", "quantifier": "every box in every dimension, every polynomial, every scheme", "why_tests_cant": "All boxes, all dimensions.", "anchors": ["quadpy/cn/_helpers.py:CnScheme.integrate", "quadpy/cn/_helpers.py:transform", "quadpy/cn/_helpers.py:get_detJ", "quadpy/cn/_helpers.py:ncube_points"]}
{"id": "C42", "title": "pyramid and wedge Jacobians are the derivatives of the transforms", "statement": "The determinant used by P3Scheme.integrate and W3Scheme.integrate is the Jacobian determinant of the map used to place the points, for every pyramid/wedge.", "quantifier": "every pyramid/wedge and every reference point", "why_tests_cant": "All geometries.", "anchors": ["quadpy/p3/_helpers.py:_get_det_J", "quadpy/p3/_helpers.py:_transform", "quadpy/w3/_helpers.py"]}
{"id": "C43", "title": "disk/ball/circle/sphere integrate() transform with centre and radius", "statement": "Integrating over a ball or sphere with given centre and radius is the reference integral under the affine map times the volume factor radius^n (radius^(n-1)).", "quantifier": "every centre, radius, dimension and integrand", "why_tests_cant": "All centres and radii.", "anchors": ["quadpy/sn/_helpers.py:SnScheme.integrate", "quadpy/un/_helpers.py:UnScheme.integrate", "quadpy/s2/_helpers.py", "quadpy/s3/_helpers.py"]}
{"id": "C44", "title": "points_inside tells whether all points are in the domain", "statement": "scheme.points_inside() is True iff every point lies in the open reference domain, points_inside_or_boundary() iff in the closed one.", "quantifier": "every scheme", "why_tests_cant": "All schemes.", "anchors": ["quadpy/sn/_helpers.py:SnScheme.points_inside", "quadpy/cn/_helpers.py:CnScheme.points_inside", "quadpy/tn/_helpers.py:TnScheme.points_inside"]}
{"id": "C45", "title": "adaptive 1D integration always works on a partition of the interval", "statement": "At every iteration of integrate_adaptive accepted and open subintervals together tile the original interval without overlap, so the returned value is the sum of rule values over a partition, and for integrands the rule integrates exactly the result is exact whatever the tolerances.", "quantifier": "every integrand, tolerance, number of iterations", "why_tests_cant": "All refinement histories.", "anchors": ["quadpy/c1/_adaptive.py:integrate_adaptive"]}
{"id": "C46", "title": "adaptive 1D integration returns only when the error estimate meets the tolerance", "statement": "When integrate_adaptive returns, the sum of the error estimates is below the requested absolute tolerance (criteria all / only eps_abs given).", "quantifier": "every integrand and tolerance, every refinement history", "why_tests_cant": "All histories.", "anchors": ["quadpy/c1/_adaptive.py:integrate_adaptive"]}
{"id": "C47", "title": "adaptive 1D integration stops at the subinterval limit", "statement": "integrate_adaptive raises QuadpyError rather than exceeding max_num_subintervals, and raises when a subinterval gets shorter than the minimum length.", "quantifier": "every integrand and limit", "why_tests_cant": "All histories.", "anchors": ["quadpy/c1/_adaptive.py:integrate_adaptive", "quadpy/_scipy_compat.py:quad"]}
{"id": "C48", "title": "adaptive triangle integration refines consistently and terminates", "statement": "t2.integrate_adaptive splits each rejected triangle into four triangles of a quarter of the area that tile it, and after finitely many rounds either returns a value whose error estimate is within the tolerance or fails the minimum-area assertion.", "quantifier": "every integrand, triangle set and tolerance", "why_tests_cant": "All refinement histories.", "anchors": ["quadpy/t2/_tools.py:integrate_adaptive"]}
{"id": "C49", "title": "Gauss-Kronrod error estimate is non-negative and vanishes only when the two rules agree", "statement": "The error estimate returned by _gauss_kronrod_integrate lies between 0 and I_tilde when I_tilde is positive, is zero when Gauss and Kronrod values agree, and is I_tilde when I_tilde is tiny.", "quantifier": "every integrand and interval", "why_tests_cant": "All integrands.", "anchors": ["quadpy/c1/_gauss_kronrod.py:_gauss_kronrod_integrate"]}
{"id": "C50", "title": "quad() changes variables correctly on infinite and reversed intervals", "statement": "quad(f,a,b) for a>b returns minus quad(f,b,a); for infinite limits the integrand handed to the adaptive integrator is f(x(t)) x'(t) with x mapping the finite interval onto the requested one; extra args are passed to f on every evaluation.", "quantifier": "every f, a, b (finite or infinite) and args", "why_tests_cant": "All functions and limits.", "anchors": ["quadpy/_scipy_compat.py:quad"]}
{"id": "C51", "title": "get_good_scheme covers every degree it advertises", "statement": "For every integer degree, get_good_scheme(degree) either returns a scheme whose .degree is at least the requested one or returns None; it never raises.", "quantifier": "every integer degree, in every domain that offers the function", "why_tests_cant": "All integers; tests iterate over a small range.", "anchors": ["quadpy/c2/_helpers.py:get_good_scheme", "quadpy/s3/_helpers.py:get_good_scheme", "quadpy/u2/_helpers.py:get_good_scheme", "quadpy/t2/_helpers.py:get_good_scheme"]}
{"id": "C52", "title": "quadpy-optimize keeps a data file's structure and only ever replaces a scheme by a better one", "statement": "For a triangle data file, quadpy-optimize either leaves the file as it was or writes the same symmetry keys and sizes, the same degree, name, weight factor and every other entry, with data last and the note added once to the comments; reading the file back gives a scheme whose residual on the orthogonal polynomials equals the test_tolerance written and, if the points of the scheme before determine its weights, is smaller than the residual of that scheme.", "quantifier": "every data file and every outcome of the numerical least-squares solver and minimizer that satisfies their contract", "why_tests_cant": "The numerical optimizer is an arbitrary black box.", "anchors": ["quadpy/_optimize.py:_optimize", "quadpy/_cli.py:main"]}
{"id": "C53", "title": "constructing a scheme keeps the data consistent and warns exactly above the tolerance", "statement": "Constructing a scheme stores matching symbolic and floating point versions of points and weights, rejects arrays of the wrong shape, and logs a low-precision warning exactly when test_tolerance > 1e-12, without failing.", "quantifier": "every scheme class, every data and tolerance", "why_tests_cant": "All schemes and all data.", "anchors": ["quadpy/helpers/_class.py:QuadratureScheme.__init__", "quadpy/un/_helpers.py:UnScheme.__init__"]}
{"id": "C54", "title": "McNamee-Stenger rules on balls and radial weights are exact", "statement": "For every admissible n, the schemes mcnamee_stenger_3, 5, 7a, 7b, 9a, 9b of sn, enr and enr2 integrate every polynomial of degree up to 3, 5, 7 and 9 exactly over the unit ball, against exp(-|x|) and against exp(-|x|^2).", "quantifier": "every admissible n and every monomial up to the declared degree", "why_tests_cant": "Infinitely many dimensions; the tests run n up to 6 at most.", "anchors": ["quadpy/sn/_mcnamee_stenger.py", "quadpy/enr/_mcnamee_stenger.py", "quadpy/enr2/_mcnamee_stenger.py", "quadpy/cn/_mcnamee_stenger.py"]}
{"id": "C55", "title": "Dobrodeev 1978 rules on sphere and ball are exact", "statement": "un.dobrodeev_1978(n) and sn.dobrodeev_1978(n) integrate every polynomial of degree up to 5 exactly, for every n in their configuration table.", "quantifier": "every n from 2 to 20 and every monomial of degree at most 5", "why_tests_cant": "Floating point tests compare to a tolerance and cannot distinguish exactness from near-exactness; the number of points grows exponentially with n, so the tests stop at small n.", "anchors": ["quadpy/un/_dobrodeev_1978.py:dobrodeev_1978", "quadpy/sn/_dobrodeev_1978.py:dobrodeev_1978"]}
{"id": "C56", "title": "parametrised scheme families are exact for every admitted parameter", "statement": "c2.franke_1(lmbda), c2.waldron(r, alpha), c3.hammer_wymore(lmbda), and, for the weight |x|^alpha, s2.radon(alpha), s2.mysovskih_1(alpha) and s3.ditkin_1(alpha) integrate every polynomial up to their declared degree exactly, for every parameter value the constructor accepts.", "quantifier": "every parameter value (real, or integer alpha with integrable weight) and every monomial up to the declared degree", "why_tests_cant": "A continuum of parameter values; the tests use two or three of them.", "anchors": ["quadpy/c2/_franke.py:franke_1", "quadpy/c2/_waldron.py:waldron", "quadpy/c3/_hammer_wymore.py:hammer_wymore", "quadpy/s2/_radon.py:radon", "quadpy/s2/_mysovskih.py:mysovskih_1", "quadpy/s3/_ditkin.py:ditkin_1"]}
{"id": "C57", "title": "product families for the disk are exact at every order", "statement": "For every order m, s2.peirce_1957(m) declares degree 4m+3 and integrates every polynomial up to that degree exactly over the unit disk; for every n >= 1, s2.lether(n) does the same for degree 2n-1.", "quantifier": "every order and every polynomial up to the declared degree", "why_tests_cant": "Floating point tests accept an error of 1e-14 and stop at finitely many orders and one polynomial basis; exactness is a statement about real numbers and all polynomials.", "anchors": ["quadpy/s2/_peirce_1957.py:peirce_1957", "quadpy/s2/_lether.py:lether"]}
{"id": "C58", "title": "closed-form schemes for the square have the degree they declare", "statement": "Every scheme of quadpy.c2 that is given in closed form (rationals and square roots) integrates every polynomial up to its declared degree exactly over [-1,1]^2. Beyond its declared degree 1, c2.miller is exact for every harmonic polynomial of degree at most 11, as its comment says.", "quantifier": "every closed-form c2 scheme and every polynomial of degree at most the declared one", "why_tests_cant": "Floating point tests accept an error of 1e-14 and stop at one polynomial basis; exactness is a statement about real numbers and all polynomials.", "anchors": ["quadpy/c2/_albrecht_collatz.py", "quadpy/c2/_burnside.py", "quadpy/c2/_franke.py", "quadpy/c2/_tyler.py", "quadpy/c2/_phillips.py", "quadpy/c2/_stroud.py", "quadpy/c2/_dunavant.py", "quadpy/c2/_miller.py:miller"]}
{"id": "C59", "title": "closed-form schemes for the hexahedron have the degree they declare", "statement": "Every scheme of quadpy.c3 that is given in closed form integrates every polynomial up to its declared degree exactly over [-1,1]^3.", "quantifier": "every closed-form c3 scheme and every polynomial of degree at most the declared one", "why_tests_cant": "Floating point tests accept an error of 1e-14; exactness is a statement about real numbers and all polynomials.", "anchors": ["quadpy/c3/_hammer_stroud.py", "quadpy/c3/_mustard_lyness_blatt.py", "quadpy/c3/_stroud_1967.py", "quadpy/c3/_sadowsky.py", "quadpy/c3/_tyler.py"]}
{"id": "C60", "title": "closed-form schemes for the disk have the degree they declare", "statement": "Every scheme of quadpy.s2 that is given in closed form integrates every polynomial up to its declared degree exactly over the unit disk.", "quantifier": "every closed-form s2 scheme and every polynomial of degree at most the declared one", "why_tests_cant": "Floating point tests accept an error of 1e-14 and stop at finitely many orders and one polynomial basis; exactness is a statement about real numbers and all polynomials.", "anchors": ["quadpy/s2/_albrecht.py", "quadpy/s2/_albrecht_collatz.py", "quadpy/s2/_hammer_stroud.py", "quadpy/s2/_mysovskih.py", "quadpy/s2/_peirce_1956.py", "quadpy/s2/_stroud.py"]}
{"id": "C61", "title": "closed-form schemes for the ball have the degree they declare", "statement": "Every scheme of quadpy.s3 that is given in closed form integrates every polynomial up to its declared degree exactly over the unit ball.", "quantifier": "every closed-form s3 scheme and every polynomial of degree at most the declared one", "why_tests_cant": "Floating point tests accept an error of 1e-14 and stop at finitely many orders and one polynomial basis; exactness is a statement about real numbers and all polynomials.", "anchors": ["quadpy/s3/_ditkin.py", "quadpy/s3/_hammer_stroud.py", "quadpy/s3/_mysovskih.py", "quadpy/s3/_stroud.py"]}
{"id": "C62", "title": "closed-form schemes for the triangle have the degree they declare", "statement": "Every scheme of quadpy.t2 that is given in closed form integrates every polynomial up to its declared degree exactly over the triangle; the conical product rule lether(n) does so for every order n >= 1 with degree 2(n-1).", "quantifier": "every closed-form t2 scheme, every order n, and every polynomial of degree at most the declared one", "why_tests_cant": "Floating point tests accept an error of 1e-14 and stop at finitely many orders and one polynomial basis; exactness is a statement about real numbers and all polynomials.", "anchors": ["quadpy/t2/_classical.py", "quadpy/t2/_hammer_marlowe_stroud.py", "quadpy/t2/_hillion.py", "quadpy/t2/_liu_vinokur.py", "quadpy/t2/_lyness_jespersen.py", "quadpy/t2/_walkington.py", "quadpy/t2/_lether.py:lether"]}
{"id": "C63", "title": "closed-form schemes for the tetrahedron have the degree they declare", "statement": "Every scheme of quadpy.t3 that is given in closed form integrates every polynomial up to its declared degree exactly over the tetrahedron.", "quantifier": "every closed-form t3 scheme and every polynomial of degree at most the declared one", "why_tests_cant": "Floating point tests accept an error of 1e-14 and stop at finitely many orders and one polynomial basis; exactness is a statement about real numbers and all polynomials.", "anchors": ["quadpy/t3/_hammer_marlowe_stroud.py", "quadpy/t3/_liu_vinokur.py"]}
{"id": "C64", "title": "closed-form schemes for the sphere in three dimensions have the degree they declare", "statement": "Every scheme of quadpy.u3 that is given in closed form integrates every polynomial up to its declared degree exactly over the unit sphere.", "quantifier": "every closed-form u3 scheme and every polynomial of degree at most the declared one", "why_tests_cant": "Floating point tests accept an error of 1e-14 and stop at finitely many orders and one polynomial basis; exactness is a statement about real numbers and all polynomials.", "anchors": ["quadpy/u3/_albrecht_collatz.py", "quadpy/u3/_mclaren.py"]}
{"id": "C65", "title": "closed-form schemes for the plane and the space with exponential weights have the degree they declare", "statement": "Every scheme of quadpy.e2r, e2r2, e3r and e3r2 that is given in closed form integrates every polynomial up to its declared degree exactly with respect to exp(-|x|) or exp(-|x|^2), and integrate() returns the integral itself (it multiplies by the right total mass), also for the n-dimensional classes.", "quantifier": "every closed-form scheme and every polynomial of degree at most the declared one; every dimension for integrate()", "why_tests_cant": "Floating point tests accept an error of 1e-14 and stop at finitely many orders and one polynomial basis; exactness is a statement about real numbers and all polynomials.", "anchors": ["quadpy/e2r/_stroud.py", "quadpy/e2r/_stroud_secrest.py", "quadpy/e2r2/_stroud.py", "quadpy/e2r2/_stroud_secrest.py", "quadpy/e3r/_stroud_secrest.py", "quadpy/e3r2/_stroud_secrest.py", "quadpy/e2r/_helpers.py:E2rScheme.integrate", "quadpy/e3r2/_helpers.py:E3r2Scheme.integrate", "quadpy/enr/_helpers.py:EnrScheme.integrate"]}
{"id": "C66", "title": "the closed-form pyramid and wedge schemes are exact up to their declared degree", "statement": "For each p3.felippa_1..8 and w3.felippa_1..3 the constructor returns a scheme of the declared degree d, and integrate(f, vertices) equals the integral of f for every polynomial f of total degree at most d over every pyramid with a parallelogram base (every prism with a triangular base).", "quantifier": "every such pyramid or prism and every polynomial up to the degree", "why_tests_cant": "Tests evaluate monomials on one reference domain in floating point.", "anchors": ["quadpy/p3/_felippa.py", "quadpy/w3/_felippa.py", "quadpy/p3/_helpers.py:P3Scheme.integrate", "quadpy/w3/_helpers.py:W3Scheme.integrate"]}
{"id": "C67", "title": "spherical coordinates of u3 schemes name the same points", "statement": "The polar and azimuthal angles a u3 scheme offers (theta_phi) are in [0, pi] and (-pi, pi] and name exactly its Cartesian points, so integrate_spherical(f) and integrate(g) on the unit sphere agree whenever f is g in spherical coordinates, and integrate_spherical is exact for polynomials up to the degree of the rule.", "quantifier": "every point of the unit sphere (poles and the half plane of the branch cut included), every rule on the sphere, every integrand", "why_tests_cant": "The azimuth is defined by six cases; tests visit the points of the shipped schemes only and compare one basis of spherical harmonics.", "anchors": ["quadpy/u3/_helpers.py:cartesian_to_spherical", "quadpy/u3/_helpers.py:cartesian_to_spherical_sympy", "quadpy/u3/_helpers.py:_atan2_0", "quadpy/u3/_helpers.py:U3Scheme.integrate_spherical"]}
{"id": "C68", "title": "Reading a data file scales the weights and nothing else", "statement": "Loading a scheme from a JSON data file gives the scheme built from the file's symmetry data: its degree is the one stated in the file, its points are unchanged and every weight is multiplied by the file's weight_factor (unchanged if there is none), whether the loader scales before or after expanding the symmetries; loading fails only if the data are malformed.", "quantifier": "every content of a data file (symmetry data, degree, optional weight factor), for the quadrilateral, triangle, disk, tetrahedron, sphere and plane loaders", "why_tests_cant": "The loaders differ per domain and the data files are not in the source tree; tests only load the shipped files.", "anchors": ["quadpy/c2/_helpers.py:_read", "quadpy/t2/_helpers.py:_read", "quadpy/s2/_helpers.py:_read", "quadpy/t3/_helpers.py:_read", "quadpy/u3/_helpers.py:_read", "quadpy/e2r2/_helpers.py:_read"]}
{"id": "C69", "title": "gauss_kronrod(n) extends the Gauss rule to 2n+1 points", "statement": "Whenever gauss_kronrod(n, a, b) returns a scheme, it has 2n+1 points in ascending order and positive weights adding up to the integral of the weight function, every second point is a point of the n-point Gauss rule for the same weight, and every polynomial of degree <= 3n+1 (3n+2 for odd n and a symmetric weight) is integrated exactly.", "quantifier": "every n, every weight function (given by its recurrence coefficients), every polynomial up to the degree", "why_tests_cant": "Unbounded n; the nesting is exact only in exact arithmetic, tests compare a few n with a tolerance.", "anchors": ["quadpy/c1/_gauss_kronrod.py:gauss_kronrod", "quadpy/c1/_gauss_kronrod.py:_r_kronrod", "quadpy/c1/_gauss_kronrod.py:_gauss_kronrod_integrate"]}
{"id": "C70", "title": "gauss_patterson(index) is a nested family that integrates up to its degree within rounding", "statement": "For index 0..8 gauss_patterson returns 2^(index+1)-1 ascending points inside (-1,1) with positive weights, contains the points of the previous index, declares degree 3*2^index-1 (1 for index 0) and integrates every polynomial up to that degree with an error of at most 1e-16 times the sum of the absolute coefficients; the interpolatory weights it computes are exact up to degree n-1 for every odd number n of distinct points. Other indices raise.", "quantifier": "every index, every polynomial up to the degree, every list of points handed to the weight computation", "why_tests_cant": "A test evaluates a basis in floating point for given indices; it cannot separate the error of the tables from the error of the evaluation, nor cover all point lists.", "anchors": ["quadpy/c1/_gauss_patterson.py:gauss_patterson", "quadpy/c1/_gauss_patterson.py:_get_points", "quadpy/c1/_gauss_patterson.py:_get_weights"]}
{"id": "C71", "title": "Schemes given by decimal numbers keep their declared tolerance", "statement": "Every scheme of t2, t3, c2, c3, s2 and w3 whose points or weights are decimal literals in the source declares a degree d and a test_tolerance such that, for every polynomial of degree at most d, the mean computed with the literal decimals differs from the true mean by at most test_tolerance times the sum of the absolute values of the coefficients (twice the tolerance for lyness_jespersen_13 and kubatko_yeager_maggi_5a, 6a, 8a).", "quantifier": "every polynomial of degree at most the declared one, for each of the schemes", "why_tests_cant": "A test evaluates an orthonormal basis in double precision and compares with the tolerance; rounding of the evaluation is of the same size as the tolerance, and errors of combinations are not bounded by it.", "anchors": ["quadpy/helpers/_class.py:QuadratureScheme", "quadpy/t2/_lyness_jespersen.py", "quadpy/t2/_strang_fix_cowper/__init__.py", "quadpy/t2/_laursen_gellert/__init__.py", "quadpy/t2/_franke.py", "quadpy/t3/_keast/__init__.py", "quadpy/c2/_franke.py", "quadpy/c2/_hammer_stroud.py", "quadpy/c3/_hammer_stroud.py", "quadpy/c3/_witherden_vincent/__init__.py", "quadpy/s2/_hammer_stroud.py", "quadpy/s2/_wissmann_becker.py", "quadpy/w3/_kubatko_yeager_maggi.py", "quadpy/w3/_felippa.py"]}
{"id": "C72", "title": "coefficients_from_gauss recovers the recurrence of a Gauss rule", "statement": "For every rule with n >= 1 distinct points and positive weights, quadpy.tools.coefficients_from_gauss returns n alphas, betas nan, b_1, ..., b_{n-1} > 0 and the sum of the weights such that the polynomials of this recurrence are orthogonal for the rule. If the rule is the Gauss rule of a functional with recurrence coefficients a_k, b_k, exactly those come back, in whatever order the points are listed. It is the inverse of scheme_from_rc in both directions (points come back in ascending order). Lists of different lengths, negative weights and empty rules give no coefficients.", "quantifier": "every n, every rule with distinct points and positive weights, every order of the points, every functional", "why_tests_cant": "Tests reconstruct a few Legendre/Hermite rules; the claim is about all rules, orders and functionals.", "anchors": ["quadpy/tools/main.py:coefficients_from_gauss", "quadpy/tools/main.py:scheme_from_rc"]}
{"id": "C73", "title": "scheme_from_rc returns the same rule in every mode", "statement": "For all recurrence coefficients with positive betas (after the placeholder beta[0]) the modes sympy, numpy and mpmath of quadpy.tools.scheme_from_rc return the same points, ascending, and the same weights (in exact arithmetic), whatever beta[0] is; without a mode floats are handled by numpy and anything else raises. (Refuted: the arguments are left alone; sympy mode overwrites beta[0] of the caller's array.)", "quantifier": "all recurrence coefficients, all modes, all values of the placeholder", "why_tests_cant": "Infinitely many recurrences; eigenvectors are only determined up to sign and scale and eigenvalues come in any order from sympy.", "anchors": ["quadpy/tools/main.py:scheme_from_rc", "quadpy/tools/main.py:_scheme_from_rc_sympy", "quadpy/tools/main.py:_scheme_from_rc_mpmath", "quadpy/tools/main.py:_scheme_from_rc_numpy", "quadpy/tools/main.py:_sympy_tridiag"]}
{"id": "C74", "title": "Genz-Keister rules have their declared degree, are nested, and exist for 0..7 only", "statement": "quadpy.e1r2.genz_keister(n) returns for n = 0..7 a rule with 1, 3, 9, 19, 35, 37, 41, 43 strictly increasing points symmetric about 0 whose declared degree is 1, 5, 15, 29, 51, 55, 63, 67; for every polynomial p of at most that degree the result differs from the integral of exp(-x^2) p(x) by at most 1e-14 of the integral of exp(-x^2) times the polynomial with absolute coefficients (exactly equal for n = 0, 1), and the next power is missed. The rules are nested: the points of rules 0..3 occur in every later rule. Every other integer argument raises.", "quantifier": "all n, all polynomials of at most the declared degree", "why_tests_cant": "The polynomials of degree 67 form an infinite family; a test evaluates finitely many and in rounded arithmetic, where the moments reach 1e40.", "anchors": ["quadpy/e1r2/_genz_keister.py:genz_keister"]}
{"id": "C75", "title": "Stoyanova's ball rules have degree 7 for every n and delta; the default delta works only for some n", "statement": "Whenever quadpy.sn.stoyanova(n, delta, variant_v_plus) returns, for whatever n, delta and choice of root, the scheme is for the n-ball, declares degree 7 and reproduces the mean over the ball of every monomial of total degree at most 7; it has 123 points for n = 5 and 2(n+1)+3n(n+1)+(n+1)n(n-1)/3+1 for n > 5. n < 5 and delta = 0 are rejected. With the default delta the call returns for n = 5..9 and every n >= 86 and raises for n = 10..85; with variant_v_plus=False it returns for n = 5..84 and raises for every n >= 85.", "quantifier": "all dimensions n, all real delta, both roots, all monomials of total degree at most 7", "why_tests_cant": "n and delta range over infinite sets; the test suite tries a few n, and the failing defaults start at n = 10.", "anchors": ["quadpy/sn/_stoyanova.py:stoyanova"]}
{"id": "C76", "title": "The tabulated n-dimensional schemes of Stenger and Stroud reach their degree up to their tolerance, in exactly the tabulated dimensions", "statement": "quadpy.sn.stenger_7a/7b/9a/9b/11a/11b, quadpy.enr2.stenger_7a/7b/9a/9b/11a/11b and quadpy.sn/enr2.stroud_1967_5_a/b return a scheme exactly for the dimensions of their tables. The scheme declares degree 7, 9, 11 or 5, all its points have n coordinates, and for every polynomial of at most that degree the value of the rule differs from the mean over the ball (or over R^n with the weight exp(-|x|^2)) by at most a stated multiple of its test_tolerance times the sum of the absolute values of the coefficients: the multiple is 1 (0 for enr2.stroud_1967_5_a(6)) except for the listed cases, where it is between 2 and 7.", "quantifier": "all dimensions n, all polynomials of degree at most the declared one in n variables with arbitrary real coefficients", "why_tests_cant": "The polynomials form a continuum and the dimension is unbounded; a test in floating point cannot tell an error in the tabulated digits from rounding, and one in another basis of polynomials does not bound the error on a given polynomial.", "anchors": ["quadpy/sn/_stenger.py", "quadpy/enr2/_stenger.py", "quadpy/sn/_stroud_1967_5.py", "quadpy/enr2/_stroud_1967_5.py"]}
{"id": "C77", "title": "The schemes that mix closed forms with decimals reach their degree up to their tolerance", "statement": "quadpy.c3.sarma_stroud() returns a scheme that integrates every polynomial of degree at most 7 over the cube exactly. quadpy.s2.mysovskih_3() (degree 15 on the disk), quadpy.p3.felippa_9() (degree 5 on every pyramid with a parallelogram base), quadpy.t2.stroud_t2_7_1() and quadpy.t3.stroud_t3_7_1() (degree 7 on the triangle and the tetrahedron), quadpy.u3.mclaren_10() = stroud_u3_14_1() (degree 14 on the sphere), quadpy.s3.stroud_14_1() (degree 14 on the ball) return a scheme of that declared degree whose result differs from the mean of any polynomial of at most that degree by at most test_tolerance times the sum of the absolute values of its coefficients; for quadpy.e3r2.stroud_e3r2_14_1() the bound is 40 times test_tolerance, and more than 20 times it is reached by x^14.", "quantifier": "all polynomials of degree at most the declared one with arbitrary real coefficients; all pyramids with a parallelogram base; every Gauss-Legendre routine that keeps its contract", "why_tests_cant": "The polynomials form a continuum; a floating-point test mixes the error of the printed digits with rounding errors and scales the tolerance by a norm of its own.", "anchors": ["quadpy/c3/_sarma_stroud.py", "quadpy/s2/_mysovskih.py:mysovskih_3", "quadpy/p3/_felippa.py:felippa_9", "quadpy/t2/_stroud.py:stroud_t2_7_1", "quadpy/t3/_stroud.py:stroud_t3_7_1", "quadpy/u3/_mclaren.py:mclaren_10", "quadpy/s3/_stroud.py:stroud_14_1", "quadpy/e3r2/_stroud.py:stroud_e3r2_14_1"]}
{"id": "C78", "title": "The closed-form schemes that stand beside the data files deliver the degree they declare", "statement": "quadpy.c2.schmid_2, schmid_4, cohen_gismalla_2, quadpy.t2.dunavant_01, dunavant_02, dunavant_03, laursen_gellert_02a, laursen_gellert_02b, strang_fix_cowper_01, strang_fix_cowper_03, taylor_wingate_bos_1, williams_shunn_jameson_1, williams_shunn_jameson_2 and quadpy.t3.keast_1, keast_2, keast_4, keast_6, shunn_ham_1, shunn_ham_2, witherden_vincent_01, witherden_vincent_02, yu_2, yu_3 return a scheme with the declared degree, points with the right number of coordinates, and the exact mean over the square, triangle or tetrahedron for every polynomial of that degree.", "quantifier": "all polynomials of total degree at most the declared one", "why_tests_cant": "The tests evaluate finitely many polynomials in floating point with a tolerance; exactness is about the real numbers that the closed forms denote.", "anchors": ["quadpy/c2/_schmid/__init__.py", "quadpy/c2/_cohen_gismalla.py", "quadpy/t2/_dunavant/__init__.py", "quadpy/t2/_laursen_gellert/__init__.py", "quadpy/t2/_strang_fix_cowper/__init__.py", "quadpy/t2/_taylor_wingate_bos/__init__.py", "quadpy/t2/_williams_shunn_jameson/__init__.py", "quadpy/t3/_keast/__init__.py", "quadpy/t3/_shunn_ham/__init__.py", "quadpy/t3/_witherden_vincent/__init__.py", "quadpy/t3/_yu/__init__.py"]}
{"id": "C79", "title": "The schemes marked as broken cannot declare more, and what their repair delivers", "statement": "quadpy.c2.stroud_c2_7_4, quadpy.e2r2.stroud_7_2, quadpy.c2.franke_8 and quadpy.c2.cohen_gismalla_2, which the code marks as broken and gives degree 1, are wrong on a monomial of degree 2, and so is quadpy.tn.walkington_2(d) for every d >= 1: a user cannot rely on more than the declared degree. With the single assignment, symmetry name, pair of digits or parameter named in the model corrected they have degree 7, 7, 9 (up to test_tolerance) and 2; the parameter of Walkington's rule gives degree 2 if and only if (d + 2) (1 - (d + 1) a)^2 = 1. quadpy.c2.cohen_gismalla_1 is exact up to degree 5 and the corrected cohen_gismalla_2 up to degree 7 on all integrands that are even in x or in y; cohen_gismalla_1 is wrong on a monomial of degree 4.", "quantifier": "all polynomials of the given degree; all dimensions d >= 1 and all real parameters a of Walkington's rule; all monomials even in one variable", "why_tests_cant": "The tests only confirm the declared degree 1; that no choice of the parameter but two works, in every dimension, is not observable by running the code.", "anchors": ["quadpy/c2/_stroud.py:stroud_c2_7_4", "quadpy/e2r2/_stroud.py:stroud_7_2", "quadpy/c2/_franke.py:franke_8", "quadpy/c2/_cohen_gismalla.py", "quadpy/tn/_walkington.py:walkington_2"]}
{"id": "C80", "title": "Error bounds and convergence for integrands that are not polynomials", "statement": "For a C1 scheme of degree d with points in [-1,1], scheme.integrate(f, [a, b]) is within (b-a)/2 (2 + sum |w_i|) e of the integral whenever some polynomial of degree at most d is within e of f on [a, b]. Summed over the intervals of any tiling of [a, b], the results converge to the integral of every continuous f as the intervals shrink, and with order d+1 if f has d+1 derivatives. Every rule with n points and degree 2n-1 has positive weights and interior points. As n grows, gauss_legendre(n) (both modes), clenshaw_curtis(n), fejer_1(n) and fejer_2(n) converge for every continuous f on every interval; gauss_jacobi, gauss_radau, gauss_lobatto and the two Chebyshev-Gauss rules converge to the weighted integral; quadpy.u2.krylov(n) converges on every circle.", "quantifier": "all schemes of the stated degree, all intervals, all tilings, all continuous integrands, all n, all Jacobi parameters a, b > -1, all circles", "why_tests_cant": "Convergence is a statement about all continuous functions and a limit in n or in the interval length; tests evaluate finitely many functions at finitely many n.", "anchors": ["quadpy/c1/_helpers.py:integrate", "quadpy/c1/_gauss_legendre.py", "quadpy/c1/_clenshaw_curtis.py", "quadpy/c1/_fejer.py", "quadpy/c1/_gauss_jacobi.py", "quadpy/c1/_gauss_radau.py", "quadpy/c1/_gauss_lobatto.py", "quadpy/c1/_chebyshev_gauss.py", "quadpy/u2/_krylov.py"]}
{"id": "C81", "title": "Adaptive integration stops for every continuous integrand", "statement": "quadpy.c1.integrate_adaptive(f, [a, b], ...) and quadpy.quad return for every continuous f and all positive tolerances. This is true if only eps_abs is given (any criteria_connection, any number of components of f, kronrod_degree 1 to 12): the call returns and the error it reports is below eps_abs. It is false if eps_rel is given as well, as by default: for all tolerances below 1/100 there is a continuous function on [0, 1] for which the call with kronrod_degree=1 neither returns nor raises, with any limit on the subintervals from 2 on.", "quantifier": "all continuous integrands with any number of components, all intervals, all tolerances, both ways to combine the criteria, all kronrod degrees 1 to 12 (first half) or degree 1 (second half), every number of iterations", "why_tests_cant": "Termination is a statement about all continuous functions and non-termination about an unbounded number of iterations; a test run that has not stopped yet shows nothing.", "anchors": ["quadpy/c1/_adaptive.py:integrate_adaptive", "quadpy/c1/_gauss_kronrod.py:_gauss_kronrod_integrate", "quadpy/_scipy_compat.py:quad"]}
{"id": "C82", "title": "Rounding errors of one-dimensional integration", "statement": "In IEEE binary64 arithmetic (round to nearest, with underflow, without overflow) C1Scheme.integrate(f, [a, b]) differs from the same sum in real arithmetic by at most ((1+u)^(n+6)-1)(F+delta) + delta + L r times (b-a)/2 sum |w_i|, plus underflow terms, where u = 2^-53, n is the number of points, F bounds |f|, L is a Lipschitz constant of f, delta the error of the program for f, and r = ((1+u)^5-1) max(|a|,|b|) the error of the points; this holds for every order in which np.dot adds, with or without fused operations, for every scheme stored with rounded weights and points and every interval of length at least 2^-500. Together with the degree it bounds the distance to the integral, e.g. for gauss_legendre(n). The function is called at points of the interval if the interval is not extremely short, and exactly at the end points for the points -1 and 1; for two neighbouring numbers a < b it can be called outside [a, b], and for b - a <= 2^-538 the result is 0 for every f.", "quantifier": "all schemes, all functions and all programs for them, all binary64 intervals of length at least 2^-500, all orders of summation and uses of fused multiply-add", "why_tests_cant": "The bound ranges over all integrands, all schemes, all intervals and all summation orders of the BLAS library; a test sees one rounding pattern on one machine.", "anchors": ["quadpy/c1/_helpers.py:C1Scheme.integrate", "quadpy/c1/_gauss_legendre.py"]}
{"id": "C83", "title": "Rounding errors of integration over disks, balls, circles, spheres, whole spaces and simplices", "statement": "In IEEE binary64 arithmetic (round to nearest, with underflow, without overflow) integrate() over a disk, ball, circle or sphere with centre c and radius r returns a value v whose distance from the value in real arithmetic is at most V W (((1+u)^(n+k+2)-1)(F+delta) + delta + L e) plus underflow terms, where V is the volume, W the sum of the absolute weights, n the number of points, k the number of roundings in the volume (3, 6, 3, 4), F a bound and L a Lipschitz constant of f, delta the error of the program for f and e = ((1+u)^3-1)(max|c_i| + r) the error of the points; hence for polynomials of the degree of the scheme v is that close to the integral. The same holds in n dimensions for every accuracy of the volume function, over the plane and the space with weights exp(-r) and exp(-r^2), and over simplices, where the points carry one rounding per vertex. For radii up to 2^-539 the disk and sphere classes return 0 for every f.", "quantifier": "all schemes, all functions and programs for them, all binary64 centres, all radii at least 2^-500 (2^-300 for balls), all simplices, all orders of summation and uses of fused multiply-add", "why_tests_cant": "The bound ranges over all integrands, schemes, domains and summation orders; a test sees one rounding pattern on one machine.", "anchors": ["quadpy/s2/_helpers.py:S2Scheme.integrate", "quadpy/s3/_helpers.py:S3Scheme.integrate", "quadpy/sn/_helpers.py:SnScheme.integrate", "quadpy/u2/_helpers.py:U2Scheme.integrate", "quadpy/u3/_helpers.py:U3Scheme.integrate", "quadpy/un/_helpers.py:UnScheme.integrate", "quadpy/e2r/_helpers.py:E2rScheme.integrate", "quadpy/e2r2/_helpers.py:E2r2Scheme.integrate", "quadpy/e3r/_helpers.py:E3rScheme.integrate", "quadpy/e3r2/_helpers.py:E3r2Scheme.integrate", "quadpy/tn/_helpers.py:TnScheme.integrate"]}
{"id": "C84", "title": "Error bounds and convergence in several dimensions", "statement": "For an integrand that is continuous on the domain but not a polynomial, integrate() over a box, simplex, ball or sphere with a scheme of degree d and points in the domain differs from the integral by at most volume * (1 + sum |w_i|) * e, where e is the largest distance of the integrand from any polynomial of degree at most d on the domain. Hence for schemes whose degrees tend to infinity and whose sums of |w_i| stay bounded the results tend to the integral of every continuous function. This applies to c2.product and c3.product of gauss_legendre (both modes), clenshaw_curtis, fejer_1 and fejer_2 over every rectangle and every 3D box, to s2.lether and s2.peirce_1957 over every disk, to t2.lether over every triangle and to u2.krylov over every circle; all of these have weights that are not negative and points in the domain.", "quantifier": "all dimensions, all boxes, simplices, balls and spheres, all continuous integrands, all schemes of the given degree with points in the domain, all families of growing degree", "why_tests_cant": "Ranges over all continuous functions and is a statement about limits; a test sees finitely many functions and finitely many numbers of points.", "anchors": ["quadpy/cn/_helpers.py:CnScheme.integrate", "quadpy/tn/_helpers.py:TnScheme.integrate", "quadpy/sn/_helpers.py:SnScheme.integrate", "quadpy/un/_helpers.py:UnScheme.integrate", "quadpy/c2/_product.py:product", "quadpy/c3/_product.py:product", "quadpy/s2/_lether.py:lether", "quadpy/s2/_peirce_1957.py:peirce_1957", "quadpy/t2/_lether.py:lether", "quadpy/u2/_krylov.py:krylov"]}
{"id": "C85", "title": "The dictionaries of schemes", "statement": "quadpy.<domain>.schemes (c2, c3, e2r, e2r2, e3r, e3r2, s2, s3, t2, t3, u2, u3) has each registered scheme function under the name in its def statement, exactly once, no two scheme functions of a domain overwrite each other, and the dictionary is the same for every order in which the modules are imported and if a module is loaded again. Every name that get_good_scheme looks up is a key. An identifier given to register() that is only an alias (such as stroud_c2_5_1) is not a key.", "quantifier": "all sequences of register() calls, all import orders of the twelve domains, all names", "why_tests_cant": "The import order depends on what a program imports first; a test sees one order, and the tests iterate over the keys that exist, so they cannot notice one that is missing.", "anchors": ["quadpy/c2/_helpers.py:register", "quadpy/t2/_helpers.py:register", "quadpy/u3/_helpers.py:register", "quadpy/t2/_helpers.py:get_good_scheme", "quadpy/c2/_stroud.py"]}
{"id": "C86", "title": "integrate() on arrays of domains and for integrands with array values", "statement": "scheme.integrate(f, domains) for an integrand with values of any shape, and m domains given in one array: the result has the shape of f's values followed by the axis of the domains, and each entry is what integrate() gives for that component of f and that domain alone. This holds for disks, balls, circles and spheres in n dimensions (one domain, m centres with m radii, one centre with m radii), simplices (one or m), cubes, pyramids and wedges in arrays of any number of axes (the axes come out reversed, and each axis doubles the result for cubes), and for whole spaces. If the shape of f's value does not end in the shape of the array of points, disks, balls, simplices, cubes and the sphere raise and never return a value; circles, spheres in n dimensions and whole spaces do not check. Arrays of balls or simplices with two axes, several centres with one radius, and several radii for the sphere in three dimensions raise or give other values, which are determined.", "quantifier": "all schemes, all integrands that work point by point with values of any shape, all arrays of domains", "why_tests_cant": "The axes are moved by transposing, swapping and broadcasting, which for arrays of equal side lengths goes wrong without an error; tests use one domain or one axis and scalar values.", "anchors": ["quadpy/s2/_helpers.py:S2Scheme.integrate", "quadpy/s3/_helpers.py:S3Scheme.integrate", "quadpy/sn/_helpers.py:SnScheme.integrate", "quadpy/u2/_helpers.py:U2Scheme.integrate", "quadpy/un/_helpers.py:UnScheme.integrate", "quadpy/u3/_helpers.py:U3Scheme.integrate", "quadpy/tn/_helpers.py:TnScheme.integrate", "quadpy/cn/_helpers.py:CnScheme.integrate", "quadpy/p3/_helpers.py:P3Scheme.integrate", "quadpy/w3/_helpers.py:W3Scheme.integrate", "quadpy/enr/_helpers.py:EnrScheme.integrate"]}
{"id": "C87", "title": "Schemes built from symmetry data are symmetric", "statement": "Every scheme that C2Scheme, S2Scheme, E2rScheme, E2r2Scheme, C3Scheme, S3Scheme, E3rScheme, E3r2Scheme, T2Scheme, T3Scheme and U3Scheme build from a dictionary of symmetry data, with any weights and parameters, has the dimension of its domain, the degree it was given and points with that many (barycentric: one more, adding up to 1) coordinates, and its points and weights are mapped onto themselves by the symmetry group that its keys name: the symmetries of the square, of the regular polygon, of the octahedron, all permutations of the vertices of the triangle or the tetrahedron, reflections or the point reflection. So an integrand composed with a symmetry gives the same value, and one that changes its sign gives 0.", "quantifier": "all dictionaries of symmetry data with the listed keys, all weights and parameters, all integrands, all elements of the group", "why_tests_cant": "A test sees the finitely many data of the schemes in the library; data files are exchanged, and quadpy-optimize creates new ones.", "anchors": ["quadpy/helpers/symmetries.py:expand_symmetries", "quadpy/t3/_helpers.py:expand_symmetries", "quadpy/u3/_helpers.py:expand_symmetries", "quadpy/c2/_helpers.py:C2Scheme", "quadpy/s2/_helpers.py:S2Scheme", "quadpy/t2/_helpers.py:T2Scheme", "quadpy/u3/_helpers.py:U3Scheme"]}
{"id": "C88", "title": "What plot() and show() draw", "statement": "scheme.plot() and scheme.show() draw one mark for each point of the scheme, in the place the point has in the given domain, blue for a positive and red for a negative weight, and the mark's measure (area of the disk, length of the segment, volume of the ball, area of the spherical cap) is the share |weight|/sum(weights) of the measure of the domain, so that the marks of a scheme with nonnegative weights have the measure of the domain together. The wire frames that are drawn are the edges of the domain. This does not hold for: intervals (the marks stay in [-1,1]), general quadrilaterals, the plane and space with weight exp(-r^2) (twice the integral; 8 pi), pyramids (always 1), and show() raises for hexahedra, wedges and pyramids with the backend vtk unless there are 3 points, for balls and space with mpl if there are fewer than 3 points (otherwise it draws three wrong balls), and for tetrahedra always.", "quantifier": "all schemes with a positive sum of weights, all domains, both backends", "why_tests_cant": "A picture is looked at, not asserted; the tests only call show() or save a file, for one scheme each, and a wrong radius or place raises no error.", "anchors": ["quadpy/helpers/plot.py:plot_disks_1d", "quadpy/helpers/plot.py:plot_disks", "quadpy/helpers/plot.py:plot_spheres", "quadpy/helpers/plot.py:show_mpl", "quadpy/helpers/plot.py:show_vtk", "quadpy/t2/_helpers.py:T2Scheme.plot", "quadpy/c2/_helpers.py:C2Scheme.plot", "quadpy/u3/_helpers.py:U3Scheme.plot", "quadpy/t3/_helpers.py:T3Scheme.show", "quadpy/c3/_helpers.py:C3Scheme.show"]}
{"id": "C89", "title": "What print(scheme) shows", "statement": "str(scheme) names the domain and the scheme, and states its degree, the number of its points and weights, the largest ratio of the absolute values of two weights (inf if some and nan if all weights are 0), its tolerance and whether all weights are positive; for cubes and simplices it says whether all points are strictly inside, inside or on the boundary, or some outside; the title, authors, journal, volume, number, pages, year and address of the source are shown if the record has them; the comments follow in their order. A scheme without points cannot be printed; for SnScheme the position is wrong (the sums run along the wrong axis); the authors of a source given as one string (u2.krylov) are split into characters.", "quantifier": "all schemes, names, sources, comments, weights and points", "why_tests_cant": "The text is for reading; tests call print at most and compare nothing, and the special cases (zero weights, points on the boundary, missing fields) are spread over all schemes.", "anchors": ["quadpy/helpers/_class.py:QuadratureScheme.__str__", "quadpy/helpers/misc.py:article", "quadpy/cn/_helpers.py:CnScheme.points_inside", "quadpy/tn/_helpers.py:TnScheme.points_inside", "quadpy/sn/_helpers.py:SnScheme.points_inside", "quadpy/u2/_krylov.py:krylov"]}
{"id": "C90", "title": "What compute_residuals of a scheme for the sphere reports", "statement": "For a U3Scheme with points on the unit sphere, compute_residuals(level) returns level+1 non-negative numbers. They are all 0 exactly if the scheme integrates every polynomial of degree at most level over the sphere exactly; and if none is larger than eps, the error (for the unit sphere) for each monomial of degree at most level is at most eps times the sum of the absolute values of its coefficients in terms of the spherical harmonics.", "quantifier": "all schemes with points on the unit sphere, all levels, all evaluators of spherical harmonics that meet the stated contract (integrals and span)", "why_tests_cant": "The test-suite uses the residuals to accept the degrees of the schemes; that zero residuals mean exactness for all polynomials, and nothing less, is an equivalence over all schemes and polynomials.", "anchors": ["quadpy/u3/_helpers.py:U3Scheme.compute_residuals", "quadpy/u3/_helpers.py:U3Scheme.integrate"]}
{"id": "C91", "title": "Composite integration over meshes of boxes and simplices", "statement": "Cut a box or a simplex into parts, again and again, and add up what integrate(f, part) returns for the parts. If f is continuous and the scheme is exact for constants with points in the domain, the sum tends to the integral of f over the whole domain as the parts get small, whichever way they were cut. For a scheme of degree d the error of the sum is at most the volume of the whole domain times (1 + the sum of the absolute values of the weights) times e, if on each part f is within e of some polynomial of degree d. Every box and every simplex can be cut into parts that are smaller than any given size.", "quantifier": "all dimensions, boxes, simplices (degenerate ones included), all meshes obtained by cutting, all continuous integrands, all schemes for the cube or the simplex of degree at least 0 with points in the domain", "why_tests_cant": "Ranges over all meshes and all continuous integrands; a limit is not observable in finitely many runs.", "anchors": ["quadpy/cn/_helpers.py:CnScheme.integrate", "quadpy/cn/_helpers.py:ncube_points", "quadpy/tn/_helpers.py:TnScheme.integrate", "quadpy/tn/_helpers.py:get_vol"]}
{"id": "C92", "title": "Order of convergence in several dimensions", "statement": "If the partial derivatives of order d+1 of the integrand are at most M in absolute value, a scheme of degree d with points in the domain makes an error of at most volume * (1 + sum of |weights|) * M * (n*h)^(d+1) / (d+1)!: for the sum of integrate() over the parts of size h of a box (h/2 in place of h) or of a simplex, and for one call on a ball or a sphere of radius h in n dimensions.", "quantifier": "all dimensions n, boxes, simplices, balls and spheres, all meshes obtained by cutting, all degrees d, all schemes of degree d with points in the domain, all integrands with d+1 partial derivatives", "why_tests_cant": "Ranges over all integrands and meshes; a measured order of convergence for a few functions says nothing about the constant or about other functions.", "anchors": ["quadpy/cn/_helpers.py:CnScheme.integrate", "quadpy/tn/_helpers.py:TnScheme.integrate", "quadpy/sn/_helpers.py:SnScheme.integrate", "quadpy/un/_helpers.py:UnScheme.integrate"]}
{"id": "C93", "title": "Gauss-Hermite and Gauss-Laguerre integration: error and convergence", "statement": "e1r2.gauss_hermite(n).integrate(f) and e1r.gauss_laguerre(n, alpha).integrate(f) return an array with one entry v. If f has 2m derivatives on the line, the last one at most M in absolute value, the integral I of exp(-x^2) f(x) exists and |v - I| <= 2 sqrt(pi) M / (4^m m!) for every n > m; if the k-th derivatives are at most M a^k the results converge to I as n grows. On the half line, with weight x^alpha exp(-x), |v - I| <= 2 M mu_k / k! for every k < 2n where M bounds the k-th derivative on [0, inf) and mu_k is the weighted integral of x^k, the points are positive, and the results converge if the k-th derivatives are at most M b^k with b < 1.", "quantifier": "all n, all alpha > -1, all integrands with the stated derivatives", "why_tests_cant": "tests check monomials up to the declared degree; they say nothing about functions that are not polynomials, and nothing about the limit", "anchors": ["quadpy/e1r/_helpers.py: E1rScheme.integrate", "quadpy/e1r2/_helpers.py: E1r2Scheme.integrate", "quadpy/e1r/_gauss_laguerre.py: gauss_laguerre", "quadpy/e1r2/_gauss_hermite.py: gauss_hermite"]}
{"id": "C94", "title": "Shape of Gauss rules: inner points, positive weights, uniqueness, interlacing, symmetry", "statement": "The n points of gauss_legendre, gauss_jacobi, gauss_laguerre and gauss_hermite are distinct and lie strictly inside the domain, all weights are positive, any n-point rule that integrates the polynomials of degree 2n-1 exactly has the same points and weights, between two neighbouring points of the rule with n+1 points lies a point of the rule with n points, and for a symmetric weight (Legendre, Jacobi with equal exponents, Hermite) the mirror image of each point is a point with the same weight. Gauss-Radau and Gauss-Lobatto rules for Jacobi weights have distinct points in [-1, 1) and [-1, 1] and positive weights. No rule with N points for the half line or the line integrates all polynomials of degree 2N, so no declared degree above 2N-1 can be right there.", "quantifier": "all n >= 1 and all admitted exponents", "why_tests_cant": "a test sees finitely many n and exponents, and cannot quantify over all other rules", "anchors": ["quadpy/c1/_gauss_legendre.py: gauss_legendre", "quadpy/c1/_gauss_jacobi.py: gauss_jacobi", "quadpy/e1r/_gauss_laguerre.py: gauss_laguerre", "quadpy/e1r2/_gauss_hermite.py: gauss_hermite", "quadpy/c1/_gauss_radau.py: gauss_radau", "quadpy/c1/_gauss_lobatto.py: gauss_lobatto"]}
{"id": "C95", "title": "Sharp error bound of Gauss rules", "statement": "If f has 2n derivatives inside the domain and the last is bounded by M there, then the weighted integral I of f exists and the n-point rule of gauss_jacobi, gauss_laguerre or gauss_hermite is off by at most M N / (2n)!, N being the weighted integral of (x - x_1)^2 ... (x - x_n)^2 over the points of the rule; likewise for gauss_legendre with f also continuous at the ends. The bound is attained by f = (x - x_1)^2 ... (x - x_n)^2, and N is sqrt(pi) n!/2^n for gauss_hermite, int_1 n! (a+1)...(a+n) for gauss_laguerre and 2^(2n+1) n!^4/((2n+1) (2n)!^2) for gauss_legendre. For integrate(f, [a, b]) with gauss_legendre(n) this is (b-a)^(2n+1) n!^4 / ((2n+1) (2n)!^3) M, and for the sum over intervals that tile [a, b], none longer than h, (b-a) h^(2n) n!^4 / ((2n+1) (2n)!^3) M.", "quantifier": "all n >= 1, all admitted exponents, all f with 2n derivatives and all bounds M", "why_tests_cant": "a bound for all integrands of a smoothness class cannot be sampled", "anchors": ["quadpy/c1/_gauss_legendre.py: gauss_legendre", "quadpy/c1/_gauss_jacobi.py: gauss_jacobi", "quadpy/e1r/_gauss_laguerre.py: gauss_laguerre", "quadpy/e1r2/_gauss_hermite.py: gauss_hermite", "quadpy/c1/_helpers.py: C1Scheme.integrate"]}
