# Generates properties.jsonl (kept as a script so that appending is easy).
import json
P=[]
def p(title,statement,quantifier,why,anchors):
    P.append(dict(id="C%02d"%(len(P)+1),title=title,statement=statement,quantifier=quantifier,why_tests_cant=why,anchors=anchors))

p("get_all_exponents enumerates every multi-index exactly once",
  "quadpy.helpers.get_all_exponents(dim, D) returns D+1 lists; list number d contains precisely the vectors of dim non-negative integers summing to d, and contains none of them twice.",
  "every dimension dim and every maximal degree D",
  "The set of monomials grows without bound with dim and D; a test checks a handful of (dim, D) pairs, and this function is what all other exactness tests rely on to list the monomials.",
  ["quadpy/helpers/combinatorics.py:get_all_exponents"])
p("combine enumerates all arrangements, each exactly once",
  "combine((values_0,c_0),...,(values_m,c_m)) returns exactly the vectors of length sum c_i that can be cut into positions so that c_i positions carry a value of values_i; the number of rows is multinomial(c_0..c_m) * prod |values_i|^c_i, and rows are pairwise distinct when all values are.",
  "every list of (values, count) pairs",
  "The number of arrangements is combinatorially large in the counts; tests only ever see small literals.",
  ["quadpy/helpers/combinatorics.py:combine"])
p("rd validates its arguments and enumerates all distinct rearrangements",
  "rd(n, items) raises exactly when some count is not positive or the counts add up to more than n; otherwise it returns each vector of length n that contains every value its prescribed number of times and zero elsewhere, and is closed under permuting coordinates.",
  "every n and every list of (value, count) items",
  "Quantifies over all dimensions and item lists.",
  ["quadpy/helpers/combinatorics.py:rd"])
p("fsd/fs_array point sets are fully symmetric and complete",
  "fsd(n, (v_1,c_1), ...) raises exactly when the counts exceed n; otherwise the point set is closed under all coordinate permutations and all sign changes, consists of vectors of length n with c_i entries +-v_i and zeros elsewhere, and has multinomial * 2^(sum c_i) rows.",
  "every n and every list of (value, count) tuples",
  "Every fully symmetric scheme in every dimension rests on this; a test can only try a few dimensions.",
  ["quadpy/helpers/combinatorics.py:fsd","quadpy/helpers/combinatorics.py:fs_array"])
p("pm and pm_roll enumerate all sign patterns of the non-zero entries",
  "pm(v) returns every vector obtained from v by choosing signs of the non-zero entries, each once (2^k rows for k non-zero entries); pm_roll does so for every cyclic shift.",
  "every vector v of every length",
  "Exponential in the length of v; unbounded.",
  ["quadpy/helpers/combinatorics.py:pm","quadpy/helpers/combinatorics.py:pm_roll"])
p("untangle keeps each weight next to its own points",
  "After untangle(data), there are as many weights as points, the k-th weight belongs to the group the k-th point came from, and for every f the weighted sum over the result is the sum over groups of weight * sum of f over the group.",
  "every list of (weight, point list) groups and every integrand",
  "Alignment must hold for all groupings and all integrands.",
  ["quadpy/helpers/misc.py:untangle"])
p("expand_symmetries pairs every generated point with its orbit's weight",
  "For every symmetry dictionary, expand_symmetries returns equally many points and weights, and every generated point is paired with the weight of the generator whose orbit it lies in; an unknown symmetry key raises KeyError.",
  "every symmetry dictionary (any keys, any number of orbits per key) and every integrand",
  "Points are flattened orbit-element-major while weights are tiled; the agreement of the two layouts must hold for arbitrary numbers of orbits.",
  ["quadpy/helpers/symmetries.py:expand_symmetries","quadpy/helpers/symmetries.py:expand_symmetries_points_only"])
p("planar symmetry orbits are closed under their symmetry group",
  "For every key of the planar schemes the generated orbit, as a multiset, is invariant under the symmetry group the key names (dihedral group of the square for d4_*, rotations for c4, reflections for sx/sy/sxy, point reflection for c2_*, regular n-gon rotations for dn), so integration over the square/disk/plane does not depend on orientation.",
  "every parameter value of every orbit",
  "All real parameter values.",
  ["quadpy/helpers/symmetries.py:_d4_ab","quadpy/helpers/symmetries.py:_d4_aa","quadpy/helpers/symmetries.py:_d4_a0","quadpy/helpers/symmetries.py:_c4","quadpy/helpers/symmetries.py:_sxy","quadpy/helpers/symmetries.py:_d"])
p("barycentric orbits on triangle and tetrahedron stay in barycentric coordinates and are S3/S4 closed",
  "Every point generated for triangle and tetrahedron symmetry keys has barycentric coordinates adding up to one, and the orbit is invariant (as a multiset) under all permutations of the vertices the key names; consequently a scheme's result does not depend on vertex order.",
  "every parameter value and every vertex permutation",
  "All real parameters.",
  ["quadpy/helpers/symmetries.py:_d3_aa","quadpy/helpers/symmetries.py:_d3_ab","quadpy/helpers/symmetries.py:_c3_ab","quadpy/t3/_helpers.py:_s31","quadpy/t3/_helpers.py:_s22","quadpy/t3/_helpers.py:_s211","quadpy/t3/_helpers.py:_s1111"])
p("octahedral orbits in 3D are closed under the octahedral group and stay on the sphere",
  "For cube, ball and 3D-space keys (symm_*) and sphere keys (a1, a2, a3, llm, pq0, rs0, rsw, rst ...) the orbits are multiset-invariant under the coordinate permutations and sign changes that the key stands for, and sphere orbits lie on the unit sphere.",
  "every parameter value",
  "All real parameters.",
  ["quadpy/helpers/symmetries.py:_symm_rss_pm","quadpy/u3/_helpers.py:_rsw2","quadpy/u3/_helpers.py:_llm2","quadpy/u3/_helpers.py:_pq02"])
p("the regular simplex constructors return a regular simplex in every dimension",
  "get_nsimplex_points(n) returns n+1 vectors of length n with unit norm, pairwise inner product -1/n and zero sum; the enr2/enr Stroud-Secrest variant is sqrt(n) times as large.",
  "every n >= 1",
  "Arbitrary dimension.",
  ["quadpy/helpers/misc.py:get_nsimplex_points","quadpy/enr2/_stroud_secrest.py:_nsimplex"])
p("comb, prod and gamma_n_2 compute binomials, products and half-integer gamma values",
  "The pure Python fallback of comb returns the binomial coefficient for all non-negative arguments (0 when k > n), prod returns the product of any list, and gamma_n_2 satisfies Gamma(1/2)=sqrt(pi), Gamma(1)=1 and Gamma(x+1)=x*Gamma(x) on half-integers.",
  "all natural arguments / all lists",
  "Unbounded arguments.",
  ["quadpy/helpers/misc.py:comb","quadpy/helpers/misc.py:prod","quadpy/helpers/misc.py:gamma_n_2"])
p("n_outer and product schemes are tensor products",
  "n_outer(x) returns the tensor whose (i_1..i_n) entry is x[i_1]*...*x[i_n]; c2.product(s) and c3.product(s) of a 1D scheme s exact to degree d integrate every monomial whose exponents are all <= d exactly over the square and the cube, each point carrying its own weight.",
  "every 1D scheme with any number of points, every degree d, every array length and dimension",
  "All schemes and all degrees.",
  ["quadpy/helpers/misc.py:n_outer","quadpy/c2/_product.py:product","quadpy/c3/_product.py:product"])
p("the monomial integral over the cube is the true integral",
  "integrate_monomial_over_ncube(limits, exp) equals the iterated Riemann integral of the monomial over the box, and the reference moments used for the cube are the iterated integrals over [-1,1]^n.",
  "every dimension, box and exponent vector",
  "Unbounded dimension and degree.",
  ["quadpy/cn/_helpers.py:integrate_monomial_over_ncube"])
p("the monomial integral over the unit simplex is the true integral",
  "integrate_monomial_over_unit_simplex(k) equals the iterated Riemann integral of x^k over the unit simplex.",
  "every dimension and exponent vector",
  "Unbounded dimension and degree; the code computes it by a recursion.",
  ["quadpy/tn/_helpers.py:integrate_monomial_over_unit_simplex"])
p("n-cube schemes of degree 1 and 3 are exact in every dimension",
  "For every n, stroud_cn_1_1, stroud_cn_1_2 (degree 1), and the degree-2/3 schemes of cn (ewing, tyler, stroud_cn_3_4, stroud_cn_3_6 / stroud 3_2, hammer_stroud_1n, mcnamee_stenger_3, thacher, stroud_1957_2, stroud_1957_3, cools_haegemans_1) integrate every polynomial up to their declared degree exactly over [-1,1]^n.",
  "every dimension n admitted by the scheme and every monomial up to the declared degree",
  "Tests check n up to about 5; users may pass any n.",
  ["quadpy/cn/_ewing.py:ewing","quadpy/cn/_tyler.py:tyler","quadpy/cn/_stroud.py","quadpy/cn/_hammer_stroud.py:hammer_stroud_1n","quadpy/cn/_thacher.py:thacher","quadpy/cn/_stroud_1957.py"])
p("n-cube schemes of degree 5 are exact in every dimension",
  "For every admissible n, hammer_stroud_2n, mustard_lyness_blatt, stroud_cn_5_9, stroud_1966_a..d, stroud_1968, cools_haegemans_2 and mcnamee_stenger_5 integrate every polynomial of degree <= 5 exactly over [-1,1]^n.",
  "every admissible n and every monomial of degree <= 5",
  "Unbounded n.",
  ["quadpy/cn/_hammer_stroud.py:hammer_stroud_2n","quadpy/cn/_mustard_lyness_blatt.py:mustard_lyness_blatt","quadpy/cn/_stroud_1966.py","quadpy/cn/_stroud_1968.py:stroud_1968"])
p("n-cube schemes of degree 7 and 9 are exact in every dimension",
  "For every admissible n, phillips, dobrodeev_1970, and mcnamee_stenger_7a/7b (9a/9b) integrate every polynomial up to the declared degree exactly over [-1,1]^n.",
  "every admissible n and every monomial up to the declared degree",
  "Unbounded n.",
  ["quadpy/cn/_phillips.py:phillips","quadpy/cn/_dobrodeev_1970.py:dobrodeev_1970","quadpy/cn/_mcnamee_stenger.py"])
p("McNamee-Stenger builders are exact for every fully symmetric region they are instantiated with",
  "For every fully symmetric moment functional (the integrator argument), the schemes built by _mcnamee_stenger_3, _5, _7, _9 are exact to degree 3, 5, 7, 9 whenever the divisions and square roots they perform are defined; instantiated for the cube, ball, r and r2 weights.",
  "every dimension n and every fully symmetric integrator",
  "Parametric in an arbitrary functional.",
  ["quadpy/cn/_mcnamee_stenger.py:_mcnamee_stenger_3","quadpy/cn/_mcnamee_stenger.py:_mcnamee_stenger_5","quadpy/cn/_mcnamee_stenger.py:_mcnamee_stenger_7","quadpy/cn/_mcnamee_stenger.py:_mcnamee_stenger_9"])
p("n-simplex schemes of degree 1 and 2 are exact in every dimension",
  "For every n, stroud_tn_1_1, lauffer_1 (degree 1), lauffer_2, hammer_stroud_1a, hammer_stroud_1b, (degree 2) integrate every polynomial up to the declared degree exactly over the n-simplex.",
  "every n >= 1 and every monomial up to the declared degree",
  "Unbounded n.",
  ["quadpy/tn/_lauffer.py:lauffer_1","quadpy/tn/_lauffer.py:lauffer_2","quadpy/tn/_hammer_stroud.py","quadpy/tn/_stroud.py"])
p("n-simplex schemes of degree 3 are exact in every dimension",
  "For every admissible n, lauffer_3, hammer_stroud_2, stroud_1961, stroud_1964a/b, stroud_1966_1..7, walkington_1, 2, 3 integrate every polynomial up to the declared degree exactly over the n-simplex.",
  "every admissible n and every monomial of degree <= 3",
  "Unbounded n.",
  ["quadpy/tn/_lauffer.py:lauffer_3","quadpy/tn/_hammer_stroud.py:hammer_stroud_2","quadpy/tn/_stroud_1961.py","quadpy/tn/_stroud_1964.py","quadpy/tn/_stroud_1966.py","quadpy/tn/_walkington.py"])
p("n-simplex schemes of degree 4, 5 and higher are exact in every dimension",
  "For every admissible n, lauffer_4, lauffer_5, stroud_1969, walkington_5, walkington_7 integrate every polynomial up to the declared degree exactly over the n-simplex.",
  "every admissible n and every monomial up to the declared degree",
  "Unbounded n.",
  ["quadpy/tn/_lauffer.py:lauffer_4","quadpy/tn/_lauffer.py:lauffer_5","quadpy/tn/_stroud_1969.py","quadpy/tn/_walkington.py"])
p("Grundmann-Moeller schemes are exact to degree 2s+1 for every s and every dimension",
  "grundmann_moeller(n, s) integrates every polynomial of degree <= 2s+1 exactly over the n-simplex.",
  "every n and every s",
  "Two unbounded parameters; tests try n <= 6, s <= 4 or so.",
  ["quadpy/tn/_grundmann_moeller.py:grundmann_moeller"])
p("Silvester's Newton-Cotes schemes on simplices are exact to degree n",
  "silvester(dim, 'closed'|'open', n) integrates every polynomial of degree <= n exactly over the dim-simplex.",
  "every dim and every n (closed: n >= 1)",
  "Two unbounded parameters.",
  ["quadpy/tn/_silvester.py:silvester","quadpy/tn/_silvester.py:integrate_bary"])
p("sphere-surface schemes are exact in every dimension",
  "For every admissible n, the un schemes (stroud_un_3_1, 3_2, 5_1, 5_2, 5_3, 5_4, 7_1 = stroud_1967, 7_2, mysovskikh_1, 2, stroud_1969) integrate every polynomial up to their declared degree exactly over the unit sphere in R^n.",
  "every admissible n and every monomial up to the declared degree",
  "Unbounded n.",
  ["quadpy/un/_stroud.py","quadpy/un/_stroud_1967.py","quadpy/un/_mysovskikh.py","quadpy/un/_stroud_1969.py"])
p("ball schemes are exact in every dimension",
  "For every admissible n, the sn schemes (stroud_1957, hammer_stroud_11n/12n with alpha=0, stroud_sn_3_2, stroud_1966_a..d, stroud_1967_7_a/b/c, dobrodeev_1970) integrate every polynomial up to the declared degree exactly over the unit ball in R^n.",
  "every admissible n and every monomial up to the declared degree",
  "Unbounded n.",
  ["quadpy/sn/_hammer_stroud.py","quadpy/sn/_stroud.py","quadpy/sn/_stroud_1966.py","quadpy/sn/_stroud_1967_7.py","quadpy/sn/_dobrodeev_1970.py"])
p("schemes for the weight exp(-r) on R^n are exact in every dimension",
  "For every admissible n, enr schemes stroud_secrest_1..4, stroud_enr_5_3 and stroud_enr_5_4 integrate every polynomial up to the declared degree exactly against exp(-|x|).",
  "every admissible n and every monomial up to the declared degree",
  "Unbounded n.",
  ["quadpy/enr/_stroud_secrest.py","quadpy/enr/_stroud.py"])
p("schemes for the Gaussian weight on R^n are exact in every dimension",
  "For every admissible n, enr2 schemes stroud_secrest_1..4, phillips, xiu, lu_darmofal_1, stroud_enr2_5_3..5_6, stroud_1967_7_2a/2b/7_4 and cools_haegemans_1..3 integrate every polynomial up to the declared degree exactly against exp(-|x|^2).",
  "every admissible n and every monomial up to the declared degree",
  "Unbounded n.",
  ["quadpy/enr2/_stroud_secrest.py","quadpy/enr2/_phillips.py","quadpy/enr2/_stroud.py","quadpy/enr2/_xiu.py","quadpy/enr2/_lu_darmofal.py"])
p("Newton-Cotes rules reach their declared degree for every index",
  "newton_cotes_closed(n) (n>=1) and newton_cotes_open(n) (n>=2) integrate every polynomial of degree <= their .degree exactly on [-1,1], where .degree gains one over the number of points minus one when the number of points is odd.",
  "every index n and every polynomial up to the declared degree",
  "Unbounded n.",
  ["quadpy/c1/_newton_cotes.py:newton_cotes_closed","quadpy/c1/_newton_cotes.py:newton_cotes_open"])
p("Clenshaw-Curtis and Fejer rules are interpolatory for every number of points",
  "clenshaw_curtis(n), fejer_1(n) and fejer_2(n) integrate every polynomial of degree < n exactly on [-1,1], and of degree <= .degree.",
  "every n and every polynomial up to the degree",
  "Unbounded n; weights come out of an inverse FFT.",
  ["quadpy/c1/_clenshaw_curtis.py","quadpy/c1/_fejer.py"])
p("Chebyshev-Gauss rules are exact for every number of points",
  "chebyshev_gauss_1(n) and chebyshev_gauss_2(n) integrate every polynomial up to the declared degree exactly against 1/sqrt(1-x^2) and sqrt(1-x^2).",
  "every n and every polynomial up to the degree",
  "Unbounded n.",
  ["quadpy/c1/_chebyshev_gauss.py"])
p("midpoint and trapezoidal rules are exact to degree one on every interval",
  "midpoint() and trapezoidal() integrate every affine function exactly over every interval when used through integrate().",
  "every interval and every affine function",
  "All intervals and functions.",
  ["quadpy/c1/_midpoint.py","quadpy/c1/_trapezoidal.py","quadpy/c1/_helpers.py:C1Scheme.integrate"])
p("Golub-Welsch: schemes from recurrence coefficients are Gauss rules",
  "scheme_from_rc(rc, mu_0) yields points and weights such that every polynomial of degree <= 2n-1 is integrated exactly by the n-point rule, for the functional whose orthogonal polynomials obey the recurrence rc; the weights are non-negative and add up to mu_0.",
  "every n, every recurrence with positive beta, every functional it is orthogonal for",
  "All functionals, all n.",
  ["quadpy/tools/main.py:scheme_from_rc","quadpy/c1/_gauss_jacobi.py","quadpy/c1/_gauss_legendre.py"])
p("Gauss-Radau and Gauss-Lobatto contain their prescribed nodes and reach their true degree",
  "The modified recurrences used by gauss_radau and gauss_lobatto have the prescribed endpoints among the points and the n-point rules are exact to degree 2n-2 and 2n-3.",
  "every n and every recurrence",
  "All n.",
  ["quadpy/c1/_gauss_radau.py:gauss_radau","quadpy/c1/_gauss_lobatto.py:gauss_lobatto"])
p("declared degrees never exceed what the rule can do",
  "For every scheme constructor in c1, the .degree attribute d is such that all polynomials of degree <= d are integrated exactly (no over-claim).",
  "every constructor argument",
  "A test that searches for the first failing degree on a fixed tolerance cannot establish the claim for all n.",
  ["quadpy/c1/_gauss_kronrod.py:gauss_kronrod","quadpy/c1/_gauss_radau.py","quadpy/c1/_clenshaw_curtis.py","quadpy/c1/_fejer.py"])
p("krylov(n) integrates trigonometric polynomials exactly",
  "u2.krylov(n) integrates every polynomial in x, y of degree <= n-1 exactly over every circle.",
  "every n, centre and radius, every polynomial up to the degree",
  "Unbounded n.",
  ["quadpy/u2/_krylov.py:krylov","quadpy/u2/_helpers.py:U2Scheme.integrate"])
p("1D integrate() transforms exactness to every interval",
  "If a 1D scheme is exact to degree d on [-1,1] then scheme.integrate(f,[a,b]) equals the Riemann integral of f from min(a,b) to max(a,b) for every polynomial f of degree <= d and is linear in f.",
  "every scheme, every interval [a,b] with a <= b, every polynomial",
  "All intervals and polynomials.",
  ["quadpy/c1/_helpers.py:C1Scheme.integrate"])
p("shape inference for vector valued integrands never misattributes axes",
  "_find_shapes recovers domain, range and interval-set shapes from the shapes of f's output, the intervals and the points whenever they are consistent, and raises QuadpyError otherwise.",
  "all shapes",
  "Shape tuples are unbounded.",
  ["quadpy/c1/_helpers.py:_find_shapes"])
p("simplex integrate() transforms exactness to every simplex",
  "If a barycentric scheme is exact to degree d for the reference moments then TnScheme.integrate(f, simplex) is the exact integral of every polynomial of degree <= d over an arbitrary simplex, in particular it does not depend on vertex order if the scheme is symmetric and scales with the volume.",
  "every scheme, every simplex in every dimension, every polynomial",
  "All simplices.",
  ["quadpy/tn/_helpers.py:TnScheme.integrate","quadpy/tn/_helpers.py:transform","quadpy/tn/_helpers.py:get_vol"])
p("simplex volumes by Cayley-Menger are |det|/n!",
  "get_vol(simplex) equals |det of the edge matrix| / n! for n-simplices in R^n and the triangle area formula agrees with half the cross product in 2D.",
  "every simplex in every dimension",
  "All simplices in all dimensions.",
  ["quadpy/tn/_helpers.py:get_vol"])
p("cube integrate() transforms exactness to every box",
  "For every axis-parallel box (cube_points / ncube_points) CnScheme.integrate of a scheme exact to degree d is the exact integral over the box for every polynomial of degree <= d; the multilinear map sends corners to corners.",
  "every box in every dimension, every polynomial, every scheme",
  "All boxes, all dimensions.",
  ["quadpy/cn/_helpers.py:CnScheme.integrate","quadpy/cn/_helpers.py:transform","quadpy/cn/_helpers.py:get_detJ","quadpy/cn/_helpers.py:ncube_points"])
p("pyramid and wedge Jacobians are the derivatives of the transforms",
  "The determinant used by P3Scheme.integrate and W3Scheme.integrate is the Jacobian determinant of the map used to place the points, for every pyramid/wedge.",
  "every pyramid/wedge and every reference point",
  "All geometries.",
  ["quadpy/p3/_helpers.py:_get_det_J","quadpy/p3/_helpers.py:_transform","quadpy/w3/_helpers.py"])
p("disk/ball/circle/sphere integrate() transform with centre and radius",
  "Integrating over a ball or sphere with given centre and radius is the reference integral under the affine map times the volume factor radius^n (radius^(n-1)).",
  "every centre, radius, dimension and integrand",
  "All centres and radii.",
  ["quadpy/sn/_helpers.py:SnScheme.integrate","quadpy/un/_helpers.py:UnScheme.integrate","quadpy/s2/_helpers.py","quadpy/s3/_helpers.py"])
p("points_inside tells whether all points are in the domain",
  "scheme.points_inside() is True iff every point lies in the open reference domain, points_inside_or_boundary() iff in the closed one.",
  "every scheme",
  "All schemes.",
  ["quadpy/sn/_helpers.py:SnScheme.points_inside","quadpy/cn/_helpers.py:CnScheme.points_inside","quadpy/tn/_helpers.py:TnScheme.points_inside"])
p("adaptive 1D integration always works on a partition of the interval",
  "At every iteration of integrate_adaptive accepted and open subintervals together tile the original interval without overlap, so the returned value is the sum of rule values over a partition, and for integrands the rule integrates exactly the result is exact whatever the tolerances.",
  "every integrand, tolerance, number of iterations",
  "All refinement histories.",
  ["quadpy/c1/_adaptive.py:integrate_adaptive"])
p("adaptive 1D integration returns only when the error estimate meets the tolerance",
  "When integrate_adaptive returns, the sum of the error estimates is below the requested absolute tolerance (criteria all / only eps_abs given).",
  "every integrand and tolerance, every refinement history",
  "All histories.",
  ["quadpy/c1/_adaptive.py:integrate_adaptive"])
p("adaptive 1D integration stops at the subinterval limit",
  "integrate_adaptive raises QuadpyError rather than exceeding max_num_subintervals, and raises when a subinterval gets shorter than the minimum length.",
  "every integrand and limit",
  "All histories.",
  ["quadpy/c1/_adaptive.py:integrate_adaptive","quadpy/_scipy_compat.py:quad"])
p("adaptive triangle integration refines consistently and terminates",
  "t2.integrate_adaptive splits each rejected triangle into four triangles of a quarter of the area that tile it, and after finitely many rounds either returns a value whose error estimate is within the tolerance or fails the minimum-area assertion.",
  "every integrand, triangle set and tolerance",
  "All refinement histories.",
  ["quadpy/t2/_tools.py:integrate_adaptive"])
p("Gauss-Kronrod error estimate is non-negative and vanishes only when the two rules agree",
  "The error estimate returned by _gauss_kronrod_integrate lies between 0 and I_tilde when I_tilde is positive, is zero when Gauss and Kronrod values agree, and is I_tilde when I_tilde is tiny.",
  "every integrand and interval",
  "All integrands.",
  ["quadpy/c1/_gauss_kronrod.py:_gauss_kronrod_integrate"])
p("quad() changes variables correctly on infinite and reversed intervals",
  "quad(f,a,b) for a>b returns minus quad(f,b,a); for infinite limits the integrand handed to the adaptive integrator is f(x(t)) x'(t) with x mapping the finite interval onto the requested one; extra args are passed to f on every evaluation.",
  "every f, a, b (finite or infinite) and args",
  "All functions and limits.",
  ["quadpy/_scipy_compat.py:quad"])
p("get_good_scheme covers every degree it advertises",
  "For every integer degree, get_good_scheme(degree) either returns a scheme whose .degree is at least the requested one or returns None; it never raises.",
  "every integer degree, in every domain that offers the function",
  "All integers; tests iterate over a small range.",
  ["quadpy/c2/_helpers.py:get_good_scheme","quadpy/s3/_helpers.py:get_good_scheme","quadpy/u2/_helpers.py:get_good_scheme","quadpy/t2/_helpers.py:get_good_scheme"])
p("the optimizer only ever replaces a scheme by a better one and preserves its structure",
  "optimize(content) returns data with the same symmetry keys and orbit counts, raises when the residual did not decrease, and the CLI writes back the degree, name and weight factor unchanged.",
  "every scheme and every optimizer outcome",
  "The numerical optimizer is an arbitrary black box.",
  ["quadpy/_optimize.py:_optimize","quadpy/_cli.py"])
p("scheme construction classifies data and warns exactly above the tolerance",
  "QuadratureScheme stores symbolic and float versions of points and weights consistently and warns about low precision exactly when test_tolerance > 1e-12, without failing.",
  "every scheme",
  "All schemes.",
  ["quadpy/helpers/_class.py:QuadratureScheme.__init__","quadpy/un/_helpers.py:UnScheme.__init__"])
with open("/verif/properties.jsonl","w") as f:
    for q in P: f.write(json.dumps(q)+"\n")
print(len(P))
