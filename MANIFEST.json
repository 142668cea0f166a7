{
 "claims": [
  {
   "property": "C01",
   "status": "proved",
   "theorems": [
    "C01_get_all_exponents"
   ],
   "note": ""
  },
  {
   "property": "C02",
   "status": "proved",
   "theorems": [
    "C02_combine_rows",
    "C02_combine_row_length",
    "C02_combine_count",
    "C02_combine_distinct"
   ],
   "note": ""
  },
  {
   "property": "C03",
   "status": "proved",
   "theorems": [
    "C03_rd_raises",
    "C03_rd_rows",
    "C03_rd_distinct"
   ],
   "note": "Counts are natural numbers in the model; the code's assert rejects every non-positive count."
  },
  {
   "property": "C04",
   "status": "proved",
   "theorems": [
    "C04_fsd_raises",
    "C04_fsd_rows",
    "C04_fsd_fully_symmetric",
    "C04_fsd_count",
    "C04_fsd_distinct",
    "C04_fsd_distinct_refuted",
    "C04_fs_array_rows"
   ],
   "note": "The rows are distinct when the values are distinct and non-zero; with a zero value they repeat (refuted variant)."
  },
  {
   "property": "C05",
   "status": "proved",
   "theorems": [
    "C05_pm_rows",
    "C05_pm_count",
    "C05_pm_distinct",
    "C05_pm_roll_rows",
    "C05_pm_roll_count"
   ],
   "note": ""
  },
  {
   "property": "C06",
   "status": "proved",
   "theorems": [
    "C06_untangle_pairs",
    "C06_untangle_sum"
   ],
   "note": ""
  },
  {
   "property": "C07",
   "status": "proved",
   "theorems": [
    "C07_expand_symmetries",
    "C07_t3_expand",
    "C07_u3_expand",
    "C07_unknown_key",
    "C07_defined"
   ],
   "note": "For the three expand_symmetries functions; entries must supply one weight per parameter column."
  },
  {
   "property": "C08",
   "status": "proved",
   "theorems": [
    "C08_dihedral4",
    "C08_c4",
    "C08_reflections",
    "C08_ngon",
    "C08_orientation"
   ],
   "note": ""
  },
  {
   "property": "C09",
   "status": "proved",
   "theorems": [
    "C09_triangle_barycentric",
    "C09_triangle_symmetric",
    "C09_tetrahedron"
   ],
   "note": ""
  },
  {
   "property": "C10",
   "status": "proved",
   "theorems": [
    "C10_octahedral",
    "C10_ncube",
    "C10_sphere_symmetric",
    "C10_sphere_points"
   ],
   "note": ""
  },
  {
   "property": "C11",
   "status": "proved",
   "theorems": [
    "C11_nsimplex_points",
    "C11_stroud_secrest_nsimplex"
   ],
   "note": ""
  },
  {
   "property": "C12",
   "status": "proved",
   "theorems": [
    "C12_comb",
    "C12_prod",
    "C12_gamma",
    "C12_gamma_integral"
   ],
   "note": "comb: the factorial fallback branch; prod: the reduce over multiplication. C12_gamma_integral relates gamma_n_2 to the integral of Gamma."
  },
  {
   "property": "C13",
   "status": "proved",
   "theorems": [
    "C13_n_outer",
    "C13_c2_product",
    "C13_c3_product",
    "C13_declared_degree",
    "C13_empty"
   ],
   "note": "n_outer entry by entry in row-major order; c2.product and c3.product exact for all exponents up to the 1D degree. A list argument raises at scheme1d.name (not modelled further)."
  },
  {
   "property": "C14",
   "status": "proved",
   "theorems": [
    "C14_monomial_over_box"
   ],
   "note": ""
  },
  {
   "property": "C15",
   "status": "proved",
   "theorems": [
    "C15_monomial_over_simplex"
   ],
   "note": ""
  },
  {
   "property": "C16",
   "status": "proved",
   "theorems": [
    "C16_ewing",
    "C16_tyler",
    "C16_hammer_stroud_1n",
    "C16_thacher",
    "C16_stroud_1957_2",
    "C16_stroud_cn_1_1",
    "C16_stroud_cn_1_2",
    "C16_stroud_cn_3_2",
    "C16_stroud_cn_3_4",
    "C16_stroud_1957_3",
    "C16_stroud_cn_3_6",
    "C16_mcnamee_stenger_3",
    "C16_cools_haegemans_1",
    "C16_every_polynomial"
   ],
   "note": ""
  },
  {
   "property": "C17",
   "status": "proved",
   "theorems": [
    "C17_hammer_stroud_2n",
    "C17_mustard_lyness_blatt",
    "C17_stroud_1966_a",
    "C17_stroud_1966_b",
    "C17_stroud_cn_5_9",
    "C17_mcnamee_stenger_5",
    "C17_stroud_1966_c",
    "C17_stroud_1966_d",
    "C17_stroud_1968",
    "C17_stroud_1968_dim1_refuted",
    "C17_cools_haegemans_2",
    "C17_cools_haegemans_2_delta_refuted",
    "C17_dobrodeev_1978",
    "C17_dobrodeev_1978_other"
   ],
   "note": "Refuted for cools_haegemans_2 with delta2 <> 1 and stroud_1968(1); stroud_1966_d raises for n <= 2 (theorems with suffix _refuted)."
  },
  {
   "property": "C18",
   "status": "proved",
   "theorems": [
    "C18_phillips",
    "C18_dobrodeev_1970",
    "C18_dobrodeev_1970_small_refuted",
    "C18_mcnamee_stenger_7",
    "C18_mcnamee_stenger_9"
   ],
   "note": "dobrodeev_1970 raises for n = 3, 4 although its assertion admits them."
  },
  {
   "property": "C19",
   "status": "proved",
   "theorems": [
    "C19_mcnamee_stenger_3",
    "C19_mcnamee_stenger_5",
    "C19_mcnamee_stenger_7",
    "C19_mcnamee_stenger_9"
   ],
   "note": "Degree 9 needs one relation between the moments beyond full symmetry; the theorem shows it is necessary and sufficient."
  },
  {
   "property": "C20",
   "status": "proved",
   "theorems": [
    "C20_stroud_tn_1_1",
    "C20_lauffer_1",
    "C20_lauffer_2",
    "C20_hammer_stroud_1a",
    "C20_hammer_stroud_1b",
    "C20_every_polynomial"
   ],
   "note": ""
  },
  {
   "property": "C21",
   "status": "proved",
   "theorems": [
    "C21_lauffer_3",
    "C21_hammer_stroud_2",
    "C21_stroud_1961",
    "C21_stroud_1964",
    "C21_stroud_1966_1",
    "C21_stroud_1966_2",
    "C21_stroud_1966_2_refuted",
    "C21_stroud_1966_3",
    "C21_stroud_1966_4",
    "C21_stroud_1966_5",
    "C21_stroud_1966_6",
    "C21_stroud_1966_7",
    "C21_walkington_1",
    "C21_walkington_2",
    "C21_walkington_3"
   ],
   "note": "stroud_1966_2 has no value at n = 2 (a zero denominator), proved as the refuted variant; root finders are parameters with an explicit contract."
  },
  {
   "property": "C22",
   "status": "proved",
   "theorems": [
    "C22_lauffer_4",
    "C22_lauffer_5",
    "C22_stroud_1969",
    "C22_walkington_5",
    "C22_walkington_7"
   ],
   "note": "stroud_1969 takes its linear solver as a parameter with an explicit contract; walkington_5/7 exist only in dimensions 2, 3 / 3."
  },
  {
   "property": "C23",
   "status": "proved",
   "theorems": [
    "C23_grundmann_moeller"
   ],
   "note": ""
  },
  {
   "property": "C24",
   "status": "proved",
   "theorems": [
    "C24_silvester_dimension",
    "C24_silvester",
    "C24_silvester_0_refuted"
   ],
   "note": "n = 0 raises in both variants (refuted variant)."
  },
  {
   "property": "C25",
   "status": "proved",
   "theorems": [
    "C25_stroud_un_3_1",
    "C25_stroud_un_3_2",
    "C25_stroud_un_5_1",
    "C25_stroud_un_5_2",
    "C25_stroud_un_5_3",
    "C25_stroud_un_5_4",
    "C25_stroud_1967",
    "C25_stroud_un_7_2",
    "C25_mysovskikh_1",
    "C25_mysovskikh_2",
    "C25_stroud_1969",
    "C25_stroud_1969_domain"
   ],
   "note": "All un schemes; stroud_1969 relative to the contract of np.linalg.solve."
  },
  {
   "property": "C26",
   "status": "proved",
   "theorems": [
    "C26_stroud_sn_3_1",
    "C26_stroud_sn_5_2",
    "C26_stroud_sn_3_2",
    "C26_stroud_1957",
    "C26_stroud_1966_a",
    "C26_stroud_1966_b",
    "C26_stroud_1966_c",
    "C26_stroud_1966_d",
    "C26_stroud_1967_7_a",
    "C26_stroud_1967_7_b",
    "C26_stroud_1967_7_c",
    "C26_dobrodeev_1970"
   ],
   "note": ""
  },
  {
   "property": "C27",
   "status": "proved",
   "theorems": [
    "C27_stroud_secrest_1",
    "C27_stroud_secrest_2",
    "C27_stroud_secrest_3",
    "C27_stroud_secrest_4",
    "C27_stroud_enr_5_3",
    "C27_stroud_enr_5_4"
   ],
   "note": ""
  },
  {
   "property": "C28",
   "status": "proved",
   "theorems": [
    "C28_stroud_secrest_1",
    "C28_stroud_secrest_2",
    "C28_stroud_secrest_3",
    "C28_stroud_secrest_4",
    "C28_phillips",
    "C28_xiu",
    "C28_lu_darmofal_1",
    "C28_stroud_enr2_5_3",
    "C28_stroud_enr2_5_4",
    "C28_stroud_enr2_5_5a",
    "C28_stroud_enr2_5_5b",
    "C28_stroud_enr2_5_5b_raises",
    "C28_stroud_enr2_5_6",
    "C28_stroud_1967_7_2a",
    "C28_stroud_1967_7_2b",
    "C28_stroud_1967_7_4",
    "C28_cools_haegemans_1",
    "C28_cools_haegemans_2",
    "C28_cools_haegemans_2_half",
    "C28_cools_haegemans_3",
    "C28_cools_haegemans_3_default",
    "C28_total_mass"
   ],
   "note": "Ranges of n are those for which the code's square roots are real; stroud_enr2_5_5b raises from n = 3 on, cools_haegemans_2 raises for delta2 = 1/2."
  },
  {
   "property": "C29",
   "status": "proved",
   "theorems": [
    "C29_newton_cotes_closed",
    "C29_newton_cotes_open",
    "C29_points",
    "C29_index_zero"
   ],
   "note": "Every point count n: closed n>=1, open n>=1; closed(0) raises, open(0) is the empty rule."
  },
  {
   "property": "C30",
   "status": "proved",
   "theorems": [
    "C30_clenshaw_curtis",
    "C30_fejer_1",
    "C30_fejer_2",
    "C30_interpolatory",
    "C30_points",
    "C30_declared_degree_refuted",
    "C30_too_few_points"
   ],
   "note": "Exact for the interpolation degree (n-1, or n for odd n); C30_declared_degree_refuted: the declared degree n is false for every even n."
  },
  {
   "property": "C31",
   "status": "proved",
   "theorems": [
    "C31_chebyshev_gauss_1",
    "C31_chebyshev_gauss_2",
    "C31_declared",
    "C31_no_points"
   ],
   "note": "Exactness against the weight, as integrals over the angle and over (-1,1); chebyshev_gauss_1(0) raises."
  },
  {
   "property": "C32",
   "status": "proved",
   "theorems": [
    "C32_midpoint",
    "C32_trapezoidal",
    "C32_degree_sharp"
   ],
   "note": "midpoint and trapezoidal rules."
  },
  {
   "property": "C33",
   "status": "proved",
   "theorems": [
    "C33_gauss",
    "C33_gauss_jacobi",
    "C33_jacobi_weight",
    "C33_gauss_legendre",
    "C33_gauss_laguerre",
    "C33_laguerre_weight",
    "C33_gauss_hermite",
    "C33_no_points",
    "C33_decomposition_exists"
   ],
   "note": "scheme_from_rc with numpy and mpmath modes (eigenvalue routine is a parameter with its contract as hypothesis, shown satisfiable); every recurrence and functional, and the Jacobi, Legendre, Laguerre and Hermite constructors against improper Riemann integrals. The coefficients orthopy returns are modelled by their documented values."
  },
  {
   "property": "C34",
   "status": "proved",
   "theorems": [
    "C34_radau",
    "C34_lobatto",
    "C34_radau_jacobi",
    "C34_lobatto_jacobi",
    "C34_needs_two_points"
   ],
   "note": "for every recurrence with non-vanishing polynomials at the ends, and for all Jacobi weights with a, b > -1"
  },
  {
   "property": "C35",
   "status": "partial",
   "theorems": [
    "C35_newton_cotes",
    "C35_odd_fejer_clenshaw_curtis",
    "C35_radau_refuted",
    "C35_gauss_optimal",
    "C35_kronrod_refuted",
    "C35_patterson_refuted"
   ],
   "note": "Gauss, Gauss-Lobatto, Newton-Cotes, odd Fejer / Clenshaw-Curtis and Chebyshev-Gauss rules do not over-claim; even Fejer / Clenshaw-Curtis (C30), Gauss-Radau, Gauss-Kronrod (n = 1..12) and Gauss-Patterson (by its rounded points only) do (refuted)."
  },
  {
   "property": "C36",
   "status": "proved",
   "theorems": [
    "C36_krylov",
    "C36_trigonometric",
    "C36_sharp",
    "C36_no_points"
   ],
   "note": "krylov(0) raises."
  },
  {
   "property": "C37",
   "status": "proved",
   "theorems": [
    "C37_integrate_exact",
    "C37_linear",
    "C37_orientation_refuted"
   ],
   "note": "Exactness and linearity on every interval; the orientation-sensitive reading is refuted (reversed limits give the same sign)."
  },
  {
   "property": "C38",
   "status": "proved",
   "theorems": [
    "C38_sound",
    "C38_given",
    "C38_inferred",
    "C38_raises",
    "C38_integrate",
    "C38_integrate_exact",
    "C38_ambiguous_refuted"
   ],
   "note": "With the shapes given or recoverable, every component is the scheme's value; without shapes a vector field on one segment is ambiguous and misread (C38_ambiguous_refuted)."
  },
  {
   "property": "C39",
   "status": "proved",
   "theorems": [
    "C39_exact",
    "C39_grundmann_moeller",
    "C39_vertex_order",
    "C39_constants",
    "C39_wrong_shape"
   ],
   "note": "TnScheme.integrate modelled with the Cayley-Menger volume and the barycentric map; exact over every simplex of n-space for every scheme exact on the unit simplex. simplex_integral is the reference integral under the affine map times |det|, i.e. the change of variables formula is the specification of the integral over a general simplex."
  },
  {
   "property": "C40",
   "status": "proved",
   "theorems": [
    "C40_volume",
    "C40_triangle",
    "C40_segment",
    "C40_triangle_in_space",
    "C40_vertex_order"
   ],
   "note": "get_vol equals |det of edges|/n! for every simplex in n-space (Cayley-Menger determinant proved in general), and the Gram formula for triangles in any space."
  },
  {
   "property": "C41",
   "status": "proved",
   "theorems": [
    "C41_exact",
    "C41_any_integrand",
    "C41_corners",
    "C41_box_corners",
    "C41_jacobian",
    "C41_vectorised_refuted"
   ],
   "note": "Exact over every box for every scheme exact on the reference cube; corners to corners and rows of the Jacobian = partial derivatives for arbitrary corner arrays. For an array of several cubes the result is twice the integral (C41_vectorised_refuted)."
  },
  {
   "property": "C42",
   "status": "proved",
   "theorems": [
    "C42_pyramid",
    "C42_wedge",
    "C42_pyramid_corners",
    "C42_wedge_corners"
   ],
   "note": "Determinant = Jacobian determinant of the placing map for every pyramid and wedge, and corners to corners."
  },
  {
   "property": "C43",
   "status": "proved",
   "theorems": [
    "C43_ball",
    "C43_sphere",
    "C43_disk_and_ball3",
    "C43_circle_and_sphere2",
    "C43_any_integrand",
    "C43_vectorised",
    "C43_ball_schemes",
    "C43_sphere_schemes"
   ],
   "note": "Polynomials on every centre and non-negative radius; any integrand as volume times reference rule; arrays entrywise."
  },
  {
   "property": "C44",
   "status": "partial",
   "theorems": [
    "C44_cube",
    "C44_simplex",
    "C44_ball_refuted"
   ],
   "note": "Cube and simplex proved; for balls the claim is false of the code (C44_ball_refuted): the squares are added along the wrong axis."
  },
  {
   "property": "C45",
   "status": "proved",
   "theorems": [
    "C45_tiling",
    "C45_polynomials",
    "C45_several_intervals_refuted",
    "C45_kronrod",
    "C45_kronrod_polynomials"
   ],
   "note": "For a single interval, the only call the code completes; with several intervals it never returns (refuted variant)."
  },
  {
   "property": "C46",
   "status": "proved",
   "theorems": [
    "C46_any",
    "C46_all",
    "C46_absolute",
    "C46_relative",
    "C46_true_error",
    "C46_no_tolerance"
   ],
   "note": ""
  },
  {
   "property": "C47",
   "status": "partial",
   "theorems": [
    "C47_minimum_length",
    "C47_limit_refuted",
    "C47_limit_partial"
   ],
   "note": "The subinterval limit counts accepted subintervals only, so the unconditional bound is refuted; the bound is proved for accepted subintervals."
  },
  {
   "property": "C48",
   "status": "proved",
   "theorems": [
    "C48_quarter_area",
    "C48_area_in_the_plane",
    "C48_children_cover",
    "C48_children_disjoint",
    "C48_result",
    "C48_tolerance",
    "C48_terminates",
    "C48_terminates_minimum"
   ],
   "note": "Triangles in any ambient dimension; the two schemes are arbitrary functions of the triangle."
  },
  {
   "property": "C49",
   "status": "proved",
   "theorems": [
    "C49_bounds",
    "C49_agree",
    "C49_only_agree",
    "C49_tiny"
   ],
   "note": ""
  },
  {
   "property": "C50",
   "status": "partial",
   "theorems": [
    "C50_reversed",
    "C50_tolerance",
    "C50_upper_infinite",
    "C50_lower_infinite",
    "C50_whole_line_partial",
    "C50_whole_line_args_refuted",
    "C50_reversed_infinite_refuted"
   ],
   "note": "Whole-line calls are proved without extra args; with args the negative half drops them (refuted), and reversed infinite limits are rejected by an assertion (refuted)."
  },
  {
   "property": "C51",
   "status": "partial",
   "theorems": [
    "C51_c2_partial",
    "C51_c2_exact",
    "C51_c3_partial",
    "C51_c3_exact",
    "C51_t2_partial",
    "C51_t2_exact",
    "C51_t3_partial",
    "C51_t3_exact",
    "C51_s2_partial",
    "C51_s2_exact",
    "C51_s3_partial",
    "C51_s3_exact",
    "C51_u3_partial",
    "C51_u3_exact",
    "C51_e2r_partial",
    "C51_e2r_exact",
    "C51_e2r2_partial",
    "C51_e2r2_exact",
    "C51_e3r_partial",
    "C51_e3r_exact",
    "C51_e3r2_partial",
    "C51_e3r2_exact",
    "C51_negative_refuted",
    "C51_c2_refuted",
    "C51_s3_unreachable",
    "C51_u2_refuted",
    "C51_c3_decimals",
    "C51_t2_decimals",
    "C51_dimension"
   ],
   "note": "For every domain: the declared degree for every degree in the table and None above the bound, under the hypothesis that the JSON data files (not in the source tree) declare the degrees the table expects; exactness against the true integral for every table entry served by a closed-form scheme. The full statement is refuted: negative degrees raise KeyError everywhere, c2.get_good_scheme(22) raises, u2.get_good_scheme(n) declares n-1, s3 returns None for 8..14 although its table has an entry."
  },
  {
   "property": "C52",
   "status": "proved",
   "theorems": [
    "C52_optimize",
    "C52_written",
    "C52_file",
    "C52_no_improvement",
    "C52_other_domains_refuted",
    "C52_rank_deficient_refuted"
   ],
   "note": "For the triangle and starting points that determine the weights; if they do not, a worse scheme can be written (C52_rank_deficient_refuted); files of other domains always fail (C52_other_domains_refuted). Solver and minimizer enter by contract; least_squares_exists and try_point_reports show the contracts can be met."
  },
  {
   "property": "C53",
   "status": "partial",
   "theorems": [
    "C53_construct",
    "C53_rejects",
    "C53_warning_refuted"
   ],
   "note": "The warning is issued exactly above the tolerance in the classes that set the domain first; the classes E3r2, P3, S3, U2 and Un raise AttributeError instead (C53_warning_refuted)."
  },
  {
   "property": "C54",
   "status": "partial",
   "theorems": [
    "C54_ball_mcnamee_stenger_3",
    "C54_ball_mcnamee_stenger_5",
    "C54_ball_mcnamee_stenger_7",
    "C54_ball_mcnamee_stenger_9",
    "C54_enr_mcnamee_stenger_3",
    "C54_enr_mcnamee_stenger_5",
    "C54_enr_mcnamee_stenger_7",
    "C54_enr_mcnamee_stenger_9_refuted",
    "C54_enr2_mcnamee_stenger_3",
    "C54_enr2_mcnamee_stenger_5",
    "C54_enr2_mcnamee_stenger_7",
    "C54_enr2_mcnamee_stenger_9"
   ],
   "note": "Proved for the ball and the Gaussian weight and for degrees 3, 5, 7 with exp(-|x|); for mcnamee_stenger_9a/9b with exp(-|x|) the claim is false of the code in every dimension (C54_enr_mcnamee_stenger_9_refuted)."
  },
  {
   "property": "C55",
   "status": "proved",
   "theorems": [
    "C55_sphere_dobrodeev_1978",
    "C55_ball_dobrodeev_1978"
   ],
   "note": "The configuration table of the code covers exactly n = 2..20."
  },
  {
   "property": "C56",
   "status": "partial",
   "theorems": [
    "C56_franke_1",
    "C56_waldron",
    "C56_hammer_wymore",
    "C56_end_points_refuted",
    "C56_radon",
    "C56_mysovskih_1",
    "C56_ditkin_1"
   ],
   "note": "Proved on the open parameter ranges; at the end points that the assertions admit (franke_1 with lmbda=-9/5 or 9/4, waldron with r^2=1/3) the constructor divides by zero (C56_end_points_refuted). hammer_wymore: for every parameter for which all divisions and square roots are defined."
  },
  {
   "property": "C57",
   "status": "proved",
   "theorems": [
    "C57_peirce_1957",
    "C57_lether",
    "C57_lether_0"
   ],
   "note": "numpy's leggauss enters as an argument with its documented contract (LegSpec.v), which is shown satisfiable."
  },
  {
   "property": "C58",
   "status": "proved",
   "theorems": [
    "C58_square",
    "C58_miller_harmonic"
   ],
   "note": "All closed-form c2 schemes; the schemes given by decimal literals or data files are not modelled."
  },
  {
   "property": "C59",
   "status": "proved",
   "theorems": [
    "C59_hexahedron"
   ],
   "note": "All closed-form c3 schemes; the schemes given by decimal literals or data files are not modelled."
  },
  {
   "property": "C60",
   "status": "proved",
   "theorems": [
    "C60_disk",
    "C60_disk_albrecht"
   ],
   "note": "All closed-form s2 schemes; for albrecht_5..8 under the contract of np.roots and np.linalg.solve. The schemes given as decimal literals or data files are not closed forms."
  },
  {
   "property": "C61",
   "status": "proved",
   "theorems": [
    "C61_ball",
    "C61_variants"
   ],
   "note": "All closed-form s3 schemes with fixed data; both variants of hammer_stroud_14_3 and 15_3. Degree-parametrised or decimal schemes are outside the claim."
  },
  {
   "property": "C62",
   "status": "proved",
   "theorems": [
    "C62_triangle",
    "C62_lether"
   ],
   "note": "All closed-form t2 schemes (decimal and JSON tables are outside the claim) and lether(n) for every n >= 1 relative to the eigenvalue solver contract."
  },
  {
   "property": "C63",
   "status": "proved",
   "theorems": [
    "C63_tetrahedron",
    "C63_liu_vinokur_12"
   ],
   "note": "All closed-form t3 schemes, liu_vinokur_12 with its trigonometric cubic included; decimal and JSON tables are outside the claim."
  },
  {
   "property": "C64",
   "status": "proved",
   "theorems": [
    "C64_stroud_u3_11_2",
    "C64_sphere",
    "C64_mclaren_03",
    "C64_mclaren_04"
   ],
   "note": "All closed-form u3 schemes; mclaren_03 and _04 relative to the contract of mp.polyroots, stroud_u3_11_2 (= un.stroud_1969(3)) relative to the contract of np.linalg.solve. Decimal and JSON tables (mclaren_10, Lebedev, ...) are outside the claim."
  },
  {
   "property": "C65",
   "status": "proved",
   "theorems": [
    "C65_e2r",
    "C65_e2r2",
    "C65_e3r",
    "C65_e3r2",
    "C65_integrate_exp",
    "C65_integrate_gauss"
   ],
   "note": "All closed-form schemes of the four modules; decimal and JSON tables are outside the claim."
  },
  {
   "property": "C66",
   "status": "proved",
   "theorems": [
    "C66_p3_felippa_1",
    "C66_p3_felippa_2",
    "C66_p3_felippa_3",
    "C66_p3_felippa_4",
    "C66_p3_felippa_5",
    "C66_p3_felippa_6",
    "C66_p3_felippa_7",
    "C66_p3_felippa_8",
    "C66_w3_felippa_1",
    "C66_w3_felippa_2",
    "C66_w3_felippa_3",
    "C66_pyramids",
    "C66_prisms"
   ],
   "note": "p3.felippa_9 and w3.felippa_4, 5, 6 are given by decimals and not covered."
  },
  {
   "property": "C67",
   "status": "proved",
   "theorems": [
    "C67_coordinates",
    "C67_integrate_spherical",
    "C67_exact",
    "C67_on_sphere",
    "C67_on_sphere_roots"
   ],
   "note": "Over the reals, where there is a single zero (numpy's signed zeros at the poles only choose between names of the same point)."
  },
  {
   "property": "C68",
   "status": "proved",
   "theorems": [
    "C68_read",
    "C68_read_total"
   ],
   "note": "All six loaders."
  },
  {
   "property": "C69",
   "status": "proved",
   "theorems": [
    "C69_kronrod",
    "C69_symmetric",
    "C69_jacobi",
    "C69_legendre",
    "C69_no_points"
   ],
   "note": "For every weight and every n for which the constructor returns; for the plain weight and n = 1..12 (the code's adaptive integration uses n = 10) it is also proved that it returns and that all points lie inside (-1, 1). gauss_kronrod(0) raises. The declared degree is too high, see C35."
  },
  {
   "property": "C70",
   "status": "proved",
   "theorems": [
    "C70_patterson",
    "C70_nested",
    "C70_rejected",
    "C70_weights",
    "C70_weights_even_refuted"
   ],
   "note": "For every leggauss that meets its contract. The documented property of the private _get_weights fails for every even number of points (C70_weights_even_refuted); the library only calls it with odd numbers."
  },
  {
   "property": "C71",
   "status": "proved",
   "theorems": [
    "C71_t2_lyness_jespersen",
    "C71_t2_strang_fix_cowper",
    "C71_t2_laursen_gellert",
    "C71_t2_franke",
    "C71_t3_keast",
    "C71_c2_hammer_stroud",
    "C71_c2_franke",
    "C71_c3_hammer_stroud",
    "C71_c3_witherden_vincent",
    "C71_s2_hammer_stroud",
    "C71_s2_wissmann_becker",
    "C71_w3_felippa",
    "C71_w3_kubatko_yeager_maggi",
    "C71_w3_kubatko_yeager_maggi_exact",
    "C71_tolerance_refuted"
   ],
   "note": "All inline decimal schemes of these domains, checked by verified ball arithmetic inside the kernel; four schemes need twice their tolerance and the bound by the tolerance itself is refuted for them (C71_tolerance_refuted)."
  },
  {
   "property": "C72",
   "status": "proved",
   "theorems": [
    "C72_orthogonal",
    "C72_recovers",
    "C72_left_inverse",
    "C72_right_inverse",
    "C72_errors"
   ],
   "note": "sytrd by its contract (RcSpec.v), whose existence is proved for these matrices"
  },
  {
   "property": "C73",
   "status": "proved",
   "theorems": [
    "C73_modes_agree",
    "C73_default_mode",
    "C73_placeholder",
    "C73_arguments_kept_refuted"
   ],
   "note": "eigh_tridiagonal, Matrix.eigenvects, tridiag_eigen by their contracts; that arguments are left alone is refuted for sympy mode"
  },
  {
   "property": "C74",
   "status": "proved",
   "theorems": [
    "C74_degree",
    "C74_exact",
    "C74_sharp",
    "C74_symmetric",
    "C74_nested",
    "C74_rejected",
    "C74_not_nested"
   ],
   "note": "literals stand for exact decimals; error bound relative to the polynomial with absolute coefficients"
  },
  {
   "property": "C75",
   "status": "proved",
   "theorems": [
    "C75_degree",
    "C75_points",
    "C75_rejected",
    "C75_zero_delta_rejected",
    "C75_default",
    "C75_default_minus",
    "C75_default_refuted",
    "C75_default_minus_refuted",
    "C75_no_default_85"
   ],
   "note": "exactness for all n, all delta, both roots (polarisation: power sums of linear forms over the simplex vertices); existence and failure of the default delta settled for every n"
  },
  {
   "property": "C76",
   "status": "proved",
   "theorems": [
    "C76_sn_stenger_7a",
    "C76_sn_stenger_7b",
    "C76_sn_stenger_9a",
    "C76_sn_stenger_9b",
    "C76_sn_stenger_11a",
    "C76_sn_stenger_11b",
    "C76_enr2_stenger_7a",
    "C76_enr2_stenger_7b",
    "C76_enr2_stenger_9a",
    "C76_enr2_stenger_9b",
    "C76_enr2_stenger_11a",
    "C76_enr2_stenger_11b",
    "C76_sn_stroud_1967_5_a",
    "C76_sn_stroud_1967_5_b",
    "C76_enr2_stroud_1967_5_a",
    "C76_enr2_stroud_1967_5_b",
    "C76_within_own_tolerance_refuted"
   ],
   "note": "The factor 1 is refuted for the constant 1 in five cases (C76_within_own_tolerance_refuted). Decimal literals stand for exact decimal numbers."
  },
  {
   "property": "C77",
   "status": "proved",
   "theorems": [
    "C77_dimension",
    "C77_c3_sarma_stroud",
    "C77_s2_mysovskih_3",
    "C77_p3_felippa_9",
    "C77_conical",
    "C77_u3_mclaren_10",
    "C77_s3_stroud_14_1",
    "C77_e3r2_stroud_14_1",
    "C77_tolerance_refuted"
   ],
   "note": "C77_tolerance_refuted: e3r2.stroud_e3r2_14_1 misses its own test_tolerance on x^14 by more than a factor 20, so its bound is stated with the factor 40. Gauss-Legendre points enter by contract."
  },
  {
   "property": "C78",
   "status": "proved",
   "theorems": [
    "C78_c2",
    "C78_t2",
    "C78_t3"
   ],
   "note": "Closed forms as exact reals; the constructors of the same files that read JSON tables are not included."
  },
  {
   "property": "C79",
   "status": "proved",
   "theorems": [
    "C79_short",
    "C79_walkington_2_short",
    "C79_c2_stroud_7_4_repaired",
    "C79_e2r2_stroud_7_2_repaired",
    "C79_c2_franke_8_repaired",
    "C79_cohen_gismalla",
    "C79_walkington_2_iff",
    "C79_walkington_2_repaired"
   ],
   "note": "The repaired constructors are in RepairModel.v; each comment says which token of the code is changed."
  },
  {
   "property": "C80",
   "status": "proved",
   "theorems": [
    "C80_error_bound",
    "C80_composite",
    "C80_composite_order",
    "C80_gauss_positive",
    "C80_legendre_positive",
    "C80_jacobi_points",
    "C80_clenshaw_curtis_weights",
    "C80_gauss_legendre",
    "C80_gauss_legendre_numpy",
    "C80_clenshaw_curtis",
    "C80_gauss_jacobi",
    "C80_chebyshev_gauss_1",
    "C80_chebyshev_gauss_2",
    "C80_krylov"
   ],
   "note": "The numerical routines (eigh_tridiagonal, solve_banded, numpy's leggauss) are arguments whose contract is a hypothesis; the integral of f with a Jacobi or Chebyshev weight is assumed to exist."
  },
  {
   "property": "C81",
   "status": "partial",
   "theorems": [
    "C81_terminates_partial",
    "C81_terminates_refuted",
    "C81_refuted_absolute_returns"
   ],
   "note": "termination proved for an absolute tolerance alone; refuted when a relative tolerance is given too: an interval accepted under a transiently large estimate of the total uses up all later allowances (finding)"
  },
  {
   "property": "C82",
   "status": "proved",
   "theorems": [
    "C82_gamma",
    "C82_dot",
    "C82_integrate",
    "C82_points",
    "C82_end_points",
    "C82_points_inside",
    "C82_scheme",
    "C82_total",
    "C82_gauss_legendre",
    "C82_points_inside_refuted",
    "C82_short_refuted"
   ],
   "note": "the claims that the points stay inside and that very short intervals are integrated accurately are refuted (findings)"
  },
  {
   "property": "C83",
   "status": "proved",
   "theorems": [
    "C83_round",
    "C83_disk",
    "C83_ball",
    "C83_circle",
    "C83_sphere",
    "C83_disk_polynomial",
    "C83_sphere_polynomial",
    "C83_nball",
    "C83_nsphere",
    "C83_space",
    "C83_plane_and_space",
    "C83_simplex",
    "C83_simplex_points",
    "C83_tiny_disk_refuted"
   ],
   "note": "The volume functions of the package ndim and the determinant of get_vol are external: their accuracy is the hypothesis near k. The C function pow is assumed accurate to two roundings. Overflow is not modelled."
  },
  {
   "property": "C84",
   "status": "proved",
   "theorems": [
    "C84_box_error",
    "C84_simplex_error",
    "C84_ball_error",
    "C84_sphere_error",
    "C84_box_convergence",
    "C84_simplex_convergence",
    "C84_ball_convergence",
    "C84_sphere_convergence",
    "C84_products",
    "C84_disk",
    "C84_triangle",
    "C84_circle",
    "C84_positive"
   ],
   "note": "One-call error bounds and convergence theorems for boxes, simplices, balls and spheres of any dimension, and all families of unbounded degree with non-negative weights."
  },
  {
   "property": "C85",
   "status": "proved",
   "theorems": [
    "C85_last_wins",
    "C85_keys_unique",
    "C85_no_lost_name",
    "C85_import_order",
    "C85_by_name",
    "C85_by_identifier",
    "C85_alias_refuted",
    "C85_good_names"
   ],
   "note": "for any history of calls (last one wins, unique keys, no name lost, order irrelevant when names are distinct) and for the twelve domains with the calls read from /repo; the 116 identifiers that are passed to register but are not keys are listed in C85_alias_refuted"
  },
  {
   "property": "C86",
   "status": "proved",
   "theorems": [
    "C86_balls",
    "C86_sphere",
    "C86_whole_space",
    "C86_simplices",
    "C86_simplices_embedded",
    "C86_cubes",
    "C86_pyramids",
    "C86_wedges",
    "C86_wrong_shape",
    "C86_wrong_shape_message",
    "C86_unchecked_refuted",
    "C86_two_axes_refuted",
    "C86_two_axes_simplices_refuted",
    "C86_one_radius_refuted",
    "C86_sphere_arrays_refuted"
   ],
   "note": "Each way of passing arrays of domains is either proved to be componentwise or, in the _refuted theorems, shown to give other values or to raise. Not covered: axes of length 1 stretched by broadcasting in the refuted cases."
  },
  {
   "property": "C87",
   "status": "proved",
   "theorems": [
    "C87_pyramid",
    "C87_wedge",
    "C87_invariance",
    "C87_odd",
    "C87_planar",
    "C87_polygons",
    "C87_spatial",
    "C87_triangle",
    "C87_tetrahedron",
    "C87_sphere"
   ],
   "note": ""
  },
  {
   "property": "C88",
   "status": "partial",
   "theorems": [
    "C88_total",
    "C88_triangle",
    "C88_planar",
    "C88_plane_total_refuted",
    "C88_circle",
    "C88_line",
    "C88_interval_refuted",
    "C88_quad",
    "C88_parallelogram",
    "C88_quad_refuted",
    "C88_sphere",
    "C88_cap",
    "C88_balls_vtk",
    "C88_solids_mpl",
    "C88_vtk_refuted",
    "C88_mpl_refuted",
    "C88_tetrahedron_refuted",
    "C88_pyramid_total_refuted",
    "C88_space_total_refuted",
    "C88_edges"
   ],
   "note": "Proved for triangles, disks, the plane with weight exp(-r), circles, parallelograms, the sphere, balls with vtk, hexahedra and wedges with mpl; the full claim is false of the code and refuted for intervals, general quadrilaterals, exp(-r^2), pyramids and the combinations of domain and backend that raise. Rendering by matplotlib and vtk is not modelled."
  },
  {
   "property": "C89",
   "status": "partial",
   "theorems": [
    "C89_summary",
    "C89_empty_refuted",
    "C89_position",
    "C89_ball_position_refuted",
    "C89_comments",
    "C89_article",
    "C89_authors_refuted"
   ],
   "note": "Proved for all schemes with at least one point, for cubes and simplices as far as positions go; false of the code, and refuted, for the positions of SnScheme, for authors given as one string and for schemes without points. The formats of floating-point numbers are functions passed to the model."
  },
  {
   "property": "C90",
   "status": "proved",
   "theorems": [
    "C90_bound",
    "C90_zero",
    "C90_total"
   ],
   "note": "The evaluator of orthopy is an argument whose contract (ResSpec.spherical_harmonics) is a hypothesis; an evaluator that meets it is exhibited (C90_contract)."
  },
  {
   "property": "C91",
   "status": "proved",
   "theorems": [
    "C91_boxes_error",
    "C91_simplices_error",
    "C91_boxes",
    "C91_simplices",
    "C91_boxes_refine",
    "C91_simplices_refine"
   ],
   "note": "one call of integrate for each part; MeshSpec.v defines the meshes without reference to the model"
  },
  {
   "property": "C92",
   "status": "proved",
   "theorems": [
    "C92_boxes",
    "C92_simplices",
    "C92_ball",
    "C92_sphere"
   ],
   "note": "partial derivatives are given by OrderSpec.v as derivatives along segments of the domain"
  },
  {
   "property": "C93",
   "status": "proved",
   "theorems": [
    "C93_hermite_error",
    "C93_hermite_converges",
    "C93_laguerre_points",
    "C93_laguerre_error",
    "C93_laguerre_converges"
   ],
   "note": "exact arithmetic; the eigenvalue routine is an argument with its contract as hypothesis; the integrand acts entry by entry"
  },
  {
   "property": "C94",
   "status": "proved",
   "theorems": [
    "C94_jacobi",
    "C94_legendre",
    "C94_laguerre",
    "C94_hermite",
    "C94_mirror_jacobi",
    "C94_mirror_legendre",
    "C94_mirror_hermite",
    "C94_radau",
    "C94_lobatto",
    "C94_optimal_laguerre",
    "C94_optimal_hermite"
   ],
   "note": "exact arithmetic; the eigenvalue routine is an argument with its contract as hypothesis; uniqueness is as sets of (weight, point) pairs, the order of the points is C33"
  },
  {
   "property": "C95",
   "status": "proved",
   "theorems": [
    "C95_jacobi",
    "C95_laguerre",
    "C95_hermite",
    "C95_legendre",
    "C95_attained",
    "C95_hermite_value",
    "C95_laguerre_value",
    "C95_legendre_value",
    "C95_legendre_interval",
    "C95_legendre_composite"
   ],
   "note": "the four Gauss families; N in closed form for three of them; C95_attained shows that the bound cannot be improved"
  }
 ]
}