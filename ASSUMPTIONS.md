# Print Assumptions of every theorem

Theorems are grouped by the axioms they depend on.

## none (closed under the global context)

C01_get_all_exponents, C02_combine_count, C02_combine_distinct, C02_combine_row_length, C02_combine_rows, C03_rd_distinct, C03_rd_raises, C03_rd_rows, C04_fs_array_rows, C04_fsd_count, C04_fsd_distinct, C04_fsd_fully_symmetric, C04_fsd_raises, C04_fsd_rows, C05_pm_count, C05_pm_distinct, C05_pm_roll_count, C05_pm_roll_rows, C05_pm_rows, C06_untangle_pairs, C12_comb, C24_silvester_0_refuted, C38_given, C38_inferred, C38_raises, C38_sound, C41_box_corners, C57_lether_0, C69_no_points, C85_alias_refuted, C85_by_identifier, C85_by_name, C85_good_names, C85_import_order, C85_keys_unique, C85_last_wins, C85_no_lost_name, C88_edges

## `ClassicalDedekindReals.sig_forall_dec`, `FunctionalExtensionality.functional_extensionality_dep`

C04_fsd_distinct_refuted, C06_untangle_sum, C07_t3_expand, C08_c4, C08_orientation, C09_tetrahedron, C12_prod, C13_empty, C13_n_outer, C21_stroud_1966_2_refuted, C24_silvester_dimension, C41_any_integrand, C41_corners, C42_pyramid_corners, C42_wedge_corners, C43_vectorised, C44_ball_refuted, C44_cube, C44_simplex, C48_children_cover, C48_children_disjoint, C53_construct, C53_rejects, C53_warning_refuted, C66_prisms, C66_pyramids, C82_gamma, C86_cubes, C86_one_radius_refuted, C86_pyramids, C86_two_axes_refuted, C86_wedges, C86_whole_space, C87_invariance, C87_odd, C87_tetrahedron, C88_interval_refuted, C88_line, C88_parallelogram, C88_total, C89_article, C89_authors_refuted, C89_ball_position_refuted, C89_comments, C89_empty_refuted, C89_position, C89_summary, C91_boxes_refine, C91_simplices_refine

## `ClassicalDedekindReals.sig_forall_dec`, `ClassicalDedekindReals.sig_not_dec`, `FunctionalExtensionality.functional_extensionality_dep`

C07_defined, C07_expand_symmetries, C07_u3_expand, C07_unknown_key, C08_dihedral4, C08_ngon, C08_reflections, C09_triangle_barycentric, C09_triangle_symmetric, C10_ncube, C10_octahedral, C10_sphere_points, C10_sphere_symmetric, C11_nsimplex_points, C11_stroud_secrest_nsimplex, C12_gamma, C17_cools_haegemans_2_delta_refuted, C17_dobrodeev_1978_other, C18_dobrodeev_1970_small_refuted, C19_mcnamee_stenger_3, C19_mcnamee_stenger_5, C19_mcnamee_stenger_7, C19_mcnamee_stenger_9, C25_stroud_1969_domain, C28_cools_haegemans_2_half, C28_stroud_enr2_5_5b_raises, C29_index_zero, C29_points, C30_points, C30_too_few_points, C31_declared, C31_no_points, C33_decomposition_exists, C33_gauss, C33_no_points, C34_lobatto, C34_needs_two_points, C34_radau, C36_no_points, C37_integrate_exact, C37_linear, C38_integrate, C39_constants, C39_wrong_shape, C40_triangle_in_space, C45_polynomials, C45_several_intervals_refuted, C45_tiling, C46_absolute, C46_all, C46_any, C46_no_tolerance, C46_relative, C46_true_error, C47_limit_partial, C47_limit_refuted, C47_minimum_length, C48_area_in_the_plane, C48_quarter_area, C48_result, C48_terminates, C48_terminates_minimum, C48_tolerance, C49_agree, C49_bounds, C49_only_agree, C49_tiny, C50_reversed, C50_reversed_infinite_refuted, C50_tolerance, C51_c2_refuted, C51_s3_unreachable, C51_u2_refuted, C52_file, C52_no_improvement, C52_optimize, C52_other_domains_refuted, C52_written, C56_end_points_refuted, C67_on_sphere, C67_on_sphere_roots, C68_read, C68_read_total, C69_kronrod, C69_symmetric, C70_rejected, C70_weights_even_refuted, C72_errors, C72_left_inverse, C72_orthogonal, C72_recovers, C72_right_inverse, C73_arguments_kept_refuted, C73_default_mode, C73_modes_agree, C73_placeholder, C74_rejected, C75_default_minus_refuted, C75_default_refuted, C75_no_default_85, C75_rejected, C75_zero_delta_rejected, C77_dimension, C80_clenshaw_curtis_weights, C80_error_bound, C80_gauss_positive, C86_balls, C86_simplices_embedded, C86_sphere, C86_sphere_arrays_refuted, C86_unchecked_refuted, C86_wrong_shape, C86_wrong_shape_message, C87_planar, C87_polygons, C87_pyramid, C87_spatial, C87_sphere, C87_triangle, C87_wedge, C88_cap, C88_circle, C88_planar, C88_plane_total_refuted, C90_total, C95_attained

## `ClassicalDedekindReals.sig_forall_dec`, `ClassicalDedekindReals.sig_not_dec`, `Classical_Prop.classic`, `FunctionalExtensionality.functional_extensionality_dep`

C12_gamma_integral, C13_c2_product, C13_c3_product, C13_declared_degree, C14_monomial_over_box, C15_monomial_over_simplex, C16_cools_haegemans_1, C16_every_polynomial, C16_ewing, C16_hammer_stroud_1n, C16_mcnamee_stenger_3, C16_stroud_1957_2, C16_stroud_1957_3, C16_stroud_cn_1_1, C16_stroud_cn_1_2, C16_stroud_cn_3_2, C16_stroud_cn_3_4, C16_stroud_cn_3_6, C16_thacher, C16_tyler, C17_cools_haegemans_2, C17_dobrodeev_1978, C17_hammer_stroud_2n, C17_mcnamee_stenger_5, C17_mustard_lyness_blatt, C17_stroud_1966_a, C17_stroud_1966_b, C17_stroud_1966_c, C17_stroud_1966_d, C17_stroud_1968, C17_stroud_1968_dim1_refuted, C17_stroud_cn_5_9, C18_dobrodeev_1970, C18_mcnamee_stenger_7, C18_mcnamee_stenger_9, C18_phillips, C20_every_polynomial, C20_hammer_stroud_1a, C20_hammer_stroud_1b, C20_lauffer_1, C20_lauffer_2, C20_stroud_tn_1_1, C21_hammer_stroud_2, C21_lauffer_3, C21_stroud_1961, C21_stroud_1964, C21_stroud_1966_1, C21_stroud_1966_2, C21_stroud_1966_3, C21_stroud_1966_4, C21_stroud_1966_5, C21_stroud_1966_6, C21_stroud_1966_7, C21_walkington_1, C21_walkington_2, C21_walkington_3, C22_lauffer_4, C22_lauffer_5, C22_stroud_1969, C22_walkington_5, C22_walkington_7, C23_grundmann_moeller, C24_silvester, C25_mysovskikh_1, C25_mysovskikh_2, C25_stroud_1967, C25_stroud_1969, C25_stroud_un_3_1, C25_stroud_un_3_2, C25_stroud_un_5_1, C25_stroud_un_5_2, C25_stroud_un_5_3, C25_stroud_un_5_4, C25_stroud_un_7_2, C26_dobrodeev_1970, C26_stroud_1957, C26_stroud_1966_a, C26_stroud_1966_b, C26_stroud_1966_c, C26_stroud_1966_d, C26_stroud_1967_7_a, C26_stroud_1967_7_b, C26_stroud_1967_7_c, C26_stroud_sn_3_1, C26_stroud_sn_3_2, C26_stroud_sn_5_2, C27_stroud_enr_5_3, C27_stroud_enr_5_4, C27_stroud_secrest_1, C27_stroud_secrest_2, C27_stroud_secrest_3, C27_stroud_secrest_4, C28_cools_haegemans_1, C28_cools_haegemans_2, C28_cools_haegemans_3, C28_cools_haegemans_3_default, C28_lu_darmofal_1, C28_phillips, C28_stroud_1967_7_2a, C28_stroud_1967_7_2b, C28_stroud_1967_7_4, C28_stroud_enr2_5_3, C28_stroud_enr2_5_4, C28_stroud_enr2_5_5a, C28_stroud_enr2_5_5b, C28_stroud_enr2_5_6, C28_stroud_secrest_1, C28_stroud_secrest_2, C28_stroud_secrest_3, C28_stroud_secrest_4, C28_total_mass, C28_xiu, C29_newton_cotes_closed, C29_newton_cotes_open, C30_clenshaw_curtis, C30_declared_degree_refuted, C30_fejer_1, C30_fejer_2, C30_interpolatory, C31_chebyshev_gauss_1, C31_chebyshev_gauss_2, C32_degree_sharp, C32_midpoint, C32_trapezoidal, C33_gauss_hermite, C33_gauss_jacobi, C33_gauss_laguerre, C33_gauss_legendre, C33_jacobi_weight, C33_laguerre_weight, C34_lobatto_jacobi, C34_radau_jacobi, C35_gauss_optimal, C35_kronrod_refuted, C35_newton_cotes, C35_odd_fejer_clenshaw_curtis, C35_patterson_refuted, C35_radau_refuted, C36_krylov, C36_sharp, C36_trigonometric, C37_orientation_refuted, C38_ambiguous_refuted, C38_integrate_exact, C41_exact, C41_jacobian, C41_vectorised_refuted, C42_pyramid, C42_wedge, C43_any_integrand, C43_ball, C43_ball_schemes, C43_circle_and_sphere2, C43_disk_and_ball3, C43_sphere, C43_sphere_schemes, C45_kronrod, C45_kronrod_polynomials, C50_lower_infinite, C50_upper_infinite, C50_whole_line_args_refuted, C50_whole_line_partial, C51_c2_exact, C51_c2_partial, C51_c3_decimals, C51_c3_exact, C51_c3_partial, C51_dimension, C51_e2r2_exact, C51_e2r2_partial, C51_e2r_exact, C51_e2r_partial, C51_e3r2_exact, C51_e3r2_partial, C51_e3r_exact, C51_e3r_partial, C51_negative_refuted, C51_s2_exact, C51_s2_partial, C51_s3_exact, C51_s3_partial, C51_t2_decimals, C51_t2_exact, C51_t2_partial, C51_t3_exact, C51_t3_partial, C51_u3_exact, C51_u3_partial, C54_ball_mcnamee_stenger_3, C54_ball_mcnamee_stenger_5, C54_ball_mcnamee_stenger_7, C54_ball_mcnamee_stenger_9, C54_enr2_mcnamee_stenger_3, C54_enr2_mcnamee_stenger_5, C54_enr2_mcnamee_stenger_7, C54_enr2_mcnamee_stenger_9, C54_enr_mcnamee_stenger_3, C54_enr_mcnamee_stenger_5, C54_enr_mcnamee_stenger_7, C54_enr_mcnamee_stenger_9_refuted, C55_ball_dobrodeev_1978, C55_sphere_dobrodeev_1978, C56_ditkin_1, C56_franke_1, C56_hammer_wymore, C56_mysovskih_1, C56_radon, C56_waldron, C57_lether, C57_peirce_1957, C58_miller_harmonic, C58_square, C59_hexahedron, C60_disk, C60_disk_albrecht, C61_ball, C61_variants, C62_lether, C62_triangle, C63_liu_vinokur_12, C63_tetrahedron, C64_mclaren_03, C64_mclaren_04, C64_sphere, C64_stroud_u3_11_2, C65_e2r, C65_e2r2, C65_e3r, C65_e3r2, C65_integrate_exp, C65_integrate_gauss, C66_p3_felippa_1, C66_p3_felippa_2, C66_p3_felippa_3, C66_p3_felippa_4, C66_p3_felippa_5, C66_p3_felippa_6, C66_p3_felippa_7, C66_p3_felippa_8, C66_w3_felippa_1, C66_w3_felippa_2, C66_w3_felippa_3, C67_coordinates, C67_exact, C67_integrate_spherical, C69_jacobi, C69_legendre, C70_nested, C70_patterson, C70_weights, C71_c2_franke, C71_c2_hammer_stroud, C71_c3_hammer_stroud, C71_c3_witherden_vincent, C71_s2_hammer_stroud, C71_s2_wissmann_becker, C71_t2_franke, C71_t2_laursen_gellert, C71_t2_lyness_jespersen, C71_t2_strang_fix_cowper, C71_t3_keast, C71_tolerance_refuted, C71_w3_felippa, C71_w3_kubatko_yeager_maggi, C71_w3_kubatko_yeager_maggi_exact, C74_degree, C74_exact, C74_nested, C74_not_nested, C74_sharp, C74_symmetric, C75_default, C75_default_minus, C75_degree, C75_points, C76_enr2_stenger_11a, C76_enr2_stenger_11b, C76_enr2_stenger_7a, C76_enr2_stenger_7b, C76_enr2_stenger_9a, C76_enr2_stenger_9b, C76_enr2_stroud_1967_5_a, C76_enr2_stroud_1967_5_b, C76_sn_stenger_11a, C76_sn_stenger_11b, C76_sn_stenger_7a, C76_sn_stenger_7b, C76_sn_stenger_9a, C76_sn_stenger_9b, C76_sn_stroud_1967_5_a, C76_sn_stroud_1967_5_b, C76_within_own_tolerance_refuted, C77_c3_sarma_stroud, C77_conical, C77_e3r2_stroud_14_1, C77_p3_felippa_9, C77_s2_mysovskih_3, C77_s3_stroud_14_1, C77_tolerance_refuted, C77_u3_mclaren_10, C78_c2, C78_t2, C78_t3, C79_c2_franke_8_repaired, C79_c2_stroud_7_4_repaired, C79_cohen_gismalla, C79_e2r2_stroud_7_2_repaired, C79_short, C79_walkington_2_iff, C79_walkington_2_repaired, C79_walkington_2_short, C80_chebyshev_gauss_1, C80_chebyshev_gauss_2, C80_clenshaw_curtis, C80_composite, C80_composite_order, C80_gauss_jacobi, C80_jacobi_points, C80_krylov, C80_legendre_positive, C81_refuted_absolute_returns, C81_terminates_partial, C81_terminates_refuted, C82_dot, C82_end_points, C82_gauss_legendre, C82_integrate, C82_points, C82_points_inside, C82_points_inside_refuted, C82_scheme, C82_short_refuted, C82_total, C83_ball, C83_circle, C83_disk, C83_disk_polynomial, C83_nball, C83_nsphere, C83_plane_and_space, C83_round, C83_simplex, C83_simplex_points, C83_space, C83_sphere, C83_sphere_polynomial, C83_tiny_disk_refuted, C88_balls_vtk, C88_mpl_refuted, C88_pyramid_total_refuted, C88_solids_mpl, C88_space_total_refuted, C88_sphere, C88_tetrahedron_refuted, C88_vtk_refuted, C90_bound, C90_zero, C93_hermite_converges, C93_hermite_error, C93_laguerre_converges, C93_laguerre_error, C93_laguerre_points, C94_hermite, C94_jacobi, C94_laguerre, C94_legendre, C94_lobatto, C94_mirror_hermite, C94_mirror_jacobi, C94_mirror_legendre, C94_optimal_hermite, C94_optimal_laguerre, C94_radau, C95_hermite, C95_hermite_value, C95_jacobi, C95_laguerre, C95_laguerre_value, C95_legendre, C95_legendre_composite, C95_legendre_interval, C95_legendre_value

## `ClassicalDedekindReals.sig_forall_dec`, `ClassicalDedekindReals.sig_not_dec`, `ClassicalEpsilon.constructive_indefinite_description`, `Classical_Prop.classic`, `FunctionalExtensionality.functional_extensionality_dep`

C39_exact, C39_grundmann_moeller, C39_vertex_order, C40_segment, C40_triangle, C40_vertex_order, C40_volume, C52_rank_deficient_refuted, C80_gauss_legendre, C80_gauss_legendre_numpy, C84_ball_convergence, C84_ball_error, C84_box_convergence, C84_box_error, C84_circle, C84_disk, C84_positive, C84_products, C84_simplex_convergence, C84_simplex_error, C84_sphere_convergence, C84_sphere_error, C84_triangle, C86_simplices, C86_two_axes_simplices_refuted, C88_quad, C88_quad_refuted, C88_triangle, C91_boxes, C91_boxes_error, C91_simplices, C91_simplices_error, C92_ball, C92_boxes, C92_simplices, C92_sphere
