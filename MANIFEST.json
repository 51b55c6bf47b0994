{
 "claims": [
  {
   "property": "C01",
   "status": "proved",
   "theorems": [
    "C01_cross_exact",
    "C01_cross_exact_weights",
    "C01_linear_edge_refuted",
    "C01_log_wide_bins_refuted"
   ],
   "note": ""
  },
  {
   "property": "C02",
   "status": "proved",
   "theorems": [
    "C02_auto_exact",
    "C02_min_sep_refuted"
   ],
   "note": ""
  },
  {
   "property": "C03",
   "status": "proved",
   "theorems": [
    "C03_cross_each_pair_once",
    "C03_auto_each_pair_once",
    "C03_total_bounded"
   ],
   "note": ""
  },
  {
   "property": "C04",
   "status": "proved",
   "theorems": [
    "C04_cross_slop",
    "C04_auto_slop",
    "C04_periodic_slop"
   ],
   "note": ""
  },
  {
   "property": "C05",
   "status": "proved",
   "theorems": [
    "C05_only_borderline_pairs"
   ],
   "note": ""
  },
  {
   "property": "C06",
   "status": "proved",
   "theorems": [
    "C06_schedule_independent_auto",
    "C06_schedule_independent_cross"
   ],
   "note": ""
  },
  {
   "property": "C07",
   "status": "proved",
   "theorems": [
    "C07_no_null_child_auto",
    "C07_no_null_child_cross",
    "C07_bin_index_in_range_auto",
    "C07_bin_index_in_range_cross",
    "C07_runs_exist"
   ],
   "note": ""
  },
  {
   "property": "C08",
   "status": "proved",
   "theorems": [
    "C08_objects_preserved",
    "C08_cell_sums",
    "C08_field_totals"
   ],
   "note": ""
  },
  {
   "property": "C09",
   "status": "proved",
   "theorems": [
    "C09_size_bounds_members",
    "C09_exact_for_min_size_0",
    "C09_size_attained",
    "C09_field_size"
   ],
   "note": ""
  },
  {
   "property": "C10",
   "status": "proved",
   "theorems": [
    "C10_split_proper",
    "C10_build_total",
    "C10_depth_bounded"
   ],
   "note": ""
  },
  {
   "property": "C11",
   "status": "proved",
   "theorems": [
    "C11_brute_auto",
    "C11_brute_auto_euclid",
    "C11_brute_cross"
   ],
   "note": ""
  },
  {
   "property": "C12",
   "status": "proved",
   "theorems": [
    "C12_periodic_distance",
    "C12_periodic_cross_exact",
    "C12_periodic_auto_exact"
   ],
   "note": ""
  },
  {
   "property": "C13",
   "status": "proved",
   "theorems": [
    "C13_rlens_distance",
    "C13_rlens_cross_exact"
   ],
   "note": ""
  },
  {
   "property": "C14",
   "status": "proved",
   "theorems": [
    "C14_sphere_distance",
    "C14_sphere_cross",
    "C14_sphere_auto",
    "C14_3d_distance",
    "C14_3d_obtuse_refuted",
    "C14_3d_cross",
    "C14_3d_auto",
    "C14_sphere_refuted",
    "C14_3d_auto_refuted"
   ],
   "note": ""
  },
  {
   "property": "C15",
   "status": "proved",
   "theorems": [
    "C15_count_near",
    "C15_count_near_min_size",
    "C15_sphere_angle",
    "C15_wide_angle_refuted",
    "C15_independent_of_min_size_refuted"
   ],
   "note": ""
  },
  {
   "property": "C16",
   "status": "proved",
   "theorems": [
    "C16_memory_safe",
    "C16_get_near",
    "C16_get_near_min_size",
    "C16_no_repeats",
    "C16_negative_weights_refuted"
   ],
   "note": ""
  },
  {
   "property": "C17",
   "status": "proved",
   "theorems": [
    "C17_auto_one_rank",
    "C17_cross_one_rank",
    "C17_local_one_rank"
   ],
   "note": ""
  },
  {
   "property": "C18",
   "status": "proved",
   "theorems": [
    "C18_auto_patches",
    "C18_cross_patches",
    "C18_auto_patches_mpi",
    "C18_cross_patches_mpi",
    "C18_periodic_auto_patches",
    "C18_same_as_unpatched",
    "C18_sphere_refuted"
   ],
   "note": ""
  },
  {
   "property": "C19",
   "status": "proved",
   "theorems": [
    "C19_auto_patches",
    "C19_auto_patches_mpi",
    "C19_cross_patches",
    "C19_cross_forced_skip_refuted"
   ],
   "note": ""
  },
  {
   "property": "C20",
   "status": "proved",
   "theorems": [
    "C20_runs_consistent",
    "C20_iadd_adds",
    "C20_iadd_commutative",
    "C20_iadd_associative",
    "C20_iadd_identity",
    "C20_cross_accumulates",
    "C20_auto_accumulates",
    "C20_sum_is_repeated_iadd",
    "C20_mpi_accumulates",
    "C20_mpi_tot",
    "C20_mpi_initialize_refuted"
   ],
   "note": ""
  },
  {
   "property": "C21",
   "status": "proved",
   "theorems": [
    "C21_jackknife_pairs",
    "C21_jackknife_rows",
    "C21_jackknife_auto",
    "C21_jackknife_cross",
    "C21_jackknife_auto_mpi"
   ],
   "note": ""
  },
  {
   "property": "C22",
   "status": "proved",
   "theorems": [
    "C22_bootstrap",
    "C22_bootstrap_one_sided",
    "C22_marked",
    "C22_marked_one_sided",
    "C22_sample",
    "C22_sample_partition",
    "C22_pairs_stored"
   ],
   "note": ""
  },
  {
   "property": "C23",
   "status": "proved",
   "theorems": [
    "C23_jackknife",
    "C23_bootstrap",
    "C23_sample",
    "C23_shift_jackknife",
    "C23_shift_bootstrap",
    "C23_shift_sample",
    "C23_constant_rows",
    "C23_shot"
   ],
   "note": ""
  },
  {
   "property": "C24",
   "status": "proved",
   "theorems": [
    "C24_kk",
    "C24_nn",
    "C24_nn_empty_row_refuted"
   ],
   "note": ""
  },
  {
   "property": "C25",
   "status": "proved",
   "theorems": [
    "C25_calculateXi_simple",
    "C25_calculateXi_landy_szalay",
    "C25_calculateXi_one_random",
    "C25_empty_random_bin",
    "C25_error_iff"
   ],
   "note": ""
  },
  {
   "property": "C26",
   "status": "proved",
   "theorems": [
    "C26_completed",
    "C26_linear_min_sep_nonneg_refuted",
    "C26_valid",
    "C26_tiling",
    "C26_tiling_2d"
   ],
   "note": ""
  },
  {
   "property": "C27",
   "status": "proved",
   "theorems": [
    "C27_precedence",
    "C27_accepts",
    "C27_checked",
    "C27_alias",
    "C27_config_alias_refuted"
   ],
   "note": ""
  },
  {
   "property": "C28",
   "status": "proved",
   "theorems": [
    "C28_roundtrip",
    "C28_identical_refuted"
   ],
   "note": ""
  },
  {
   "property": "C29",
   "status": "proved",
   "theorems": [
    "C29_refines_lru",
    "C29_values_correct",
    "C29_most_recent",
    "C29_zero_size_refuted"
   ],
   "note": ""
  },
  {
   "property": "C30",
   "status": "proved",
   "theorems": [
    "C30_assign",
    "C30_assign_exists",
    "C30_quick_assign"
   ],
   "note": ""
  },
  {
   "property": "C31",
   "status": "proved",
   "theorems": [
    "C31_select",
    "C31_covered",
    "C31_partition",
    "C31_ties_refuted",
    "C31_kmeans_agrees"
   ],
   "note": ""
  },
  {
   "property": "C32",
   "status": "proved",
   "theorems": [
    "C32_each_once",
    "C32_centers",
    "C32_defined",
    "C32_draw_one_refuted",
    "C32_cells",
    "C32_few"
   ],
   "note": ""
  },
  {
   "property": "C33",
   "status": "proved",
   "theorems": [
    "C33_brute",
    "C33_slop0",
    "C33_complete",
    "C33_refuted",
    "C33_terminates",
    "C33_unaligned_refuted"
   ],
   "note": ""
  },
  {
   "property": "C34",
   "status": "proved",
   "theorems": [
    "C34_selection",
    "C34_terminates"
   ],
   "note": ""
  },
  {
   "property": "C35",
   "status": "proved",
   "theorems": [
    "C35_single",
    "C35_combined",
    "C35_two_components"
   ],
   "note": ""
  },
  {
   "property": "C36",
   "status": "proved",
   "theorems": [
    "C36_rows",
    "C36_rows_wpos",
    "C36_keep",
    "C36_sumw",
    "C36_error",
    "C36_flag_bits",
    "C36_nan_wpos_refuted"
   ],
   "note": ""
  },
  {
   "property": "C37",
   "status": "proved",
   "theorems": [
    "C37_get_patches_partition"
   ],
   "note": ""
  },
  {
   "property": "C38",
   "status": "proved",
   "theorems": [
    "C38_unit",
    "C38_unit_flat",
    "C38_flat",
    "C38_rotation",
    "C38_gg"
   ],
   "note": ""
  },
  {
   "property": "C39",
   "status": "proved",
   "theorems": [
    "C39_skip_sound_euclid",
    "C39_skip_sound_periodic",
    "C39_skip_sound_rlens",
    "C39_early_exit_sound_euclid",
    "C39_sphere_refuted"
   ],
   "note": ""
  },
  {
   "property": "C40",
   "status": "proved",
   "theorems": [
    "C40_local_cross",
    "C40_local_auto",
    "C40_local_tot",
    "C40_local_3d_refuted",
    "C40_local_periodic_refuted"
   ],
   "note": ""
  },
  {
   "property": "C41",
   "status": "proved",
   "theorems": [
    "C41_cross_rpar",
    "C41_auto_rpar",
    "C41_euclid_refuted",
    "C41_rlens_refuted",
    "C41_auto_orientation_refuted"
   ],
   "note": ""
  },
  {
   "property": "C42",
   "status": "proved",
   "theorems": [
    "C42_refuted",
    "C42_npairs_bounds"
   ],
   "note": ""
  },
  {
   "property": "C43",
   "status": "proved",
   "theorems": [
    "C43_meanr_in_bin_cross",
    "C43_meanr_in_bin_auto",
    "C43_edges"
   ],
   "note": ""
  },
  {
   "property": "C44",
   "status": "proved",
   "theorems": [
    "C44_log",
    "C44_linear_edges",
    "C44_linear_slop_refuted"
   ],
   "note": ""
  },
  {
   "property": "C45",
   "status": "proved",
   "theorems": [
    "C45_minsize_slack",
    "C45_grouping_moves_little"
   ],
   "note": ""
  },
  {
   "property": "C46",
   "status": "proved",
   "theorems": [
    "C46_list",
    "C46_list_negative",
    "C46_out_of_range",
    "C46_scalar",
    "C46_missing",
    "C46_get"
   ],
   "note": ""
  },
  {
   "property": "C47",
   "status": "proved",
   "theorems": [
    "C47_scalar_sums"
   ],
   "note": ""
  },
  {
   "property": "C48",
   "status": "proved",
   "theorems": [
    "C48_cross_row_order",
    "C48_auto_row_order"
   ],
   "note": ""
  },
  {
   "property": "C49",
   "status": "proved",
   "theorems": [
    "C49_top_level_count",
    "C49_top_level_size"
   ],
   "note": ""
  },
  {
   "property": "C50",
   "status": "proved",
   "theorems": [
    "C50_all_pairs_xi"
   ],
   "note": ""
  },
  {
   "property": "C51",
   "status": "proved",
   "theorems": [
    "C51_accumulated",
    "C51_repeated_refuted",
    "C51_results_sum",
    "C51_auto_and_cross",
    "C51_results_sum_mpi"
   ],
   "note": ""
  },
  {
   "property": "C52",
   "status": "proved",
   "theorems": [
    "C52_parse_variable",
    "C52_no_equals",
    "C52_unclosed",
    "C52_empty_value",
    "C52_file"
   ],
   "note": ""
  },
  {
   "property": "C53",
   "status": "proved",
   "theorems": [
    "C53_constructed",
    "C53_select",
    "C53_select_sumw_refuted"
   ],
   "note": ""
  },
  {
   "property": "C54",
   "status": "proved",
   "theorems": [
    "C54_combine",
    "C54_combine_refuted"
   ],
   "note": ""
  },
  {
   "property": "C55",
   "status": "proved",
   "theorems": [
    "C55_rows"
   ],
   "note": ""
  },
  {
   "property": "C56",
   "status": "proved",
   "theorems": [
    "C56_step",
    "C56_descent",
    "C56_refine",
    "C56_step_labels"
   ],
   "note": ""
  },
  {
   "property": "C57",
   "status": "proved",
   "theorems": [
    "C57_never_empty_refuted",
    "C57_moved_only_if_empty"
   ],
   "note": ""
  },
  {
   "property": "C58",
   "status": "proved",
   "theorems": [
    "C58_random",
    "C58_random_defined",
    "C58_kmpp",
    "C58_kmpp_no_exception",
    "C58_kmpp_origin_refuted"
   ],
   "note": ""
  },
  {
   "property": "C59",
   "status": "proved",
   "theorems": [
    "C59_cross_shear",
    "C59_cross_spin",
    "C59_auto_shear",
    "C59_cross_counts",
    "C59_auto_counts"
   ],
   "note": ""
  },
  {
   "property": "C60",
   "status": "proved",
   "theorems": [
    "C60_xip_im_refuted",
    "C60_auto_rotation"
   ],
   "note": ""
  },
  {
   "property": "C61",
   "status": "proved",
   "theorems": [
    "C61_project",
    "C61_cross_shear",
    "C61_auto_shear",
    "C61_rotation",
    "C61_cross_rotation"
   ],
   "note": ""
  },
  {
   "property": "C62",
   "status": "proved",
   "theorems": [
    "C62_transport",
    "C62_spin0",
    "C62_shear_refuted",
    "C62_units_refuted"
   ],
   "note": ""
  },
  {
   "property": "C63",
   "status": "proved",
   "theorems": [
    "C63_cross_direction",
    "C63_auto_direction",
    "C63_sine",
    "C63_radians_refuted"
   ],
   "note": ""
  },
  {
   "property": "C64",
   "status": "proved",
   "theorems": [
    "C64_cross_exact",
    "C64_auto_exact",
    "C64_slop",
    "C64_runs_exist",
    "C64_meanr_refuted",
    "C64_minsep_refuted",
    "C64_edge_refuted"
   ],
   "note": ""
  },
  {
   "property": "C65",
   "status": "proved",
   "theorems": [
    "C65_auto_exact",
    "C65_auto_abs",
    "C65_exists",
    "C65_edges",
    "C65_minv_refuted"
   ],
   "note": ""
  },
  {
   "property": "C66",
   "status": "proved",
   "theorems": [
    "C66_cross12",
    "C66_cross",
    "C66_exists",
    "C66_ordered_sum",
    "C66_tie_refuted"
   ],
   "note": ""
  },
  {
   "property": "C67",
   "status": "proved",
   "theorems": [
    "C67_plane",
    "C67_rotation",
    "C67_parity"
   ],
   "note": ""
  },
  {
   "property": "C68",
   "status": "proved",
   "theorems": [
    "C68_auto",
    "C68_auto_tot",
    "C68_cross12",
    "C68_cross",
    "C68_cross_tot",
    "C68_mpi",
    "C68_skip",
    "C68_exists",
    "C68_mpi_exists",
    "C68_periodic_refuted"
   ],
   "note": ""
  },
  {
   "property": "C69",
   "status": "proved",
   "theorems": [
    "C69_auto",
    "C69_cross12",
    "C69_cross",
    "C69_local_tot",
    "C69_exists",
    "C69_tot_refuted"
   ],
   "note": ""
  },
  {
   "property": "C70",
   "status": "proved",
   "theorems": [
    "C70_accumulated",
    "C70_repeated_refuted",
    "C70_results",
    "C70_jackknife",
    "C70_zeta_scale"
   ],
   "note": ""
  },
  {
   "property": "C71",
   "status": "proved",
   "theorems": [
    "C71_auto_counts",
    "C71_auto_weight0",
    "C71_coincident_refuted"
   ],
   "note": ""
  },
  {
   "property": "C72",
   "status": "proved",
   "theorems": [
    "C72_auto_sides",
    "C72_auto_phases"
   ],
   "note": ""
  },
  {
   "property": "C73",
   "status": "proved",
   "theorems": [
    "C73_cross12_counts",
    "C73_cross12_weight0",
    "C73_cross12_sides",
    "C73_cross12_phases",
    "C73_cross_counts",
    "C73_cross_weight0",
    "C73_cross_sides",
    "C73_cross_phases",
    "C73_logd3_refuted",
    "C73_periodic_refuted"
   ],
   "note": ""
  },
  {
   "property": "C74",
   "status": "proved",
   "theorems": [
    "C74_one_list",
    "C74_two_lists",
    "C74_runs_exist"
   ],
   "note": ""
  },
  {
   "property": "C75",
   "status": "proved",
   "theorems": [
    "C75_compensated",
    "C75_estimate",
    "C75_jackknife",
    "C75_all_pairs",
    "C75_catalogs",
    "C75_varxi_unpatched",
    "C75_varxi_jackknife",
    "C75_imag_refuted",
    "C75_dummy_refuted",
    "C75_raw_varxi_refuted",
    "C75_shot_refuted",
    "C75_reset_refuted",
    "C75_sample_refuted",
    "C75_unsplit_refuted"
   ],
   "note": ""
  },
  {
   "property": "C76",
   "status": "proved",
   "theorems": [
    "C76_roundtrip",
    "C76_exact",
    "C76_jackknife",
    "C76_compensated_refuted",
    "C76_shot_refuted",
    "C76_ascii_cov_refuted",
    "C76_onebin_refuted",
    "C76_reprocess_refuted",
    "C76_stale_refuted"
   ],
   "note": ""
  },
  {
   "property": "C77",
   "status": "proved",
   "theorems": [
    "C77_jackknife",
    "C77_unpatched",
    "C77_unpatched_refuted",
    "C77_bootstrap",
    "C77_marked",
    "C77_errors"
   ],
   "note": ""
  },
  {
   "property": "C78",
   "status": "proved",
   "theorems": [
    "C78_szapudi",
    "C78_excess",
    "C78_third",
    "C78_estimate",
    "C78_szapudi_refuted",
    "C78_ordered_refuted"
   ],
   "note": ""
  },
  {
   "property": "C79",
   "status": "proved",
   "theorems": [
    "C79_auto",
    "C79_cross12",
    "C79_cross",
    "C79_cross_ordered",
    "C79_exists",
    "C79_ordered_sum",
    "C79_minphi_refuted",
    "C79_maxphi_refuted",
    "C79_obtuse_refuted",
    "C79_ordered3d_refuted",
    "C79_collinear_refuted"
   ],
   "note": ""
  },
  {
   "property": "C80",
   "status": "proved",
   "theorems": [
    "C80_auto",
    "C80_cross12",
    "C80_cross",
    "C80_exists",
    "C80_components",
    "C80_axis_flat",
    "C80_axis_sky",
    "C80_mean"
   ],
   "note": ""
  },
  {
   "property": "C81",
   "status": "proved",
   "theorems": [
    "C81_turn45",
    "C81_plane",
    "C81_sky",
    "C81_parity",
    "C81_relabel"
   ],
   "note": ""
  },
  {
   "property": "C82",
   "status": "proved",
   "theorems": [
    "C82_flat",
    "C82_sphere",
    "C82_threed_refuted"
   ],
   "note": ""
  },
  {
   "property": "C83",
   "status": "proved",
   "theorems": [
    "C83_eb",
    "C83_null",
    "C83_tophat",
    "C83_tophat_outer",
    "C83_lens",
    "C83_integral",
    "C83_auto_eb",
    "C83_cross_eb",
    "C83_integral_sums",
    "C83_units",
    "C83_nmap_turn",
    "C83_nmap_units",
    "C83_linear_refuted",
    "C83_variance",
    "C83_variance_lens",
    "C83_lens_sums",
    "C83_nap_documented_refuted",
    "C83_norm",
    "C83_norm_scale",
    "C83_norm_zero_refuted"
   ],
   "note": ""
  },
  {
   "property": "C84",
   "status": "proved",
   "theorems": [
    "C84_branches",
    "C84_T",
    "C84_turned",
    "C84_triangle",
    "C84_perms",
    "C84_eight",
    "C84_variance",
    "C84_mixed_refuted",
    "C84_swap",
    "C84_first",
    "C84_turn45",
    "C84_factors",
    "C84_parity",
    "C84_jacobian",
    "C84_jacobian_sas",
    "C84_weight",
    "C84_weight_sas"
   ],
   "note": ""
  },
  {
   "property": "C85",
   "status": "proved",
   "theorems": [
    "C85_u",
    "C85_v",
    "C85_phi",
    "C85_sas",
    "C85_ruv",
    "C85_minv",
    "C85_slop",
    "C85_minv_refuted",
    "C85_phi_units",
    "C85_phi_size_refuted"
   ],
   "note": ""
  },
  {
   "property": "C86",
   "status": "proved",
   "theorems": [
    "C86_auto",
    "C86_cross12",
    "C86_cross",
    "C86_base_auto",
    "C86_base_cross12",
    "C86_base_cross",
    "C86_runs_exist"
   ],
   "note": ""
  },
  {
   "property": "C87",
   "status": "proved",
   "theorems": [
    "C87_means",
    "C87_empty_ruv",
    "C87_empty_sas",
    "C87_phi_units_refuted",
    "C87_sphere",
    "C87_mean_arc_refuted",
    "C87_multipole",
    "C87_multipole_means"
   ],
   "note": ""
  },
  {
   "property": "C88",
   "status": "proved",
   "theorems": [
    "C88_kernel",
    "C88_weight",
    "C88_zeta",
    "C88_sides",
    "C88_ntri",
    "C88_total",
    "C88_results",
    "C88_results_k",
    "C88_results_g",
    "C88_gamma",
    "C88_gamma_similar",
    "C88_run_auto",
    "C88_run_cross12",
    "C88_run_cross",
    "C88_run_gamma",
    "C88_run_total",
    "C88_negative_refuted",
    "C88_side_refuted"
   ],
   "note": ""
  },
  {
   "property": "C89",
   "status": "proved",
   "theorems": [
    "C89_distance",
    "C89_cross_exact",
    "C89_auto_exact",
    "C89_oldrperp_refuted",
    "C89_old_large",
    "C89_cross_rpar",
    "C89_auto_rpar"
   ],
   "note": ""
  },
  {
   "property": "C90",
   "status": "proved",
   "theorems": [
    "C90_step",
    "C90_converges_refuted"
   ],
   "note": ""
  },
  {
   "property": "C91",
   "status": "proved",
   "theorems": [
    "C91_auto",
    "C91_cross",
    "C91_no_randoms",
    "C91_runs",
    "C91_type_error",
    "C91_missing_input",
    "C91_numbers_differ",
    "C91_writes",
    "C91_patched_files_refuted"
   ],
   "note": ""
  },
  {
   "property": "C92",
   "status": "proved",
   "theorems": [
    "C92_blocks",
    "C92_own_block",
    "C92_errors",
    "C92_sample_blocks",
    "C92_linear",
    "C92_objects",
    "C92_sample_own_refuted",
    "C92_shot",
    "C92_estimate_cov"
   ],
   "note": ""
  },
  {
   "property": "C93",
   "status": "proved",
   "theorems": [
    "C93_copy",
    "C93_arrays",
    "C93_quiet",
    "C93_reprocessed",
    "C93_shared_results_refuted"
   ],
   "note": ""
  },
  {
   "property": "C94",
   "status": "proved",
   "theorems": [
    "C94_unsaved",
    "C94_saved",
    "C94_zero_weight_refuted",
    "C94_units_refuted",
    "C94_eval_refuted",
    "C94_nan_refuted",
    "C94_same_names_refuted",
    "C94_gap_refuted"
   ],
   "note": ""
  },
  {
   "property": "C95",
   "status": "proved",
   "theorems": [
    "C95_kk_noise",
    "C95_uniform_var",
    "C95_kk_exact",
    "C95_kk_auto_noise",
    "C95_kk_auto_exact",
    "C95_nk_noise",
    "C95_nk_lenses",
    "C95_rescaled",
    "C95_lens_weights_refuted",
    "C95_vark_option_refuted",
    "C95_nn_rescaled",
    "C95_nn_unit",
    "C95_kkk_ruv",
    "C95_kkk_sas",
    "C95_kkk_sas_refuted",
    "C95_uniform_varg",
    "C95_gg_exact",
    "C95_kg_exact"
   ],
   "note": ""
  },
  {
   "property": "C96",
   "status": "proved",
   "theorems": [
    "C96_separation",
    "C96_cross",
    "C96_auto",
    "C96_shear_raw",
    "C96_shear_inner",
    "C96_shear_refuted"
   ],
   "note": ""
  },
  {
   "property": "C97",
   "status": "proved",
   "theorems": [
    "C97_given",
    "C97_npatch",
    "C97_error",
    "C97_best",
    "C97_round_trip",
    "C97_antipodal_refuted",
    "C97_weightless_refuted",
    "C97_reassign_refuted",
    "C97_unit_3d_refuted"
   ],
   "note": ""
  },
  {
   "property": "C98",
   "status": "proved",
   "theorems": [
    "C98_corr2",
    "C98_inputs",
    "C98_alone",
    "C98_corr3",
    "C98_norm_refuted",
    "C98_rand2_refuted"
   ],
   "note": ""
  },
  {
   "property": "C99",
   "status": "proved",
   "theorems": [
    "C99_kkk_ggg",
    "C99_nnn",
    "C99_from_file_kkk_ggg",
    "C99_from_file_nnn",
    "C99_random_columns",
    "C99_multipole",
    "C99_stale_refuted",
    "C99_ascii_zero_refuted"
   ],
   "note": ""
  }
 ]
}