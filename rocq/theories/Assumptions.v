(** Generated by tools/mkmanifest.py: the assumptions of every listed theorem. *)
From Verif Require PropsAccum.
From Verif Require PropsAccum3.
From Verif Require PropsAngle.
From Verif Require PropsAper.
From Verif Require PropsAper2.
From Verif Require PropsAper3.
From Verif Require PropsAperVar.
From Verif Require PropsArc.
From Verif Require PropsBin.
From Verif Require PropsBin3.
From Verif Require PropsBin3b.
From Verif Require PropsCat.
From Verif Require PropsCenters.
From Verif Require PropsComp.
From Verif Require PropsComp2.
From Verif Require PropsConfig.
From Verif Require PropsCopy.
From Verif Require PropsCorr.
From Verif Require PropsCorr3IO.
From Verif Require PropsCount.
From Verif Require PropsCov.
From Verif Require PropsCov2.
From Verif Require PropsDriver.
From Verif Require PropsExec2.
From Verif Require PropsExec2Ex.
From Verif Require PropsFin3.
From Verif Require PropsGGG.
From Verif Require PropsGGG2.
From Verif Require PropsGGG3.
From Verif Require PropsIO2.
From Verif Require PropsKM.
From Verif Require PropsKM2.
From Verif Require PropsKMAlt.
From Verif Require PropsKMPP.
From Verif Require PropsLRU.
From Verif Require PropsLocal.
From Verif Require PropsLocal3.
From Verif Require PropsMap3.
From Verif Require PropsMap3b.
From Verif Require PropsMap3c.
From Verif Require PropsMap3d.
From Verif Require PropsMap3e.
From Verif Require PropsMap3f.
From Verif Require PropsMap3h.
From Verif Require PropsMean.
From Verif Require PropsMpiAcc.
From Verif Require PropsMulti.
From Verif Require PropsMultiCov.
From Verif Require PropsMultiCov2.
From Verif Require PropsMultiEx.
From Verif Require PropsMultiG.
From Verif Require PropsMultiGEx.
From Verif Require PropsNear.
From Verif Require PropsNorm.
From Verif Require PropsParams.
From Verif Require PropsPatch.
From Verif Require PropsPatch3.
From Verif Require PropsPatch3Ex.
From Verif Require PropsPer.
From Verif Require PropsRefuted.
From Verif Require PropsRpar.
From Verif Require PropsRperp.
From Verif Require PropsRperpRpar.
From Verif Require PropsRun.
From Verif Require PropsSS.
From Verif Require PropsSampler.
From Verif Require PropsSas.
From Verif Require PropsSas2.
From Verif Require PropsSas3.
From Verif Require PropsSas4.
From Verif Require PropsSave.
From Verif Require PropsSaveEx.
From Verif Require PropsShot.
From Verif Require PropsShot3.
From Verif Require PropsShotG.
From Verif Require PropsSphere.
From Verif Require PropsSpin.
From Verif Require PropsToSas.
From Verif Require PropsToSasEx.
From Verif Require PropsTree.
From Verif Require PropsTri.
From Verif Require PropsTri2.
From Verif Require PropsTri3.
From Verif Require PropsTwoD.
From Verif Require PropsZeta.
From Verif Require PropsZeta2.
From Verif Require PropsZeta3.
From Verif Require PropsZeta4.
Print Assumptions PropsAccum.C51_accumulated.
Print Assumptions PropsAccum.C51_repeated_refuted.
Print Assumptions PropsAccum3.C70_accumulated.
Print Assumptions PropsAccum3.C70_repeated_refuted.
Print Assumptions PropsAngle.C63_cross_direction.
Print Assumptions PropsAngle.C63_auto_direction.
Print Assumptions PropsAngle.C63_sine.
Print Assumptions PropsAngle.C63_radians_refuted.
Print Assumptions PropsAper.C83_eb.
Print Assumptions PropsAper.C83_null.
Print Assumptions PropsAper.C83_tophat.
Print Assumptions PropsAper.C83_tophat_outer.
Print Assumptions PropsAper.C83_lens.
Print Assumptions PropsAper.C83_integral.
Print Assumptions PropsAper2.C83_auto_eb.
Print Assumptions PropsAper2.C83_cross_eb.
Print Assumptions PropsAper2.C83_integral_sums.
Print Assumptions PropsAper2.C83_units.
Print Assumptions PropsAper3.C83_nmap_turn.
Print Assumptions PropsAper3.C83_nmap_units.
Print Assumptions PropsAper3.C83_linear_refuted.
Print Assumptions PropsAperVar.C83_variance.
Print Assumptions PropsAperVar.C83_variance_lens.
Print Assumptions PropsArc.C14_sphere_distance.
Print Assumptions PropsArc.C14_sphere_cross.
Print Assumptions PropsArc.C14_sphere_auto.
Print Assumptions PropsArc.C14_3d_distance.
Print Assumptions PropsArc.C14_3d_obtuse_refuted.
Print Assumptions PropsArc.C14_3d_cross.
Print Assumptions PropsArc.C14_3d_auto.
Print Assumptions PropsArc.C14_sphere_refuted.
Print Assumptions PropsArc.C14_3d_auto_refuted.
Print Assumptions PropsBin.C26_completed.
Print Assumptions PropsBin.C26_linear_min_sep_nonneg_refuted.
Print Assumptions PropsBin.C26_valid.
Print Assumptions PropsBin.C26_tiling.
Print Assumptions PropsBin.C26_tiling_2d.
Print Assumptions PropsBin.C44_log.
Print Assumptions PropsBin.C44_linear_edges.
Print Assumptions PropsBin.C44_linear_slop_refuted.
Print Assumptions PropsBin3.C85_u.
Print Assumptions PropsBin3.C85_v.
Print Assumptions PropsBin3.C85_phi.
Print Assumptions PropsBin3.C85_sas.
Print Assumptions PropsBin3.C85_ruv.
Print Assumptions PropsBin3.C85_minv.
Print Assumptions PropsBin3.C85_slop.
Print Assumptions PropsBin3b.C85_minv_refuted.
Print Assumptions PropsBin3b.C85_phi_units.
Print Assumptions PropsBin3b.C85_phi_size_refuted.
Print Assumptions PropsCat.C36_rows.
Print Assumptions PropsCat.C36_rows_wpos.
Print Assumptions PropsCat.C36_keep.
Print Assumptions PropsCat.C36_sumw.
Print Assumptions PropsCat.C36_error.
Print Assumptions PropsCat.C36_flag_bits.
Print Assumptions PropsCat.C36_nan_wpos_refuted.
Print Assumptions PropsCat.C53_constructed.
Print Assumptions PropsCat.C53_select.
Print Assumptions PropsCat.C53_select_sumw_refuted.
Print Assumptions PropsCat.C54_combine.
Print Assumptions PropsCat.C54_combine_refuted.
Print Assumptions PropsCat.C55_rows.
Print Assumptions PropsCat.C35_single.
Print Assumptions PropsCat.C35_combined.
Print Assumptions PropsCat.C35_two_components.
Print Assumptions PropsCenters.C97_given.
Print Assumptions PropsCenters.C97_npatch.
Print Assumptions PropsCenters.C97_error.
Print Assumptions PropsCenters.C97_best.
Print Assumptions PropsCenters.C97_round_trip.
Print Assumptions PropsCenters.C97_antipodal_refuted.
Print Assumptions PropsCenters.C97_weightless_refuted.
Print Assumptions PropsCenters.C97_reassign_refuted.
Print Assumptions PropsCenters.C97_unit_3d_refuted.
Print Assumptions PropsComp.C75_compensated.
Print Assumptions PropsComp.C75_estimate.
Print Assumptions PropsComp.C75_jackknife.
Print Assumptions PropsComp.C75_all_pairs.
Print Assumptions PropsComp.C75_catalogs.
Print Assumptions PropsComp2.C75_varxi_unpatched.
Print Assumptions PropsComp2.C75_varxi_jackknife.
Print Assumptions PropsComp2.C75_imag_refuted.
Print Assumptions PropsComp2.C75_dummy_refuted.
Print Assumptions PropsComp2.C75_raw_varxi_refuted.
Print Assumptions PropsComp2.C75_shot_refuted.
Print Assumptions PropsComp2.C75_reset_refuted.
Print Assumptions PropsComp2.C75_sample_refuted.
Print Assumptions PropsComp2.C75_unsplit_refuted.
Print Assumptions PropsConfig.C27_precedence.
Print Assumptions PropsConfig.C27_accepts.
Print Assumptions PropsConfig.C27_checked.
Print Assumptions PropsConfig.C27_alias.
Print Assumptions PropsConfig.C27_config_alias_refuted.
Print Assumptions PropsConfig.C28_roundtrip.
Print Assumptions PropsConfig.C28_identical_refuted.
Print Assumptions PropsConfig.C46_list.
Print Assumptions PropsConfig.C46_list_negative.
Print Assumptions PropsConfig.C46_out_of_range.
Print Assumptions PropsConfig.C46_scalar.
Print Assumptions PropsConfig.C46_missing.
Print Assumptions PropsConfig.C46_get.
Print Assumptions PropsCopy.C93_copy.
Print Assumptions PropsCopy.C93_arrays.
Print Assumptions PropsCopy.C93_quiet.
Print Assumptions PropsCopy.C93_reprocessed.
Print Assumptions PropsCopy.C93_shared_results_refuted.
Print Assumptions PropsCorr.C20_runs_consistent.
Print Assumptions PropsCorr.C20_iadd_adds.
Print Assumptions PropsCorr.C20_iadd_commutative.
Print Assumptions PropsCorr.C20_iadd_associative.
Print Assumptions PropsCorr.C20_iadd_identity.
Print Assumptions PropsCorr.C20_cross_accumulates.
Print Assumptions PropsCorr.C20_auto_accumulates.
Print Assumptions PropsCorr.C20_sum_is_repeated_iadd.
Print Assumptions PropsCorr.C25_calculateXi_simple.
Print Assumptions PropsCorr.C25_calculateXi_landy_szalay.
Print Assumptions PropsCorr.C25_calculateXi_one_random.
Print Assumptions PropsCorr.C25_empty_random_bin.
Print Assumptions PropsCorr.C25_error_iff.
Print Assumptions PropsCorr3IO.C99_kkk_ggg.
Print Assumptions PropsCorr3IO.C99_nnn.
Print Assumptions PropsCorr3IO.C99_from_file_kkk_ggg.
Print Assumptions PropsCorr3IO.C99_from_file_nnn.
Print Assumptions PropsCorr3IO.C99_random_columns.
Print Assumptions PropsCorr3IO.C99_multipole.
Print Assumptions PropsCorr3IO.C99_stale_refuted.
Print Assumptions PropsCorr3IO.C99_ascii_zero_refuted.
Print Assumptions PropsCount.C01_cross_exact.
Print Assumptions PropsCount.C01_cross_exact_weights.
Print Assumptions PropsCount.C02_auto_exact.
Print Assumptions PropsCount.C48_cross_row_order.
Print Assumptions PropsCount.C48_auto_row_order.
Print Assumptions PropsCount.C12_periodic_distance.
Print Assumptions PropsCount.C12_periodic_cross_exact.
Print Assumptions PropsCount.C12_periodic_auto_exact.
Print Assumptions PropsCount.C13_rlens_distance.
Print Assumptions PropsCount.C13_rlens_cross_exact.
Print Assumptions PropsCount.C11_brute_auto.
Print Assumptions PropsCount.C11_brute_auto_euclid.
Print Assumptions PropsCount.C11_brute_cross.
Print Assumptions PropsCount.C47_scalar_sums.
Print Assumptions PropsCov.C21_jackknife_pairs.
Print Assumptions PropsCov.C21_jackknife_rows.
Print Assumptions PropsCov.C21_jackknife_auto.
Print Assumptions PropsCov.C21_jackknife_cross.
Print Assumptions PropsCov.C22_bootstrap.
Print Assumptions PropsCov.C22_bootstrap_one_sided.
Print Assumptions PropsCov.C22_marked.
Print Assumptions PropsCov.C22_marked_one_sided.
Print Assumptions PropsCov.C22_sample.
Print Assumptions PropsCov.C22_sample_partition.
Print Assumptions PropsCov.C22_pairs_stored.
Print Assumptions PropsCov2.C23_jackknife.
Print Assumptions PropsCov2.C23_bootstrap.
Print Assumptions PropsCov2.C23_sample.
Print Assumptions PropsCov2.C23_shift_jackknife.
Print Assumptions PropsCov2.C23_shift_bootstrap.
Print Assumptions PropsCov2.C23_shift_sample.
Print Assumptions PropsCov2.C23_constant_rows.
Print Assumptions PropsCov2.C23_shot.
Print Assumptions PropsCov2.C24_kk.
Print Assumptions PropsCov2.C24_nn.
Print Assumptions PropsCov2.C24_nn_empty_row_refuted.
Print Assumptions PropsCov2.C50_all_pairs_xi.
Print Assumptions PropsCov2.C51_results_sum.
Print Assumptions PropsCov2.C51_auto_and_cross.
Print Assumptions PropsCov2.C51_results_sum_mpi.
Print Assumptions PropsCov2.C21_jackknife_auto_mpi.
Print Assumptions PropsDriver.C98_corr2.
Print Assumptions PropsDriver.C98_inputs.
Print Assumptions PropsDriver.C98_alone.
Print Assumptions PropsDriver.C98_corr3.
Print Assumptions PropsDriver.C98_norm_refuted.
Print Assumptions PropsDriver.C98_rand2_refuted.
Print Assumptions PropsExec2.C91_auto.
Print Assumptions PropsExec2.C91_cross.
Print Assumptions PropsExec2.C91_no_randoms.
Print Assumptions PropsExec2.C91_runs.
Print Assumptions PropsExec2.C91_type_error.
Print Assumptions PropsExec2.C91_missing_input.
Print Assumptions PropsExec2.C91_numbers_differ.
Print Assumptions PropsExec2.C91_writes.
Print Assumptions PropsExec2Ex.C91_patched_files_refuted.
Print Assumptions PropsFin3.C87_means.
Print Assumptions PropsFin3.C87_empty_ruv.
Print Assumptions PropsFin3.C87_empty_sas.
Print Assumptions PropsFin3.C87_phi_units_refuted.
Print Assumptions PropsFin3.C87_sphere.
Print Assumptions PropsFin3.C87_mean_arc_refuted.
Print Assumptions PropsFin3.C87_multipole.
Print Assumptions PropsFin3.C87_multipole_means.
Print Assumptions PropsGGG.C80_auto.
Print Assumptions PropsGGG.C80_cross12.
Print Assumptions PropsGGG.C80_cross.
Print Assumptions PropsGGG.C80_exists.
Print Assumptions PropsGGG.C80_components.
Print Assumptions PropsGGG.C80_axis_flat.
Print Assumptions PropsGGG.C80_axis_sky.
Print Assumptions PropsGGG.C80_mean.
Print Assumptions PropsGGG2.C81_turn45.
Print Assumptions PropsGGG2.C81_plane.
Print Assumptions PropsGGG2.C81_sky.
Print Assumptions PropsGGG2.C81_parity.
Print Assumptions PropsGGG2.C81_relabel.
Print Assumptions PropsGGG3.C82_flat.
Print Assumptions PropsGGG3.C82_sphere.
Print Assumptions PropsGGG3.C82_threed_refuted.
Print Assumptions PropsIO2.C76_roundtrip.
Print Assumptions PropsIO2.C76_exact.
Print Assumptions PropsIO2.C76_jackknife.
Print Assumptions PropsIO2.C76_compensated_refuted.
Print Assumptions PropsIO2.C76_shot_refuted.
Print Assumptions PropsIO2.C76_ascii_cov_refuted.
Print Assumptions PropsIO2.C76_onebin_refuted.
Print Assumptions PropsIO2.C76_reprocess_refuted.
Print Assumptions PropsIO2.C76_stale_refuted.
Print Assumptions PropsKM.C30_assign.
Print Assumptions PropsKM.C30_assign_exists.
Print Assumptions PropsKM.C30_quick_assign.
Print Assumptions PropsKM.C31_select.
Print Assumptions PropsKM.C31_covered.
Print Assumptions PropsKM.C31_partition.
Print Assumptions PropsKM.C31_ties_refuted.
Print Assumptions PropsKM.C31_kmeans_agrees.
Print Assumptions PropsKM.C32_each_once.
Print Assumptions PropsKM.C32_centers.
Print Assumptions PropsKM.C32_defined.
Print Assumptions PropsKM.C32_draw_one_refuted.
Print Assumptions PropsKM.C32_cells.
Print Assumptions PropsKM.C32_few.
Print Assumptions PropsKM2.C56_step.
Print Assumptions PropsKM2.C56_descent.
Print Assumptions PropsKM2.C56_refine.
Print Assumptions PropsKM2.C56_step_labels.
Print Assumptions PropsKM2.C57_never_empty_refuted.
Print Assumptions PropsKM2.C57_moved_only_if_empty.
Print Assumptions PropsKMAlt.C90_step.
Print Assumptions PropsKMAlt.C90_converges_refuted.
Print Assumptions PropsKMPP.C58_random.
Print Assumptions PropsKMPP.C58_random_defined.
Print Assumptions PropsKMPP.C58_kmpp.
Print Assumptions PropsKMPP.C58_kmpp_no_exception.
Print Assumptions PropsKMPP.C58_kmpp_origin_refuted.
Print Assumptions PropsLRU.C29_refines_lru.
Print Assumptions PropsLRU.C29_values_correct.
Print Assumptions PropsLRU.C29_most_recent.
Print Assumptions PropsLRU.C29_zero_size_refuted.
Print Assumptions PropsLocal.C40_local_cross.
Print Assumptions PropsLocal.C40_local_auto.
Print Assumptions PropsLocal.C40_local_tot.
Print Assumptions PropsLocal.C40_local_3d_refuted.
Print Assumptions PropsLocal.C40_local_periodic_refuted.
Print Assumptions PropsLocal3.C69_auto.
Print Assumptions PropsLocal3.C69_cross12.
Print Assumptions PropsLocal3.C69_cross.
Print Assumptions PropsMap3.C84_branches.
Print Assumptions PropsMap3.C84_T.
Print Assumptions PropsMap3b.C84_turned.
Print Assumptions PropsMap3b.C84_triangle.
Print Assumptions PropsMap3c.C84_perms.
Print Assumptions PropsMap3c.C84_eight.
Print Assumptions PropsMap3d.C84_variance.
Print Assumptions PropsMap3e.C84_mixed_refuted.
Print Assumptions PropsMap3e.C84_swap.
Print Assumptions PropsMap3e.C84_first.
Print Assumptions PropsMap3e.C84_turn45.
Print Assumptions PropsMap3f.C84_factors.
Print Assumptions PropsMap3f.C84_parity.
Print Assumptions PropsMap3f.C84_jacobian.
Print Assumptions PropsMap3f.C84_jacobian_sas.
Print Assumptions PropsMap3h.C84_weight.
Print Assumptions PropsMap3h.C84_weight_sas.
Print Assumptions PropsMap3h.C83_lens_sums.
Print Assumptions PropsMap3h.C83_nap_documented_refuted.
Print Assumptions PropsMean.C43_meanr_in_bin_cross.
Print Assumptions PropsMean.C43_meanr_in_bin_auto.
Print Assumptions PropsMean.C43_edges.
Print Assumptions PropsMpiAcc.C20_mpi_accumulates.
Print Assumptions PropsMpiAcc.C20_mpi_tot.
Print Assumptions PropsMpiAcc.C20_mpi_initialize_refuted.
Print Assumptions PropsMulti.C71_auto_counts.
Print Assumptions PropsMulti.C71_auto_weight0.
Print Assumptions PropsMulti.C72_auto_sides.
Print Assumptions PropsMulti.C72_auto_phases.
Print Assumptions PropsMulti.C73_cross12_counts.
Print Assumptions PropsMulti.C73_cross12_weight0.
Print Assumptions PropsMulti.C73_cross12_sides.
Print Assumptions PropsMulti.C73_cross12_phases.
Print Assumptions PropsMulti.C73_cross_counts.
Print Assumptions PropsMulti.C73_cross_weight0.
Print Assumptions PropsMulti.C73_cross_sides.
Print Assumptions PropsMulti.C73_cross_phases.
Print Assumptions PropsMultiCov.C92_blocks.
Print Assumptions PropsMultiCov.C92_own_block.
Print Assumptions PropsMultiCov.C92_errors.
Print Assumptions PropsMultiCov.C92_sample_blocks.
Print Assumptions PropsMultiCov.C92_linear.
Print Assumptions PropsMultiCov.C92_objects.
Print Assumptions PropsMultiCov.C92_sample_own_refuted.
Print Assumptions PropsMultiCov2.C92_shot.
Print Assumptions PropsMultiCov2.C92_estimate_cov.
Print Assumptions PropsMultiEx.C74_one_list.
Print Assumptions PropsMultiEx.C74_two_lists.
Print Assumptions PropsMultiEx.C74_runs_exist.
Print Assumptions PropsMultiEx.C73_logd3_refuted.
Print Assumptions PropsMultiEx.C71_coincident_refuted.
Print Assumptions PropsMultiEx.C73_periodic_refuted.
Print Assumptions PropsMultiG.C86_auto.
Print Assumptions PropsMultiG.C86_cross12.
Print Assumptions PropsMultiG.C86_cross.
Print Assumptions PropsMultiGEx.C86_base_auto.
Print Assumptions PropsMultiGEx.C86_base_cross12.
Print Assumptions PropsMultiGEx.C86_base_cross.
Print Assumptions PropsMultiGEx.C86_runs_exist.
Print Assumptions PropsNear.C16_memory_safe.
Print Assumptions PropsNear.C15_count_near.
Print Assumptions PropsNear.C16_get_near.
Print Assumptions PropsNear.C16_get_near_min_size.
Print Assumptions PropsNear.C15_count_near_min_size.
Print Assumptions PropsNear.C16_no_repeats.
Print Assumptions PropsNear.C15_sphere_angle.
Print Assumptions PropsNear.C15_wide_angle_refuted.
Print Assumptions PropsNear.C15_independent_of_min_size_refuted.
Print Assumptions PropsNear.C16_negative_weights_refuted.
Print Assumptions PropsNorm.C83_norm.
Print Assumptions PropsNorm.C83_norm_scale.
Print Assumptions PropsNorm.C83_norm_zero_refuted.
Print Assumptions PropsParams.C52_parse_variable.
Print Assumptions PropsParams.C52_no_equals.
Print Assumptions PropsParams.C52_unclosed.
Print Assumptions PropsParams.C52_empty_value.
Print Assumptions PropsParams.C52_file.
Print Assumptions PropsPatch.C37_get_patches_partition.
Print Assumptions PropsPatch.C39_skip_sound_euclid.
Print Assumptions PropsPatch.C39_skip_sound_periodic.
Print Assumptions PropsPatch.C39_skip_sound_rlens.
Print Assumptions PropsPatch.C39_early_exit_sound_euclid.
Print Assumptions PropsPatch.C39_sphere_refuted.
Print Assumptions PropsPatch.C17_auto_one_rank.
Print Assumptions PropsPatch.C17_cross_one_rank.
Print Assumptions PropsPatch.C17_local_one_rank.
Print Assumptions PropsPatch.C18_auto_patches.
Print Assumptions PropsPatch.C18_cross_patches.
Print Assumptions PropsPatch.C18_auto_patches_mpi.
Print Assumptions PropsPatch.C18_cross_patches_mpi.
Print Assumptions PropsPatch.C18_periodic_auto_patches.
Print Assumptions PropsPatch.C18_same_as_unpatched.
Print Assumptions PropsPatch.C18_sphere_refuted.
Print Assumptions PropsPatch.C19_auto_patches.
Print Assumptions PropsPatch.C19_auto_patches_mpi.
Print Assumptions PropsPatch.C19_cross_patches.
Print Assumptions PropsPatch.C19_cross_forced_skip_refuted.
Print Assumptions PropsPatch3.C68_auto.
Print Assumptions PropsPatch3.C68_auto_tot.
Print Assumptions PropsPatch3.C68_cross12.
Print Assumptions PropsPatch3.C68_cross.
Print Assumptions PropsPatch3.C68_cross_tot.
Print Assumptions PropsPatch3.C68_mpi.
Print Assumptions PropsPatch3.C68_skip.
Print Assumptions PropsPatch3.C68_exists.
Print Assumptions PropsPatch3.C70_results.
Print Assumptions PropsPatch3.C70_jackknife.
Print Assumptions PropsPatch3Ex.C69_local_tot.
Print Assumptions PropsPatch3Ex.C68_mpi_exists.
Print Assumptions PropsPatch3Ex.C69_exists.
Print Assumptions PropsPatch3Ex.C69_tot_refuted.
Print Assumptions PropsPatch3Ex.C70_zeta_scale.
Print Assumptions PropsPatch3Ex.C68_periodic_refuted.
Print Assumptions PropsPer.C96_separation.
Print Assumptions PropsPer.C96_cross.
Print Assumptions PropsPer.C96_auto.
Print Assumptions PropsPer.C96_shear_raw.
Print Assumptions PropsPer.C96_shear_inner.
Print Assumptions PropsPer.C96_shear_refuted.
Print Assumptions PropsRefuted.C01_linear_edge_refuted.
Print Assumptions PropsRefuted.C01_log_wide_bins_refuted.
Print Assumptions PropsRefuted.C02_min_sep_refuted.
Print Assumptions PropsRefuted.C42_refuted.
Print Assumptions PropsRefuted.C42_npairs_bounds.
Print Assumptions PropsRpar.C41_cross_rpar.
Print Assumptions PropsRpar.C41_auto_rpar.
Print Assumptions PropsRpar.C41_euclid_refuted.
Print Assumptions PropsRpar.C41_rlens_refuted.
Print Assumptions PropsRpar.C41_auto_orientation_refuted.
Print Assumptions PropsRperp.C89_distance.
Print Assumptions PropsRperp.C89_cross_exact.
Print Assumptions PropsRperp.C89_auto_exact.
Print Assumptions PropsRperp.C89_oldrperp_refuted.
Print Assumptions PropsRperp.C89_old_large.
Print Assumptions PropsRperpRpar.C89_cross_rpar.
Print Assumptions PropsRperpRpar.C89_auto_rpar.
Print Assumptions PropsRun.C45_minsize_slack.
Print Assumptions PropsRun.C45_grouping_moves_little.
Print Assumptions PropsRun.C03_cross_each_pair_once.
Print Assumptions PropsRun.C03_auto_each_pair_once.
Print Assumptions PropsRun.C03_total_bounded.
Print Assumptions PropsRun.C04_cross_slop.
Print Assumptions PropsRun.C04_auto_slop.
Print Assumptions PropsRun.C04_periodic_slop.
Print Assumptions PropsRun.C05_only_borderline_pairs.
Print Assumptions PropsRun.C06_schedule_independent_auto.
Print Assumptions PropsRun.C06_schedule_independent_cross.
Print Assumptions PropsRun.C07_no_null_child_auto.
Print Assumptions PropsRun.C07_no_null_child_cross.
Print Assumptions PropsRun.C07_bin_index_in_range_auto.
Print Assumptions PropsRun.C07_bin_index_in_range_cross.
Print Assumptions PropsRun.C07_runs_exist.
Print Assumptions PropsSS.C78_szapudi.
Print Assumptions PropsSS.C78_excess.
Print Assumptions PropsSS.C78_third.
Print Assumptions PropsSS.C78_estimate.
Print Assumptions PropsSS.C78_szapudi_refuted.
Print Assumptions PropsSS.C78_ordered_refuted.
Print Assumptions PropsSampler.C34_selection.
Print Assumptions PropsSampler.C34_terminates.
Print Assumptions PropsSampler.C33_brute.
Print Assumptions PropsSampler.C33_slop0.
Print Assumptions PropsSampler.C33_complete.
Print Assumptions PropsSampler.C33_refuted.
Print Assumptions PropsSampler.C33_terminates.
Print Assumptions PropsSampler.C33_unaligned_refuted.
Print Assumptions PropsSas.C79_auto.
Print Assumptions PropsSas.C79_cross12.
Print Assumptions PropsSas.C79_cross.
Print Assumptions PropsSas.C79_cross_ordered.
Print Assumptions PropsSas.C79_exists.
Print Assumptions PropsSas2.C79_ordered_sum.
Print Assumptions PropsSas3.C79_minphi_refuted.
Print Assumptions PropsSas3.C79_maxphi_refuted.
Print Assumptions PropsSas3.C79_obtuse_refuted.
Print Assumptions PropsSas3.C79_ordered3d_refuted.
Print Assumptions PropsSas4.C79_collinear_refuted.
Print Assumptions PropsSave.C94_unsaved.
Print Assumptions PropsSave.C94_saved.
Print Assumptions PropsSaveEx.C94_zero_weight_refuted.
Print Assumptions PropsSaveEx.C94_units_refuted.
Print Assumptions PropsSaveEx.C94_eval_refuted.
Print Assumptions PropsSaveEx.C94_nan_refuted.
Print Assumptions PropsSaveEx.C94_same_names_refuted.
Print Assumptions PropsSaveEx.C94_gap_refuted.
Print Assumptions PropsShot.C95_kk_noise.
Print Assumptions PropsShot.C95_uniform_var.
Print Assumptions PropsShot.C95_kk_exact.
Print Assumptions PropsShot.C95_kk_auto_noise.
Print Assumptions PropsShot.C95_kk_auto_exact.
Print Assumptions PropsShot.C95_nk_noise.
Print Assumptions PropsShot.C95_nk_lenses.
Print Assumptions PropsShot.C95_rescaled.
Print Assumptions PropsShot.C95_lens_weights_refuted.
Print Assumptions PropsShot.C95_vark_option_refuted.
Print Assumptions PropsShot.C95_nn_rescaled.
Print Assumptions PropsShot.C95_nn_unit.
Print Assumptions PropsShot3.C95_kkk_ruv.
Print Assumptions PropsShot3.C95_kkk_sas.
Print Assumptions PropsShot3.C95_kkk_sas_refuted.
Print Assumptions PropsShotG.C95_uniform_varg.
Print Assumptions PropsShotG.C95_gg_exact.
Print Assumptions PropsShotG.C95_kg_exact.
Print Assumptions PropsSphere.C61_project.
Print Assumptions PropsSphere.C61_cross_shear.
Print Assumptions PropsSphere.C61_auto_shear.
Print Assumptions PropsSphere.C61_rotation.
Print Assumptions PropsSphere.C61_cross_rotation.
Print Assumptions PropsSphere.C62_transport.
Print Assumptions PropsSphere.C62_spin0.
Print Assumptions PropsSphere.C62_shear_refuted.
Print Assumptions PropsSphere.C62_units_refuted.
Print Assumptions PropsSpin.C38_unit.
Print Assumptions PropsSpin.C38_unit_flat.
Print Assumptions PropsSpin.C38_flat.
Print Assumptions PropsSpin.C38_rotation.
Print Assumptions PropsSpin.C38_gg.
Print Assumptions PropsSpin.C59_cross_shear.
Print Assumptions PropsSpin.C59_cross_spin.
Print Assumptions PropsSpin.C59_auto_shear.
Print Assumptions PropsSpin.C59_cross_counts.
Print Assumptions PropsSpin.C59_auto_counts.
Print Assumptions PropsSpin.C60_xip_im_refuted.
Print Assumptions PropsSpin.C60_auto_rotation.
Print Assumptions PropsToSas.C88_kernel.
Print Assumptions PropsToSas.C88_weight.
Print Assumptions PropsToSas.C88_zeta.
Print Assumptions PropsToSas.C88_sides.
Print Assumptions PropsToSas.C88_ntri.
Print Assumptions PropsToSas.C88_total.
Print Assumptions PropsToSas.C88_results.
Print Assumptions PropsToSas.C88_results_k.
Print Assumptions PropsToSas.C88_results_g.
Print Assumptions PropsToSas.C88_gamma.
Print Assumptions PropsToSas.C88_gamma_similar.
Print Assumptions PropsToSasEx.C88_run_auto.
Print Assumptions PropsToSasEx.C88_run_cross12.
Print Assumptions PropsToSasEx.C88_run_cross.
Print Assumptions PropsToSasEx.C88_run_gamma.
Print Assumptions PropsToSasEx.C88_run_total.
Print Assumptions PropsToSasEx.C88_negative_refuted.
Print Assumptions PropsToSasEx.C88_side_refuted.
Print Assumptions PropsTree.C08_objects_preserved.
Print Assumptions PropsTree.C08_cell_sums.
Print Assumptions PropsTree.C08_field_totals.
Print Assumptions PropsTree.C09_size_bounds_members.
Print Assumptions PropsTree.C09_exact_for_min_size_0.
Print Assumptions PropsTree.C09_size_attained.
Print Assumptions PropsTree.C09_field_size.
Print Assumptions PropsTree.C10_split_proper.
Print Assumptions PropsTree.C10_build_total.
Print Assumptions PropsTree.C10_depth_bounded.
Print Assumptions PropsTree.C49_top_level_count.
Print Assumptions PropsTree.C49_top_level_size.
Print Assumptions PropsTri.C65_auto_exact.
Print Assumptions PropsTri.C66_cross12.
Print Assumptions PropsTri.C66_cross.
Print Assumptions PropsTri2.C65_auto_abs.
Print Assumptions PropsTri2.C65_exists.
Print Assumptions PropsTri2.C66_exists.
Print Assumptions PropsTri2.C67_plane.
Print Assumptions PropsTri2.C67_rotation.
Print Assumptions PropsTri2.C67_parity.
Print Assumptions PropsTri2.C66_ordered_sum.
Print Assumptions PropsTri2.C65_edges.
Print Assumptions PropsTri3.C66_tie_refuted.
Print Assumptions PropsTri3.C65_minv_refuted.
Print Assumptions PropsTwoD.C64_cross_exact.
Print Assumptions PropsTwoD.C64_auto_exact.
Print Assumptions PropsTwoD.C64_slop.
Print Assumptions PropsTwoD.C64_runs_exist.
Print Assumptions PropsTwoD.C64_meanr_refuted.
Print Assumptions PropsTwoD.C64_minsep_refuted.
Print Assumptions PropsTwoD.C64_edge_refuted.
Print Assumptions PropsZeta.C77_jackknife.
Print Assumptions PropsZeta2.C77_unpatched.
Print Assumptions PropsZeta3.C77_unpatched_refuted.
Print Assumptions PropsZeta4.C77_bootstrap.
Print Assumptions PropsZeta4.C77_marked.
Print Assumptions PropsZeta4.C77_errors.
