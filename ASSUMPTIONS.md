# Assumptions of each theorem

Generated by `tools/assumptions.py` from the output of `Print Assumptions`.

## Sets of axioms

* A0 (149 theorems): none
* A1 (17 theorems): `ClassicalDedekindReals.sig_forall_dec`
* A2 (59 theorems): `ClassicalDedekindReals.sig_forall_dec`, `FunctionalExtensionality.functional_extensionality_dep`
* A3 (286 theorems): `ClassicalDedekindReals.sig_forall_dec`, `ClassicalDedekindReals.sig_not_dec`, `FunctionalExtensionality.functional_extensionality_dep`
* A4 (123 theorems): `ClassicalDedekindReals.sig_forall_dec`, `ClassicalDedekindReals.sig_not_dec`, `Classical_Prop.classic`, `FunctionalExtensionality.functional_extensionality_dep`
* A5 (1 theorems): `PrimFloat.add`, `PrimFloat.eqb`, `PrimFloat.float`, `PrimFloat.ltb`, `PrimFloat.mul`, `PrimFloat.sqrt`, `PrimFloat.sub`
* A6 (1 theorems): `PrimFloat.add`, `PrimFloat.div`, `PrimFloat.eqb`, `PrimFloat.float`, `PrimFloat.leb`, `PrimFloat.ltb`, `PrimFloat.mul`, `PrimFloat.sub`
* A7 (7 theorems): `PrimFloat.add`, `PrimFloat.eqb`, `PrimFloat.float`, `PrimFloat.leb`, `PrimFloat.ltb`, `PrimFloat.mul`, `PrimFloat.sqrt`, `PrimFloat.sub`
* A8 (1 theorems): `PrimFloat.add`, `PrimFloat.div`, `PrimFloat.eqb`, `PrimFloat.float`, `PrimFloat.mul`, `PrimFloat.of_uint63`, `PrimFloat.sqrt`, `PrimFloat.sub`, `PrimInt63.int`, `PrimInt63.lor`, `PrimInt63.lsl`, `PrimInt63.sub`
* A9 (1 theorems): `FloatAxioms.Prim2SF_valid`, `PrimFloat.abs`, `PrimFloat.add`, `PrimFloat.div`, `PrimFloat.eqb`, `PrimFloat.float`, `PrimFloat.frshiftexp`, `PrimFloat.leb`, `PrimFloat.ltb`, `PrimFloat.mul`, `PrimFloat.normfr_mantissa`, `PrimFloat.sqrt`, `PrimFloat.sub`, `PrimInt63.eqb`, `PrimInt63.int`, `PrimInt63.land`, `PrimInt63.lsr`
* A10 (1 theorems): `ClassicalDedekindReals.sig_forall_dec`, `ClassicalDedekindReals.sig_not_dec`, `FloatAxioms.Prim2SF_SF2Prim`, `FloatAxioms.Prim2SF_valid`, `FloatAxioms.SF2Prim_Prim2SF`, `FunctionalExtensionality.functional_extensionality_dep`, `PrimFloat.abs`, `PrimFloat.add`, `PrimFloat.div`, `PrimFloat.eqb`, `PrimFloat.float`, `PrimFloat.frshiftexp`, `PrimFloat.ldshiftexp`, `PrimFloat.leb`, `PrimFloat.ltb`, `PrimFloat.mul`, `PrimFloat.normfr_mantissa`, `PrimFloat.of_uint63`, `PrimFloat.opp`, `PrimFloat.sqrt`, `PrimFloat.sub`, `PrimInt63.eqb`, `PrimInt63.int`, `PrimInt63.land`, `PrimInt63.lor`, `PrimInt63.lsl`, `PrimInt63.lsr`, `PrimInt63.sub`
* A11 (2 theorems): `ClassicalDedekindReals.sig_forall_dec`, `ClassicalDedekindReals.sig_not_dec`, `Classical_Prop.classic`, `FloatAxioms.Prim2SF_SF2Prim`, `FloatAxioms.Prim2SF_valid`, `FloatAxioms.SF2Prim_Prim2SF`, `FloatAxioms.abs_spec`, `FloatAxioms.add_spec`, `FloatAxioms.div_spec`, `FloatAxioms.eqb_spec`, `FloatAxioms.leb_spec`, `FloatAxioms.ltb_spec`, `FloatAxioms.mul_spec`, `FloatAxioms.sub_spec`, `FunctionalExtensionality.functional_extensionality_dep`, `PrimFloat.abs`, `PrimFloat.add`, `PrimFloat.div`, `PrimFloat.eqb`, `PrimFloat.float`, `PrimFloat.frshiftexp`, `PrimFloat.ldshiftexp`, `PrimFloat.leb`, `PrimFloat.ltb`, `PrimFloat.mul`, `PrimFloat.normfr_mantissa`, `PrimFloat.of_uint63`, `PrimFloat.opp`, `PrimFloat.sub`, `PrimInt63.eqb`, `PrimInt63.int`, `PrimInt63.land`, `PrimInt63.lor`, `PrimInt63.lsl`, `PrimInt63.lsr`, `PrimInt63.sub`
* A12 (2 theorems): `ClassicalDedekindReals.sig_forall_dec`, `ClassicalDedekindReals.sig_not_dec`, `Classical_Prop.classic`, `FloatAxioms.Prim2SF_SF2Prim`, `FloatAxioms.Prim2SF_valid`, `FloatAxioms.SF2Prim_Prim2SF`, `FloatAxioms.add_spec`, `FloatAxioms.eqb_spec`, `FloatAxioms.leb_spec`, `FloatAxioms.ltb_spec`, `FloatAxioms.mul_spec`, `FloatAxioms.sqrt_spec`, `FloatAxioms.sub_spec`, `FunctionalExtensionality.functional_extensionality_dep`, `PrimFloat.abs`, `PrimFloat.add`, `PrimFloat.div`, `PrimFloat.eqb`, `PrimFloat.float`, `PrimFloat.frshiftexp`, `PrimFloat.ldshiftexp`, `PrimFloat.leb`, `PrimFloat.ltb`, `PrimFloat.mul`, `PrimFloat.normfr_mantissa`, `PrimFloat.of_uint63`, `PrimFloat.opp`, `PrimFloat.sqrt`, `PrimFloat.sub`, `PrimInt63.eqb`, `PrimInt63.int`, `PrimInt63.land`, `PrimInt63.lor`, `PrimInt63.lsl`, `PrimInt63.lsr`, `PrimInt63.sub`
* A13 (6 theorems): `ClassicalDedekindReals.sig_forall_dec`, `ClassicalDedekindReals.sig_not_dec`, `Classical_Prop.classic`, `FloatAxioms.Prim2SF_SF2Prim`, `FloatAxioms.Prim2SF_valid`, `FloatAxioms.SF2Prim_Prim2SF`, `FloatAxioms.abs_spec`, `FloatAxioms.add_spec`, `FloatAxioms.eqb_spec`, `FloatAxioms.leb_spec`, `FloatAxioms.ltb_spec`, `FloatAxioms.mul_spec`, `FloatAxioms.sqrt_spec`, `FloatAxioms.sub_spec`, `FunctionalExtensionality.functional_extensionality_dep`, `PrimFloat.abs`, `PrimFloat.add`, `PrimFloat.div`, `PrimFloat.eqb`, `PrimFloat.float`, `PrimFloat.frshiftexp`, `PrimFloat.ldshiftexp`, `PrimFloat.leb`, `PrimFloat.ltb`, `PrimFloat.mul`, `PrimFloat.normfr_mantissa`, `PrimFloat.of_uint63`, `PrimFloat.opp`, `PrimFloat.sqrt`, `PrimFloat.sub`, `PrimInt63.eqb`, `PrimInt63.int`, `PrimInt63.land`, `PrimInt63.lor`, `PrimInt63.lsl`, `PrimInt63.lsr`, `PrimInt63.sub`
* A14 (1 theorems): `ClassicalDedekindReals.sig_forall_dec`, `ClassicalDedekindReals.sig_not_dec`, `Classical_Prop.classic`, `FloatAxioms.Prim2SF_SF2Prim`, `FloatAxioms.Prim2SF_valid`, `FloatAxioms.SF2Prim_Prim2SF`, `FloatAxioms.abs_spec`, `FloatAxioms.add_spec`, `FloatAxioms.div_spec`, `FloatAxioms.eqb_spec`, `FloatAxioms.mul_spec`, `FloatAxioms.of_uint63_spec`, `FloatAxioms.sqrt_spec`, `FloatAxioms.sub_spec`, `FunctionalExtensionality.functional_extensionality_dep`, `PrimFloat.abs`, `PrimFloat.add`, `PrimFloat.div`, `PrimFloat.eqb`, `PrimFloat.float`, `PrimFloat.frshiftexp`, `PrimFloat.ldshiftexp`, `PrimFloat.ltb`, `PrimFloat.mul`, `PrimFloat.normfr_mantissa`, `PrimFloat.of_uint63`, `PrimFloat.opp`, `PrimFloat.sqrt`, `PrimFloat.sub`, `PrimInt63.add`, `PrimInt63.eqb`, `PrimInt63.int`, `PrimInt63.land`, `PrimInt63.leb`, `PrimInt63.lor`, `PrimInt63.lsl`, `PrimInt63.lsr`, `PrimInt63.ltb`, `PrimInt63.sub`, `Uint63.add_spec`, `Uint63.eqb_correct`, `Uint63.eqb_refl`, `Uint63.leb_spec`, `Uint63.lor_spec`, `Uint63.lsl_spec`, `Uint63.lsr_spec`, `Uint63.ltb_spec`, `Uint63.of_to_Z`, `Uint63.sub_spec`

## Theorems

| claim | theorem | axioms |
|---|---|---|
| C01 | `C01_dtw_optimal` | A0 |
| C01 | `C01_dtw_infinite_iff_infeasible` | A3 |
| C02 | `C02_dtw_path_returns` | A0 |
| C02 | `C02_dtw_path_realises_score` | A0 |
| C03 | `C03_dtw_symmetric` | A0 |
| C03 | `C03_dtw_nonnegative` | A0 |
| C03 | `C03_dtw_self_zero` | A0 |
| C04 | `C04_radius_monotone` | A0 |
| C05 | `C05_mask_is_band` | A0 |
| C05 | `C05_mask_transpose` | A0 |
| C05 | `C05_mask_feasible` | A0 |
| C05 | `C05_sakoe_chiba_dtw_finite` | A3 |
| C06 | `C06_torch_dtw_matrix` | A0 |
| C06 | `C06_torch_frechet_matrix` | A0 |
| C07 | `C07_frechet_optimal` | A0 |
| C07 | `C07_frechet_infinite_iff_infeasible` | A3 |
| C07 | `C07_frechet_path_realises_score` | A0 |
| C07 | `C07_frechet_symmetric` | A0 |
| C08 | `C08_frechet_le_dtw` | A0 |
| C09 | `C09_from_metric_sqeuclidean` | A0 |
| C09 | `C09_from_metric_precomputed` | A0 |
| C09 | `C09_precomputed_optimal` | A0 |
| C10 | `C10_cdist_dtw_cross` | A0 |
| C10 | `C10_cdist_dtw_cross_returns` | A0 |
| C10 | `C10_cdist_dtw_self` | A0 |
| C10 | `C10_cdist_dtw_self_pairwise` | A0 |
| C11 | `C11_cdist_frechet_refuted` | A7 |
| C11 | `C11_cdist_frechet_ignores_constraint` | A0 |
| C12 | `C12_nan_padding_variants` | A0 |
| C12 | `C12_nan_padding_dtw` | A0 |
| C12 | `C12_nan_padding_frechet` | A0 |
| C13 | `C13_dtw_errors` | A0 |
| C13 | `C13_dtw_path_errors` | A0 |
| C13 | `C13_itakura_errors` | A0 |
| C14 | `C14_refuted` | A7 |
| C14 | `C14_both_parameters_raise` | A0 |
| C14 | `C14_name_selects_parameter` | A0 |
| C15 | `C15_itakura_mask_feasible` | A0 |
| C16 | `C16_itakura_symmetric_refuted` | A0 |
| C16 | `C16_itakura_equal_lengths_refuted` | A0 |
| C16 | `C16_itakura_dtw_refuted` | A7 |
| C16 | `C16_itakura_symmetric_partial` | A0 |
| C17 | `C17_limited_optimal` | A0 |
| C17 | `C17_limited_value_error` | A0 |
| C18 | `C18_limited_path` | A0 |
| C19 | `C19_limited_large_bound` | A0 |
| C19 | `C19_limited_monotone` | A0 |
| C20 | `C20_subsequence_best_path` | A0 |
| C20 | `C20_subsequence_is_best_dtw` | A0 |
| C21 | `C21_lb_keogh_lower_bound` | A3 |
| C22 | `C22_envelope_is_window_extremum` | A2 |
| C22 | `C22_envelope_encloses` | A2 |
| C22 | `C22_envelope_widens` | A2 |
| C23 | `C23_lcss_longest` | A0 |
| C23 | `C23_lcss_sound` | A0 |
| C23 | `C23_lcss_radius_zero_refuted` | A9 |
| C24 | `C24_lcss_range` | A0 |
| C24 | `C24_lcss_symmetric` | A0 |
| C24 | `C24_lcss_identity` | A0 |
| C24 | `C24_lcss_eps_monotone` | A0 |
| C25 | `C25_lcss_path_correct_if_returns_partial` | A0 |
| C25 | `C25_lcss_path_unconstrained` | A0 |
| C25 | `C25_lcss_path_terminates_refuted` | A12 |
| C26 | `C26_from_metric_correct_if_returns_partial` | A0 |
| C26 | `C26_from_metric_unconstrained` | A0 |
| C26 | `C26_from_metric_numpy_refuted` | A7 |
| C27 | `C27_soft_dtw_path_sum` | A4 |
| C28 | `C28_soft_dtw_bounds` | A4 |
| C28 | `C28_gamma_zero` | A4 |
| C29 | `C29_soft_dtw_symmetric` | A4 |
| C29 | `C29_normalized_self_zero` | A4 |
| C29 | `C29_normalized_symmetric` | A4 |
| C30 | `C30_alignment_gibbs` | A4 |
| C30 | `C30_alignment_range` | A4 |
| C30 | `C30_alignment_gamma_zero` | A4 |
| C31 | `C31_cdist_soft_dtw_cross` | A4 |
| C31 | `C31_cdist_soft_dtw_cross_returns` | A4 |
| C31 | `C31_cdist_soft_dtw_self` | A4 |
| C31 | `C31_cdist_soft_dtw_self_pairwise` | A4 |
| C31 | `C31_cdist_soft_dtw_gamma_zero` | A4 |
| C31 | `C31_gamma_zero_refuted` | A4 |
| C32 | `C32_unnormalized_gak_path_sum` | A4 |
| C32 | `C32_gak_normalised` | A4 |
| C32 | `C32_gak_value` | A4 |
| C32 | `C32_gak_sigma_zero` | A4 |
| C33 | `C33_stops_after_one_step` | A3 |
| C33 | `C33_score_ignores_alignment` | A3 |
| C33 | `C33_ctw_is_dtw` | A3 |
| C33 | `C33_path_optimal_partial` | A3 |
| C33 | `C33_no_iteration_partial` | A3 |
| C33 | `C33_score_of_path_refuted` | A3 |
| C34 | `C34_sliding_product` | A3 |
| C34 | `C34_single_time_step_refuted` | A3 |
| C35 | `C35_paa_distance_value` | A3 |
| C35 | `C35_paa_distance_bound` | A3 |
| C35 | `C35_paa_lower_bound_partial` | A3 |
| C35 | `C35_not_a_lower_bound_refuted` | A3 |
| C36 | `C36_mindist_lower_bounds_paa` | A3 |
| C36 | `C36_mindist_lower_bounds_euclid` | A3 |
| C37 | `C37_symbol_counts` | A2 |
| C37 | `C37_symbol_monotone` | A2 |
| C37 | `C37_symbol_nan` | A2 |
| C37 | `C37_sax_transform_symbols` | A3 |
| C38 | `C38_inverse_values` | A3 |
| C38 | `C38_transform_inverse` | A3 |
| C38 | `C38_tail_is_zero_refuted` | A3 |
| C38 | `C38_too_many_segments_refuted` | A3 |
| C39 | `C39_sax1d_symbols` | A3 |
| C39 | `C39_unscaled_partial` | A3 |
| C39 | `C39_scaled_twice_refuted` | A3 |
| C40 | `C40_to_dataset` | A0 |
| C41 | `C41_feature_mismatch_refuted` | A7 |
| C41 | `C41_feature_mismatch_partial` | A0 |
| C42 | `C42_string_partial` | A4 |
| C42 | `C42_file_partial` | A4 |
| C42 | `C42_dataset_partial` | A4 |
| C42 | `C42_refuted` | A4 |
| C43 | `C43_seglearn` | A3 |
| C43 | `C43_stumpy` | A3 |
| C43 | `C43_cesium_partial` | A3 |
| C43 | `C43_sktime` | A3 |
| C43 | `C43_tsfresh_partial` | A3 |
| C43 | `C43_tsfresh_refuted` | A3 |
| C43 | `C43_pyts` | A3 |
| C43 | `C43_pyts_lengths` | A3 |
| C44 | `C44_range` | A3 |
| C44 | `C44_bounds_reached` | A3 |
| C44 | `C44_order` | A3 |
| C44 | `C44_constant` | A3 |
| C44 | `C44_training_scale` | A3 |
| C44 | `C44_errors` | A3 |
| C45 | `C45_moments` | A3 |
| C46 | `C46_piecewise_linear` | A3 |
| C46 | `C46_endpoints_range_identity` | A3 |
| C46 | `C46_single_point` | A3 |
| C47 | `C47_observed_unchanged` | A3 |
| C47 | `C47_ffill` | A3 |
| C47 | `C47_bfill` | A3 |
| C47 | `C47_fill` | A3 |
| C47 | `C47_linear` | A3 |
| C47 | `C47_returns` | A3 |
| C47 | `C47_errors` | A3 |
| C47 | `C47_every_gap_filled_refuted` | A3 |
| C48 | `C48_mm_step` | A3 |
| C48 | `C48_petitjean_step` | A3 |
| C48 | `C48_dba` | A3 |
| C48 | `C48_petitjean` | A3 |
| C49 | `C49_mm_weighted_means` | A3 |
| C49 | `C49_petitjean_weighted_means` | A3 |
| C49 | `C49_same_when_unique` | A3 |
| C49 | `C49_same_barycenter_refuted` | A3 |
| C50 | `C50_name_ignored` | A3 |
| C50 | `C50_honours_name_refuted` | A3 |
| C50 | `C50_codes_honoured` | A3 |
| C51 | `C51_returns_size` | A3 |
| C51 | `C51_petitjean_size` | A3 |
| C51 | `C51_no_iterations_refuted` | A3 |
| C51 | `C51_one_point_refuted` | A3 |
| C51 | `C51_padded_init_refuted` | A3 |
| C52 | `C52_subgradient_weights_refuted` | A3 |
| C52 | `C52_mm_duplicates` | A3 |
| C53 | `C53_iteration` | A3 |
| C53 | `C53_more_iterations` | A3 |
| C54 | `C54_reported_partial` | A3 |
| C54 | `C54_inertia_refuted` | A3 |
| C55 | `C55_attempts_partial` | A3 |
| C55 | `C55_no_empty_partial` | A3 |
| C55 | `C55_escape_refuted` | A3 |
| C55 | `C55_unfitted_refuted` | A3 |
| C56 | `C56_refit_partial` | A1 |
| C56 | `C56_auto_refuted` | A3 |
| C56 | `C56_dict_refuted` | A1 |
| C56 | `C56_kernel_refuted` | A1 |
| C57 | `C57_labels_partial` | A3 |
| C57 | `C57_out_of_bounds_refuted` | A3 |
| C58 | `C58_query` | A1 |
| C58 | `C58_self_partial` | A1 |
| C58 | `C58_self_refuted` | A2 |
| C59 | `C59_elastic_partial` | A0 |
| C59 | `C59_other_partial` | A0 |
| C59 | `C59_heals_partial` | A0 |
| C59 | `C59_refuted` | A0 |
| C60 | `C60_profile` | A3 |
| C60 | `C60_dataset` | A3 |
| C61 | `C61_decision_partial` | A3 |
| C61 | `C61_causal` | A3 |
| C61 | `C61_short_refuted` | A3 |
| C62 | `C62_incremental_partial` | A3 |
| C62 | `C62_overflow_refuted` | A3 |
| C63 | `C63_restored` | A0 |
| C63 | `C63_nested` | A0 |
| C64 | `C64_roundtrip_partial` | A0 |
| C64 | `C64_refuted` | A0 |
| C64 | `C64_never_overwrites` | A0 |
| C65 | `C65_hdf5_partial` | A0 |
| C65 | `C65_hdf5_refuted` | A0 |
| C65 | `C65_pickle` | A0 |
| C65 | `C65_json_partial` | A1 |
| C65 | `C65_json_refuted` | A1 |
| C66 | `C66_rule` | A0 |
| C66 | `C66_classes_partial` | A0 |
| C66 | `C66_refuted` | A0 |
| C66 | `C66_none_refuted` | A0 |
| C67 | `C67_integration_partial` | A2 |
| C67 | `C67_order2_refuted` | A2 |
| C68 | `C68_search_partial` | A2 |
| C68 | `C68_no_start_refuted` | A2 |
| C69 | `C69_univariate_partial` | A2 |
| C69 | `C69_transposed_refuted` | A2 |
| C70 | `C70_distance_partial` | A3 |
| C70 | `C70_refuted` | A3 |
| C70 | `C70_windows_partial` | A3 |
| C71 | `C71_sizes` | A2 |
| C71 | `C71_returns` | A2 |
| C71 | `C71_default` | A2 |
| C71 | `C71_refuted` | A2 |
| C72 | `C72_cached_partial` | A0 |
| C72 | `C72_refuted` | A0 |
| C72 | `C72_crash_refuted` | A0 |
| C73 | `C73_binary64_optimal` | A12 |
| C74 | `C74_cdist_feature_mismatch_refuted` | A7 |
| C74 | `C74_common_features` | A0 |
| C75 | `C75_normalized_cross_sequential` | A4 |
| C75 | `C75_normalized_cross_parallel` | A4 |
| C75 | `C75_jobs_independent_refuted` | A4 |
| C75 | `C75_normalized_self` | A4 |
| C76 | `C76_cdist_gak_cross` | A4 |
| C76 | `C76_cdist_gak_self` | A4 |
| C77 | `C77_sax_transform_inverse` | A3 |
| C78 | `C78_sax1d_transform_inverse_partial` | A3 |
| C78 | `C78_scaled_refuted` | A3 |
| C79 | `C79_distance_of_reconstructions_refuted` | A3 |
| C79 | `C79_equal_slopes_partial` | A3 |
| C80 | `C80_entries_bounded` | A3 |
| C80 | `C80_self_correlation` | A3 |
| C81 | `C81_similarity_symmetric` | A3 |
| C81 | `C81_self_similarity_partial` | A3 |
| C81 | `C81_diagonal_refuted` | A3 |
| C82 | `C82_alignment_maximises_inner_product` | A3 |
| C82 | `C82_small_series_refuted` | A3 |
| C83 | `C83_least_squares` | A3 |
| C84 | `C84_iteration` | A3 |
| C84 | `C84_more_iterations` | A3 |
| C84 | `C84_reported` | A3 |
| C84 | `C84_named_refuted` | A3 |
| C85 | `C85_best` | A2 |
| C85 | `C85_reported` | A2 |
| C85 | `C85_increase_refuted` | A2 |
| C86 | `C86_predict_partial` | A2 |
| C86 | `C86_same_partial` | A2 |
| C86 | `C86_refuted` | A2 |
| C87 | `C87_weights` | A2 |
| C88 | `C88_affine` | A3 |
| C88 | `C88_positive` | A3 |
| C89 | `C89_reported_partial` | A3 |
| C89 | `C89_exception_refuted` | A3 |
| C90 | `C90_more_iterations` | A3 |
| C91 | `C91_best` | A3 |
| C92 | `C92_query` | A1 |
| C92 | `C92_none_refuted` | A1 |
| C93 | `C93_affine` | A3 |
| C94 | `C94_bound` | A3 |
| C95 | `C95_padded_refuted` | A3 |
| C95 | `C95_kept` | A3 |
| C96 | `C96_bandwidth` | A3 |
| C96 | `C96_value` | A3 |
| C97 | `C97_prefixes` | A3 |
| C98 | `C98_delay` | A3 |
| C99 | `C99_distribution_partial` | A4 |
| C99 | `C99_undefined_refuted` | A3 |
| C100 | `C100_pyck_partial` | A2 |
| C100 | `C100_precision_partial` | A2 |
| C100 | `C100_refuted` | A2 |
| C101 | `C101_horizon` | A1 |
| C102 | `C102_smallest_order` | A0 |
| C103 | `C103_refit_partial` | A1 |
| C103 | `C103_padded_refuted` | A2 |
| C104 | `C104_iterated_partial` | A2 |
| C104 | `C104_order2_refuted` | A2 |
| C105 | `C105_resave_partial` | A0 |
| C105 | `C105_bool_refuted` | A0 |
| C105 | `C105_convert_refuted` | A0 |
| C106 | `C106_transform_partial` | A3 |
| C106 | `C106_locate_partial` | A3 |
| C106 | `C106_short_refuted` | A3 |
| C107 | `C107_roundtrip` | A2 |
| C107 | `C107_refused` | A1 |
| C107 | `C107_most_probable` | A2 |
| C107 | `C107_binary` | A2 |
| C108 | `C108_windows` | A3 |
| C108 | `C108_too_short` | A3 |
| C109 | `C109_predict` | A3 |
| C109 | `C109_scaled` | A3 |
| C110 | `C110_refuted` | A3 |
| C110 | `C110_max_size_partial` | A3 |
| C111 | `C111_accepts` | A3 |
| C112 | `C112_confined_partial` | A0 |
| C112 | `C112_empty_name_refuted` | A0 |
| C112 | `C112_parent_refuted` | A0 |
| C112 | `C112_absolute_refuted` | A0 |
| C113 | `C113_loaded_partial` | A0 |
| C113 | `C113_refuted` | A0 |
| C114 | `C114_online_partial` | A0 |
| C114 | `C114_refuted` | A0 |
| C115 | `C115_sklearn` | A3 |
| C116 | `C116_pyflux` | A3 |
| C116 | `C116_single` | A3 |
| C117 | `C117_gradient` | A4 |
| C118 | `C118_init` | A4 |
| C118 | `C118_default` | A4 |
| C119 | `C119_features_refuted` | A4 |
| C119 | `C119_error_partial` | A4 |
| C120 | `C120_mae` | A3 |
| C120 | `C120_mse` | A3 |
| C121 | `C121_partial` | A3 |
| C121 | `C121_refuted` | A3 |
| C122 | `C122_value` | A3 |
| C122 | `C122_naive` | A3 |
| C122 | `C122_feature_weights_refuted` | A3 |
| C123 | `C123_refuted` | A3 |
| C124 | `C124_cached` | A0 |
| C124 | `C124_downloaded` | A0 |
| C124 | `C124_incomplete` | A0 |
| C125 | `C125_clusters` | A2 |
| C125 | `C125_dtw` | A3 |
| C126 | `C126_cores_partial` | A2 |
| C126 | `C126_refuted` | A2 |
| C127 | `C127_refuted` | A2 |
| C127 | `C127_directed` | A2 |
| C128 | `C128_kernels` | A4 |
| C128 | `C128_features` | A4 |
| C129 | `C129_svc` | A4 |
| C129 | `C129_kernel_gamma` | A4 |
| C129 | `C129_svr_partial` | A4 |
| C129 | `C129_epsilon_refuted` | A4 |
| C130 | `C130_value_partial` | A4 |
| C130 | `C130_refuted` | A4 |
| C131 | `C131_support_vectors` | A0 |
| C132 | `C132_zero_gamma` | A4 |
| C132 | `C132_constant` | A4 |
| C133 | `C133_value` | A4 |
| C133 | `C133_distance` | A4 |
| C133 | `C133_shapes` | A4 |
| C134 | `C134_gradient` | A4 |
| C134 | `C134_distance` | A4 |
| C135 | `C135_unconstrained_partial` | A4 |
| C135 | `C135_refuted` | A4 |
| C136 | `C136_precomputed` | A3 |
| C136 | `C136_sample` | A3 |
| C136 | `C136_dtw` | A3 |
| C136 | `C136_softdtw` | A4 |
| C136 | `C136_euclidean` | A3 |
| C136 | `C136_euclidean_lengths` | A3 |
| C137 | `C137_relabel` | A3 |
| C137 | `C137_relabel_metrics` | A4 |
| C138 | `C138_label_count` | A3 |
| C138 | `C138_bad_matrix` | A3 |
| C139 | `C139_refuted` | A3 |
| C139 | `C139_keywords` | A3 |
| C140 | `C140_one_length_partial` | A3 |
| C140 | `C140_lengths` | A3 |
| C140 | `C140_refuted` | A3 |
| C141 | `C141_order` | A3 |
| C142 | `C142_random_walks` | A2 |
| C142 | `C142_more_series` | A1 |
| C143 | `C143_blobs` | A2 |
| C143 | `C143_no_noise` | A2 |
| C144 | `C144_interpolated` | A3 |
| C144 | `C144_kept` | A3 |
| C145 | `C145_interpolated` | A3 |
| C145 | `C145_kept` | A3 |
| C145 | `C145_lists` | A3 |
| C146 | `C146_adjacent` | A3 |
| C146 | `C146_shape` | A3 |
| C146 | `C146_refuted` | A3 |
| C147 | `C147_reference` | A3 |
| C147 | `C147_features` | A3 |
| C147 | `C147_no_value` | A3 |
| C148 | `C148_dtw` | A4 |
| C148 | `C148_softdtw` | A4 |
| C149 | `C149_distinct` | A4 |
| C150 | `C150_repeats_refuted` | A4 |
| C150 | `C150_one_step_partial` | A4 |
| C151 | `C151_distances` | A3 |
| C151 | `C151_unscaled` | A3 |
| C151 | `C151_batch` | A3 |
| C151 | `C151_lower_bound` | A3 |
| C151 | `C151_scaling_refuted` | A3 |
| C152 | `C152_first_fit` | A3 |
| C152 | `C152_refit_refuted` | A3 |
| C153 | `C153_supported` | A0 |
| C153 | `C153_metrics_refuted` | A0 |
| C153 | `C153_regressor_refuted` | A3 |
| C154 | `C154_histories` | A0 |
| C154 | `C154_predictions` | A0 |
| C154 | `C154_calls` | A0 |
| C154 | `C154_layout` | A0 |
| C155 | `C155_warm_start_refuted` | A0 |
| C155 | `C155_one_instant` | A0 |
| C156 | `C156_failed_calls_refuted` | A0 |
| C156 | `C156_rejected_input` | A0 |
| C156 | `C156_rejected_shape` | A0 |
| C157 | `C157_cross` | A3 |
| C157 | `C157_self` | A3 |
| C157 | `C157_returns` | A3 |
| C157 | `C157_is_cdist_dtw` | A3 |
| C158 | `C158_cross` | A3 |
| C158 | `C158_self` | A3 |
| C158 | `C158_lengths` | A3 |
| C158 | `C158_transformed` | A3 |
| C158 | `C158_unequal_refuted` | A3 |
| C158 | `C158_context_refuted` | A3 |
| C159 | `C159_compute` | A4 |
| C159 | `C159_bound` | A4 |
| C159 | `C159_border_visible` | A4 |
| C160 | `C160_histories` | A4 |
| C161 | `C161_jacobian` | A3 |
| C161 | `C161_chain` | A4 |
| C162 | `C162_soft_dtw` | A4 |
| C162 | `C162_alignment` | A4 |
| C162 | `C162_alignment_zero` | A4 |
| C162 | `C162_cdist_cross` | A4 |
| C162 | `C162_cdist_self` | A4 |
| C162 | `C162_normalized_cross` | A4 |
| C162 | `C162_normalized_self` | A4 |
| C162 | `C162_cdist_gamma_zero_refuted` | A4 |
| C162 | `C162_inner_nan_refuted` | A4 |
| C163 | `C163_iteration` | A4 |
| C163 | `C163_reported` | A4 |
| C163 | `C163_more_iterations` | A4 |
| C163 | `C163_predict` | A4 |
| C163 | `C163_predict_training` | A4 |
| C164 | `C164_kept` | A4 |
| C164 | `C164_iterations_refuted` | A4 |
| C164 | `C164_selection_refuted` | A4 |
| C165 | `C165_first` | A0 |
| C165 | `C165_instance` | A0 |
| C165 | `C165_default` | A0 |
| C166 | `C166_refuted` | A1 |
| C166 | `C166_dtype` | A0 |
| C166 | `C166_order_refuted` | A1 |
| C167 | `C167_cast` | A4 |
| C167 | `C167_refuted` | A4 |
| C167 | `C167_tensor` | A4 |
| C167 | `C167_dtype` | A4 |
| C168 | `C168_round_trip` | A4 |
| C168 | `C168_pytorch_refuted` | A4 |
| C169 | `C169_proba` | A3 |
| C169 | `C169_early_proba` | A3 |
| C169 | `C169_cost` | A3 |
| C170 | `C170_time` | A3 |
| C170 | `C170_delay` | A3 |
| C171 | `C171_list` | A0 |
| C171 | `C171_load` | A0 |
| C171 | `C171_extension` | A0 |
| C171 | `C171_missing` | A0 |
| C171 | `C171_refuted` | A0 |
| C172 | `C172_read` | A3 |
| C172 | `C172_refuted` | A3 |
| C173 | `C173_univariate` | A0 |
| C173 | `C173_multivariate` | A0 |
| C173 | `C173_refuted` | A0 |
| C174 | `C174_order` | A11 |
| C174 | `C174_default` | A11 |
| C174 | `C174_refuted` | A6 |
| C175 | `C175_refuted` | A8 |
| C175 | `C175_integers` | A14 |
| C176 | `C176_refuted` | A7 |
| C176 | `C176_inside` | A5 |
| C176 | `C176_lb_error` | A13 |
| C176 | `C176_excess` | A13 |
| C177 | `C177_similarity` | A3 |
| C177 | `C177_shift` | A3 |
| C177 | `C177_scale` | A3 |
| C177 | `C177_features` | A3 |
| C177 | `C177_reverse` | A3 |
| C177 | `C177_itakura` | A0 |
| C178 | `C178_bound` | A3 |
| C178 | `C178_radius_zero` | A3 |
| C178 | `C178_frechet` | A3 |
| C179 | `C179_zero` | A3 |
| C180 | `C180_refuted` | A3 |
| C180 | `C180_frechet` | A3 |
| C180 | `C180_radius_zero` | A3 |
| C181 | `C181_last_fit` | A4 |
| C181 | `C181_answers` | A4 |
| C182 | `C182_predict` | A4 |
| C182 | `C182_refused_array` | A4 |
| C182 | `C182_mixed` | A4 |
| C182 | `C182_untrained` | A4 |
| C182 | `C182_refuted` | A4 |
| C183 | `C183_others` | A4 |
| C183 | `C183_kernel` | A4 |
| C183 | `C183_refuted` | A4 |
| C184 | `C184_different` | A0 |
| C184 | `C184_alone` | A0 |
| C184 | `C184_alone_exact` | A0 |
| C185 | `C185_readers` | A0 |
| C185 | `C185_refuted` | A0 |
| C185 | `C185_refresh_refuted` | A0 |
| C186 | `C186_complete` | A0 |
| C186 | `C186_then` | A0 |
| C187 | `C187_dtw_error` | A13 |
| C187 | `C187_underflow` | A10 |
| C188 | `C188_frechet_error` | A13 |
| C189 | `C189_cache_all` | A0 |
| C190 | `C190_scores` | A0 |
| C190 | `C190_refuted` | A0 |
| C191 | `C191_limited_error` | A13 |
| C191 | `C191_subsequence_error` | A13 |
| C192 | `C192_never_larger` | A3 |
| C192 | `C192_refuted` | A3 |
| C193 | `C193_unnormalized` | A4 |
| C193 | `C193_psd` | A4 |
| C193 | `C193_at_most_one` | A4 |
| C194 | `C194_gamma` | A4 |
| C194 | `C194_constraint` | A4 |
| C194 | `C194_similarity` | A4 |
| C194 | `C194_shift` | A4 |
| C194 | `C194_features` | A4 |
| C194 | `C194_scale` | A4 |
| C194 | `C194_reverse` | A4 |
| C195 | `C195_similarity` | A4 |
| C195 | `C195_shift` | A4 |
| C195 | `C195_features` | A4 |
| C195 | `C195_scale` | A4 |
| C195 | `C195_reverse` | A4 |
| C195 | `C195_sigma` | A4 |
| C196 | `C196_inertia` | A4 |
| C196 | `C196_nonneg` | A4 |
| C197 | `C197_refuted` | A2 |
| C197 | `C197_partial` | A2 |
| C198 | `C198_distance` | A3 |
| C198 | `C198_radius` | A3 |
| C198 | `C198_radius_zero` | A3 |
| C198 | `C198_zero` | A3 |
| C198 | `C198_affine` | A3 |
| C198 | `C198_reverse` | A3 |
| C199 | `C199_similarity` | A3 |
| C199 | `C199_shift` | A3 |
| C199 | `C199_features` | A3 |
| C199 | `C199_scale` | A3 |
| C199 | `C199_reverse` | A3 |
| C199 | `C199_monotone` | A3 |
| C200 | `C200_minmax` | A3 |
| C200 | `C200_meanvariance` | A3 |
| C200 | `C200_minmax_fit_transform` | A3 |
| C200 | `C200_meanvariance_fit_transform` | A3 |
| C200 | `C200_constant_training` | A3 |
| C200 | `C200_minmax_twice` | A3 |
| C200 | `C200_meanvariance_twice` | A3 |
| C201 | `C201_paa` | A3 |
| C201 | `C201_words` | A3 |
| C201 | `C201_own_words` | A3 |
| C201 | `C201_distance` | A3 |
| C202 | `C202_slopes_partial` | A3 |
| C202 | `C202_refuted` | A3 |
| C203 | `C203_imputer` | A3 |
| C203 | `C203_resampler` | A3 |
| C204 | `C204_fit` | A3 |
| C204 | `C204_origin` | A3 |
| C204 | `C204_order` | A3 |
| C204 | `C204_predict` | A3 |
| C205 | `C205_unit_refuted` | A3 |
| C205 | `C205_null_tolerance` | A3 |
| C206 | `C206_sample` | A2 |
| C206 | `C206_order` | A2 |
| C207 | `C207_sample_refuted` | A2 |
| C207 | `C207_long_enough` | A2 |
| C208 | `C208_attribute` | A0 |
| C208 | `C208_as_time_series` | A3 |
| C208 | `C208_transform` | A3 |
| C209 | `C209_json` | A1 |
| C209 | `C209_pickle` | A0 |
| C210 | `C210_resave_refuted` | A1 |
| C210 | `C210_after_pickle` | A0 |
| C211 | `C211_longer` | A3 |
| C211 | `C211_zero` | A3 |
| C211 | `C211_similarity` | A3 |
| C211 | `C211_reverse` | A3 |
| C212 | `C212_similarity` | A3 |
| C212 | `C212_reverse` | A3 |
| C212 | `C212_symmetric` | A3 |
| C212 | `C212_identical` | A3 |
| C212 | `C212_euclidean` | A3 |
| C213 | `C213_dba` | A3 |
| C213 | `C213_petitjean` | A3 |
| C213 | `C213_order` | A3 |
| C213 | `C213_origin` | A3 |
| C213 | `C213_nontrivial` | A3 |
| C214 | `C214_unit_refuted` | A3 |
| C214 | `C214_tol_converted` | A3 |
| C215 | `C215_fit` | A3 |
| C215 | `C215_order` | A3 |
| C215 | `C215_predict` | A3 |
| C216 | `C216_unit_refuted` | A3 |
| C217 | `C217_error` | A4 |
| C217 | `C217_nearly_best` | A4 |
| C217 | `C217_best_match_refuted` | A4 |
| C218 | `C218_error` | A4 |
| C218 | `C218_score_refuted` | A4 |
| C219 | `C219_longest` | A4 |
| C219 | `C219_match_refuted` | A4 |
| C220 | `C220_search` | A3 |
| C221 | `C221_fit` | A2 |
| C221 | `C221_predict` | A2 |
| C221 | `C221_predict_order` | A2 |
| C222 | `C222_coarser` | A2 |
| C222 | `C222_border_refuted` | A2 |
| C223 | `C223_unit` | A2 |
| C223 | `C223_dtw` | A3 |
| C224 | `C224_unit` | A3 |
| C224 | `C224_sign` | A3 |
| C224 | `C224_matrix` | A3 |
| C224 | `C224_small_refuted` | A3 |
| C225 | `C225_mae` | A3 |
| C225 | `C225_mse` | A3 |
| C226 | `C226_mase` | A3 |
| C226 | `C226_average_refuted` | A3 |
| C227 | `C227_reversed` | A3 |
| C227 | `C227_longer` | A3 |
| C228 | `C228_precomputed` | A3 |
| C228 | `C228_dtw` | A3 |
| C228 | `C228_euclidean` | A3 |
| C228 | `C228_softdtw` | A4 |
| C229 | `C229_everything` | A0 |
| C229 | `C229_one_axis` | A0 |
| C229 | `C229_no_such_axis` | A0 |
| C229 | `C229_several_axes` | A0 |
| C229 | `C229_tuple_refuted` | A0 |
| C230 | `C230_optimal` | A0 |
| C230 | `C230_sqeuclidean` | A0 |
| C230 | `C230_increasing` | A3 |
| C230 | `C230_euclidean` | A3 |
| C231 | `C231_window` | A2 |
| C231 | `C231_forecast` | A2 |
| C231 | `C231_errors_exist` | A2 |
| C231 | `C231_start` | A2 |
| C231 | `C231_one_lag_partial` | A2 |
| C231 | `C231_lags_refuted` | A2 |
| C232 | `C232_equal_size` | A3 |
| C232 | `C232_check_dataset` | A3 |
| C232 | `C232_empty` | A3 |
| C232 | `C232_again` | A3 |
| C232 | `C232_dims` | A0 |
| C233 | `C233_kmeans` | A0 |
| C233 | `C233_kmeans_unknown` | A0 |
| C233 | `C233_kmeans_verbose_refuted` | A0 |
| C233 | `C233_neighbours` | A0 |
| C233 | `C233_neighbours_n_jobs_refuted` | A0 |
| C233 | `C233_dbscan` | A0 |
| C234 | `C234_corrected` | A0 |
| C234 | `C234_list` | A0 |
| C234 | `C234_no_server` | A0 |
| C234 | `C234_second_request` | A0 |
| C235 | `C235_silhouette` | A0 |
| C235 | `C235_refuted` | A0 |
