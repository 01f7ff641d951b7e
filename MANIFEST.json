{
 "claims": [
  {
   "property": "C01",
   "status": "proved",
   "theorems": [
    "C01_dtw_optimal",
    "C01_dtw_infinite_iff_infeasible"
   ],
   "note": "Any number system with num_laws: exact extended reals and binary64 (C73)."
  },
  {
   "property": "C02",
   "status": "proved",
   "theorems": [
    "C02_dtw_path_returns",
    "C02_dtw_path_realises_score"
   ],
   "note": ""
  },
  {
   "property": "C03",
   "status": "proved",
   "theorems": [
    "C03_dtw_symmetric",
    "C03_dtw_nonnegative",
    "C03_dtw_self_zero"
   ],
   "note": ""
  },
  {
   "property": "C04",
   "status": "proved",
   "theorems": [
    "C04_radius_monotone"
   ],
   "note": ""
  },
  {
   "property": "C05",
   "status": "proved",
   "theorems": [
    "C05_mask_is_band",
    "C05_mask_transpose",
    "C05_mask_feasible",
    "C05_sakoe_chiba_dtw_finite"
   ],
   "note": ""
  },
  {
   "property": "C06",
   "status": "proved",
   "theorems": [
    "C06_torch_dtw_matrix",
    "C06_torch_frechet_matrix"
   ],
   "note": ""
  },
  {
   "property": "C07",
   "status": "proved",
   "theorems": [
    "C07_frechet_optimal",
    "C07_frechet_infinite_iff_infeasible",
    "C07_frechet_path_realises_score",
    "C07_frechet_symmetric"
   ],
   "note": ""
  },
  {
   "property": "C08",
   "status": "proved",
   "theorems": [
    "C08_frechet_le_dtw"
   ],
   "note": ""
  },
  {
   "property": "C09",
   "status": "proved",
   "theorems": [
    "C09_from_metric_sqeuclidean",
    "C09_from_metric_precomputed",
    "C09_precomputed_optimal"
   ],
   "note": ""
  },
  {
   "property": "C10",
   "status": "proved",
   "theorems": [
    "C10_cdist_dtw_cross",
    "C10_cdist_dtw_cross_returns",
    "C10_cdist_dtw_self",
    "C10_cdist_dtw_self_pairwise"
   ],
   "note": "Cross matrix for every constraint; self matrix pairwise for no / Sakoe-Chiba constraint. With an Itakura constraint only the upper triangle is pairwise (see C16)."
  },
  {
   "property": "C11",
   "status": "partial",
   "theorems": [
    "C11_cdist_frechet_refuted",
    "C11_cdist_frechet_ignores_constraint"
   ],
   "note": "FALSE as stated: the constraint is ignored. Refuted on concrete series; proved that the result is the unconstrained distance."
  },
  {
   "property": "C12",
   "status": "proved",
   "theorems": [
    "C12_nan_padding_variants",
    "C12_nan_padding_dtw",
    "C12_nan_padding_frechet"
   ],
   "note": ""
  },
  {
   "property": "C13",
   "status": "proved",
   "theorems": [
    "C13_dtw_errors",
    "C13_dtw_path_errors",
    "C13_itakura_errors"
   ],
   "note": ""
  },
  {
   "property": "C14",
   "status": "partial",
   "theorems": [
    "C14_refuted",
    "C14_both_parameters_raise",
    "C14_name_selects_parameter"
   ],
   "note": "FALSE as documented: the call raises. Refuted; proved that it always raises on valid series and that a constraint name selects its own parameter."
  },
  {
   "property": "C15",
   "status": "proved",
   "theorems": [
    "C15_itakura_mask_feasible"
   ],
   "note": "Exact rational arithmetic for the parallelogram bounds."
  },
  {
   "property": "C16",
   "status": "partial",
   "theorems": [
    "C16_itakura_symmetric_refuted",
    "C16_itakura_equal_lengths_refuted",
    "C16_itakura_dtw_refuted",
    "C16_itakura_symmetric_partial"
   ],
   "note": "FALSE as stated, already in exact rational arithmetic (three refutations, one with equal lengths). Proved for equal lengths and integer slopes below 200."
  },
  {
   "property": "C17",
   "status": "proved",
   "theorems": [
    "C17_limited_optimal",
    "C17_limited_value_error"
   ],
   "note": ""
  },
  {
   "property": "C18",
   "status": "proved",
   "theorems": [
    "C18_limited_path"
   ],
   "note": ""
  },
  {
   "property": "C19",
   "status": "proved",
   "theorems": [
    "C19_limited_large_bound",
    "C19_limited_monotone"
   ],
   "note": ""
  },
  {
   "property": "C20",
   "status": "proved",
   "theorems": [
    "C20_subsequence_best_path",
    "C20_subsequence_is_best_dtw"
   ],
   "note": ""
  },
  {
   "property": "C21",
   "status": "proved",
   "theorems": [
    "C21_lb_keogh_lower_bound"
   ],
   "note": "Exact reals; dtw is the modelled public function."
  },
  {
   "property": "C22",
   "status": "proved",
   "theorems": [
    "C22_envelope_is_window_extremum",
    "C22_envelope_encloses",
    "C22_envelope_widens"
   ],
   "note": ""
  },
  {
   "property": "C23",
   "status": "partial",
   "theorems": [
    "C23_lcss_longest",
    "C23_lcss_sound",
    "C23_lcss_radius_zero_refuted"
   ],
   "note": "FALSE as stated for radius 0 on equal lengths (refuted). Proved for no constraint and every other Sakoe-Chiba band; for every constraint the score is attained by a common subsequence."
  },
  {
   "property": "C24",
   "status": "proved",
   "theorems": [
    "C24_lcss_range",
    "C24_lcss_symmetric",
    "C24_lcss_identity",
    "C24_lcss_eps_monotone"
   ],
   "note": ""
  },
  {
   "property": "C25",
   "status": "partial",
   "theorems": [
    "C25_lcss_path_correct_if_returns_partial",
    "C25_lcss_path_unconstrained",
    "C25_lcss_path_terminates_refuted"
   ],
   "note": "FALSE as stated: with a band the loop can run forever (refuted for every number of turns). Proved: terminates and is longest without constraint; with any constraint, correct if it returns."
  },
  {
   "property": "C26",
   "status": "partial",
   "theorems": [
    "C26_from_metric_correct_if_returns_partial",
    "C26_from_metric_unconstrained",
    "C26_from_metric_numpy_refuted"
   ],
   "note": "FALSE as stated with numpy: the walk ignores the mask (refuted). Proved: all back ends unconstrained; other back ends correct if they return."
  },
  {
   "property": "C27",
   "status": "proved",
   "theorems": [
    "C27_soft_dtw_path_sum"
   ],
   "note": "Exact reals (exp, ln exact), both backends, no constraint, Sakoe-Chiba, Itakura with positive slope."
  },
  {
   "property": "C28",
   "status": "proved",
   "theorems": [
    "C28_soft_dtw_bounds",
    "C28_gamma_zero"
   ],
   "note": ""
  },
  {
   "property": "C29",
   "status": "proved",
   "theorems": [
    "C29_soft_dtw_symmetric",
    "C29_normalized_self_zero",
    "C29_normalized_symmetric"
   ],
   "note": "Symmetry of the value for no / Sakoe-Chiba constraints (the Itakura region itself is not symmetric, C16); self-normalisation for every constraint."
  },
  {
   "property": "C30",
   "status": "proved",
   "theorems": [
    "C30_alignment_gibbs",
    "C30_alignment_range",
    "C30_alignment_gamma_zero"
   ],
   "note": "Exact reals; any constraint; independent of the uninitialised memory the gradient table starts from."
  },
  {
   "property": "C31",
   "status": "partial",
   "theorems": [
    "C31_cdist_soft_dtw_cross",
    "C31_cdist_soft_dtw_cross_returns",
    "C31_cdist_soft_dtw_self",
    "C31_cdist_soft_dtw_self_pairwise",
    "C31_cdist_soft_dtw_gamma_zero",
    "C31_gamma_zero_refuted"
   ],
   "note": "FALSE as stated at gamma = 0 (refuted: cdist is not squared). Proved for every gamma > 0."
  },
  {
   "property": "C32",
   "status": "proved",
   "theorems": [
    "C32_unnormalized_gak_path_sum",
    "C32_gak_normalised",
    "C32_gak_value",
    "C32_gak_sigma_zero"
   ],
   "note": "Exact reals; any sigma <> 0."
  },
  {
   "property": "C33",
   "status": "partial",
   "theorems": [
    "C33_stops_after_one_step",
    "C33_score_ignores_alignment",
    "C33_ctw_is_dtw",
    "C33_path_optimal_partial",
    "C33_no_iteration_partial",
    "C33_score_of_path_refuted"
   ],
   "note": "FALSE as stated: the loop always stops after one CCA step and reports the score of the untransformed features (refuted). Proved for every CCA: ctw equals dtw on the first features; the path is optimal in the final space."
  },
  {
   "property": "C34",
   "status": "partial",
   "theorems": [
    "C34_sliding_product",
    "C34_single_time_step_refuted"
   ],
   "note": "FALSE for a single time step (three entries, refuted). Proved for at least two, through the discrete Fourier transform."
  },
  {
   "property": "C35",
   "status": "partial",
   "theorems": [
    "C35_paa_distance_value",
    "C35_paa_distance_bound",
    "C35_paa_lower_bound_partial",
    "C35_not_a_lower_bound_refuted"
   ],
   "note": "FALSE as stated when n_segments does not divide sz (refuted). Proved when it does, with the exact value and a bound sqrt(sz/(n*(sz//n))) * Euclid in general."
  },
  {
   "property": "C36",
   "status": "proved",
   "theorems": [
    "C36_mindist_lower_bounds_paa",
    "C36_mindist_lower_bounds_euclid"
   ],
   "note": "For every strictly increasing quantile function (norm.ppf is a parameter), scaled or not."
  },
  {
   "property": "C37",
   "status": "proved",
   "theorems": [
    "C37_symbol_counts",
    "C37_symbol_monotone",
    "C37_symbol_nan",
    "C37_sax_transform_symbols"
   ],
   "note": "Extended reals: infinities ordered, NaN gets the top symbol."
  },
  {
   "property": "C38",
   "status": "partial",
   "theorems": [
    "C38_inverse_values",
    "C38_transform_inverse",
    "C38_tail_is_zero_refuted",
    "C38_too_many_segments_refuted"
   ],
   "note": "Round trip proved for n_segments <= sz. FALSE beyond: the tail after the last whole segment is zero, and with more segments than time steps everything is NaN (both refuted)."
  },
  {
   "property": "C39",
   "status": "partial",
   "theorems": [
    "C39_sax1d_symbols",
    "C39_unscaled_partial",
    "C39_scaled_twice_refuted"
   ],
   "note": "FALSE as stated with scale=True: averages are standardised twice (refuted for every quantile function with median 0). Full characterisation of all symbols proved; agrees with SAX without scaling."
  },
  {
   "property": "C40",
   "status": "proved",
   "theorems": [
    "C40_to_dataset"
   ],
   "note": ""
  },
  {
   "property": "C41",
   "status": "partial",
   "theorems": [
    "C41_feature_mismatch_refuted",
    "C41_feature_mismatch_partial"
   ],
   "note": "FALSE as stated: one-feature series are broadcast. Proved that every other mismatch is rejected."
  },
  {
   "property": "C42",
   "status": "partial",
   "theorems": [
    "C42_string_partial",
    "C42_file_partial",
    "C42_dataset_partial",
    "C42_refuted"
   ],
   "note": "FALSE as stated: a dataset whose last time step is NaN in every series comes back shorter (C42_refuted, for all such datasets). C42_string_partial: every series of doubles, infinities and NaN with at least one time step and one feature is read back exactly in the default format, for any shape; the number layer (19 decimal digits, correctly rounded both ways) is proved on the characters. C42_file_partial: loading equals to_time_series_dataset of the saved series, errors included. C42_dataset_partial: arrays whose last step is used by some series come back equal. Not covered: other formats, the sign of zero, empty series, line endings other than a newline."
  },
  {
   "property": "C43",
   "status": "partial",
   "theorems": [
    "C43_seglearn",
    "C43_stumpy",
    "C43_cesium_partial",
    "C43_sktime",
    "C43_tsfresh_partial",
    "C43_tsfresh_refuted",
    "C43_pyts",
    "C43_pyts_lengths"
   ],
   "note": "FALSE for tsfresh as stated: a series without any value has no row in the frame and is lost (C43_tsfresh_refuted). Proved for every input X that to_time_series_dataset accepts with at least one feature: seglearn, stumpy, sktime; pyts for series of one length with finite values (otherwise ValueError: C43_pyts, C43_pyts_lengths); cesium if a TimeSeries keeps its measurements and every series has a value; tsfresh for every iteration order of the set of ids: the series come back in that order. pandas, cesium and check_array modelled by their documented meaning; flat lists as datasets are covered as one 1-d series."
  },
  {
   "property": "C44",
   "status": "proved",
   "theorems": [
    "C44_range",
    "C44_bounds_reached",
    "C44_order",
    "C44_constant",
    "C44_training_scale",
    "C44_errors"
   ],
   "note": "Exact reals over arrays with missing values at any place; the range theorem holds for the fitted data, and order preservation and constancy are stated for every transformed array."
  },
  {
   "property": "C45",
   "status": "proved",
   "theorems": [
    "C45_moments"
   ],
   "note": "Exact reals; groups containing an observation have mean mu and, unless the group is constant, standard deviation std."
  },
  {
   "property": "C46",
   "status": "proved",
   "theorems": [
    "C46_piecewise_linear",
    "C46_endpoints_range_identity",
    "C46_single_point"
   ],
   "note": "Exact reals; series of unequal length are padded and resampled on their own size."
  },
  {
   "property": "C47",
   "status": "partial",
   "theorems": [
    "C47_observed_unchanged",
    "C47_ffill",
    "C47_bfill",
    "C47_fill",
    "C47_linear",
    "C47_returns",
    "C47_errors",
    "C47_every_gap_filled_refuted"
   ],
   "note": "FALSE as stated for features without any observation, leading gaps under ffill, trailing gaps under bfill, and the default constant (NaN): C47_every_gap_filled_refuted. The exact value of every filled cell is proved per method, with the calls that raise."
  },
  {
   "property": "C48",
   "status": "proved",
   "theorems": [
    "C48_mm_step",
    "C48_petitjean_step",
    "C48_dba",
    "C48_petitjean"
   ],
   "note": "Exact reals, series of unequal length, positive weights, any constraint except names (which are ignored, see C50). The objective is defined with cheapest warping paths, not with the model."
  },
  {
   "property": "C49",
   "status": "partial",
   "theorems": [
    "C49_mm_weighted_means",
    "C49_petitjean_weighted_means",
    "C49_same_when_unique",
    "C49_same_barycenter_refuted"
   ],
   "note": "FALSE as stated: the two updates agree only when cheapest paths are unique (C49_same_when_unique); with ties the public functions return different barycenters (refuted). Both updates are weighted means and never divide by zero (proved)."
  },
  {
   "property": "C50",
   "status": "partial",
   "theorems": [
    "C50_name_ignored",
    "C50_honours_name_refuted",
    "C50_codes_honoured"
   ],
   "note": "FALSE as stated: a constraint given by name is never translated to its code and has no effect on any input; integer codes are honoured."
  },
  {
   "property": "C51",
   "status": "partial",
   "theorems": [
    "C51_returns_size",
    "C51_petitjean_size",
    "C51_no_iterations_refuted",
    "C51_one_point_refuted",
    "C51_padded_init_refuted"
   ],
   "note": "FALSE as stated: max_iter=0 returns None for all data; one-point series with a larger barycenter_size raise; an init_barycenter with NaN padding gives NaN rows. With max_iter, n_init >= 1 and the default initialisation the size is as requested (proved)."
  },
  {
   "property": "C52",
   "status": "partial",
   "theorems": [
    "C52_subgradient_weights_refuted",
    "C52_mm_duplicates"
   ],
   "note": "FALSE as stated: in the subgradient variant the weight cancels, all positive weights give the same epoch. In the MM variant a weight is a multiplicity (proved)."
  },
  {
   "property": "C53",
   "status": "proved",
   "theorems": [
    "C53_iteration",
    "C53_more_iterations"
   ],
   "note": "Exact reals, any data of one shape, any centres: each iteration's assignment picks first closest centres, the update succeeds and yields the cluster means, and the next assignment's inertia is no larger; raising max_iter never raises the inertia reported by fit from the same initial array."
  },
  {
   "property": "C54",
   "status": "partial",
   "theorems": [
    "C54_reported_partial",
    "C54_inertia_refuted"
   ],
   "note": "FALSE as stated: inertia_ is the one of the centres before the last update (points 0,2,10 from centres 0,5). Proved: labels_ are the first closest of the reported centres, inertia_ bounds the actual mean squared distance from above and is exactly the loss of the centres the last update started from."
  },
  {
   "property": "C55",
   "status": "partial",
   "theorems": [
    "C55_attempts_partial",
    "C55_no_empty_partial",
    "C55_escape_refuted",
    "C55_unfitted_refuted"
   ],
   "note": "FALSE as stated, twice: the final assignment in _post_fit is outside the try, so EmptyClusterError escapes (29,31,89,91 from centres 0,60,120, max_iter=1); and when every attempt fails fit returns with labels_ that leave a cluster empty and predict works. Proved for any metric and data: the loop over the initialisations never raises EmptyClusterError, and a reported clustering has no empty cluster."
  },
  {
   "property": "C56",
   "status": "partial",
   "theorems": [
    "C56_refit_partial",
    "C56_auto_refuted",
    "C56_dict_refuted",
    "C56_kernel_refuted"
   ],
   "note": "FALSE as stated for sigma='auto' (the value of the first fit is written into the user's dictionary and reused), for a dictionary without sigma (fit adds it), and after a fit with another kernel (sigma becomes None). Proved for a numeric or missing sigma and any sequence of fits: the configured value is used every time."
  },
  {
   "property": "C57",
   "status": "partial",
   "theorems": [
    "C57_labels_partial",
    "C57_out_of_bounds_refuted"
   ],
   "note": "FALSE as stated. predict passes the training norms_ to the cross-correlation, entry i of the training norms for series i of the argument: beyond the number of training series the compiled code reads outside the array (C57_out_of_bounds_refuted: the label depends on that memory). Proved (C57_labels_partial): the label is the first nearest centre in shape-based distance whenever there are at most as many series as in training and no product of norms is below 1e-9. eigh is an oracle."
  },
  {
   "property": "C58",
   "status": "partial",
   "theorems": [
    "C58_query",
    "C58_self_partial",
    "C58_self_refuted"
   ],
   "note": "FALSE as stated for X=None (C58_self_refuted): the first entry of an argpartition is dropped as if it were the query, although argpartition does not order its prefix, and the partition index is not increased. So a returned neighbour need not be among the nearest, and the query itself can be returned. C58_query proves the claim for given queries, for every argpartition/argsort meeting numpy's contract. C58_self_partial: with X=None the result still has min(k, n-1) distinct valid indices in increasing order of distance."
  },
  {
   "property": "C59",
   "status": "partial",
   "theorems": [
    "C59_elastic_partial",
    "C59_other_partial",
    "C59_heals_partial",
    "C59_refuted"
   ],
   "note": "FALSE as stated (C59_refuted): a fit that raises leaves metric='precomputed'; gak, lcss and normalized soft-DTW are accepted by fit but predict raises and leaves 'precomputed'; after fitting with an elastic metric, set_params(metric='euclidean') is undone by the next fit. Proved: successful histories with elastic metrics only (C59_elastic_partial), any history without elastic metrics (C59_other_partial), and a successful fit repairs the attribute (C59_heals_partial). kneighbors is modelled for KNeighborsTimeSeries; scikit-learn's predict is not modelled."
  },
  {
   "property": "C60",
   "status": "proved",
   "theorems": [
    "C60_profile",
    "C60_dataset"
   ],
   "note": "numpy implementation, real-valued series, with and without scaling; the dataset-level theorem also gives the refused segment lengths. Exact real arithmetic. The stumpy back ends are not modelled."
  },
  {
   "property": "C61",
   "status": "partial",
   "theorems": [
    "C61_decision_partial",
    "C61_causal",
    "C61_short_refuted"
   ],
   "note": "FALSE as stated for series shorter than the training series: C61_short_refuted shows that when waiting still looks cheaper at the end of a shorter series the reported decision time is the training length, i.e. beyond its end. Proved: C61_decision_partial (series at least as long as the training series: first time from min_t at which no later time looks cheaper, at most the training length, class = classifier of that time on the prefix) and C61_causal (any length: observations after the decision time do not matter). Exact real arithmetic; classifiers are parameters; undefined (NaN) cluster probabilities count as deciding now, see C99."
  },
  {
   "property": "C62",
   "status": "partial",
   "theorems": [
    "C62_incremental_partial",
    "C62_overflow_refuted"
   ],
   "note": "FALSE as stated: C62_overflow_refuted, a well-formed chunk exceeding the training length raises and ends the generator for good. C62_incremental_partial: while the total stays within the training length, every answer equals early_predict on the concatenation of the well-formed chunks so far; malformed chunks and None change nothing."
  },
  {
   "property": "C63",
   "status": "proved",
   "theorems": [
    "C63_restored",
    "C63_nested"
   ],
   "note": "Proved for every body (as a state transformer that may raise), every attribute and value, and nested patches; other changes the body makes to the object are kept."
  },
  {
   "property": "C64",
   "status": "partial",
   "theorems": [
    "C64_roundtrip_partial",
    "C64_refuted",
    "C64_never_overwrites"
   ],
   "note": "FALSE as stated: empty dictionaries vanish, {} itself saves and then raises KeyError on load, a key containing a slash becomes a nested dictionary, strings come back as bytes. Proved for dictionaries of any depth with simple string keys, no empty dictionaries and storable leaves, up to the h5py leaf conversions (spec 'restored')."
  },
  {
   "property": "C65",
   "status": "partial",
   "theorems": [
    "C65_hdf5_partial",
    "C65_hdf5_refuted",
    "C65_pickle",
    "C65_json_partial",
    "C65_json_refuted"
   ],
   "note": "FALSE as stated. HDF5: strings in nested dictionaries come back as bytes, empty dictionaries and callables silently become the constructor default, the string 'None' becomes None. JSON: int keys become strings, lists and tuples become arrays, empty arrays lose their shape. Proved otherwise: HDF5 up to h5py's scalar conversions (spec 'reloaded'), JSON exactly for json_ok dictionaries, pickle exactly unless a value is a bytes object."
  },
  {
   "property": "C66",
   "status": "partial",
   "theorems": [
    "C66_rule",
    "C66_classes_partial",
    "C66_refuted",
    "C66_none_refuted"
   ],
   "note": "FALSE as stated: MatrixProfile is not fitted after loading; VARIMA, AutoVARIMA, the nearest-neighbour regressor and the classifier with a scikit-learn metric cannot be saved at all; an attribute that is None (KernelKMeans with kernel other than gak) cannot be saved as HDF5. Proved: the general rule on attribute names and thirteen classes for which it works, whatever other attributes the object has. The attribute tables are read off the fit methods by hand."
  },
  {
   "property": "C67",
   "status": "partial",
   "theorems": [
    "C67_integration_partial",
    "C67_order2_refuted"
   ],
   "note": "FALSE as stated for every d >= 2: on a straight line the d-th difference is 0, and a model that forecasts 0 for it forecasts the last value again (the coefficients of _undifference are wrong from d = 2 on). Proved for d <= 1, any seasonality, p, q and number of features. lstsq and Nelder-Mead are not modelled: the coefficients are arbitrary."
  },
  {
   "property": "C68",
   "status": "partial",
   "theorems": [
    "C68_search_partial",
    "C68_no_start_refuted"
   ],
   "note": "FALSE as stated when no initial model has an AIC below infinity: AttributeError on None. Proved otherwise for all AIC functions (failing fits and NaN included) and all set iteration orders: termination, bounds, no repetition, minimal AIC, all neighbours of the result tested. Fits raising something other than ValueError propagate it and are outside the theorem."
  },
  {
   "property": "C69",
   "status": "partial",
   "theorems": [
    "C69_univariate_partial",
    "C69_transposed_refuted"
   ],
   "note": "FALSE for two or more features: the mean of the raveled transposed estimates is reshaped without transposing back, so with one lag the transposed matrix is applied. Proved for one feature. The least squares solution itself is an argument of the model."
  },
  {
   "property": "C70",
   "status": "partial",
   "theorems": [
    "C70_distance_partial",
    "C70_refuted",
    "C70_windows_partial"
   ],
   "note": "FALSE as stated: with two or more features and two or more shapelets of a size the kernel is reshaped in the wrong order; for all such sizes a window equal to a shapelet can get a negative distance. Proved for one feature or one shapelet per size (exact arithmetic, windows without NaN). C70_windows_partial: the windows compared are all windows of the series, in order, for any number of features (any values). keras operations modelled by their documented meaning."
  },
  {
   "property": "C71",
   "status": "partial",
   "theorems": [
    "C71_sizes",
    "C71_returns",
    "C71_default",
    "C71_refuted"
   ],
   "note": "FALSE as stated: C71_refuted, parameters such as l=0.5, r=3 make it raise (log10 of a negative number or of 0). C71_sizes: whenever it returns, the sizes are within the series and the counts positive (with their exact values). C71_returns: it returns exactly when the largest size fits. C71_default: it returns whenever l*r <= 1. log10 is exact at powers of ten in the model."
  },
  {
   "property": "C72",
   "status": "partial",
   "theorems": [
    "C72_cached_partial",
    "C72_refuted",
    "C72_crash_refuted"
   ],
   "note": "FALSE as stated. C72_refuted: with use_cache=False the cached files are deleted before the download starts, so a failed download loses them. C72_crash_refuted: a process killed during extraction leaves an incomplete file that counts as cached from then on. C72_cached_partial: with use_cache=True, cached data is used without any file system operation, whatever the server does. The file system model has no symbolic links, permissions, full disks or concurrent processes."
  },
  {
   "property": "C73",
   "status": "proved",
   "theorems": [
    "C73_binary64_optimal"
   ],
   "note": ""
  },
  {
   "property": "C74",
   "status": "partial",
   "theorems": [
    "C74_cdist_feature_mismatch_refuted",
    "C74_common_features"
   ],
   "note": "FALSE as stated: cdist_dtw silently compares the common features. C74_common_features proves it for every pair of datasets without missing values whose first has at most as many features as the second, every constraint and schedule: the entries are the DTW distances to the second series cut to the features of the first. The opposite case reads outside the arrays (numba does not check bounds) and is not modelled."
  },
  {
   "property": "C75",
   "status": "partial",
   "theorems": [
    "C75_normalized_cross_sequential",
    "C75_normalized_cross_parallel",
    "C75_jobs_independent_refuted",
    "C75_normalized_self"
   ],
   "note": "FALSE as stated: with n_jobs and different padded lengths a ValueError is raised (refuted). Proved in the sequential case, with several jobs for equal padded lengths, and for self matrices."
  },
  {
   "property": "C76",
   "status": "proved",
   "theorems": [
    "C76_cdist_gak_cross",
    "C76_cdist_gak_self"
   ],
   "note": "Exact reals; the three batches of parallel tasks run under arbitrary schedules."
  },
  {
   "property": "C77",
   "status": "proved",
   "theorems": [
    "C77_sax_transform_inverse"
   ],
   "note": "For every strictly increasing quantile function (norm.ppf is a parameter)."
  },
  {
   "property": "C78",
   "status": "partial",
   "theorems": [
    "C78_sax1d_transform_inverse_partial",
    "C78_scaled_refuted"
   ],
   "note": "FALSE as stated with scale=True (averages standardised twice; refuted). Proved without scaling, whatever finite values the uninitialised tail holds."
  },
  {
   "property": "C79",
   "status": "partial",
   "theorems": [
    "C79_distance_of_reconstructions_refuted",
    "C79_equal_slopes_partial"
   ],
   "note": "FALSE as stated: the two functions centre the segments differently (refuted for every quantile function). Proved when the slope symbols agree."
  },
  {
   "property": "C80",
   "status": "proved",
   "theorems": [
    "C80_entries_bounded",
    "C80_self_correlation"
   ],
   "note": ""
  },
  {
   "property": "C81",
   "status": "partial",
   "theorems": [
    "C81_similarity_symmetric",
    "C81_self_similarity_partial",
    "C81_diagonal_refuted"
   ],
   "note": "FALSE on the diagonal: the shortcut leaves 0 where the similarity is 1 (refuted). Proved off the diagonal; symmetry proved."
  },
  {
   "property": "C82",
   "status": "partial",
   "theorems": [
    "C82_alignment_maximises_inner_product",
    "C82_small_series_refuted"
   ],
   "note": "FALSE when the product of norms is below 1e-9 (refuted): such series are moved by 1 - sz. Proved otherwise for at least two time steps."
  },
  {
   "property": "C83",
   "status": "proved",
   "theorems": [
    "C83_least_squares"
   ],
   "note": "Exact reals."
  },
  {
   "property": "C84",
   "status": "partial",
   "theorems": [
    "C84_iteration",
    "C84_more_iterations",
    "C84_reported",
    "C84_named_refuted"
   ],
   "note": "Proved when metric_params has no global_constraint key (radius or slope may be given). FALSE with a named constraint: the barycenter ignores the name (see C50), the inertia of (0,0,10) from centre (0,6,10) under sakoe_chiba radius 0 goes from 36 to 100."
  },
  {
   "property": "C85",
   "status": "partial",
   "theorems": [
    "C85_best",
    "C85_reported",
    "C85_increase_refuted"
   ],
   "note": "Proved: best attempt, stopping of the attempts, meaning of labels_ and inertia_, no empty cluster. FALSE: the inertia can increase (four unit vectors, linear kernel, 8/3 then 58/21) because the distance to a cluster omits the norm of its mean."
  },
  {
   "property": "C86",
   "status": "partial",
   "theorems": [
    "C86_predict_partial",
    "C86_same_partial",
    "C86_refuted"
   ],
   "note": "FALSE as stated: labels_ are the nearest clusters of the previous labels, predict uses labels_ themselves (example with max_iter=1). Proved: predict gives the most similar cluster of labels_; it returns labels_ iff one more iteration would not change them."
  },
  {
   "property": "C87",
   "status": "proved",
   "theorems": [
    "C87_weights"
   ],
   "note": "Exact arithmetic."
  },
  {
   "property": "C88",
   "status": "proved",
   "theorems": [
    "C88_affine",
    "C88_positive"
   ],
   "note": "Exact arithmetic; the drawn indices are arbitrary."
  },
  {
   "property": "C89",
   "status": "partial",
   "theorems": [
    "C89_reported_partial",
    "C89_exception_refuted"
   ],
   "note": "FALSE as stated. norms_centroids_ is computed from the centres of the last attempt even when that attempt failed, then used with the centres of the best attempt (C89_exception_refuted: EmptyClusterError escapes fit although an attempt succeeded). Proved (C89_reported_partial) when the initial centres have the norm of standardised series and the eigenvector routine returns no constant vector."
  },
  {
   "property": "C90",
   "status": "proved",
   "theorems": [
    "C90_more_iterations"
   ],
   "note": "Eigenvector routine assumed not to return constant vectors (hypothesis nonconstant_eig)."
  },
  {
   "property": "C91",
   "status": "proved",
   "theorems": [
    "C91_best"
   ],
   "note": "Draws of the random initialisation are a parameter; metric softdtw not modelled."
  },
  {
   "property": "C92",
   "status": "partial",
   "theorems": [
    "C92_query",
    "C92_none_refuted"
   ],
   "note": "FALSE as stated (C92_none_refuted): with X=None the estimator compares the n x n zero matrix it stored for scikit-learn, so every distance is the distance between zero series. C92_query proves the claim for given queries."
  },
  {
   "property": "C93",
   "status": "proved",
   "theorems": [
    "C93_affine"
   ],
   "note": "Exact real arithmetic."
  },
  {
   "property": "C94",
   "status": "proved",
   "theorems": [
    "C94_bound"
   ],
   "note": "Exact real arithmetic."
  },
  {
   "property": "C95",
   "status": "partial",
   "theorems": [
    "C95_padded_refuted",
    "C95_kept"
   ],
   "note": "FALSE as stated (C95_padded_refuted, for scale=False): one missing value at the end makes every entry NaN whose exclusion zone does not contain the last segment. The entries whose exclusion zone does contain it are those of the unpadded series (C95_kept)."
  },
  {
   "property": "C96",
   "status": "proved",
   "theorems": [
    "C96_bandwidth",
    "C96_value"
   ],
   "note": "Exact real arithmetic; the drawn indices are a parameter. Added after an edit of the median left C88 provable."
  },
  {
   "property": "C97",
   "status": "proved",
   "theorems": [
    "C97_prefixes"
   ],
   "note": "Exact real arithmetic; classifiers are parameters that never raise."
  },
  {
   "property": "C98",
   "status": "proved",
   "theorems": [
    "C98_delay"
   ],
   "note": "Exact real arithmetic. When cluster probabilities are undefined the delay is 0 (see C99)."
  },
  {
   "property": "C99",
   "status": "partial",
   "theorems": [
    "C99_distribution_partial",
    "C99_undefined_refuted"
   ],
   "note": "FALSE as stated: C99_undefined_refuted, when the prefix coincides with every centre the division 0/0 gives NaN for every cluster, and the classifier then decides at once although waiting is free. C99_distribution_partial: true in every other case."
  },
  {
   "property": "C100",
   "status": "partial",
   "theorems": [
    "C100_pyck_partial",
    "C100_precision_partial",
    "C100_refuted"
   ],
   "note": "FALSE for pyhatyck_: the confusion matrix is divided by its column sums, giving the share of the series classified as yhat whose class is y (C100_precision_partial); C100_refuted: entries differ from the documented probability and a row reaches 2. pyck_ is right for non-empty clusters (C100_pyck_partial)."
  },
  {
   "property": "C101",
   "status": "proved",
   "theorems": [
    "C101_horizon"
   ],
   "note": ""
  },
  {
   "property": "C102",
   "status": "proved",
   "theorems": [
    "C102_smallest_order"
   ],
   "note": "The KPSS test is a parameter of the model."
  },
  {
   "property": "C103",
   "status": "partial",
   "theorems": [
    "C103_refit_partial",
    "C103_padded_refuted"
   ],
   "note": "FALSE for padded (shorter) series when q > p: the residuals are aligned differently. Proved for unpadded series, and for padded ones when q <= p."
  },
  {
   "property": "C104",
   "status": "partial",
   "theorems": [
    "C104_iterated_partial",
    "C104_order2_refuted"
   ],
   "note": "FALSE for d = 2. Proved for d <= 1, any p, q, seasonality and number of features, for complete series."
  },
  {
   "property": "C105",
   "status": "partial",
   "theorems": [
    "C105_resave_partial",
    "C105_bool_refuted",
    "C105_convert_refuted"
   ],
   "note": "FALSE as stated: a boolean hyper-parameter comes back as numpy.bool_, which the HDF5 saver refuses, and an int comes back as a numpy integer, which the JSON saver refuses. Proved for HDF5 when no value is a boolean and no nested value is a string (spec 'steady')."
  },
  {
   "property": "C106",
   "status": "partial",
   "theorems": [
    "C106_transform_partial",
    "C106_locate_partial",
    "C106_short_refuted"
   ],
   "note": "FALSE as stated. C106_transform_partial and C106_locate_partial: true, for every batch size and all other series, when every series is at least as long as every shapelet and each layer has one feature or one shapelet. C106_short_refuted: a shorter series is accepted when sizes were chosen automatically and gets the greatest distance of its batch, so its features depend on the other series. Layers with several features and shapelets: see C70_refuted. Exact arithmetic."
  },
  {
   "property": "C107",
   "status": "proved",
   "theorems": [
    "C107_roundtrip",
    "C107_refused",
    "C107_most_probable",
    "C107_binary"
   ],
   "note": "Labels are integers in the model."
  },
  {
   "property": "C108",
   "status": "proved",
   "theorems": [
    "C108_windows",
    "C108_too_short"
   ],
   "note": "The k-means step that follows is not part of this claim."
  },
  {
   "property": "C109",
   "status": "proved",
   "theorems": [
    "C109_predict",
    "C109_scaled"
   ],
   "note": "For datasets of finite numbers; the trained network is an arbitrary function of the prepared array. Exact arithmetic."
  },
  {
   "property": "C110",
   "status": "partial",
   "theorems": [
    "C110_refuted",
    "C110_max_size_partial"
   ],
   "note": "FALSE as stated. C110_refuted: without max_size, a refit on longer series raises ValueError where a fresh estimator succeeds, and a refit on shorter series keeps the earlier length. C110_max_size_partial: with max_size an earlier fit changes nothing."
  },
  {
   "property": "C111",
   "status": "proved",
   "theorems": [
    "C111_accepts"
   ],
   "note": "For non-empty datasets of finite numbers. With automatically chosen sizes, series shorter than the shapelets are accepted (C106_short_refuted)."
  },
  {
   "property": "C112",
   "status": "partial",
   "theorems": [
    "C112_confined_partial",
    "C112_empty_name_refuted",
    "C112_parent_refuted",
    "C112_absolute_refuted"
   ],
   "note": "FALSE as stated: the name is joined to the cache directory unchecked. C112_empty_name_refuted: load_dataset('') deletes the whole cache; C112_parent_refuted: load_dataset('..') deletes everything in the parent directory; C112_absolute_refuted: load_dataset('/some/dir') deletes that directory. C112_confined_partial: true for names that are a single path component (apart from creating missing ancestors)."
  },
  {
   "property": "C113",
   "status": "partial",
   "theorems": [
    "C113_loaded_partial",
    "C113_refuted"
   ],
   "note": "FALSE as stated. C113_refuted: an answer that is not a zip file leaves an empty directory that is listed. C113_loaded_partial: the second half holds."
  },
  {
   "property": "C114",
   "status": "partial",
   "theorems": [
    "C114_online_partial",
    "C114_refuted"
   ],
   "note": "FALSE as stated. C114_refuted: if the first download fails the attribute with the univariate list is never set, and list_datasets raises AttributeError even with both lists cached. C114_online_partial: with the first answer, the lists are the server's, or the cached univariate one when only that answer is missing."
  },
  {
   "property": "C115",
   "status": "proved",
   "theorems": [
    "C115_sklearn"
   ],
   "note": "Proved for every input to_time_series_dataset accepts with at least one feature. dtype conversions not modelled."
  },
  {
   "property": "C116",
   "status": "proved",
   "theorems": [
    "C116_pyflux",
    "C116_single"
   ],
   "note": "Proved. Rows of NaN at the end of the series are kept because the code uses X[0] and not the checked array. A flat list given as a dataset is not covered."
  },
  {
   "property": "C117",
   "status": "proved",
   "theorems": [
    "C117_gradient"
   ],
   "note": "Proved in exact arithmetic for all real series, both for the value (equal to the public soft_dtw) and for every partial derivative (derivable_pt_lim), including constraints and uninitialised gradient memory. cdist(Z, X)**2 is taken as the squared distance; fastmath rounding is not modelled."
  },
  {
   "property": "C118",
   "status": "proved",
   "theorems": [
    "C118_init",
    "C118_default"
   ],
   "note": "Proved; the start for series of different lengths without init (mean of the resampled series) is modelled but not covered by C118_default. scipy's minimize is an argument with the stated contract."
  },
  {
   "property": "C119",
   "status": "partial",
   "theorems": [
    "C119_features_refuted",
    "C119_error_partial"
   ],
   "note": "FALSE as stated: C119_features_refuted, four rows of one feature are silently read as two rows of two features and the result has the wrong shape. C119_error_partial: rejected (ValueError) when the number of entries is not a multiple of the number of features."
  },
  {
   "property": "C120",
   "status": "proved",
   "theorems": [
    "C120_mae",
    "C120_mse"
   ],
   "note": "Exact real arithmetic. scikit-learn's mean_absolute_error and mean_squared_error are modelled by their documented meaning with multioutput='raw_values'."
  },
  {
   "property": "C121",
   "status": "partial",
   "theorems": [
    "C121_partial",
    "C121_refuted"
   ],
   "note": "FALSE as stated (C121_refuted): y_pred is reshaped to the dimensions of y_true, so two forecasts of one step are accepted against one truth of two steps. C121_partial: a different total number of values is always rejected with ValueError."
  },
  {
   "property": "C122",
   "status": "partial",
   "theorems": [
    "C122_value",
    "C122_naive",
    "C122_feature_weights_refuted"
   ],
   "note": "FALSE as stated for a list of feature weights (C122_feature_weights_refuted): the error is weighted by feature but the scale is not, and the naive forecast scores 1/2 in the example. C122_naive proves the score 1 for 'uniform_average' and 'raw_values' for all training arrays; C122_value gives the value of the score for all truths, forecasts, weights and training arrays."
  },
  {
   "property": "C123",
   "status": "partial",
   "theorems": [
    "C123_refuted"
   ],
   "note": "FALSE: C123_refuted proves that whenever two training series have different lengths the score is NaN, for every truth, forecast, weight and positive period, because the padding enters the mean. For training series of one length see C122_value."
  },
  {
   "property": "C124",
   "status": "proved",
   "theorems": [
    "C124_cached",
    "C124_downloaded",
    "C124_incomplete"
   ],
   "note": "The parsers are parameters; the file system is modelled without symbolic links, permissions, full disks and concurrent processes."
  },
  {
   "property": "C125",
   "status": "proved",
   "theorems": [
    "C125_clusters",
    "C125_dtw"
   ],
   "note": "sklearn's dbscan_inner and radius_neighbors on a precomputed matrix are modelled from their source. C125_clusters is about the distance matrix, C125_dtw about fit with metric dtw."
  },
  {
   "property": "C126",
   "status": "partial",
   "theorems": [
    "C126_cores_partial",
    "C126_refuted"
   ],
   "note": "FALSE as stated: a border series within eps of two clusters joins the one found first (C126_refuted). C126_cores_partial: the core series, their partition and the noise do not depend on the order."
  },
  {
   "property": "C127",
   "status": "partial",
   "theorems": [
    "C127_refuted",
    "C127_directed"
   ],
   "note": "FALSE as stated: when D[1, 0] <= eps < D[0, 1] the series 0 is clustered alone, then 1 (C127_refuted). True for symmetric matrices: C125_clusters. For every matrix, C127_directed: a series near a core series has no larger label, and core series linked in both directions share a cluster."
  },
  {
   "property": "C128",
   "status": "proved",
   "theorems": [
    "C128_kernels",
    "C128_features"
   ],
   "note": "scikit-learn's estimators are parameters. Values are numbers with NaN padding."
  },
  {
   "property": "C129",
   "status": "partial",
   "theorems": [
    "C129_svc",
    "C129_kernel_gamma",
    "C129_svr_partial",
    "C129_epsilon_refuted"
   ],
   "note": "FALSE for TimeSeriesSVR: epsilon is documented and stored but never passed on, so the fit does not depend on it (C129_epsilon_refuted). C129_svc: true for TimeSeriesSVC; C129_svr_partial: true for the other parameters of TimeSeriesSVR."
  },
  {
   "property": "C130",
   "status": "partial",
   "theorems": [
    "C130_value_partial",
    "C130_refuted"
   ],
   "note": "FALSE as stated: gamma is 2*sigma_gak(X)**2 for every kernel (C130_value_partial), 0 on constant data (C130_refuted)."
  },
  {
   "property": "C131",
   "status": "proved",
   "theorems": [
    "C131_support_vectors"
   ],
   "note": ""
  },
  {
   "property": "C132",
   "status": "proved",
   "theorems": [
    "C132_zero_gamma",
    "C132_constant"
   ],
   "note": "Exact arithmetic: gamma exactly 0."
  },
  {
   "property": "C133",
   "status": "proved",
   "theorems": [
    "C133_value",
    "C133_distance",
    "C133_shapes"
   ],
   "note": "Exact arithmetic on extended reals; the rounding to single precision by torch.Tensor is not modelled."
  },
  {
   "property": "C134",
   "status": "proved",
   "theorems": [
    "C134_gradient",
    "C134_distance"
   ],
   "note": "Exact arithmetic; autograd's chain rule for pow, sub, sum and the linear normalisation is taken by its documented meaning; x and y are different tensors."
  },
  {
   "property": "C135",
   "status": "partial",
   "theorems": [
    "C135_unconstrained_partial",
    "C135_refuted"
   ],
   "note": "FALSE as stated: with a constraint, line 90 overwrites the forbidden entries of the caller's tensor with infinity (C135_refuted: a later unconstrained loss on the same tensor changes its value). Holds without constraint (C135_unconstrained_partial)."
  },
  {
   "property": "C136",
   "status": "proved",
   "theorems": [
    "C136_precomputed",
    "C136_sample",
    "C136_dtw",
    "C136_softdtw",
    "C136_euclidean",
    "C136_euclidean_lengths"
   ],
   "note": "C136_precomputed, C136_sample, C136_dtw, C136_softdtw, C136_euclidean, C136_euclidean_lengths. scikit-learn's silhouette functions are modelled from their source."
  },
  {
   "property": "C137",
   "status": "proved",
   "theorems": [
    "C137_relabel",
    "C137_relabel_metrics"
   ],
   "note": "C137_relabel, C137_relabel_metrics."
  },
  {
   "property": "C138",
   "status": "proved",
   "theorems": [
    "C138_label_count",
    "C138_bad_matrix"
   ],
   "note": "C138_label_count, C138_bad_matrix."
  },
  {
   "property": "C139",
   "status": "partial",
   "theorems": [
    "C139_refuted",
    "C139_keywords"
   ],
   "note": "FALSE as stated: the inner sklearn_metric calls metric(x, y) without metric_params_ (C139_refuted). Keyword arguments are handed to scikit-learn, which passes them to sklearn_metric(x, y): TypeError (C139_keywords)."
  },
  {
   "property": "C140",
   "status": "partial",
   "theorems": [
    "C140_one_length_partial",
    "C140_lengths",
    "C140_refuted"
   ],
   "note": "FALSE as stated: the padded matrix holds NaN, which scikit-learn's check_X_y rejects with ValueError before the metric is called (C140_lengths, C140_refuted). Proved for series of one length (C140_one_length_partial)."
  },
  {
   "property": "C141",
   "status": "proved",
   "theorems": [
    "C141_order"
   ],
   "note": "C141_order, in exact arithmetic."
  },
  {
   "property": "C142",
   "status": "proved",
   "theorems": [
    "C142_random_walks",
    "C142_more_series"
   ],
   "note": "Proved in exact arithmetic for every sequence of normal numbers; sz = 0 raises IndexError."
  },
  {
   "property": "C143",
   "status": "proved",
   "theorems": [
    "C143_blobs",
    "C143_no_noise"
   ],
   "note": "Proved in exact arithmetic for every sequence of normal numbers."
  },
  {
   "property": "C144",
   "status": "proved",
   "theorems": [
    "C144_interpolated",
    "C144_kept"
   ],
   "note": "Proved in exact arithmetic for features of arbitrary lengths, whatever the padding of the input."
  },
  {
   "property": "C145",
   "status": "proved",
   "theorems": [
    "C145_interpolated",
    "C145_kept",
    "C145_lists"
   ],
   "note": "Proved with exact conversion of timestamps to float64 (the code rounds from 2^53 units on)."
  },
  {
   "property": "C146",
   "status": "partial",
   "theorems": [
    "C146_adjacent",
    "C146_shape",
    "C146_refuted"
   ],
   "note": "FALSE as stated: 1, 10, NaT, 5 is accepted because the two differences around NaT are masked; and one observation followed by NaT is refused because all the differences are masked (numpy.ma.all returns masked, which is false). Proved: two consecutive present timestamps that do not increase, and another shape, raise ValueError."
  },
  {
   "property": "C147",
   "status": "proved",
   "theorems": [
    "C147_reference",
    "C147_features",
    "C147_no_value"
   ],
   "note": "Negative reference indices (counted from the end) are not modelled."
  },
  {
   "property": "C148",
   "status": "proved",
   "theorems": [
    "C148_dtw",
    "C148_softdtw"
   ],
   "note": "Pairwise distances by the library's own dtw / soft_dtw; random numbers are universally quantified. metric='euclidean' uses scikit-learn's function, not modelled."
  },
  {
   "property": "C149",
   "status": "proved",
   "theorems": [
    "C149_distinct"
   ],
   "note": "The draw 0 (possible, probability about 2^-53) selects series 0 whatever its distance and is excluded."
  },
  {
   "property": "C150",
   "status": "partial",
   "theorems": [
    "C150_repeats_refuted",
    "C150_one_step_partial"
   ],
   "note": "FALSE as stated: soft-DTW of a series with itself is not zero (and its square is positive), so a chosen centre keeps a positive weight and can be drawn again. C150_repeats_refuted: two different series of two steps, gamma 1, draws in (0,1), both centres are the first series. C148_softdtw says what the seeding does instead. C150_one_step_partial: true for pairwise different series of one time step (soft-DTW of a series with itself is then zero) and at most as many clusters as series, without a global constraint."
  },
  {
   "property": "C151",
   "status": "partial",
   "theorems": [
    "C151_distances",
    "C151_unscaled",
    "C151_batch",
    "C151_lower_bound",
    "C151_scaling_refuted"
   ],
   "note": "FALSE as stated with scale=True: fit_transform refits SAX on the queries, so a training series queried alone is at positive distance from itself and at distance 0 from another one (C151_scaling_refuted). The exact value of every distance is proved for both settings (C151_distances), and the statement itself without scaling (C151_unscaled, C151_batch, C151_lower_bound)."
  },
  {
   "property": "C152",
   "status": "partial",
   "theorems": [
    "C152_first_fit",
    "C152_refit_refuted"
   ],
   "note": "FALSE as stated: the object _sax is created only once, so after any number of fits the parameters are those of the very first fit (C152_refit_refuted, for all histories). The first fit is as stated (C152_first_fit)."
  },
  {
   "property": "C153",
   "status": "partial",
   "theorems": [
    "C153_supported",
    "C153_metrics_refuted",
    "C153_regressor_refuted"
   ],
   "note": "FALSE as stated: gak, lcss and softdtw_normalized (and sax for KNeighborsTimeSeries) are accepted by fit and rejected by every later call (C153_metrics_refuted); a regressor with metric sax keeps its training series untransformed and every later call fails, whatever the data (C153_regressor_refuted). The exact list of usable metrics is C153_supported."
  },
  {
   "property": "C154",
   "status": "proved",
   "theorems": [
    "C154_histories",
    "C154_predictions",
    "C154_calls",
    "C154_layout"
   ],
   "note": "Refinement of a small specification (trains) by the model of the wrapper and of sklearn's validation; the learner itself is a parameter."
  },
  {
   "property": "C155",
   "status": "partial",
   "theorems": [
    "C155_warm_start_refuted",
    "C155_one_instant"
   ],
   "note": "FALSE as stated: fit sets n_features_in_ to the number of features d while sklearn compares it with sz*d at the second fit, so it raises ValueError unless the series have one instant (C155_warm_start_refuted, exact condition). For one instant it trains on (C155_one_instant)."
  },
  {
   "property": "C156",
   "status": "partial",
   "theorems": [
    "C156_failed_calls_refuted",
    "C156_rejected_input",
    "C156_rejected_shape"
   ],
   "note": "FALSE as stated when the targets are unacceptable: a failed first fit makes every partial_fit raise AttributeError, a failed first partial_fit fixes the shape for ever and makes predict raise AttributeError, a failed refit on another shape makes the trained model reject its own series (C156_failed_calls_refuted). It holds for arguments rejected by the validation of X (C156_rejected_input) or by their shape (C156_rejected_shape)."
  },
  {
   "property": "C157",
   "status": "proved",
   "theorems": [
    "C157_cross",
    "C157_self",
    "C157_returns",
    "C157_is_cdist_dtw"
   ],
   "note": "Proved: C157_cross, C157_self, C157_returns, C157_is_cdist_dtw (exact arithmetic, canonical correlation analysis an arbitrary pair of functions that may raise)."
  },
  {
   "property": "C158",
   "status": "partial",
   "theorems": [
    "C158_cross",
    "C158_self",
    "C158_lengths",
    "C158_transformed",
    "C158_unequal_refuted",
    "C158_context_refuted"
   ],
   "note": "FALSE as stated: words of different lengths in one dataset are padded with NaN converted to an integer, which then indexes the breakpoints out of bounds, so any non-negative number can come out (C158_unequal_refuted); and a third, longer word changes the distance of two others (C158_context_refuted). Proved for words of one shape: C158_cross, C158_self (every entry, any schedule, any memory), C158_transformed (equals SymbolicAggregateApproximation.distance of the series), C158_lengths (two datasets of different word lengths raise AssertionError)."
  },
  {
   "property": "C159",
   "status": "proved",
   "theorems": [
    "C159_compute",
    "C159_bound",
    "C159_border_visible"
   ],
   "note": "C159_compute, C159_bound; C159_border_visible exhibits a gamma of the border's size for which the border changes the value. Exact arithmetic, numba's fastmath reordering not modelled."
  },
  {
   "property": "C160",
   "status": "proved",
   "theorems": [
    "C160_histories"
   ],
   "note": "C160_histories, by induction on the calls. The table's border is taken infinite (see C159 for the effect of DBL_MAX)."
  },
  {
   "property": "C161",
   "status": "proved",
   "theorems": [
    "C161_jacobian",
    "C161_chain"
   ],
   "note": "C161_jacobian, C161_chain (derivable_pt_lim of Coq's reals). scikit-learn's euclidean_distances by its documented meaning, squared exactly."
  },
  {
   "property": "C162",
   "status": "partial",
   "theorems": [
    "C162_soft_dtw",
    "C162_alignment",
    "C162_alignment_zero",
    "C162_cdist_cross",
    "C162_cdist_self",
    "C162_normalized_cross",
    "C162_normalized_self",
    "C162_cdist_gamma_zero_refuted",
    "C162_inner_nan_refuted"
   ],
   "note": "FALSE as stated. C162_cdist_gamma_zero_refuted: at gamma = 0 the deprecated matrix holds squared DTW values, the replacement the DTW values. C162_inner_nan_refuted: a NaN row between numbers makes the deprecated function raise ValueError in scikit-learn while the replacement returns. Proved for numbers padded with NaN rows: C162_soft_dtw (gamma >= 0), C162_alignment (gamma > 0), C162_alignment_zero, C162_cdist_cross, C162_cdist_self, C162_normalized_cross, C162_normalized_self (gamma > 0); border of the table taken infinite."
  },
  {
   "property": "C163",
   "status": "proved",
   "theorems": [
    "C163_iteration",
    "C163_reported",
    "C163_more_iterations",
    "C163_predict",
    "C163_predict_training"
   ],
   "note": "The optimiser of scipy is an argument with the hypothesis that it never reports a worse point than its start (as in C118). The Itakura parallelogram is excluded because its mask is not symmetric (C29). C163_predict and C163_predict_training cover predict."
  },
  {
   "property": "C164",
   "status": "partial",
   "theorems": [
    "C164_kept",
    "C164_iterations_refuted",
    "C164_selection_refuted"
   ],
   "note": "FALSE as stated: fit squares the soft-DTW values in inertia_ for every metric (kmeans.py l.815), although they may be negative. For the series (0, 0) and gamma = 10, two iterations report a larger inertia_ than one, and of the two initial centres (1, 1) and (0, 0) the worse one is kept. What inertia_ is (the mean of the squared distances) is part of C163_iteration. C164_kept proves what is kept instead: fit makes k attempts, n_init <= k <= max(n_init, 10), reports exactly what fitting once from one of them reports, and none of them has a smaller inertia_ (for every engine and dataset)."
  },
  {
   "property": "C165",
   "status": "proved",
   "theorems": [
    "C165_first",
    "C165_instance",
    "C165_default"
   ],
   "note": "C165_first, C165_instance, C165_default: for float data without grad_fn or device in the printed text, ASCII names."
  },
  {
   "property": "C166",
   "status": "partial",
   "theorems": [
    "C166_refuted",
    "C166_dtype",
    "C166_order_refuted"
   ],
   "note": "FALSE as stated: a list of float32 tensors gives the NumPy back end, because torch does not print that dtype (C166_refuted), and an array before a tensor gives NumPy, after it PyTorch (C166_order_refuted). C166_dtype: a list of tensors gives PyTorch exactly when one of them is a float64."
  },
  {
   "property": "C167",
   "status": "partial",
   "theorems": [
    "C167_cast",
    "C167_refuted",
    "C167_tensor",
    "C167_dtype"
   ],
   "note": "FALSE as stated: cast of a tuple to \"list\" raises AttributeError (C167_refuted). C167_cast proves it for lists, arrays and tensors without requires_grad, torch installed; Python floats inside are rounded to float32 on the way to a tensor."
  },
  {
   "property": "C168",
   "status": "partial",
   "theorems": [
    "C168_round_trip",
    "C168_pytorch_refuted"
   ],
   "note": "FALSE as stated: a list that goes through PyTorch has its floats rounded to float32, e.g. 16777217 (C168_pytorch_refuted). C168_round_trip: lists survive numpy, arrays survive PyTorch, and the list through PyTorch is exactly the rounded one (numbers in the range of float32)."
  },
  {
   "property": "C169",
   "status": "proved",
   "theorems": [
    "C169_proba",
    "C169_early_proba",
    "C169_cost"
   ],
   "note": "Exact real arithmetic; base classifiers are parameters. The bounds ask for series of at least the training length (C61_short_refuted shows why)."
  },
  {
   "property": "C170",
   "status": "proved",
   "theorems": [
    "C170_time",
    "C170_delay"
   ],
   "note": "Exact real arithmetic. The expected misclassification cost does not depend on cost_time_parameter, so the advantage of an earlier time only grows with it; ties go to the earlier time."
  },
  {
   "property": "C171",
   "status": "partial",
   "theorems": [
    "C171_list",
    "C171_load",
    "C171_extension",
    "C171_missing",
    "C171_refuted"
   ],
   "note": "FALSE as stated (C171_refuted): the file A.1.npz is listed as A.1, but load_dataset('A.1') replaces the suffix .1 and opens A.npz, which is missing or another dataset. Proved: the list is right (C171_list); a name without extension loads its own file, and so does the name of the file (C171_load); a name a.b loads a.npz (C171_extension); a name without a file raises (C171_missing). pathlib as in Python up to 3.13."
  },
  {
   "property": "C172",
   "status": "partial",
   "theorems": [
    "C172_read",
    "C172_refuted"
   ],
   "note": "FALSE as stated (C172_refuted): a file with one line, or with one column, raises IndexError because numpy.loadtxt drops axes of length one; labels are truncated to integers, so that classes 1.25 and 1.75 become one. Proved for two or more lines, one or more values per line and integer labels (C172_read). Reading of single numbers is taken as given."
  },
  {
   "property": "C173",
   "status": "partial",
   "theorems": [
    "C173_univariate",
    "C173_multivariate",
    "C173_refuted"
   ],
   "note": "FALSE as stated (C173_refuted): univariate series of length one have two columns, are taken for multivariate ones, and the reader raises IndexError. Proved for univariate series of length two or more (C173_univariate) and multivariate series (C173_multivariate). scipy's loadarff is taken as given."
  },
  {
   "property": "C174",
   "status": "partial",
   "theorems": [
    "C174_order",
    "C174_default",
    "C174_refuted"
   ],
   "note": "FALSE as stated (C174_refuted: range (-0.7, 0.4) is left by an ulp; extremes 2e308 apart give NaN; subnormal extremes miss the upper bound). Proved in binary64: lower bound exact, no value below it, order kept, NaN kept, whenever the image of the maximum is finite (C174_order); with the default range (0, 1) both bounds are exact whenever max - min is finite (C174_default). C44 is the same code with exact arithmetic."
  },
  {
   "property": "C175",
   "status": "partial",
   "theorems": [
    "C175_refuted",
    "C175_integers"
   ],
   "note": "FALSE as stated (C175_refuted: the series (0.1, 0.1, 0.1) becomes (-1, -1, -1) with mu = 0, std = 1, in every order of summation, because the rounded mean differs from 0.1 and the deviation is then not 0). Proved for n copies of an integer z with n * |z| < 2^53, in every order of summation (C175_integers). C45 is the same code with exact arithmetic."
  },
  {
   "property": "C176",
   "status": "partial",
   "theorems": [
    "C176_refuted",
    "C176_inside",
    "C176_lb_error",
    "C176_excess"
   ],
   "note": "FALSE as stated (C176_refuted): for q = (2, 2, -1), c = (0, 0, 0), r = 0 the bound is 3.0000000000000004 and the distance 3, in every order of summation, because the code takes the root of each norm and squares it again. Proved: a query inside the envelope has the bound 0 (C176_inside). With exact arithmetic the bound holds (C21). Missing: a bound on the excess in general. The excess is bounded: C176_lb_error gives the relative error of the computed bound against the exact one (about n/2 + 5 roundings for series of length n, in any order of summation), and C176_excess combines it with C187 and C21: the computed bound exceeds the computed DTW at most by the factor ((1+u)/(1-u))^(n+5), u = 2^-53, if no square underflows and the bound does not overflow."
  },
  {
   "property": "C177",
   "status": "proved",
   "theorems": [
    "C177_similarity",
    "C177_shift",
    "C177_scale",
    "C177_features",
    "C177_reverse",
    "C177_itakura"
   ],
   "note": "Exact reals. C177_itakura: the Itakura mask (with its rounding to two decimals) is unchanged by a half turn."
  },
  {
   "property": "C178",
   "status": "proved",
   "theorems": [
    "C178_bound",
    "C178_radius_zero",
    "C178_frechet"
   ],
   "note": "Exact reals."
  },
  {
   "property": "C179",
   "status": "proved",
   "theorems": [
    "C179_zero"
   ],
   "note": "Exact reals."
  },
  {
   "property": "C180",
   "status": "partial",
   "theorems": [
    "C180_refuted",
    "C180_frechet",
    "C180_radius_zero"
   ],
   "note": "FALSE as stated: x=(0), y=(0,1), z=(1,1,1,1,1) gives sqrt 5 > 2 (C180_refuted). True for frechet without constraint (C180_frechet) and for dtw on series of equal length with radius 0 (C180_radius_zero). Exact reals."
  },
  {
   "property": "C181",
   "status": "proved",
   "theorems": [
    "C181_last_fit",
    "C181_answers"
   ],
   "note": "Proved with scikit-learn's estimator as a parameter (any training and prediction functions). C181_answers connects the object with the functional model of C128."
  },
  {
   "property": "C182",
   "status": "partial",
   "theorems": [
    "C182_predict",
    "C182_refused_array",
    "C182_mixed",
    "C182_untrained",
    "C182_refuted"
   ],
   "note": "FALSE as stated: _X_fit and gamma_ are assigned before the kernel is checked. C182_mixed: after a fit refused for kernel='dtw' (or another metric name), setting the kernel back to 'gak' makes predict hand the old estimator the kernel values against the series of the refused call, without an error. C182_untrained: if scikit-learn refuses the labels, every later prediction raises. True parts: arrays that are refused change nothing (C182_refused_array); predictions, failed or not, change no later answer (C182_predict)."
  },
  {
   "property": "C183",
   "status": "partial",
   "theorems": [
    "C183_others",
    "C183_kernel",
    "C183_refuted"
   ],
   "note": "FALSE as stated for the kernel, which predict reads again: after kernel='rbf' the estimator trained on a matrix of alignment kernels is given the values of the series (C183_kernel); with as many training series as values per series there is no error. True for all other parameters, gamma included (C183_others)."
  },
  {
   "property": "C184",
   "status": "proved",
   "theorems": [
    "C184_different",
    "C184_alone",
    "C184_alone_exact"
   ],
   "note": "Proved by a simulation: each process only touches its own directory and creates missing ancestors. mkdir with parents, the listing of a tree and the reading or writing of a file are single actions. Dataset names are single path components (C112 shows what happens otherwise). C184_alone and C184_alone_exact link the interleaved programs to the sequential model: an undisturbed program performs exactly the operations and has the outcome of CacheModel.load_dataset, unless something is in the way of the downloaded files (then it raises)."
  },
  {
   "property": "C185",
   "status": "partial",
   "theorems": [
    "C185_readers",
    "C185_refuted",
    "C185_refresh_refuted"
   ],
   "note": "FALSE as stated: files are extracted in place, so a second process takes a half-extracted dataset for cached and returns (None, None, None, None) (C185_refuted); a process that refreshes a cached dataset with use_cache=False deletes the files another one is about to read (C185_refresh_refuted). True if all use the cache and the data is there (C185_readers)."
  },
  {
   "property": "C186",
   "status": "proved",
   "theorems": [
    "C186_complete",
    "C186_then"
   ],
   "note": "Proved by an invariant over all interleavings: as long as a process may delete, that process will extract everything afterwards; otherwise every file is complete or some process is still going to write it. Hypotheses: the dataset is absent or complete at the beginning, the archive has no sub-directories, nothing of the wrong kind is in the way, no process is killed (C72 shows what a killed one leaves)."
  },
  {
   "property": "C187",
   "status": "proved",
   "theorems": [
    "C187_dtw_error",
    "C187_underflow"
   ],
   "note": "Proved with Flocq on the binary64 model: every local cost, path sum, minimum and square root. C187_underflow: the condition that compared values are equal or 2^-511 apart is needed, since the square of a smaller difference can be rounded to 0."
  },
  {
   "property": "C188",
   "status": "proved",
   "theorems": [
    "C188_frechet_error"
   ],
   "note": "The maximum is exact, so the error does not grow with the lengths."
  },
  {
   "property": "C189",
   "status": "proved",
   "theorems": [
    "C189_cache_all"
   ],
   "note": "C189_cache_all. The names of the list are single path components and are stored under different names; no process is killed during the call (C72 has that)."
  },
  {
   "property": "C190",
   "status": "partial",
   "theorems": [
    "C190_scores",
    "C190_refuted"
   ],
   "note": "FALSE as stated: the constructor only sets the name of the table, a file of the package, after both requests to the server have succeeded, so that without the server every call is a TypeError (C190_refuted). With the server C190_scores holds for tables whose lines have a field for every column, with distinct column names; of several lines for one dataset the last one counts. A line with a missing field is a TypeError (C190_short_line)."
  },
  {
   "property": "C191",
   "status": "proved",
   "theorems": [
    "C191_limited_error",
    "C191_subsequence_error"
   ],
   "note": "C191_limited_error, C191_subsequence_error: (1-u)^k D <= v <= (1+u)^k D with u = 2^-53, as C187 for dtw. The two paths of dtw_subsequence_path (computed and exact) may differ; the claim is about the distance."
  },
  {
   "property": "C192",
   "status": "partial",
   "theorems": [
    "C192_never_larger",
    "C192_refuted"
   ],
   "note": "FALSE as stated: torch.median returns the lower one of two middle values, numpy's median their mean. C192_refuted: with the default of 100 draws (4950 distances) numpy's bandwidth can be sqrt 2 / 2 where PyTorch's is 0. C192_never_larger: PyTorch's value is never larger, and the two agree if the number of draws is 2 or 3 more than a multiple of 4."
  },
  {
   "property": "C193",
   "status": "proved",
   "theorems": [
    "C193_unnormalized",
    "C193_psd",
    "C193_at_most_one"
   ],
   "note": "C193_psd, C193_unnormalized: the quadratic form is non-negative. The local kernel g/(2-g) is the sum of the powers of g/2, so that the sum over warping paths is a limit of sums over alignments of bounded length in which both series may wait, and these are sums of products f(x)f(y). C193_at_most_one: 0 < gak <= 1."
  },
  {
   "property": "C194",
   "status": "proved",
   "theorems": [
    "C194_gamma",
    "C194_constraint",
    "C194_similarity",
    "C194_shift",
    "C194_features",
    "C194_scale",
    "C194_reverse"
   ],
   "note": "Exact reals; from the path-sum form of the value (C27) and C28 at gamma = 0."
  },
  {
   "property": "C195",
   "status": "proved",
   "theorems": [
    "C195_similarity",
    "C195_shift",
    "C195_features",
    "C195_scale",
    "C195_reverse",
    "C195_sigma"
   ],
   "note": "Exact reals."
  },
  {
   "property": "C196",
   "status": "proved",
   "theorems": [
    "C196_inertia",
    "C196_nonneg"
   ],
   "note": "Uses C193. The code replaces the two squared norms of the distance by 1 each: for gak the norm of a series is 1 and that of a mean at most 1."
  },
  {
   "property": "C197",
   "status": "partial",
   "theorems": [
    "C197_refuted",
    "C197_partial"
   ],
   "note": "FALSE as stated, also after convergence and with k(x,x) = 1: _compute_dist takes the squared norm of a center to be 1 (comment at l.403-404), but the mean of several vectors of norm 1 is shorter. Proved: nearest up to the difference of the squared norms of the two centers."
  },
  {
   "property": "C198",
   "status": "proved",
   "theorems": [
    "C198_distance",
    "C198_radius",
    "C198_radius_zero",
    "C198_zero",
    "C198_affine",
    "C198_reverse"
   ],
   "note": "Exact reals, one feature column (the code's norms run over all columns)."
  },
  {
   "property": "C199",
   "status": "proved",
   "theorems": [
    "C199_similarity",
    "C199_shift",
    "C199_features",
    "C199_scale",
    "C199_reverse",
    "C199_monotone"
   ],
   "note": "Exact reals. Why the band must be wide: C23_lcss_radius_zero_refuted."
  },
  {
   "property": "C200",
   "status": "proved",
   "theorems": [
    "C200_minmax",
    "C200_meanvariance",
    "C200_minmax_fit_transform",
    "C200_meanvariance_fit_transform",
    "C200_constant_training",
    "C200_minmax_twice",
    "C200_meanvariance_twice"
   ],
   "note": "On the extended reals (exact arithmetic). C200_constant_training gives the value the code returns where the training values are all equal, which is why the condition is needed. Rounding is C174, C175."
  },
  {
   "property": "C201",
   "status": "proved",
   "theorems": [
    "C201_paa",
    "C201_words",
    "C201_own_words",
    "C201_distance"
   ],
   "note": "On the extended reals (exact arithmetic), breakpoints from an arbitrary quantile function. The scaling step is shown to be the mean-variance scaler of C200."
  },
  {
   "property": "C202",
   "status": "partial",
   "theorems": [
    "C202_slopes_partial",
    "C202_refuted"
   ],
   "note": "FALSE as stated. C202_refuted: the series (-1, 1) and the same series shifted by 11 get different words, because the averages are taken of series standardised twice (the defect of C39). C202_slopes_partial: the half of the word that encodes the slopes is the same, for all datasets, units and origins."
  },
  {
   "property": "C203",
   "status": "proved",
   "theorems": [
    "C203_imputer",
    "C203_resampler"
   ],
   "note": "C203_imputer, C203_resampler: extended-real arithmetic without rounding."
  },
  {
   "property": "C204",
   "status": "proved",
   "theorems": [
    "C204_fit",
    "C204_origin",
    "C204_order",
    "C204_predict"
   ],
   "note": "Simulation of the two runs, over exact reals, through _assign, _update_centroids, the Lloyd iterations, the attempts, _post_fit; C204_fit general, C204_origin (same tolerance), C204_order (array of centres), C204_predict."
  },
  {
   "property": "C205",
   "status": "partial",
   "theorems": [
    "C205_unit_refuted",
    "C205_null_tolerance"
   ],
   "note": "FALSE as stated: tol (default 1e-6) is compared with the absolute decrease of the inertia, which scales with the square of the unit. C205_unit_refuted: five series of one value in a unit 10000 times larger stop one iteration earlier with other clusters. C205_null_tolerance: with tol=0 the unit does not matter; C204_fit: nor when tol is converted."
  },
  {
   "property": "C206",
   "status": "proved",
   "theorems": [
    "C206_sample",
    "C206_order"
   ],
   "note": "Exact real arithmetic; kpss is a parameter. C206_sample, C206_order."
  },
  {
   "property": "C207",
   "status": "partial",
   "theorems": [
    "C207_sample_refuted",
    "C207_long_enough"
   ],
   "note": "FALSE as stated: fit only checks that a series has seasonal_period values; for a series of fewer than seasonal_period + d values the slice bound is negative and counts from the end of the padded array. C207_sample_refuted: a series of one value beside a series of five, order 2; a test that refuses missing values makes fit fail although a default order is set. C207_long_enough: holds for series of at least seasonal_period + d values."
  },
  {
   "property": "C208",
   "status": "proved",
   "theorems": [
    "C208_attribute",
    "C208_as_time_series",
    "C208_transform"
   ],
   "note": "Exact arithmetic; weights arbitrary. C208_attribute, C208_as_time_series, C208_transform (which uses C106; with several features and several shapelets of one size the distances themselves are wrong, C70_refuted)."
  },
  {
   "property": "C209",
   "status": "proved",
   "theorems": [
    "C209_json",
    "C209_pickle"
   ],
   "note": "The network is represented by what is saved of it; the optimizer is a string."
  },
  {
   "property": "C210",
   "status": "partial",
   "theorems": [
    "C210_resave_refuted",
    "C210_after_pickle"
   ],
   "note": "FALSE as stated, for every model: from_json turns the list of _X_fit_dims into an int64 array, tuple() of it holds numpy integers, _listify leaves tuples alone and json.dump refuses numpy integers (C210_resave_refuted). After from_pickle the model can be saved as JSON exactly when the first could (C210_after_pickle)."
  },
  {
   "property": "C211",
   "status": "proved",
   "theorems": [
    "C211_longer",
    "C211_zero",
    "C211_similarity",
    "C211_reverse"
   ],
   "note": "Exact reals."
  },
  {
   "property": "C212",
   "status": "proved",
   "theorems": [
    "C212_similarity",
    "C212_reverse",
    "C212_symmetric",
    "C212_identical",
    "C212_euclidean"
   ],
   "note": "Exact reals."
  },
  {
   "property": "C213",
   "status": "proved",
   "theorems": [
    "C213_dba",
    "C213_petitjean",
    "C213_order",
    "C213_origin",
    "C213_nontrivial"
   ],
   "note": "Exact reals. C213_dba and C213_petitjean are the general statements; C213_order and C213_origin are the two common cases; C213_nontrivial computes two runs."
  },
  {
   "property": "C214",
   "status": "partial",
   "theorems": [
    "C214_unit_refuted",
    "C214_tol_converted"
   ],
   "note": "FALSE as stated: for every tol > 0 there is a series for which doubling all values does not double the barycenter, because the run stops at another iteration (C214_unit_refuted). It holds when tol is multiplied by the square of the constant (C214_tol_converted)."
  },
  {
   "property": "C215",
   "status": "proved",
   "theorems": [
    "C215_fit",
    "C215_order",
    "C215_predict"
   ],
   "note": "Two runs side by side through the whole of fit: every alignment path is the same, every distance is the same, so every decision is the same. Exact reals; without a named constraint (with one, see C84)."
  },
  {
   "property": "C216",
   "status": "partial",
   "theorems": [
    "C216_unit_refuted"
   ],
   "note": "FALSE as stated: the barycenter averaging of a cluster uses its own tolerance, 1e-5, which TimeSeriesKMeans does not pass on, so for every tol there are series and a centre for which doubling the values and multiplying tol by four does not double the centre. For the sense of the axis and the origin see C215; for the Euclidean metric the claim holds (C205)."
  },
  {
   "property": "C217",
   "status": "partial",
   "theorems": [
    "C217_error",
    "C217_nearly_best",
    "C217_best_match_refuted"
   ],
   "note": "FALSE as stated (C217_best_match_refuted): the table is allocated without a dtype, so torch makes it float32; for the query [0] and the series [4096 + 2^-14, 4096] the match returned is the first point although the second is nearer. C217_error and C217_nearly_best give what holds: the distance up to k single precision roundings or overflow, and no other match better by more than the roundings. Local costs are exact in the model."
  },
  {
   "property": "C218",
   "status": "partial",
   "theorems": [
    "C218_error",
    "C218_score_refuted"
   ],
   "note": "FALSE as stated (C218_score_refuted): the matrix of a callable metric is allocated as float32 and the costs are accumulated in that type; the distance 2^24 + 1/2 is returned as 2^24. C218_error: the score is the least cost up to as many single precision roundings as the two series have time steps, the path is admissible and as nearly optimal, or the score overflows. Arithmetic on float64 is exact in the model."
  },
  {
   "property": "C219",
   "status": "partial",
   "theorems": [
    "C219_longest",
    "C219_match_refuted"
   ],
   "note": "FALSE as stated (C219_match_refuted): distances are rounded to float32 before they are compared, so two points at distance 2^24 + 1/2 are matched with eps = 2^24. C219_longest proves the claim when no distance is within a single precision rounding of eps and none is below 2^-126 except 0."
  },
  {
   "property": "C220",
   "status": "proved",
   "theorems": [
    "C220_search"
   ],
   "note": "Numbers are real numbers; numpy's argpartition and argsort are any functions meeting their documentation. The search is the one with queries (C92 shows what happens without)."
  },
  {
   "property": "C221",
   "status": "proved",
   "theorems": [
    "C221_fit",
    "C221_predict",
    "C221_predict_order"
   ],
   "note": "Over the real numbers; the kernel is any real function of two series."
  },
  {
   "property": "C222",
   "status": "partial",
   "theorems": [
    "C222_coarser",
    "C222_border_refuted"
   ],
   "note": "FALSE as stated: a border series (not core) may move to another cluster when min_ts shrinks (C222_border_refuted). Proved for core series, and for noise (C222_coarser)."
  },
  {
   "property": "C223",
   "status": "proved",
   "theorems": [
    "C223_unit",
    "C223_dtw"
   ],
   "note": "Exact arithmetic. C223_unit is the same for any matrices of distances."
  },
  {
   "property": "C224",
   "status": "partial",
   "theorems": [
    "C224_unit",
    "C224_sign",
    "C224_matrix",
    "C224_small_refuted"
   ],
   "note": "FALSE as stated: a product of norms below 1e-9 is replaced by infinity, so small units give 0 (C224_small_refuted). Proved when both products of norms are at least 1e-9. Exact arithmetic."
  },
  {
   "property": "C225",
   "status": "proved",
   "theorems": [
    "C225_mae",
    "C225_mse"
   ],
   "note": "Exact arithmetic; weights may be negative as long as their sum is not 0."
  },
  {
   "property": "C226",
   "status": "partial",
   "theorems": [
    "C226_mase",
    "C226_average_refuted"
   ],
   "note": "FALSE as stated: with multioutput='uniform_average' (and feature weights) the errors and the scales are averaged over the features before the division, so the units are mixed (C226_average_refuted: 1/2 becomes 1/4). Proved for raw_values with any units, and for every multioutput with one unit for all features (C226_mase)."
  },
  {
   "property": "C227",
   "status": "proved",
   "theorems": [
    "C227_reversed",
    "C227_longer"
   ],
   "note": "Both parts are derived from the characterisation of C60. Infinite entries (segments without a candidate outside the exclusion zone) are included. Implementation \"numpy\" only."
  },
  {
   "property": "C228",
   "status": "proved",
   "theorems": [
    "C228_precomputed",
    "C228_dtw",
    "C228_euclidean",
    "C228_softdtw"
   ],
   "note": "Derived from the closed form of C136; sample_size=None. Precomputed matrices have a zero diagonal (scikit-learn tolerates tiny diagonals, which a change of unit may push over its tolerance; not covered)."
  },
  {
   "property": "C229",
   "status": "partial",
   "theorems": [
    "C229_everything",
    "C229_one_axis",
    "C229_no_such_axis",
    "C229_several_axes",
    "C229_tuple_refuted"
   ],
   "note": "FALSE as stated: inside the static method the name all is Python's built-in function, so every tuple of two or more axes of the tensor is a TypeError (C229_several_axes), for negative axes because x.ndim() calls an integer; the empty tuple is an IndexError. Proved without axis, for one axis as integer or tuple, and for axes that do not exist (IndexError)."
  },
  {
   "property": "C230",
   "status": "proved",
   "theorems": [
    "C230_optimal",
    "C230_sqeuclidean",
    "C230_increasing",
    "C230_euclidean"
   ],
   "note": "The model of the function is elastic_path_precomputed / elastic_path_metric with the maximum as combination (numpy back end)."
  },
  {
   "property": "C231",
   "status": "partial",
   "theorems": [
    "C231_window",
    "C231_forecast",
    "C231_errors_exist",
    "C231_start",
    "C231_one_lag_partial",
    "C231_lags_refuted"
   ],
   "note": "FALSE as stated for q >= 2. Proved: the residuals kept are the last q one-step errors, oldest first (C231_window), the forecast is the model's with ma_coeffs_[k] at lag q-k (C231_forecast), such errors exist for every series (C231_errors_exist), the start holds the averaged estimates in their order (C231_start), and with q = 1 they meet the right lag (C231_one_lag_partial). Refuted: compute_var lists the most recent lag first but _varma_next multiplies ma_coeffs[0] with the oldest residual, so with q >= 2 the start applies the estimates in reverse order (C231_lags_refuted, for a series that the estimates fit exactly). The optimiser itself is not modelled. Several features: see C69."
  },
  {
   "property": "C232",
   "status": "proved",
   "theorems": [
    "C232_equal_size",
    "C232_check_dataset",
    "C232_empty",
    "C232_again",
    "C232_dims"
   ],
   "note": "Real-number model of the values. Also proved: an empty dataset is refused when one feature or one series is demanded and accepted otherwise. That an accepted dataset is accepted again is stated for datasets that keep at least one row (the model does not record the number of features of an array without rows)."
  },
  {
   "property": "C233",
   "status": "partial",
   "theorems": [
    "C233_kmeans",
    "C233_kmeans_unknown",
    "C233_kmeans_verbose_refuted",
    "C233_neighbours",
    "C233_neighbours_n_jobs_refuted",
    "C233_dbscan"
   ],
   "note": "FALSE as stated in two places. TimeSeriesKMeans refuses a verbose entry (multiple values for the argument) although verbose is a parameter of both metrics (C233_kmeans_verbose_refuted). The neighbour searches drop n_jobs and verbose entries and hand on the estimator's n_jobs only for dtw and frechet, so for ctw and softdtw the documented override does not happen (C233_neighbours_n_jobs_refuted; results do not depend on n_jobs). Everything else is proved for all dictionaries."
  },
  {
   "property": "C234",
   "status": "proved",
   "theorems": [
    "C234_corrected",
    "C234_list",
    "C234_no_server",
    "C234_second_request"
   ],
   "note": "urlretrieve either raises without touching the file or stores the whole answer; the csv reader's splitting into fields is a parameter."
  },
  {
   "property": "C235",
   "status": "partial",
   "theorems": [
    "C235_silhouette",
    "C235_refuted"
   ],
   "note": "FALSE as stated in two places: an entry be, and for dtw an entry verbose, is a TypeError (C235_refuted), and for softdtw the argument n_jobs is not handed on (part of C235_silhouette; results do not depend on it). The merging is proved for all dictionaries with the other parameters."
  }
 ]
}