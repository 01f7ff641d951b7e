{"id": "C01", "title": "DTW score is the optimum over admissible warping paths", "statement": "The value returned by dtw is the square root of the smallest accumulated squared cost over all warping paths from the first to the last pair of timestamps whose cells are all allowed by the global constraint; it is infinite exactly when no such path exists.", "quantifier": "all pairs of non-empty series of any lengths and feature size, all constraint masks", "why_tests_cant": "the number of warping paths is exponential in the lengths; tests compare a handful of literals", "anchors": ["tslearn/metrics/_dtw.py:dtw", "tslearn/metrics/_dtw.py:_njit_accumulated_matrix", "tslearn/metrics/_masks.py:_compute_mask_generic"]}
{"id": "C02", "title": "dtw_path returns an admissible path that realises the score", "statement": "When the DTW score is finite, the path returned by dtw_path starts at (0,0), ends at the last pair, moves by (1,0), (0,1) or (1,1), stays inside the constraint mask and its accumulated cost is exactly the returned score squared.", "quantifier": "all series, all masks with finite score", "why_tests_cant": "ties and mask boundaries are combinatorial", "anchors": ["tslearn/metrics/_dtw.py:dtw_path", "tslearn/metrics/utils.py:_compute_path_generic"]}
{"id": "C03", "title": "DTW is symmetric, non-negative and zero on identical series", "statement": "dtw(s1,s2)=dtw(s2,s1) without constraint or with any Sakoe-Chiba radius; dtw is never negative; dtw(s,s)=0.", "quantifier": "all series and radii", "why_tests_cant": "universally quantified algebraic law", "anchors": ["tslearn/metrics/_dtw.py:dtw", "tslearn/metrics/_masks.py:_sakoe_chiba_mask_generic"]}
{"id": "C04", "title": "Relaxing the Sakoe-Chiba radius never increases DTW", "statement": "If r <= r' then dtw with radius r' <= dtw with radius r, and unconstrained dtw <= both.", "quantifier": "all series and radii", "why_tests_cant": "monotonicity over all inputs", "anchors": ["tslearn/metrics/_dtw.py:dtw", "tslearn/metrics/_masks.py:_sakoe_chiba_mask_generic"]}
{"id": "C05", "title": "Sakoe-Chiba band is exactly the documented band and is always feasible", "statement": "sakoe_chiba_mask(n,m,r) allows (i,j) iff the offset from the (length-difference widened) diagonal is at most r; it is the transpose of sakoe_chiba_mask(m,n,r); it contains both corners and an admissible warping path, so Sakoe-Chiba constrained DTW is never infinite.", "quantifier": "all positive sizes and radii >= 0", "why_tests_cant": "sizes unbounded", "anchors": ["tslearn/metrics/_masks.py:_sakoe_chiba_mask_generic"]}
{"id": "C06", "title": "Batched (anti-diagonal) and row-major dynamic programs agree", "statement": "The accumulated matrix computed by the PyTorch backend (anti-diagonal order, masked distances set to infinity) equals, cell by cell, the one computed by the NumPy backend, for DTW and for Frechet.", "quantifier": "all distance matrices and masks", "why_tests_cant": "evaluation orders differ; equality must hold for every size", "anchors": ["tslearn/metrics/utils.py:_torch_acc_matrix_from_dist_matrix", "tslearn/metrics/_dtw.py:_njit_acc_matrix_from_dist_matrix", "tslearn/metrics/_frechet.py:_njit_acc_matrix_from_dist_matrix"]}
{"id": "C07", "title": "Discrete Frechet distance is the min-max over admissible warping paths", "statement": "frechet returns the square root of the smallest, over admissible warping paths, of the largest squared local cost along the path; frechet_path returns an admissible path realising it when it is finite.", "quantifier": "all series, all masks", "why_tests_cant": "exponential path set", "anchors": ["tslearn/metrics/_frechet.py:frechet", "tslearn/metrics/_frechet.py:frechet_path"]}
{"id": "C08", "title": "Frechet distance never exceeds DTW", "statement": "frechet(s1,s2) <= dtw(s1,s2) under the same global constraint.", "quantifier": "all series and masks", "why_tests_cant": "relates two algorithms on every input", "anchors": ["tslearn/metrics/_frechet.py:frechet", "tslearn/metrics/_dtw.py:dtw"]}
{"id": "C09", "title": "dtw_path_from_metric agrees with dtw_path", "statement": "With metric='sqeuclidean' or with the squared distance matrix passed as metric='precomputed', dtw_path_from_metric returns the path of dtw_path and the square of its score.", "quantifier": "all series and constraints", "why_tests_cant": "agreement of two entry points on all inputs", "anchors": ["tslearn/metrics/_dtw.py:dtw_path_from_metric"]}
{"id": "C10", "title": "cdist functions equal pairwise calls, independent of n_jobs", "statement": "cdist_dtw(X,Y)[i,j] = dtw(X[i],Y[j]) and cdist_dtw(X)[i,j] = dtw(X[i],X[j]) for all i,j, the self-distance matrix is symmetric with zero diagonal, and the result does not depend on n_jobs (any order of evaluation of the pairs).", "quantifier": "all datasets, constraints that are symmetric, all schedules of the parallel workers", "why_tests_cant": "every dataset size and every worker schedule", "anchors": ["tslearn/metrics/utils.py:_cdist_generic", "tslearn/metrics/_dtw.py:cdist_dtw"]}
{"id": "C11", "title": "cdist_frechet honours the global constraint", "statement": "cdist_frechet(X,Y,constraint)[i,j] = frechet(X[i],Y[j],constraint).", "quantifier": "all datasets and constraints", "why_tests_cant": "must hold for each combination of constraint arguments", "anchors": ["tslearn/metrics/_frechet.py:_cdist_frechet", "tslearn/metrics/_frechet.py:_frechet_generic", "tslearn/metrics/_masks.py:_compute_mask_generic"]}
{"id": "C12", "title": "Trailing NaN padding is invisible", "statement": "Appending any number of all-NaN rows to a series does not change dtw, frechet, lcss or dtw_limited_warping_length results nor the paths.", "quantifier": "all series, any padding length", "why_tests_cant": "unbounded padding", "anchors": ["tslearn/utils/utils.py:_ts_size", "tslearn/utils/utils.py:_to_time_series", "tslearn/metrics/_dtw.py:dtw"]}
{"id": "C13", "title": "Degenerate inputs are rejected, all others are accepted", "statement": "dtw and dtw_path raise ValueError exactly when one series is empty after NaN removal or the feature sizes differ, raise KeyError exactly for an unknown constraint name, and RuntimeWarning exactly when both radius and slope are given without constraint name or the Itakura slope is infeasible.", "quantifier": "all inputs", "why_tests_cant": "the error partition covers the whole input space", "anchors": ["tslearn/metrics/_dtw.py:dtw", "tslearn/metrics/_masks.py:_compute_mask_generic"]}
{"id": "C14", "title": "Unset constraint name with both parameters falls back to no constraint", "statement": "When global_constraint is None and both sakoe_chiba_radius and itakura_max_slope are given, no constraint is used (as documented).", "quantifier": "all series and parameter values", "why_tests_cant": "documented fallback must hold for all inputs", "anchors": ["tslearn/metrics/_masks.py:_compute_mask_generic", "tslearn/metrics/_dtw.py:dtw"]}
{"id": "C15", "title": "An Itakura mask that is returned admits a warping path", "statement": "If itakura_mask returns (does not raise the infeasibility warning) then the mask contains an admissible warping path.", "quantifier": "all sizes and slopes", "why_tests_cant": "unbounded sizes; the check only looks at empty rows/columns", "anchors": ["tslearn/metrics/_masks.py:_itakura_mask_generic"]}
{"id": "C16", "title": "Itakura-constrained DTW is symmetric", "statement": "itakura_mask(n,m,s) is the transpose of itakura_mask(m,n,s), so that cdist self-distance matrices which compute only the upper triangle equal pairwise calls.", "quantifier": "all sizes and slopes", "why_tests_cant": "rounding corner cases", "anchors": ["tslearn/metrics/_masks.py:_itakura_mask_generic", "tslearn/metrics/utils.py:_cdist_generic"]}
{"id": "C17", "title": "Limited-warping-length DTW is optimal among short paths", "statement": "dtw_limited_warping_length(s1,s2,L) is the square root of the least cost of an (unconstrained) warping path with at most L cells; it raises ValueError exactly when L < max(len(s1),len(s2)).", "quantifier": "all series and max_length", "why_tests_cant": "exponential path set, boundary in the length bound", "anchors": ["tslearn/metrics/dtw_variants.py:dtw_limited_warping_length", "tslearn/metrics/dtw_variants.py:_limited_warping_length_cost", "tslearn/metrics/dtw_variants.py:_max_steps"]}
{"id": "C18", "title": "dtw_path_limited_warping_length returns a path of bounded length realising the score", "statement": "The returned path is a warping path with at most max_length cells whose cost is the returned score squared.", "quantifier": "all series and max_length >= max(len)", "why_tests_cant": "backtracking through a dictionary of dictionaries", "anchors": ["tslearn/metrics/dtw_variants.py:_return_path_limited_warping_length", "tslearn/metrics/dtw_variants.py:dtw_path_limited_warping_length"]}
{"id": "C19", "title": "A large length bound is no bound", "statement": "If max_length >= len(s1)+len(s2)-1 then dtw_limited_warping_length equals dtw; and the limited score is non-increasing in max_length and never below dtw.", "quantifier": "all series and bounds", "why_tests_cant": "all sizes", "anchors": ["tslearn/metrics/dtw_variants.py:dtw_limited_warping_length"]}
{"id": "C20", "title": "Subsequence DTW finds the best matching subsequence", "statement": "dtw_subsequence_path returns the least cost over all contiguous subsequences of the long series and all warping paths aligning the query with that subsequence, and the returned path aligns the whole query with one contiguous subsequence and realises that cost.", "quantifier": "all query/long series", "why_tests_cant": "exponential", "anchors": ["tslearn/metrics/dtw_variants.py:_njit_subsequence_cost_matrix", "tslearn/metrics/dtw_variants.py:_njit_subsequence_path", "tslearn/metrics/dtw_variants.py:dtw_subsequence_path"]}
{"id": "C21", "title": "LB_Keogh lower-bounds constrained DTW", "statement": "For univariate series of equal length, lb_keogh(q,c,radius=r) <= dtw(q,c,sakoe_chiba_radius=r).", "quantifier": "all equal-length univariate series and radii", "why_tests_cant": "inequality over all inputs", "anchors": ["tslearn/metrics/dtw_variants.py:lb_keogh", "tslearn/metrics/dtw_variants.py:_njit_lb_envelope"]}
{"id": "C22", "title": "lb_envelope encloses the series and widens with the radius", "statement": "envelope_down <= ts <= envelope_up pointwise; each envelope value is the min/max of the window clipped to the series; a larger radius gives a wider envelope.", "quantifier": "all series, radii", "why_tests_cant": "all sizes", "anchors": ["tslearn/metrics/dtw_variants.py:_njit_lb_envelope"]}
{"id": "C23", "title": "LCSS score is the longest common subsequence ratio", "statement": "lcss returns (length of the longest chain of strictly increasing matched index pairs with distance <= eps and inside the global constraint) / min(len): unconstrained and for every Sakoe-Chiba radius.", "quantifier": "all series, eps and radii", "why_tests_cant": "exponential number of subsequences; radius 0 corner", "anchors": ["tslearn/metrics/dtw_variants.py:njit_lcss_accumulated_matrix", "tslearn/metrics/dtw_variants.py:lcss"]}
{"id": "C24", "title": "LCSS lies in [0,1], is symmetric and 1 on identical series", "statement": "0 <= lcss <= 1; unconstrained lcss(s1,s2)=lcss(s2,s1); lcss(s,s)=1 for eps>=0; lcss is monotone in eps (unconstrained).", "quantifier": "all series, eps", "why_tests_cant": "algebraic laws", "anchors": ["tslearn/metrics/dtw_variants.py:lcss"]}
{"id": "C25", "title": "lcss_path terminates and returns a longest common subsequence inside the constraint", "statement": "lcss_path always returns; its path is strictly increasing in both indices, all pairs match within eps, lie inside the constraint, and their number divided by min(len) is the returned similarity.", "quantifier": "all series, eps, constraints", "why_tests_cant": "a hang or an inconsistent path may occur on any mask boundary", "anchors": ["tslearn/metrics/dtw_variants.py:_return_lcss_path", "tslearn/metrics/dtw_variants.py:lcss_path"]}
{"id": "C26", "title": "lcss_path_from_metric path agrees with its score", "statement": "The path returned by lcss_path_from_metric lies inside the global constraint and its length divided by min(len) is the returned similarity.", "quantifier": "all distance matrices, eps, constraints", "why_tests_cant": "mask boundaries", "anchors": ["tslearn/metrics/dtw_variants.py:_njit_return_lcss_path_from_dist_matrix", "tslearn/metrics/dtw_variants.py:lcss_path_from_metric"]}
{"id": "C27", "title": "soft-DTW is the soft minimum over all warping paths", "statement": "For gamma>0, soft_dtw = -gamma*log(sum over admissible warping paths of exp(-cost/gamma)).", "quantifier": "all series, masks, gamma>0", "why_tests_cant": "sum over exponentially many paths", "anchors": ["tslearn/metrics/_soft_dtw.py:_njit_accumulated_matrix", "tslearn/metrics/soft_dtw_fast.py:_njit_softmin3"]}
{"id": "C28", "title": "soft-DTW is bounded by squared DTW", "statement": "dtw^2 - gamma*log(number of admissible paths) <= soft_dtw <= dtw^2.", "quantifier": "all series, masks, gamma>0", "why_tests_cant": "inequality over all inputs", "anchors": ["tslearn/metrics/_soft_dtw.py:soft_dtw"]}
{"id": "C29", "title": "soft-DTW is symmetric and the normalised version is zero on identical series", "statement": "soft_dtw(x,y)=soft_dtw(y,x) and soft_dtw_normalized(x,x)=0 and soft_dtw_normalized(x,y)=soft_dtw_normalized(y,x).", "quantifier": "all series, gamma", "why_tests_cant": "algebraic law", "anchors": ["tslearn/metrics/_soft_dtw.py:soft_dtw", "tslearn/metrics/_soft_dtw.py:soft_dtw_normalized"]}
{"id": "C30", "title": "soft_dtw_alignment is the Gibbs expectation of the alignment matrix", "statement": "Entry (i,j) of the alignment matrix is the probability that a random warping path drawn with weight exp(-cost/gamma) visits (i,j); hence entries lie in [0,1] and both corners are 1.", "quantifier": "all distance matrices, gamma>0", "why_tests_cant": "backward recursion vs exponential sum", "anchors": ["tslearn/metrics/_soft_dtw.py:_soft_dtw_grad_generic", "tslearn/metrics/_soft_dtw.py:soft_dtw_alignment"]}
{"id": "C31", "title": "cdist_soft_dtw agrees with soft_dtw for every gamma including 0", "statement": "cdist_soft_dtw(X,Y,gamma)[i,j] = soft_dtw(X[i],Y[j],gamma) for all gamma >= 0.", "quantifier": "all datasets and gamma", "why_tests_cant": "gamma=0 branch differs", "anchors": ["tslearn/metrics/_soft_dtw.py:_cdist_soft_dtw", "tslearn/metrics/_soft_dtw.py:soft_dtw"]}
{"id": "C32", "title": "GAK is the path-sum kernel, symmetric and 1 on identical series", "statement": "unnormalized_gak is the sum over all warping paths of the product of local kernels; gak is positive, symmetric and gak(x,x)=1.", "quantifier": "all series and sigma>0", "why_tests_cant": "exponential sum", "anchors": ["tslearn/metrics/_gak.py:_unnormalized_gak", "tslearn/metrics/_gak.py:_gak_from_gram_matrix_generic", "tslearn/metrics/_gak.py:gak"]}
{"id": "C33", "title": "ctw_path's score is the score of the returned path", "statement": "The score returned by ctw_path is the DTW cost of the returned path in the final aligned space, and the iteration stops at max_iter or when the path is stable.", "quantifier": "all series, any CCA outcome", "why_tests_cant": "depends on iteration history", "anchors": ["tslearn/metrics/ctw.py:ctw_path"]}
{"id": "C34", "title": "Normalised cross-correlation equals the sliding inner product", "statement": "normalized_cc(s1,s2) has 2*sz-1 entries, entry k being the inner product of s1 with s2 shifted by k-(sz-1) divided by the norms; no circular wrap-around contaminates it.", "quantifier": "all equal-length series", "why_tests_cant": "padding size must suffice for every length", "anchors": ["tslearn/metrics/cycc.py:normalized_cc"]}
{"id": "C35", "title": "PAA distance lower-bounds the Euclidean distance", "statement": "distance_paa(x,y) <= Euclidean distance of x and y.", "quantifier": "all series, all n_segments", "why_tests_cant": "inequality; divisibility corner", "anchors": ["tslearn/piecewise/piecewise.py:PiecewiseAggregateApproximation", "tslearn/metrics/cysax.py:inv_transform_paa"]}
{"id": "C36", "title": "SAX MINDIST lower-bounds the PAA distance", "statement": "distance_sax of two symbolised series <= PAA distance of the (scaled) series for every alphabet.", "quantifier": "all series, alphabets, sorted breakpoints", "why_tests_cant": "inequality over all inputs", "anchors": ["tslearn/metrics/cysax.py:cydist_sax", "tslearn/piecewise/piecewise.py:_paa_to_symbols"]}
{"id": "C37", "title": "SAX symbols are in range and monotone", "statement": "_paa symbols are between 0 and alphabet_size-1 and the symbol is monotone in the value; each symbol is the number of breakpoints <= value.", "quantifier": "all values and sorted breakpoints", "why_tests_cant": "all real values", "anchors": ["tslearn/piecewise/piecewise.py:_paa_to_symbols"]}
{"id": "C38", "title": "PAA inverse transform then transform is the identity; inverse covers the whole series", "statement": "transform(inverse_transform(P)) = P, and every timestamp of the inverse transform carries its segment's value.", "quantifier": "all PAA representations, all sizes", "why_tests_cant": "divisibility corner", "anchors": ["tslearn/metrics/cysax.py:inv_transform_paa", "tslearn/piecewise/piecewise.py:PiecewiseAggregateApproximation"]}
{"id": "C39", "title": "1d-SAX averages are those of the scaled series", "statement": "With scale=True, the average symbols of OneD_SymbolicAggregateApproximation are those of the series standardised once with the training mean and standard deviation.", "quantifier": "all datasets", "why_tests_cant": "stateful scaling", "anchors": ["tslearn/piecewise/piecewise.py:OneD_SymbolicAggregateApproximation._transform"]}
{"id": "C40", "title": "to_time_series_dataset is idempotent and lossless", "statement": "Series content (up to trailing all-NaN rows) is preserved in position, the padded tail is NaN, the length is the largest true length, and applying the function twice is the same as once.", "quantifier": "all lists of series with the same feature size", "why_tests_cant": "all ragged shapes", "anchors": ["tslearn/utils/utils.py:to_time_series_dataset"]}
{"id": "C41", "title": "to_time_series_dataset rejects inconsistent feature sizes", "statement": "A list whose series have different feature sizes is rejected rather than silently reinterpreted.", "quantifier": "all ragged lists", "why_tests_cant": "broadcast corner", "anchors": ["tslearn/utils/utils.py:to_time_series_dataset"]}
{"id": "C42", "title": "Text round trip", "statement": "str_to_time_series(time_series_to_str(ts)) = ts and loading a saved dataset gives back the dataset.", "quantifier": "all series", "why_tests_cant": "all contents", "anchors": ["tslearn/utils/utils.py:time_series_to_str", "tslearn/utils/utils.py:str_to_time_series", "tslearn/utils/utils.py:save_time_series_txt", "tslearn/utils/utils.py:load_time_series_txt"]}
{"id": "C43", "title": "Cast round trips", "statement": "from_X_dataset(to_X_dataset(D)) = D for pyts, seglearn, stumpy, sktime, cesium and tsfresh formats (NaN padding kept where the format supports it).", "quantifier": "all datasets the format supports", "why_tests_cant": "all shapes", "anchors": ["tslearn/utils/cast.py"]}
{"id": "C44", "title": "Min-max scaling hits exactly the requested range", "statement": "After TimeSeriesScalerMinMax(value_range=(a,b)) every value is in [a,b]; for a non-constant series both bounds are reached; order is preserved.", "quantifier": "all series and ranges a<b", "why_tests_cant": "all values", "anchors": ["tslearn/preprocessing/preprocessing.py:TimeSeriesScalerMinMax"]}
{"id": "C45", "title": "Mean-variance scaling gives the requested moments", "statement": "After TimeSeriesScalerMeanVariance(mu,std) each non-constant series has mean mu and standard deviation std; constant series become mu.", "quantifier": "all series", "why_tests_cant": "all values", "anchors": ["tslearn/preprocessing/preprocessing.py:TimeSeriesScalerMeanVariance"]}
{"id": "C46", "title": "Resampling keeps endpoints, range and identity", "statement": "TimeSeriesResampler(sz) returns series of length sz with the same first and last value, every value within [min,max] of the input, and resampling to the same length is the identity.", "quantifier": "all series, all target sizes >= 2", "why_tests_cant": "all sizes", "anchors": ["tslearn/preprocessing/preprocessing.py:TimeSeriesResampler"]}
{"id": "C47", "title": "Imputation never alters observed values and fills by the documented rule", "statement": "TimeSeriesImputer leaves every non-NaN value unchanged; ffill gives the last preceding observation, bfill the next following one; mean/median/constant fill every gap.", "quantifier": "all series and gap patterns", "why_tests_cant": "all NaN patterns", "anchors": ["tslearn/preprocessing/preprocessing.py:TimeSeriesImputer"]}
{"id": "C48", "title": "DBA never increases its cost", "statement": "Each iteration of DTW barycenter averaging (MM and Petitjean) does not increase the weighted sum of squared DTW distances to the barycenter.", "quantifier": "all datasets, positive weights, barycenter sizes, masks", "why_tests_cant": "convergence argument over all iterations", "anchors": ["tslearn/barycenters/dba.py:_mm_assignment", "tslearn/barycenters/dba.py:_mm_update_barycenter", "tslearn/barycenters/dba.py:_petitjean_update_barycenter"]}
{"id": "C49", "title": "Every barycenter timestamp receives an observation; MM and Petitjean updates coincide", "statement": "No division by zero occurs in the barycenter update, and the two implementations compute the same barycenter.", "quantifier": "all datasets, positive weights", "why_tests_cant": "all sizes", "anchors": ["tslearn/barycenters/dba.py:_subgradient_valence_warping", "tslearn/barycenters/dba.py:_petitjean_assignment"]}
{"id": "C50", "title": "DBA honours the global constraint given by name", "statement": "dtw_barycenter_averaging(metric_params={'global_constraint': name, ...}) aligns with the same constraint as dtw.", "quantifier": "all datasets and constraint names", "why_tests_cant": "argument plumbing for each constraint", "anchors": ["tslearn/barycenters/dba.py:_mm_assignment", "tslearn/clustering/kmeans.py:TimeSeriesKMeans._update_centroids"]}
{"id": "C51", "title": "dtw_barycenter_averaging always returns a barycenter of the requested size", "statement": "For every max_iter >= 0 and n_init >= 1 the function returns an array of the requested length.", "quantifier": "all arguments", "why_tests_cant": "corner of the iteration budget", "anchors": ["tslearn/barycenters/dba.py:dtw_barycenter_averaging"]}
{"id": "C52", "title": "Barycenter weights are honoured", "statement": "In dtw_barycenter_averaging_subgradient the weights influence the barycenter: doubling the weight of a series has the effect of duplicating it.", "quantifier": "all weights", "why_tests_cant": "algebraic", "anchors": ["tslearn/barycenters/dba.py:_subgradient_update_barycenter"]}
{"id": "C53", "title": "Lloyd iterations never increase the inertia", "statement": "In Euclidean TimeSeriesKMeans each assign/update iteration does not increase the inertia.", "quantifier": "all datasets, initial centres, number of iterations", "why_tests_cant": "over all iterations", "anchors": ["tslearn/clustering/kmeans.py:TimeSeriesKMeans._fit_one_init", "tslearn/clustering/utils.py:_compute_inertia"]}
{"id": "C54", "title": "Reported inertia belongs to the reported clustering", "statement": "After TimeSeriesKMeans.fit, inertia_ is the mean squared distance of the samples to their closest cluster_centers_, and labels_ are the closest centres.", "quantifier": "all datasets and fit histories", "why_tests_cant": "depends on the iteration at which the loop stops", "anchors": ["tslearn/clustering/kmeans.py:TimeSeriesKMeans.fit", "tslearn/clustering/utils.py:TimeSeriesCentroidBasedClusteringMixin._post_fit"]}
{"id": "C55", "title": "fit never escapes with an empty-cluster error and no returned clustering has an empty cluster", "statement": "TimeSeriesKMeans.fit either returns a clustering whose every cluster is non-empty or the unfitted state; EmptyClusterError is always handled.", "quantifier": "all datasets and initialisations", "why_tests_cant": "all histories of failed attempts", "anchors": ["tslearn/clustering/kmeans.py:TimeSeriesKMeans.fit", "tslearn/clustering/utils.py:_check_no_empty_cluster"]}
{"id": "C56", "title": "Refitting does not depend on earlier fits", "statement": "KernelKMeans.fit(X2) after fit(X1) gives the same sigma as fit(X2) on a fresh estimator with the same hyper-parameters, and fit does not modify the kernel_params passed by the user.", "quantifier": "all fit histories", "why_tests_cant": "history dependent state", "anchors": ["tslearn/clustering/kmeans.py:KernelKMeans._get_kernel_params", "tslearn/clustering/kmeans.py:KernelKMeans.fit"]}
{"id": "C57", "title": "KShape.predict reads only in-bounds norms", "statement": "KShape.predict on any number of series uses for each series its own norm.", "quantifier": "all fit/predict sizes", "why_tests_cant": "out-of-bounds reads are silent in numba", "anchors": ["tslearn/clustering/kshape.py:KShape._cross_dists", "tslearn/metrics/cycc.py:cdist_normalized_cc"]}
{"id": "C58", "title": "kneighbors returns the k nearest training series in increasing order", "statement": "For a query set X, kneighbors returns for each query k distinct training indices, sorted by distance, such that no other training series is strictly closer; for X=None the query itself is excluded and the k nearest others are returned.", "quantifier": "all distance matrices, all admissible argpartition results", "why_tests_cant": "argpartition order is unspecified", "anchors": ["tslearn/neighbors/neighbors.py:KNeighborsTimeSeriesMixin.kneighbors"]}
{"id": "C59", "title": "Hyper-parameters survive any sequence of calls", "statement": "No sequence of fit/predict/kneighbors/set_params calls, including failing ones, changes the metric the user configured.", "quantifier": "all call histories incl. exceptions", "why_tests_cant": "history dependent", "anchors": ["tslearn/neighbors/neighbors.py:KNeighborsTimeSeriesMixin", "tslearn/neighbors/neighbors.py:KNeighborsTimeSeries.fit"]}
{"id": "C60", "title": "Matrix profile is the nearest non-trivial match distance", "statement": "Entry i of the matrix profile is the least distance between segment i and a segment j outside the exclusion zone |i-j| <= ceil(m/4), infinite if there is none.", "quantifier": "all series and segment lengths", "why_tests_cant": "all sizes", "anchors": ["tslearn/matrix_profile/matrix_profile.py:MatrixProfile._transform"]}
{"id": "C61", "title": "Early classification is causal and within bounds", "statement": "The decision time lies between min_t and the series length, is the first time at which the expected cost is minimal now, and the predicted class depends only on the observations up to that time.", "quantifier": "all series, all cost matrices", "why_tests_cant": "all prefixes", "anchors": ["tslearn/early_classification/early_classification.py:NonMyopicEarlyClassifier"]}
{"id": "C62", "title": "Incremental early prediction equals batch prediction", "statement": "Sending a series chunk by chunk to the early prediction generator yields, after each chunk, the prediction for the concatenation of all accepted chunks; rejected chunks leave the state unchanged.", "quantifier": "all chunkings", "why_tests_cant": "all histories", "anchors": ["tslearn/early_classification/early_classification.py:_generate_early_predictions"]}
{"id": "C63", "title": "Patched attributes are always restored", "statement": "Estimator attributes temporarily patched during a call have their original value afterwards, whether the call returns or raises.", "quantifier": "all bodies, nested patches, exceptions at any point", "why_tests_cant": "all exception points", "anchors": ["tslearn/bases/bases.py:TimeSeriesMixin._patch_attribute"]}
{"id": "C64", "title": "HDF5 dictionary round trip", "statement": "load_dict(save_dict(d)) = d for every nested dictionary the saver accepts.", "quantifier": "all nested dictionaries", "why_tests_cant": "nesting unbounded", "anchors": ["tslearn/hdftools/hdftools.py"]}
{"id": "C65", "title": "Model persistence keeps hyper-parameters", "statement": "from_hdf5(to_hdf5(m)) / from_json / from_pickle have the same hyper-parameters as m.", "quantifier": "all hyper-parameter values the saver accepts", "why_tests_cant": "values such as the string 'None' or nested dictionaries", "anchors": ["tslearn/bases/bases.py:BaseModelPackage"]}
{"id": "C66", "title": "Fitted estimators can be saved and stay fitted after loading", "statement": "For every serialisable estimator class, a fitted model can be saved and the loaded model is fitted.", "quantifier": "all estimator classes", "why_tests_cant": "structural over attribute names", "anchors": ["tslearn/bases/bases.py:BaseModelPackage._get_model_params", "tslearn/matrix_profile/matrix_profile.py", "tslearn/neighbors/neighbors.py", "tslearn/forecasting/_arima.py"]}
{"id": "C67", "title": "Differencing is inverted by forecasting", "statement": "In VARIMA(p,d,q), if the forecast of the d-times differenced series is its true next value then predict returns the true next value of the series.", "quantifier": "all series and d", "why_tests_cant": "all d", "anchors": ["tslearn/forecasting/_arima.py:VARIMA._undifference"]}
{"id": "C68", "title": "AutoVARIMA search terminates within bounds and returns the best tested model", "statement": "The order search terminates for every AIC landscape, only tests p<=max_p and q<=max_q, never fits the same order twice, and returns a tested model of minimal AIC.", "quantifier": "all AIC functions, all set iteration orders", "why_tests_cant": "all landscapes", "anchors": ["tslearn/forecasting/_arima.py:AutoVARIMA"]}
{"id": "C69", "title": "Multivariate VAR coefficients are applied as estimated", "statement": "The one-step forecast with q=0 applies the estimated coefficient matrix of each lag as estimated by least squares.", "quantifier": "all dimensions", "why_tests_cant": "index arithmetic in all dimensions", "anchors": ["tslearn/forecasting/_arima.py:compute_var", "tslearn/forecasting/_arima.py:_varma_next"]}
{"id": "C70", "title": "Shapelet distances are squared Euclidean distances for any number of features", "statement": "LocalSquaredDistanceLayer returns, for each window and shapelet, the mean squared difference.", "quantifier": "all shapes", "why_tests_cant": "index arithmetic in all dimensions", "anchors": ["tslearn/shapelets/shapelets.py:LocalSquaredDistanceLayer"]}
{"id": "C71", "title": "Grabocka shapelet sizes fit in the series", "statement": "grabocka_params_to_shapelet_size_dict returns sizes between 1 and the series length with positive counts.", "quantifier": "all n_ts, ts_sz, n_classes, l, r", "why_tests_cant": "all parameter combinations", "anchors": ["tslearn/shapelets/shapelets.py:grabocka_params_to_shapelet_size_dict"]}
{"id": "C72", "title": "Dataset cache survives a failed download", "statement": "If a download fails at any point, data cached earlier by load_dataset is still available.", "quantifier": "all crash points", "why_tests_cant": "crash points", "anchors": ["tslearn/datasets/ucr_uea.py:UCR_UEA_datasets.load_dataset", "tslearn/datasets/datasets.py:extract_from_zip_url"]}
{"id": "C73", "title": "DTW optimality in IEEE-754 double precision", "statement": "For all finite binary64 inputs, the value accumulated by dtw before the final square root is exactly the least, over all admissible warping paths, of the left-to-right rounded float sum along the path, and the path returned realises it.", "quantifier": "all finite binary64 series", "why_tests_cant": "rounding errors on all inputs", "anchors": ["tslearn/metrics/_dtw.py:_njit_accumulated_matrix", "tslearn/metrics/utils.py:_compute_path_generic"]}
{"id": "C74", "title": "cdist_dtw rejects datasets with different feature counts", "statement": "cdist_dtw(X,Y) raises whenever dtw(X[i],Y[j]) raises because the feature counts differ.", "quantifier": "all pairs of datasets", "why_tests_cant": "needs agreement of two validation paths on all inputs", "anchors": ["tslearn/metrics/_dtw.py:cdist_dtw", "tslearn/metrics/dtw_variants.py:_local_squared_dist"]}
{"id": "C75", "title": "cdist_soft_dtw_normalized is the pairwise normalised divergence, whatever n_jobs", "statement": "For every value of n_jobs, cdist_soft_dtw_normalized(X,Y)[i,j] = soft_dtw_normalized(X[i],Y[j]).", "quantifier": "all datasets of variable-length series, gamma>0, schedules of the workers", "why_tests_cant": "the parallel branch has its own code path, only exercised for particular shapes", "anchors": ["tslearn/metrics/_soft_dtw.py:_cdist_soft_dtw_normalized", "tslearn/metrics/_soft_dtw.py:soft_dtw_normalized"]}
{"id": "C76", "title": "cdist_gak is the pairwise normalised kernel", "statement": "For every n_jobs, cdist_gak(X,Y,sigma)[i,j] = gak(X[i],Y[j],sigma), and likewise for cdist_gak(X).", "quantifier": "all datasets of variable-length series, sigma != 0, schedules of the workers", "why_tests_cant": "equality of a matrix computation with an unbounded family of scalar computations", "anchors": ["tslearn/metrics/_gak.py:_cdist_gak", "tslearn/metrics/_gak.py:gak"]}
{"id": "C77", "title": "SAX: transform after inverse_transform is the identity", "statement": "For every array S of symbols, transform(inverse_transform(S)) = S, with or without scaling.", "quantifier": "all datasets, symbol arrays, alphabet sizes, n_segments <= sz", "why_tests_cant": "all symbol arrays and data-dependent scalings", "anchors": ["tslearn/metrics/cysax.py:inv_transform_sax", "tslearn/piecewise/piecewise.py:SymbolicAggregateApproximation.inverse_transform"]}
{"id": "C78", "title": "1d-SAX: transform after inverse_transform is the identity", "statement": "For every array S of 1d-SAX symbols, transform(inverse_transform(S)) = S.", "quantifier": "all datasets, symbol arrays, alphabet sizes, segments of at least two time steps", "why_tests_cant": "all symbol arrays and scalings; uninitialised memory", "anchors": ["tslearn/metrics/cysax.py:inv_transform_1d_sax", "tslearn/piecewise/piecewise.py:OneD_SymbolicAggregateApproximation"]}
{"id": "C79", "title": "1d-SAX distance is the distance of the reconstructions", "statement": "distance_1d_sax(S1,S2) is the Euclidean distance between inverse_transform(S1) and inverse_transform(S2).", "quantifier": "all symbol arrays", "why_tests_cant": "equality over all symbol arrays", "anchors": ["tslearn/metrics/cysax.py:cydist_1d_sax", "tslearn/metrics/cysax.py:inv_transform_1d_sax"]}
{"id": "C80", "title": "Normalised cross-correlations lie in [-1,1] and reach 1 for identical series", "statement": "Every entry of normalized_cc(s1,s2) lies in [-1,1]; the maximum of normalized_cc(s,s) is 1 unless the norm of s is negligible.", "quantifier": "all equal-shape series", "why_tests_cant": "inequality over all real series", "anchors": ["tslearn/metrics/cycc.py:normalized_cc"]}
{"id": "C81", "title": "Shape similarity is symmetric, with or without the self-similarity shortcut", "statement": "max(normalized_cc(a,b)) = max(normalized_cc(b,a)), and cdist_normalized_cc(X,X,self_similarity=True) equals cdist_normalized_cc(X,X,self_similarity=False).", "quantifier": "all datasets", "why_tests_cant": "all datasets and norms", "anchors": ["tslearn/metrics/cycc.py:cdist_normalized_cc"]}
{"id": "C82", "title": "Shift alignment maximises the inner product with the reference", "statement": "y_shifted_sbd_vec returns each series delayed by some number of time steps, zero padded, such that no other delay has a larger inner product with the reference.", "quantifier": "all references and datasets of equal shape", "why_tests_cant": "optimality over all delays and series", "anchors": ["tslearn/metrics/cycc.py:y_shifted_sbd_vec"]}
{"id": "C83", "title": "euclidean_barycenter is the weighted least-squares solution", "statement": "For series of equal size, euclidean_barycenter returns at every time step the weighted mean of the series, and no series of the same size has a smaller weighted sum of squared Euclidean distances to the dataset.", "quantifier": "all datasets of equal-size series, all positive weights (or none)", "why_tests_cant": "optimality over a continuum of candidates", "anchors": ["tslearn/barycenters/euclidean.py:euclidean_barycenter", "tslearn/barycenters/utils.py:_set_weights"]}
{"id": "C84", "title": "DTW k-means iterations never increase the inertia", "statement": "In TimeSeriesKMeans(metric='dtw') each assign/update iteration does not increase the inertia, whatever metric_params constrain the alignments; fit reports the labels of the reported centres and an inertia that bounds the mean squared DTW distance from above.", "quantifier": "all datasets (variable length), initial centres, constraints, numbers of iterations", "why_tests_cant": "over all iterations and alignments; the barycenter step is itself an iterative procedure", "anchors": ["tslearn/clustering/kmeans.py:TimeSeriesKMeans._fit_one_init", "tslearn/clustering/kmeans.py:TimeSeriesKMeans._update_centroids", "tslearn/barycenters/dba.py:dtw_barycenter_averaging_petitjean"]}
{"id": "C85", "title": "KernelKMeans reports the best attempt and its inertia never increases", "statement": "KernelKMeans.fit reports the labels and inertia of the best successful attempt; each label is the first cluster of largest mean similarity; no cluster is empty; the inertia does not increase from one iteration to the next.", "quantifier": "all kernel matrices, weights, random initial labels", "why_tests_cant": "over all matrices, draws and numbers of attempts", "anchors": ["tslearn/clustering/kmeans.py:KernelKMeans.fit", "tslearn/clustering/kmeans.py:KernelKMeans._fit_one_init"]}
{"id": "C86", "title": "KernelKMeans.fit(X).predict(X) equals fit_predict(X)", "statement": "predict assigns each series to the first cluster of largest mean similarity, and on the training set it returns labels_.", "quantifier": "all kernel matrices and weights", "why_tests_cant": "depends on where the loop stopped", "anchors": ["tslearn/clustering/kmeans.py:KernelKMeans.predict", "tslearn/clustering/kmeans.py:KernelKMeans.fit_predict"]}
{"id": "C87", "title": "Scaling all sample weights does not change KernelKMeans", "statement": "For every c > 0, fit with sample_weight = c*w gives the same labels, inertia and number of iterations as with w.", "quantifier": "all positive weights, kernel matrices, draws", "why_tests_cant": "metamorphic relation over all inputs", "anchors": ["tslearn/clustering/kmeans.py:KernelKMeans._compute_dist"]}
{"id": "C88", "title": "sigma_gak follows the scale of the data", "statement": "sigma_gak(c*X+b) = |c| sigma_gak(X) for the same draws, and sigma_gak is positive when the drawn points differ pairwise.", "quantifier": "all datasets with NaN padding, all draws, all c<>0 and b", "why_tests_cant": "metamorphic relation over all inputs", "anchors": ["tslearn/metrics/_gak.py:_sigma_gak"]}
{"id": "C89", "title": "KShape.fit reports labels and inertia of the centres it reports and never raises EmptyClusterError", "statement": "KShape.fit never raises EmptyClusterError. If it finds a clustering, labels_ gives each training series the first nearest of cluster_centers_ in shape-based distance, every cluster has a member, and inertia_ is the mean squared distance of the series to the centre of their label.", "quantifier": "for all datasets of series of one shape, all numbers of clusters, n_init, max_iter >= 1, tol, all random initialisations", "why_tests_cant": "The final assignment uses norms computed from the centres of the last attempt; whether this matters depends on which attempts fail, which no fixed seed exercises.", "anchors": ["tslearn/clustering/kshape.py:145-256", "tslearn/clustering/utils.py:227-235"]}
{"id": "C90", "title": "Allowing KShape more iterations never makes the reported inertia worse", "statement": "With given initial centres of standardised norm, if KShape.fit finds a clustering with max_iter = m', it finds one for every smaller max_iter m >= 1, and the inertia_ reported for m' is at most that reported for m.", "quantifier": "for all datasets, initial centres, tolerances, and 1 <= m <= m'", "why_tests_cant": "Needs a comparison of two runs for every pair of bounds; the loop restores old centres with the norms of the new ones.", "anchors": ["tslearn/clustering/kshape.py:165-198"]}
{"id": "C91", "title": "Of several initialisations TimeSeriesKMeans reports the best one", "statement": "When TimeSeriesKMeans.fit with drawn initial centres finds a clustering, its inertia_, cluster_centers_ and labels_ are those of fitting once (n_init=1) from the centres of one of the attempts made; no other attempt made has a smaller inertia and earlier ones have a larger one. At least n_init and at most max(n_init, 10) attempts are made, exactly n_init if the first n_init ones find a clustering.", "quantifier": "for all parameters, metrics euclidean and dtw, datasets, draws of initial centres, and states of the estimator before the call", "why_tests_cant": "Concerns every sequence of succeeding and failing attempts, and that nothing leaks from one attempt to the next.", "anchors": ["tslearn/clustering/kmeans.py:642-710", "tslearn/clustering/kmeans.py:784-856", "tslearn/clustering/utils.py:227-235"]}
{"id": "C92", "title": "kneighbors() without queries searches the training series", "statement": "On a KNeighborsTimeSeriesClassifier or Regressor fitted with an elastic metric, kneighbors(X=None) compares the training series with each other, and kneighbors(X) compares X with the training series.", "quantifier": "all training sets, dimensions, dissimilarities, queries", "why_tests_cant": "Calls with explicit queries never touch the zero matrix stored for scikit-learn; seeing the fault needs X=None on a classifier or regressor, and the claim ranges over all training sets and dissimilarities.", "anchors": ["tslearn/neighbors/neighbors.py:101-187", "tslearn/neighbors/neighbors.py:539-581", "tslearn/neighbors/neighbors.py:700-735"]}
{"id": "C93", "title": "Matrix profile under affine changes of the series", "statement": "With scale=True the matrix profile of c*x+e equals that of x for every c != 0; with scale=False it is multiplied by |c|.", "quantifier": "all series, segment lengths, c != 0, e", "why_tests_cant": "a relation between two runs for all series and real factors", "anchors": ["tslearn/matrix_profile/matrix_profile.py:MatrixProfile._transform"]}
{"id": "C94", "title": "Scaled matrix profile entries are bounded", "statement": "With scale=True every finite entry of the matrix profile lies in [0, 2 sqrt(m)].", "quantifier": "all series and segment lengths", "why_tests_cant": "bound over all real inputs", "anchors": ["tslearn/matrix_profile/matrix_profile.py:MatrixProfile._transform"]}
{"id": "C95", "title": "Matrix profile supports variable-length series", "statement": "For a NaN-padded series (allow_variable_length and allow_nan are declared), the profile entries of the segments inside the series equal those of the unpadded series.", "quantifier": "all series and paddings", "why_tests_cant": "all lengths", "anchors": ["tslearn/matrix_profile/matrix_profile.py:MatrixProfile._transform", "tslearn/matrix_profile/matrix_profile.py:MatrixProfile._more_tags"]}
{"id": "C96", "title": "sigma_gak is the median pairwise distance of the drawn points times the square root of the length", "statement": "sigma_gak(X) is sqrt(sz) times the median of the Euclidean distances of all pairs of drawn points, where points with missing values are never drawn.", "quantifier": "all datasets with NaN padding, all draws", "why_tests_cant": "all inputs and random draws", "anchors": ["tslearn/metrics/_gak.py:_sigma_gak"]}
{"id": "C97", "title": "Early prediction agrees with batch prediction", "statement": "For a complete series, early_predict on the prefix of length t announces a positive delay for every t before the decision time of predict_class_and_earliness, and delay 0 with the same class at the decision time.", "quantifier": "all fitted models, all series at least as long as the training series", "why_tests_cant": "Relates two code paths on every prefix of every series.", "anchors": ["tslearn/early_classification/early_classification.py:NonMyopicEarlyClassifier.early_predict", "tslearn/early_classification/early_classification.py:NonMyopicEarlyClassifier._get_prediction_time"]}
{"id": "C98", "title": "Announced delays stay within the training length and are cheapest", "statement": "If early_predict announces a delay for a series, the current length plus the delay lies between min_t and the training length, and no other time from now on has a smaller expected cost.", "quantifier": "all fitted models, all series not longer than the training series", "why_tests_cant": "Optimality over all future times for arbitrary cost tables.", "anchors": ["tslearn/early_classification/early_classification.py:NonMyopicEarlyClassifier._expected_costs", "tslearn/early_classification/early_classification.py:NonMyopicEarlyClassifier._early_predict"]}
{"id": "C99", "title": "Cluster probabilities form a distribution that favours close clusters", "statement": "get_cluster_probas returns positive numbers summing to 1, and for lamb > 0 a cluster is more probable than another exactly when its centre is closer to the observed prefix.", "quantifier": "all fitted models, all prefixes", "why_tests_cant": "Holds for arbitrary reals; the failure needs all distances to vanish.", "anchors": ["tslearn/early_classification/early_classification.py:NonMyopicEarlyClassifier.get_cluster_probas"]}
{"id": "C100", "title": "Tables estimated by fit are the documented conditional probabilities", "statement": "pyck_[y, k] estimates P(y | c_k) and sums to 1 over y; pyhatyck_[t, k, y, yhat] estimates P(yhat | y, c_k) for yhat different from y (0 on the diagonal), so it sums to at most 1 over yhat.", "quantifier": "all label vectors", "why_tests_cant": "A wrong normalisation axis changes only the numbers, not shapes or types.", "anchors": ["tslearn/early_classification/early_classification.py:NonMyopicEarlyClassifier.fit"]}
{"id": "C101", "title": "Forecast horizons are consistent", "statement": "VARIMA.predict with horizon n returns n rows, and its first k rows are what predict returns with horizon k.", "quantifier": "all fitted VARIMA models, all series (padded or not), all k <= n", "why_tests_cant": "all horizons, orders and coefficients", "anchors": ["tslearn/forecasting/_arima.py:VARIMA.predict"]}
{"id": "C102", "title": "AutoVARIMA differences as little as possible", "statement": "The differencing order chosen is the smallest d from 0 to max_d for which the stationarity test succeeds; if there is none it is the default order, and without a default ValueError is raised.", "quantifier": "all outcomes of the stationarity tests, all max_d, all defaults", "why_tests_cant": "all sequences of test outcomes", "anchors": ["tslearn/forecasting/_arima.py:AutoVARIMA"]}
{"id": "C103", "title": "Predicting from the fitted data and from the same data given again agree", "statement": "After fit(X), predict(None, n) and predict(X, n) give the same forecasts.", "quantifier": "all fitted VARIMA models, all series long enough, padded or not, all n", "why_tests_cant": "all orders, coefficients and paddings", "anchors": ["tslearn/forecasting/_arima.py:VARIMA.predict", "tslearn/forecasting/_arima.py:_loss"]}
{"id": "C104", "title": "Multi-step forecasts are iterated one-step forecasts", "statement": "The forecast at horizon n+1 is the one-step forecast from the series extended by the n forecasts before it.", "quantifier": "all fitted VARIMA models, all complete series long enough, all n", "why_tests_cant": "all horizons, orders and coefficients", "anchors": ["tslearn/forecasting/_arima.py:VARIMA.predict"]}
{"id": "C105", "title": "A loaded model can be saved again", "statement": "If a fitted model can be saved as HDF5, then the model loaded from that file can be saved again, as HDF5 or in the other formats.", "quantifier": "all hyper-parameters and model parameters the saver accepts", "why_tests_cant": "loading changes the types of values (numpy scalars); all combinations of values and formats", "anchors": ["tslearn/bases/bases.py:BaseModelPackage", "tslearn/hdftools/hdftools.py"]}
{"id": "C106", "title": "Shapelet features are distances to the best window", "statement": "LearningShapelets.transform(X) gives, for every series and every shapelet, the least mean squared distance between the shapelet and a window of the (optionally scaled) series, and locate(X) gives the first window where it is attained. Neither depends on padding, on the batch size or on the other series.", "quantifier": "all fitted models, datasets, series lengths and batch sizes", "why_tests_cant": "padding interacts with the batch maximum; all shapes", "anchors": ["tslearn/shapelets/shapelets.py:LearningShapelets.transform", "tslearn/shapelets/shapelets.py:LearningShapelets.locate", "tslearn/shapelets/shapelets.py:GlobalMinPooling1D"]}
{"id": "C107", "title": "LearningShapelets labels", "statement": "LearningShapelets keeps the distinct labels in increasing order as classes_, refuses labels that are all the same, trains on targets that decode to the labels given, and predicts the first class of greatest probability (the second of two classes exactly when the output is above 1/2).", "quantifier": "all integer label lists and network outputs", "why_tests_cant": "all label sets", "anchors": ["tslearn/shapelets/shapelets.py:LearningShapelets._preprocess_labels", "tslearn/shapelets/shapelets.py:LearningShapelets.predict"]}
{"id": "C108", "title": "Initial shapelets come from real windows", "statement": "The subseries the initial shapelets of LearningShapelets are computed from are windows of the training series without padding; drawing a series shorter than the shapelet is an error.", "quantifier": "all datasets and random draws", "why_tests_cant": "random draws", "anchors": ["tslearn/shapelets/shapelets.py:_kmeans_init_shapelets"]}
{"id": "C109", "title": "LearningShapelets.predict agrees with predict_proba", "statement": "LearningShapelets.predict(X) fails exactly when predict_proba(X) does, with the same exception, and otherwise returns for each series the class of greatest probability in predict_proba(X), although predict prepares (pads and scales) the series twice. With scale=True, scaling the series beforehand does not change the probabilities.", "quantifier": "all trained networks, hyper-parameters and datasets", "why_tests_cant": "double preparation of data", "anchors": ["tslearn/shapelets/shapelets.py:LearningShapelets.predict", "tslearn/shapelets/shapelets.py:LearningShapelets.predict_proba"]}
{"id": "C110", "title": "Refitting LearningShapelets does not depend on earlier fits", "statement": "LearningShapelets.fit(X2, y2) after fit(X1, y1) accepts the same data and builds a network for the same series length as on a fresh estimator.", "quantifier": "all fit histories", "why_tests_cant": "history dependent state", "anchors": ["tslearn/shapelets/shapelets.py:LearningShapelets.fit", "tslearn/shapelets/shapelets.py:LearningShapelets._preprocess_series", "tslearn/shapelets/shapelets.py:LearningShapelets._check_series_length"]}
{"id": "C111", "title": "Series accepted by a fitted LearningShapelets", "statement": "transform, locate and predict_proba of a fitted LearningShapelets accept exactly the datasets with the fitted number of features whose series are no longer than the fitted length and no shorter than the shapelets asked for in n_shapelets_per_size; anything else raises ValueError.", "quantifier": "all hyper-parameters and datasets", "why_tests_cant": "all shapes", "anchors": ["tslearn/shapelets/shapelets.py:LearningShapelets._check_series_length", "tslearn/shapelets/shapelets.py:LearningShapelets.transform"]}
{"id": "C112", "title": "Loading a dataset only touches its own directory", "statement": "UCR_UEA_datasets.load_dataset(name) changes nothing in the file system outside the cache directory of that dataset, whatever the server answers and whenever the process is killed.", "quantifier": "all names, file systems, server answers and crash points", "why_tests_cant": "destructive effects and crash points", "anchors": ["tslearn/datasets/ucr_uea.py:UCR_UEA_datasets.load_dataset", "tslearn/datasets/datasets.py:extract_from_zip_url"]}
{"id": "C113", "title": "Datasets reported as cached can be loaded offline", "statement": "Every dataset returned by list_cached_datasets can be loaded without the server, and a dataset that was loaded once is listed and loads again with the same result.", "quantifier": "all file systems and server answers", "why_tests_cant": "histories of failed downloads", "anchors": ["tslearn/datasets/ucr_uea.py:UCR_UEA_datasets.list_cached_datasets", "tslearn/datasets/ucr_uea.py:UCR_UEA_datasets.load_dataset"]}
{"id": "C114", "title": "Cached dataset lists are used offline", "statement": "When the server does not answer, list_datasets uses the lists cached earlier.", "quantifier": "all file systems and server answers", "why_tests_cant": "needs an unreachable server", "anchors": ["tslearn/datasets/ucr_uea.py:UCR_UEA_datasets.__init__", "tslearn/datasets/ucr_uea.py:UCR_UEA_datasets.list_datasets"]}
{"id": "C115", "title": "to_sklearn_dataset flattens row by row", "statement": "to_sklearn_dataset(X, return_dim=True) returns one row per series whose entry t*d+k is feature k at time t of to_time_series_dataset(X), and d.", "quantifier": "all datasets with at least one feature", "why_tests_cant": "index arithmetic for all shapes", "anchors": ["tslearn/utils/cast.py:to_sklearn_dataset"]}
{"id": "C116", "title": "pyflux round trip of one series", "statement": "from_pyflux_dataset(to_pyflux_dataset([ts])) returns [ts], and to_pyflux_dataset refuses several series with ValueError.", "quantifier": "all series with at least one feature", "why_tests_cant": "all shapes and contents", "anchors": ["tslearn/utils/cast.py:to_pyflux_dataset", "tslearn/utils/cast.py:from_pyflux_dataset"]}
{"id": "C117", "title": "softdtw_barycenter optimises with the exact gradient", "statement": "The function softdtw_barycenter hands to the optimiser returns, at every Z, the weighted sum of soft_dtw(Z, x_i) and a vector whose entries are the partial derivatives of that sum in each coordinate of Z, whatever the lengths, weights, gamma > 0, global constraint and the order in which parallel results arrive.", "quantifier": "all real datasets, all Z, weights, gamma > 0, constraints, schedules", "why_tests_cant": "Finite-difference tests check a few points with tolerances; the derivative identity goes through the sum over all warping paths.", "anchors": ["tslearn/barycenters/softdtw.py:24-112", "tslearn/metrics/_soft_dtw.py:386-407", "tslearn/metrics/_soft_dtw.py:690-729"]}
{"id": "C118", "title": "softdtw_barycenter is never worse than its start", "statement": "For an optimiser that never reports a point with a larger objective than its start, softdtw_barycenter returns a series of the shape of its start whose weighted soft-DTW sum is at most that of init, or of euclidean_barycenter when init is None and the series have one length.", "quantifier": "all real datasets, weights, gamma > 0, constraints, max_iter, optimisers", "why_tests_cant": "Covers all optimisers and data at once, including the reshaping between vectors and series.", "anchors": ["tslearn/barycenters/softdtw.py:115-215"]}
{"id": "C119", "title": "softdtw_barycenter rejects an init with another number of features", "statement": "softdtw_barycenter raises when init does not have the number of features of the series.", "quantifier": "all datasets and init arrays", "why_tests_cant": "Depends on divisibility of sizes, which examples rarely hit.", "anchors": ["tslearn/barycenters/softdtw.py:36", "tslearn/barycenters/softdtw.py:200-213"]}
{"id": "C120", "title": "mae and mse are the documented weighted averages of the errors", "statement": "For all real arrays y_true and y_pred of one shape (n, sz, d), all series weights (one per series, sum not 0, or none) and all time weights (one per step, sum not 0, or none), `mae` (`mse`) returns, per feature, the weighted mean over series and time steps of |y_true - y_pred| (of its square): the mean of these over features for 'uniform_average', the list of them for 'raw_values', and their weighted mean for a list of feature weights.", "quantifier": "all real arrays of one shape with at least one series, step and feature; all weights of the right lengths whose sums are not 0", "why_tests_cant": "tests compare a few small arrays with scikit-learn; the claim covers every shape and every combination of weights", "anchors": ["tslearn/metrics/performance.py:12-80", "tslearn/metrics/performance.py:83-150"]}
{"id": "C121", "title": "Forecasts of another shape than the truth are rejected", "statement": "`mae` and `mse` raise ValueError whenever y_pred does not have the shape of y_true.", "quantifier": "all real arrays y_true and y_pred, all weights", "why_tests_cant": "tests only use forecasts of the right shape", "anchors": ["tslearn/metrics/performance.py:12-80", "tslearn/metrics/performance.py:83-150"]}
{"id": "C122", "title": "The seasonal naive forecast of the training data has scaled error 1", "statement": "`mase` is the mean absolute error divided by the mean absolute seasonal difference of the training series; consequently predicting each training step by the one a period earlier scores exactly 1 when that difference is not 0, whatever `multioutput`.", "quantifier": "all real training arrays of one shape, all seasonal periods from 1 to the length minus 1, all multioutput values", "why_tests_cant": "the reference value is a ratio of two means that tests check on one literal example", "anchors": ["tslearn/metrics/performance.py:153-214"]}
{"id": "C123", "title": "mase is a number for training series of different lengths", "statement": "For training series of different lengths `mase` returns a number.", "quantifier": "all truths and forecasts of one shape, all sets of real training series, all positive seasonal periods", "why_tests_cant": "tests train on arrays of one length", "anchors": ["tslearn/metrics/performance.py:153-214"]}
{"id": "C124", "title": "A loaded dataset is what its TRAIN and TEST files contain", "statement": "load_dataset returns the parsed contents of the TRAIN and TEST files of the dataset (stored under its published name): of the cached files when both are in the cache and the cache is to be used, whatever the server would answer and without changing any file, of the downloaded archive otherwise; txt files are preferred to arff files. A dataset of which a file is missing is not taken from the cache.", "quantifier": "all file systems, cache directories without '..', dataset names that are one path component, archives of files without subdirectories, parsers", "why_tests_cant": "needs every combination of cached and downloaded files, which requires a server in tests", "anchors": ["tslearn/datasets/ucr_uea.py:250-375", "tslearn/datasets/datasets.py:12-54"]}
{"id": "C125", "title": "DBSCAN finds the density-connected components", "statement": "TimeSeriesDBSCAN returns as core_ts_indices_ exactly the series that have at least min_ts series within eps (itself included), in increasing order. Two core series get the same label exactly when a chain of core series with consecutive distances at most eps joins them. A series that is not core is noise (-1) exactly when no core series is within eps; otherwise it gets the smallest label among the clusters having a core series within eps. Labels are 0, 1, ... in the order of the first core series of each cluster.", "quantifier": "all numbers of series, all symmetric nonnegative distance matrices, all eps and min_ts; and all datasets of real series with the dtw metric without Itakura constraint", "why_tests_cant": "Tests check the labels of one generated dataset.", "anchors": ["tslearn/clustering/dbscan.py:111-193"]}
{"id": "C126", "title": "DBSCAN does not depend on the order of the series", "statement": "Permuting the series permutes the labels of TimeSeriesDBSCAN, up to the numbering of the clusters.", "quantifier": "all symmetric nonnegative distance matrices, all permutations", "why_tests_cant": "Tests fit one order.", "anchors": ["tslearn/clustering/dbscan.py:111-193"]}
{"id": "C127", "title": "DBSCAN with an asymmetric precomputed matrix joins near core series", "statement": "With metric precomputed, two core series such that D[i, j] <= eps get the same label.", "quantifier": "all nonnegative matrices with zero diagonal, symmetric or not", "why_tests_cant": "Tests use symmetric matrices.", "anchors": ["tslearn/clustering/dbscan.py:149-183"]}
{"id": "C128", "title": "SVM kernels: training and prediction use the same GAK kernel", "statement": "With kernel='gak', TimeSeriesSVC and TimeSeriesSVR train the scikit-learn estimator on the matrix of gak values between training series, and give it at prediction the gak values between the new and the training series, with sigma = sqrt(gamma / 2), which is sigma_gak(X) for gamma='auto', whatever n_jobs. Predicting the training set therefore uses the training matrix. Series with another number of features raise ValueError.", "quantifier": "all datasets of real series of any lengths, all gamma > 0, all draws, all schedules of the workers", "why_tests_cant": "Tests only check shapes and a few predictions.", "anchors": ["tslearn/svm/svm.py:43-89", "tslearn/svm/svm.py:296-411", "tslearn/svm/svm.py:562-610"]}
{"id": "C129", "title": "SVM hyper-parameters reach the estimator", "statement": "Every hyper-parameter of TimeSeriesSVC (TimeSeriesSVR) that scikit-learn's SVC (SVR) has, other than kernel and gamma, is passed to it.", "quantifier": "all hyper-parameter values and datasets", "why_tests_cant": "Tests do not look at the underlying estimator for each parameter.", "anchors": ["tslearn/svm/svm.py:319-327", "tslearn/svm/svm.py:585-590"]}
{"id": "C130", "title": "gamma='auto' is 1/n_features for the kernels of scikit-learn", "statement": "With gamma='auto' and a kernel other than 'gak', 1/n_features is used as gamma, as documented.", "quantifier": "all datasets and draws", "why_tests_cant": "Tests do not check the value.", "anchors": ["tslearn/svm/svm.py:54-60", "tslearn/svm/svm.py:124-140"]}
{"id": "C131", "title": "support_vectors_ lists the support series class by class", "statement": "TimeSeriesSVC.support_vectors_ has one list per class, of n_support_ series each; concatenated they are the training series of support_, in order. TimeSeriesSVR.support_vectors_ are those series.", "quantifier": "all training sets, all support_ and n_support_ with matching totals", "why_tests_cant": "Tests check one shape.", "anchors": ["tslearn/svm/svm.py:284-294", "tslearn/svm/svm.py:557-560"]}
{"id": "C132", "title": "A zero bandwidth is a RuntimeError", "statement": "With kernel='gak', fit raises RuntimeError when gamma is 0, given or computed, in particular when all points of the training set are equal.", "quantifier": "all datasets of real series, all draws", "why_tests_cant": "Tests use one dataset.", "anchors": ["tslearn/svm/svm.py:311-317", "tslearn/svm/svm.py:577-583", "tslearn/metrics/_gak.py:385-386"]}
{"id": "C133", "title": "The PyTorch loss has the values of soft_dtw", "statement": "For batches of finite series of equal size and dimension, SoftDTWLossPyTorch(gamma, normalize, global_constraint, ...)(x, y) is the vector whose entry b equals soft_dtw(x[b], y[b]) with the same gamma and constraint, or soft_dtw_normalized(x[b], y[b]) if normalize is true. With a user's dist_func the entry is -gamma log of the sum over admissible warping paths of exp(-cost/gamma). Batches of different sizes or dimensions raise AssertionError.", "quantifier": "All gamma > 0, constraints, batch sizes, lengths, dimensions, real series and real cost matrices", "why_tests_cant": "Tests compare a few random batches with a tolerance; the loss uses other tables and kernels than soft_dtw.", "anchors": ["tslearn/metrics/soft_dtw_loss_pytorch.py:36-96", "tslearn/metrics/soft_dtw_loss_pytorch.py:262-344", "tslearn/metrics/_soft_dtw.py:386-407"]}
{"id": "C134", "title": "The backward pass of the PyTorch loss is its gradient", "statement": "For SoftDTWLossPyTorch with the default distance, the gradients autograd accumulates in x and y for an incoming gradient w are the partial derivatives of sum_b w[b] * loss[b] in every coordinate of every time step of every series of x and of y, with and without normalisation and under every constraint. For a user's dist_func the gradient handed to its result is, in entry (b, i, j), w[b] times the derivative of the value in that cost, and zero where the constraint forbids (i, j).", "quantifier": "All gamma > 0, constraints, batch sizes, lengths, dimensions, weights and real series", "why_tests_cant": "Finite differences check a few points up to a tolerance; infinite entries outside the mask produce NaN in intermediate results.", "anchors": ["tslearn/metrics/soft_dtw_loss_pytorch.py:98-109", "tslearn/metrics/soft_dtw_loss_pytorch.py:262-331", "tslearn/metrics/soft_dtw_loss_pytorch.py:347-353", "tslearn/metrics/_soft_dtw.py:690-731"]}
{"id": "C135", "title": "The PyTorch loss leaves the tensor of dist_func unchanged", "statement": "Calling SoftDTWLossPyTorch does not change the entries of the tensor that the user's dist_func returned, so that the same tensor can be used for another loss.", "quantifier": "All distance tensors, constraints and gamma", "why_tests_cant": "Tests use a dist_func that computes a fresh tensor for every call.", "anchors": ["tslearn/metrics/soft_dtw_loss_pytorch.py:86-96"]}
{"id": "C136", "title": "silhouette_score is the mean silhouette coefficient of the distances of the chosen metric", "statement": "For a matrix of distances (non-negative, zero diagonal) and labels with at least two and fewer than n different values, silhouette_score(X, labels, metric='precomputed') is the mean over the series of (b - a) / max(a, b), where a is the mean distance to the other series with the same label and b the least mean distance to the series with another label; series alone with their label and 0/0 count as 0. With sample_size it is that score of the sampled series. With metric 'dtw' the distances are dtw of the pairs with the given constraint, with 'softdtw' soft_dtw_normalized of the pairs (a negative value raises ValueError), with 'euclidean' the Euclidean distances of series of one length (different lengths raise ValueError). The score lies in [-1, 1].", "quantifier": "all matrices of distances, all label sequences, all samples; all datasets of non-empty real series, all constraints except Itakura, all gamma > 0", "why_tests_cant": "Tests compare a handful of scores on one random dataset; the value involves minima over all groups and all assignments of labels, and ties, singletons and zero distances are special cases.", "anchors": ["tslearn/clustering/utils.py:70-215"]}
{"id": "C137", "title": "silhouette_score does not depend on the names of the labels", "statement": "Renaming the labels by any map that keeps different labels different changes neither the score nor the exception, for every metric.", "quantifier": "all matrices and datasets, all label sequences, all renamings that are injective on the labels, all samples of a precomputed matrix", "why_tests_cant": "There are infinitely many renamings; tests use labels 0..k-1 only.", "anchors": ["tslearn/clustering/utils.py:70-215"]}
{"id": "C138", "title": "silhouette_score rejects degenerate labelings and matrices that are not distances", "statement": "For a matrix of distances silhouette_score raises ValueError if all labels are equal or all are different (fewer than 2 or at least n different labels) and returns a score otherwise; a matrix with a negative, infinite or NaN entry or with a diagonal entry above 100 eps raises ValueError.", "quantifier": "all square matrices, all label sequences", "why_tests_cant": "Tests do not exercise the error cases; the claim covers every label sequence and every position of a bad entry.", "anchors": ["tslearn/clustering/utils.py:178-215"]}
{"id": "C139", "title": "metric_params reach a callable metric in silhouette_score", "statement": "With a callable metric, silhouette_score(X, labels, metric=f, metric_params=p) is the score of the distances f(x, y, **p).", "quantifier": "all datasets of series of one length, all labels, all callables and parameters", "why_tests_cant": "A test would have to use a callable with parameters; none does.", "anchors": ["tslearn/clustering/utils.py:170-177", "tslearn/clustering/utils.py:196-215"]}
{"id": "C140", "title": "silhouette_score with a callable metric accepts series of different lengths", "statement": "With a callable metric on a dataset of series of different lengths, silhouette_score is the score of the values of the metric on the series without padding.", "quantifier": "all datasets of real series, all labels with 2 to n-1 different values, all callables returning symmetric non-negative numbers", "why_tests_cant": "The NaN removal at l.202-208 suggests it; no test calls it with a callable on series of different lengths.", "anchors": ["tslearn/clustering/utils.py:196-215"]}
{"id": "C141", "title": "silhouette_score does not depend on the order of the series", "statement": "Reordering the series together with their labels does not change the score.", "quantifier": "all matrices of distances, all label sequences with 2 to n-1 different values, all permutations", "why_tests_cant": "The permutations are n!; tests use one order.", "anchors": ["tslearn/clustering/utils.py:178-215"]}
{"id": "C142", "title": "random_walks returns the partial sums of its random steps", "statement": "random_walks(n_ts, sz, d, mu, std, random_state) returns an array of shape (n_ts, sz, d) in which every feature of every series is the sequence of partial sums of sz independent steps std * z + mu; n_ts * sz * d numbers are drawn, each used once. From the same random state, asking for more series keeps the first ones.", "quantifier": "all n_ts, d, mu, std, all sz >= 1, all random states", "why_tests_cant": "The tests fix a few sizes and only look at shapes; the value at step t depends on all draws before it.", "anchors": ["tslearn/generators/generators.py:7-54"]}
{"id": "C143", "title": "random_walk_blobs: one walk per blob plus noise", "statement": "random_walk_blobs returns n_ts_per_blob * n_blobs series and their labels: series i has label i // n_ts_per_blob and is the random walk of its blob plus noise_level times fresh normal numbers. Without noise the series of one blob are equal.", "quantifier": "all sizes with sz >= 1, all numbers of blobs, all noise levels, all random states", "why_tests_cant": "The tests look at shapes for a few sizes.", "anchors": ["tslearn/generators/generators.py:57-112"]}
{"id": "C144", "title": "The feature synchronizer without timestamps", "statement": "TimeSeriesFeatureSynchronizer.transform without timestamps replaces each feature of each series by the piecewise linear curve through its values, evaluated at as many equidistant points as the reference feature of that series has values. The result has as many time steps as the longest reference feature; missing values follow the end of a series. The reference feature and every feature as long as it are unchanged; the others keep their first value, their last value (when the reference has at least two) and their range.", "quantifier": "all datasets of real series in which every feature of every series has at least one value, each feature of its own length; all reference features", "why_tests_cant": "The tests use the two examples of the documentation; sizes differ per series and per feature.", "anchors": ["tslearn/preprocessing/_synchronizer.py:78-148"]}
{"id": "C145", "title": "The feature synchronizer with timestamps", "statement": "With an array of increasing timestamps, each feature takes, at every timestamp of the reference feature of its series, the value of the piecewise linear curve through its own (timestamp, value) points, constant before the first and after the last. The reference feature and every feature recorded at the same times are unchanged. Nested lists of timestamps raise TypeError.", "quantifier": "all datasets of real series with non-empty features, all increasing timestamps, all reference features", "why_tests_cant": "The tests use one example of the documentation.", "anchors": ["tslearn/preprocessing/_synchronizer.py:78-148"]}
{"id": "C146", "title": "Timestamps out of order are refused", "statement": "transform raises ValueError when the timestamps have another shape than the data or when the timestamps present in some feature do not increase, and accepts them otherwise.", "quantifier": "all datasets and all arrays of timestamps, with missing timestamps anywhere", "why_tests_cant": "The tests have one decreasing array; missing timestamps between two others are not tried.", "anchors": ["tslearn/preprocessing/_synchronizer.py:111-118"]}
{"id": "C147", "title": "What the feature synchronizer refuses", "statement": "transform raises ValueError for another number of features than in fit and for a feature without any value, and IndexError for a reference feature that does not exist.", "quantifier": "all datasets of real series with at least one value per series, all reference features", "why_tests_cant": "The tests have no series with an empty feature.", "anchors": ["tslearn/preprocessing/_synchronizer.py:103-109", "tslearn/preprocessing/_synchronizer.py:120-148"]}
{"id": "C148", "title": "k-means++ seeding: centres come from the data, drawn by squared distance, best of the trials", "statement": "With init='k-means++' and metric 'dtw' or 'softdtw', whatever random numbers are drawn, the n_clusters initial centres are series of the dataset; the first is the one drawn by randint; in every later round each random number selects the first series up to which the squared distances to the closest centre so far sum to at least that fraction of the total, and the series kept is, among the selected ones, one that leaves the smallest total of squared distances. Series of different lengths are compared without their padding.", "quantifier": "all datasets of real series (any lengths), all constraints for which the pairwise distances are finite, all numbers of clusters and all random draws in [0,1)", "why_tests_cant": "tests only check that fitting with k-means++ gives some labels; the selection rule is random and never observed", "anchors": ["tslearn/clustering/kmeans.py:46-126", "tslearn/clustering/kmeans.py:658-687"]}
{"id": "C149", "title": "k-means++ seeding with DTW never repeats a centre while another series is available", "statement": "With metric 'dtw' and random numbers in (0,1), each initial centre is a series different from all earlier centres and at a positive DTW distance of them, unless every series of the dataset is already at DTW distance zero of an earlier centre.", "quantifier": "all datasets, no or Sakoe-Chiba constraint, all numbers of clusters, all draws in (0,1)", "why_tests_cant": "a repeated centre appears only for particular random draws", "anchors": ["tslearn/clustering/kmeans.py:99-124"]}
{"id": "C150", "title": "k-means++ seeding with soft-DTW never repeats a centre while another series is available", "statement": "With metric 'softdtw' and random numbers in (0,1), the initial centres are pairwise different series when the series of the dataset are.", "quantifier": "all datasets, all gammas, all draws in (0,1)", "why_tests_cant": "a repeated centre appears only for particular random draws", "anchors": ["tslearn/clustering/kmeans.py:96-124", "tslearn/clustering/kmeans.py:669-678"]}
{"id": "C151", "title": "SAX neighbour searches use the representation learnt at fit time", "statement": "With metric=\"sax\", the distance reported by KNeighborsTimeSeriesClassifier between a query and a training series is the MINDIST of a SAX representation fitted to the training set: it does not depend on the other queries of the batch, a training series is at distance 0 from itself, and the distance is at most the Euclidean one when the segments divide the length.", "quantifier": "all training sets and query batches of finite series of one length, numbers of segments, alphabet sizes, with or without scaling", "why_tests_cant": "the result depends on which other series are in the query batch; a test with one batch cannot show it", "anchors": ["tslearn/neighbors/neighbors.py:31-42", "tslearn/neighbors/neighbors.py:58-99", "tslearn/metrics/sax.py:85-106", "tslearn/piecewise/piecewise.py:355-420"]}
{"id": "C152", "title": "A second fit with metric=\"sax\" uses the current parameters", "statement": "Fitting a classifier with metric=\"sax\" stores the SAX words of the training series for the number of segments, alphabet size and scaling in metric_params at that time, also when the estimator was fitted before with other parameters.", "quantifier": "all histories of fits, all parameters and datasets of finite series", "why_tests_cant": "needs histories of several fits with changing parameters", "anchors": ["tslearn/neighbors/neighbors.py:31-42", "tslearn/neighbors/neighbors.py:539-581"]}
{"id": "C153", "title": "A metric accepted by fit can be used for searching and predicting", "statement": "If fit of a nearest-neighbour estimator succeeds with a metric, then kneighbors and predict on valid data succeed too.", "quantifier": "all metric names, the three estimator classes, all valid data", "why_tests_cant": "the invalid combinations of metric and class are many and the error appears only in the second call", "anchors": ["tslearn/neighbors/neighbors.py:58-99", "tslearn/neighbors/neighbors.py:351-428", "tslearn/neighbors/neighbors.py:539-581", "tslearn/neighbors/neighbors.py:700-735"]}
{"id": "C154", "title": "Perceptrons learn and predict on the flattened series, through any history of calls", "statement": "After any history of fit, partial_fit and predict calls with acceptable targets (warm_start off), predict answers what sklearn's perceptron, trained on the flattened series since the last fit (or the first partial_fit), answers for the flattened queries; it accepts exactly arrays of finite values whose series have the shape of the training series and raises ValueError otherwise (NotFittedError before training); n_features_in_ is the number of features of the series; feature k of instant t is column t*d+k.", "quantifier": "all histories, shapes, values, learners", "why_tests_cant": "histories mixing fit, partial_fit, rejected calls and predictions are unbounded", "anchors": ["tslearn/neural_network/neural_network.py:39-130", "tslearn/neural_network/neural_network.py:159-230", "tslearn/bases/bases.py:55-63", "tslearn/utils/utils.py:120-151"]}
{"id": "C155", "title": "warm_start=True allows a second fit of a perceptron", "statement": "A TimeSeriesMLPClassifier or TimeSeriesMLPRegressor with warm_start=True can be fitted again on series of the same shape, training on from its weights.", "quantifier": "all shapes, values, learners", "why_tests_cant": "the failure depends on the number of instants being larger than one", "anchors": ["tslearn/neural_network/neural_network.py:39-60", "tslearn/neural_network/neural_network.py:159-180"]}
{"id": "C156", "title": "A failed call leaves a perceptron as it was", "statement": "When fit or partial_fit of a perceptron raises, later calls behave as if it had not been made.", "quantifier": "all histories, shapes, values, learners", "why_tests_cant": "needs histories with failing calls in every state", "anchors": ["tslearn/neural_network/neural_network.py:39-110", "tslearn/neural_network/neural_network.py:159-230"]}
{"id": "C157", "title": "cdist_ctw is the matrix of pairwise canonical time warping scores", "statement": "When cdist_ctw returns, every entry of the cross matrix is ctw of the two series; the self matrix is symmetric with a zero diagonal and its upper triangle is pairwise. With n_components=None the matrix equals that of cdist_dtw with the same constraint, entry by entry. The call returns when every pairwise call does.", "quantifier": "all datasets of series with the same number of features (lengths may differ), numbers of iterations and components, global constraints, correlation analyses, sequential or threaded schedules", "why_tests_cant": "tests compare a few matrices with stored values; they do not vary schedules, lengths or the correlation analysis and never relate the result to cdist_dtw", "anchors": ["tslearn/metrics/ctw.py:302-454", "tslearn/metrics/utils.py:57-189"]}
{"id": "C158", "title": "cdist_sax is the matrix of MINDIST distances of the given words", "statement": "For words given to cdist_sax the entry (i, k) is MINDIST of words i and k on the given breakpoints and depends on nothing else; words of different lengths are rejected.", "quantifier": "all datasets of words with symbols of the alphabet, breakpoints, original sizes, sequential or threaded schedules, contents of the memory around the breakpoints", "why_tests_cant": "the compiled distance does not check indices: a wrong value depends on memory contents and on the platform's conversion of NaN to an integer", "anchors": ["tslearn/metrics/sax.py:10-106", "tslearn/metrics/cysax.py:38-74", "tslearn/utils/utils.py:215-286"]}
{"id": "C159", "title": "SoftDTW.compute is the soft minimum over all warping paths, up to its finite border", "statement": "For a matrix D of numbers and gamma > 0 the value of SoftDTW(D, gamma).compute() is at most -gamma log of the sum over all warping paths of exp(-cost/gamma), and is below it by at most gamma k exp(-b/gamma)/Z with b the number put in the border of the table, k independent of b, and Z the sum. It is exactly the soft minimum when the border is infinite.", "quantifier": "all m, n >= 1, all matrices of numbers, all gamma > 0, all borders", "why_tests_cant": "the number of paths grows exponentially, and the border is DBL_MAX: its effect shows only for gamma of that size", "anchors": ["tslearn/metrics/softdtw_variants.py:653-720", "tslearn/metrics/soft_dtw_fast.py:100-164"]}
{"id": "C160", "title": "SoftDTW.grad needs compute, and returns the expected alignment at any later time", "statement": "In any program that creates one SoftDTW object and calls compute and grad in any order: each compute returns the same value; grad before the first compute raises ValueError; every later grad returns at (i, j) the Gibbs probability that a warping path passes through (i, j), which is the gradient of the value in D.", "quantifier": "all sequences of calls, all matrices of numbers, all gamma > 0", "why_tests_cant": "the object keeps the table of the forward pass, which the backward pass overwrites in part (its border); only some orders of calls would show a stale entry", "anchors": ["tslearn/metrics/softdtw_variants.py:676-758", "tslearn/metrics/soft_dtw_fast.py:204-275"]}
{"id": "C161", "title": "SquaredEuclidean.jacobian_product chains the gradient to the series", "statement": "For series X, Y of numbers, jacobian_product(E) is the gradient in X of sum E_ij |X_i - Y_j|^2, and with E = SoftDTW(D, gamma).grad() it is the gradient in X of the soft-DTW value: entry (i, k) is the derivative in coordinate k of time step i.", "quantifier": "all series of numbers of dimension d >= 1, all matrices E, all gamma > 0", "why_tests_cant": "finite differences only approximate a derivative at sampled points", "anchors": ["tslearn/metrics/softdtw_variants.py:761-835", "tslearn/metrics/soft_dtw_fast.py:317-365"]}
{"id": "C162", "title": "The deprecated soft-DTW functions equal their replacements", "statement": "softdtw_variants.soft_dtw, soft_dtw_alignment, cdist_soft_dtw and cdist_soft_dtw_normalized return on every input what the functions of the same name in tslearn.metrics return without a global constraint.", "quantifier": "all series and datasets, all gamma >= 0, both backends, all schedules of the workers", "why_tests_cant": "two independent implementations agree on every tested value yet differ on a parameter value or on missing data", "anchors": ["tslearn/metrics/softdtw_variants.py:91-650", "tslearn/metrics/_soft_dtw.py:20-1193"]}
{"id": "C163", "title": "Soft-DTW k-means never increases the mean soft-DTW value", "statement": "With TimeSeriesKMeans(metric=\"softdtw\"), gamma > 0, no constraint or a Sakoe-Chiba band, each iteration of fit either raises EmptyClusterError or gives every series the label of its first closest centre and moves the centres, keeping their shape, so that the mean soft-DTW value between series and centres does not increase, before and after reassignment. fit therefore reports labels that are those of the reported centres, with every cluster occupied, and a mean soft-DTW value that is not larger than that of the initial centres of one of its attempts under any labels; starting from the same array of centres, a larger max_iter never reports a larger mean soft-DTW value. predict gives every series of a dataset the label of its first closest reported centre; on the training data these are labels_.", "quantifier": "All datasets of real series of any lengths and dimension, any number of clusters and centre length, all gamma > 0, bands, tol, n_init, max_iter, dtw_inertia on or off, all initialisations, and every optimiser that never reports a point worse than its start, with any completion order of the threads.", "why_tests_cant": "The claim ranges over optimisers, initialisations and real-valued series; it combines the assignment, the gradient-based barycenter update and the loop, with a stopping rule that looks at another quantity (inertia_).", "anchors": ["tslearn/barycenters/softdtw.py:115-215", "tslearn/clustering/kmeans.py:642-856", "tslearn/clustering/kmeans.py:881-906", "tslearn/clustering/utils.py:31-67", "tslearn/metrics/_soft_dtw.py:901-940"]}
{"id": "C164", "title": "inertia_ of soft-DTW k-means measures the objective", "statement": "With metric=\"softdtw\" the attribute inertia_ never increases when max_iter grows, and among several initialisations (n_init > 1) the clustering with the smallest mean soft-DTW value is the one reported.", "quantifier": "All datasets, parameters and initialisations.", "why_tests_cant": "Requires values of gamma for which soft-DTW is negative and exact comparison of the two quantities over whole runs of fit.", "anchors": ["tslearn/clustering/kmeans.py:742-757", "tslearn/clustering/kmeans.py:811-856", "tslearn/clustering/utils.py:51-67"]}
{"id": "C165", "title": "The first telling argument chooses the back end", "statement": "instantiate_backend(*args) goes through its arguments in order. None, numbers, names that contain neither \"numpy\" nor \"torch\" (in any case), and nested lists or tuples of numbers, arrays and float32 tensors are passed over. The first other argument decides: a Backend is returned itself, a numpy array or a name with \"numpy\" gives a new NumPy back end, a tensor, a name with \"torch\" and not \"numpy\", or a list that holds a float64 tensor gives a new PyTorch back end (ValueError if torch is not installed). Without such an argument the NumPy back end is created.", "quantifier": "every list of arguments, every nesting, every name, every printing of numbers that uses digits, signs, nan, inf, brackets, commas and blanks, torch installed or not", "why_tests_cant": "The decision is a search in printed text of arbitrary objects; tests print a few.", "anchors": ["tslearn/backend/backend.py:7-54", "tslearn/backend/pytorch_backend.py:27-33"]}
{"id": "C166", "title": "Data made of tensors is handled by PyTorch", "statement": "If the data passed to instantiate_backend consists of PyTorch tensors (a tensor, or a list of tensors), the PyTorch back end is chosen, and the order of two data arguments does not matter.", "quantifier": "every non-empty list of tensors; every pair of data arguments", "why_tests_cant": "The choice depends on how torch prints the dtype of the elements.", "anchors": ["tslearn/backend/backend.py:7-29"]}
{"id": "C167", "title": "cast returns the requested type with the same numbers", "statement": "cast(data, array_type) with array_type \"numpy\", \"pytorch\" or \"list\" (in any case) returns an object of that type holding the numbers of data, for every list, tuple, array or tensor whose nested sequences have a shape.", "quantifier": "every nested data of any depth and shape, every spelling of the three names", "why_tests_cant": "Nesting depth and mixtures of arrays, tensors and floats are unbounded.", "anchors": ["tslearn/backend/backend.py:91-116", "tslearn/backend/pytorch_backend.py:106-123"]}
{"id": "C168", "title": "Conversions there and back keep the data", "statement": "Casting a nested list of floats to an array or a tensor and back to a list returns the list; casting an array to a tensor and back returns the array.", "quantifier": "every nested list of floats with a shape, every array", "why_tests_cant": "Rounding of torch's default dtype shows only on numbers that float32 lacks.", "anchors": ["tslearn/backend/backend.py:91-116", "tslearn/backend/pytorch_backend.py:106-123"]}
{"id": "C169", "title": "Early classification: probabilities, labels and cost agree", "statement": "For a NonMyopicEarlyClassifier, predict_proba_and_earliness gives the same decision times as predict_class_and_earliness, and early_predict_proba the same delays as early_predict (with rows of NaN, one per class, where early_predict gives no label); whatever relates the label and the probabilities of the base classifiers (for example: the label is the most probable class) relates the outputs of the early classifier. early_classification_cost(X, y) equals the fraction of wrong labels plus cost_time_parameter times the mean decision time; for a fitted model, series at least as long as the training ones and a parameter that is not negative it lies between the error rate plus the cost of min_t and the error rate plus the cost of the training length.", "quantifier": "all fitted models, base classifiers, relations between label and probabilities, datasets and labels", "why_tests_cant": "tests compare one dataset with stored values; the agreement must hold for any base classifier and any dataset", "anchors": ["tslearn/early_classification/early_classification.py:379-397", "tslearn/early_classification/early_classification.py:453-572", "tslearn/early_classification/early_classification.py:600-625", "tslearn/early_classification/early_classification.py:745-769"]}
{"id": "C170", "title": "Early classification: dearer time never delays a decision", "statement": "For two fitted NonMyopicEarlyClassifier objects that differ only in cost_time_parameter, a <= a': on any series at least as long as the training ones the object with a' decides no later than the object with a (predict_class_and_earliness), and on any series between min_t and the training length it gives the same label and announces a delay that is no longer (early_predict).", "quantifier": "all fitted models, all pairs of parameters a <= a' (also negative ones), all series", "why_tests_cant": "a monotonicity over all models and all pairs of parameters; the tests fix cost_time_parameter", "anchors": ["tslearn/early_classification/early_classification.py:286-377", "tslearn/early_classification/early_classification.py:514-515", "tslearn/early_classification/early_classification.py:745-769"]}
{"id": "C171", "title": "CachedDatasets: a listed name loads its own file", "statement": "list_datasets() lists every n for which the directory of cached datasets has a file n.npz (n not empty), each once. Every listed name n loads the file n.npz with load_dataset(n): training series, training labels, test series, test labels.", "quantifier": "all directories (lists of files), all file contents, all dataset names", "why_tests_cant": "the repository ships one file, Trace.npz; the claim is about every name a file may have", "anchors": ["tslearn/datasets/cached.py:22-24", "tslearn/datasets/cached.py:26-42", "tslearn/datasets/cached.py:44-85"]}
{"id": "C172", "title": "Text files of the UCR archive are read back", "statement": "_load_txt_uea on a file with one line per series, the label first and then the values, returns the labels and the dataset of the series: all of one length, the values of the lines at their times, NaN where the line has NaN, trailing times at which every series is NaN dropped. Labels and number of series are those of the file for every file.", "quantifier": "all numbers of series, lengths, values (numbers, infinities, NaN) and labels", "why_tests_cant": "the readers are tested on downloaded archives only (network); the claim is for every file", "anchors": ["tslearn/utils/utils.py:680-703"]}
{"id": "C173", "title": "ARFF files are read back", "statement": "_load_arff_uea returns, for a file with one numeric column per time and a class column, the univariate series (n, sz, 1) with their labels, and for a file with one relational column (one line per feature) and a class column the multivariate series with time before features; for every dataset with one or more examples.", "quantifier": "all datasets of equal-length series, all lengths, numbers of features, values and labels", "why_tests_cant": "the readers are tested on downloaded archives only (network); the order of axes and the case distinction on the number of columns must be right for every shape", "anchors": ["tslearn/utils/utils.py:624-677"]}
{"id": "C174", "title": "Min-max scaling in binary64", "statement": "With IEEE double arithmetic, TimeSeriesScalerMinMax(value_range=(a,b)) maps every finite value into [a,b], the minimum to a and the maximum of a non-constant series to b, keeps order, and leaves NaN as NaN.", "quantifier": "all finite doubles with NaN gaps, all finite ranges a<b", "why_tests_cant": "rounding, overflow and underflow depend on particular bit patterns", "anchors": ["tslearn/preprocessing/preprocessing.py:226-269"]}
{"id": "C175", "title": "Mean-variance scaling of constant series in binary64", "statement": "With IEEE double arithmetic, TimeSeriesScalerMeanVariance(mu,std) maps every value of a constant series to mu.", "quantifier": "all constant series, all orders of summation", "why_tests_cant": "holds for the constants usually tried (integers), fails for 0.1", "anchors": ["tslearn/preprocessing/preprocessing.py:355-408"]}
{"id": "C176", "title": "LB_Keogh lower-bounds DTW in binary64", "statement": "With IEEE double arithmetic, lb_keogh(q,c,radius=r) <= dtw(q,c,sakoe_chiba_radius=r) for univariate series of equal length.", "quantifier": "all equal-length univariate series of doubles and radii, all orders of summation", "why_tests_cant": "the excess is one unit in the last place and shows up only when the query leaves the envelope on both sides", "anchors": ["tslearn/metrics/dtw_variants.py:723-836"]}
{"id": "C177", "title": "DTW and the Frechet distance are unchanged by a common shift, a rearrangement of the features and a reversal of time, and scale with the values", "statement": "For two series and any accepted global constraint: adding the same vector to every time step of both series, listing the features of both in another order, or reversing both in time leaves dtw and frechet unchanged; multiplying all values of both by a multiplies them by |a|. More generally a map of the feature vectors that multiplies all distances by k multiplies dtw and frechet by k.", "quantifier": "all real-valued multivariate series of any lengths, all constraints (Sakoe-Chiba, Itakura, none), all shifts, factors, orders", "why_tests_cant": "relations between two runs on transformed inputs of unbounded length; the reversal depends on the rounding in the Itakura mask being symmetric", "anchors": ["tslearn/metrics/_dtw.py:30-412", "tslearn/metrics/_frechet.py:30-419", "tslearn/metrics/_masks.py:89-151"]}
{"id": "C178", "title": "DTW never exceeds the Euclidean distance, and equals it for radius 0", "statement": "For series of equal length without an Itakura constraint dtw is at most the Euclidean distance (frechet at most the largest distance between simultaneous time steps), with equality for sakoe_chiba_radius=0. For any lengths and constraint frechet <= dtw <= sqrt(n+m-1) * frechet.", "quantifier": "all real-valued multivariate series", "why_tests_cant": "bounds over all inputs", "anchors": ["tslearn/metrics/_dtw.py:30-412", "tslearn/metrics/_frechet.py:30-419", "tslearn/metrics/_masks.py:13-39"]}
{"id": "C179", "title": "Unconstrained DTW is zero exactly for series that differ only in repetitions", "statement": "Without a constraint dtw(s1, s2) = 0 (and frechet(s1, s2) = 0) if and only if the two series are equal once every time step equal to its successor is dropped.", "quantifier": "all real-valued multivariate series of any lengths", "why_tests_cant": "an equivalence over all inputs", "anchors": ["tslearn/metrics/_dtw.py:30-412", "tslearn/metrics/_frechet.py:30-419"]}
{"id": "C180", "title": "DTW satisfies the triangle inequality", "statement": "dtw(x, z) <= dtw(x, y) + dtw(y, z).", "quantifier": "all real-valued series", "why_tests_cant": "three runs on inputs of different lengths", "anchors": ["tslearn/metrics/_dtw.py:30-412", "tslearn/metrics/_frechet.py:30-419"]}
{"id": "C181", "title": "The predictions of an SVM belong to its last fit", "statement": "Whatever was called before, including calls that raised, a successful fit of TimeSeriesSVC / TimeSeriesSVR gives an object that predicts exactly like a new object fitted on the same data with the same parameters, and it goes on doing so after further predictions and after changes of other parameters than the kernel. Whether fit succeeds does not depend on the past either.", "quantifier": "all histories of fit, predict and set_params, before and after; all data, labels and weights", "why_tests_cant": "state left behind by earlier calls; every history has to be tried", "anchors": ["tslearn/svm/svm.py:43-88", "tslearn/svm/svm.py:296-350", "tslearn/svm/svm.py:562-613"]}
{"id": "C182", "title": "A failed fit leaves a fitted SVM as it was", "statement": "If fit raises, later predictions are those of the object before that call.", "quantifier": "all histories and all failing fits", "why_tests_cant": "exceptions between assignments", "anchors": ["tslearn/svm/svm.py:43-88", "tslearn/svm/svm.py:296-330", "tslearn/svm/svm.py:562-593"]}
{"id": "C183", "title": "Parameters of an SVM changed after fit wait for the next fit", "statement": "set_params after fit does not change what predict returns until fit is called again.", "quantifier": "all fitted objects, all parameter changes and queries", "why_tests_cant": "needs all parameters and queries", "anchors": ["tslearn/svm/svm.py:43-88", "tslearn/svm/svm.py:332-350"]}
{"id": "C184", "title": "Processes that load different datasets at the same time do not disturb one another", "statement": "Several processes share one cache directory and call load_dataset for datasets of different names at the same time, with or without the cache. Whatever the order of their file-system actions and whatever the server answers to each, every process ends with the result, and with the files in its dataset's directory, that it would have alone.", "quantifier": "any number of processes, all initial file systems, all answers of the server, all interleavings", "why_tests_cant": "the number of interleavings; races cannot be provoked reliably in a test", "anchors": ["tslearn/datasets/ucr_uea.py:250-375", "tslearn/datasets/datasets.py:16-54"]}
{"id": "C185", "title": "Processes that load the same dataset at the same time all get it", "statement": "If every process alone would get the data, every process gets the same data when they run at the same time.", "quantifier": "any number of processes, all interleavings", "why_tests_cant": "races cannot be provoked reliably in a test", "anchors": ["tslearn/datasets/ucr_uea.py:293-375", "tslearn/datasets/datasets.py:40-44"]}
{"id": "C186", "title": "Processes that load the same dataset at the same time leave it complete in the cache", "statement": "Any number of processes load the same dataset at the same time, with or without the cache, and the server gives all of them the same archive. When all have ended - some perhaps with an error - every file of the archive is in the cache with its content, and from then on the dataset is loaded from the cache.", "quantifier": "any number of processes, all interleavings, all flat archives", "why_tests_cant": "races cannot be provoked reliably in a test", "anchors": ["tslearn/datasets/ucr_uea.py:293-375", "tslearn/datasets/datasets.py:40-44"]}
{"id": "C187", "title": "The rounding error of DTW in double precision", "statement": "For finite series of doubles in which any two compared values are equal or at least 2^-511 apart, the score of dtw, for every global constraint, lies between (1-u)^k D and (1+u)^k D, where D is the DTW of the same numbers in exact arithmetic, u = 2^-53, and k is any number with 2k >= len(s1) + len(s2) + n_features + 4; if it overflows to infinity then D^2 (1+u)^(2k) >= 2^1024.", "quantifier": "all finite series of binary64 numbers of any lengths and number of features, all constraints that are accepted", "why_tests_cant": "The error of every possible input cannot be measured by examples; a test compares a few scores with a tolerance.", "anchors": ["tslearn/metrics/_dtw.py:dtw", "tslearn/metrics/_dtw.py:_njit_accumulated_matrix"]}
{"id": "C188", "title": "The rounding error of the discrete Frechet distance in double precision", "statement": "Under the same conditions the score of frechet lies between (1-u)^k D and (1+u)^k D where D is the exact value and 2k >= n_features + 5, whatever the lengths of the series.", "quantifier": "all finite series of binary64 numbers of any lengths and number of features, all constraints that are accepted", "why_tests_cant": "As for DTW: a bound for all inputs.", "anchors": ["tslearn/metrics/_frechet.py:frechet"]}
{"id": "C189", "title": "cache_all leaves in the cache exactly what could be loaded", "statement": "After UCR_UEA_datasets.cache_all(), a listed dataset loads without the server if and only if a single call of load_dataset for it, with the same answer of the server, would have returned data; it then loads with that data. Failures of other datasets of the list have no influence.", "quantifier": "all file systems, lists of datasets and server answers, with and without use_cache", "why_tests_cant": "combinations of failures along a list of datasets", "anchors": ["tslearn/datasets/ucr_uea.py:UCR_UEA_datasets.cache_all", "tslearn/datasets/ucr_uea.py:UCR_UEA_datasets.load_dataset"]}
{"id": "C190", "title": "baseline_accuracy returns the scores that are asked for", "statement": "baseline_accuracy(list_datasets, list_methods) returns exactly the datasets that are asked for and are in the table of the package, each with exactly the methods that are asked for and have a score there, whether or not the server can be reached.", "quantifier": "all tables, all lists of datasets and methods, server reachable or not", "why_tests_cant": "tests have one table and run with the network", "anchors": ["tslearn/datasets/ucr_uea.py:UCR_UEA_datasets.baseline_accuracy", "tslearn/datasets/ucr_uea.py:UCR_UEA_datasets.__init__"]}
{"id": "C191", "title": "The rounding error of the DTW variants in double precision", "statement": "For finite binary64 series in which compared values are equal or at least 2^-511 apart, dtw_limited_warping_length and the distance of dtw_subsequence_path are the exact value for the given numbers up to k relative roundings, k at least half of (both lengths + number of features + 4), or overflow to infinity, and then the square of the exact value is near the largest float.", "quantifier": "all finite binary64 series, all bounds on the path length", "why_tests_cant": "rounding errors of all possible inputs", "anchors": ["tslearn/metrics/dtw_variants.py:dtw_limited_warping_length", "tslearn/metrics/dtw_variants.py:dtw_subsequence_path"]}
{"id": "C192", "title": "sigma_gak does not depend on the back end", "statement": "For the same drawn points, sigma_gak returns with the PyTorch back end the bandwidth it returns with the numpy back end.", "quantifier": "all datasets and all draws of at least two points, in exact arithmetic", "why_tests_cant": "The back ends disagree only if the number of pairwise distances is even and the two middle ones differ; tests compare few datasets with a tolerance.", "anchors": ["tslearn/metrics/_gak.py:_sigma_gak", "tslearn/backend/pytorch_backend.py:PyTorchBackend.median", "tslearn/backend/numpy_backend.py:NumPyBackend.median"]}
{"id": "C193", "title": "Matrices of GAK values are positive semi-definite", "statement": "For every dataset and every bandwidth other than 0, the matrix returned by cdist_gak(X) is positive semi-definite, and so is the matrix of unnormalized_gak values; in particular gak is at most 1.", "quantifier": "all finite datasets of non-empty series of any lengths with the same number of features, all non-zero bandwidths, all coefficient vectors; exact arithmetic", "why_tests_cant": "A claim about all quadratic forms of all datasets; SVMs and kernel k-means rely on it, and for the kernel of the docstring, without the division by 2 - g, no such argument is known.", "anchors": ["tslearn/metrics/_gak.py:cdist_gak", "tslearn/metrics/_gak.py:unnormalized_gak", "tslearn/metrics/_gak.py:_unnormalized_gak", "tslearn/metrics/_gak.py:gak"]}
{"id": "C194", "title": "soft-DTW never increases with gamma, never decreases under a tighter constraint, and follows similarities of the series", "statement": "For real series and any accepted global constraint: raising gamma (from 0 on, 0 meaning the square of DTW) never raises soft_dtw; a constraint that allows fewer cells never lowers it; adding one vector to all time steps of both series, rearranging the features of both, or reversing both in time leaves it unchanged; multiplying both by a (not 0) and gamma by a^2 multiplies it by a^2.", "quantifier": "all non-empty real series of any lengths with the same number of features, all gamma >= 0, all constraints with a feasible path, both backends", "why_tests_cant": "soft_dtw is a sum over exponentially many paths; tests compare single values to stored numbers", "anchors": ["tslearn/metrics/_soft_dtw.py:soft_dtw", "tslearn/metrics/_soft_dtw.py:_njit_accumulated_matrix", "tslearn/metrics/_masks.py:compute_mask"]}
{"id": "C195", "title": "GAK is unchanged by shifts, feature order, time reversal and a common change of scale of series and sigma", "statement": "gak and unnormalized_gak of two real series do not change when one vector is added to all time steps of both, the features of both are rearranged, both are reversed in time, or both series and sigma are multiplied by the same non-zero number. The unnormalized kernel grows with |sigma|.", "quantifier": "all non-empty real series of any lengths with the same number of features, all sigma other than 0", "why_tests_cant": "a sum of products over exponentially many paths; tests look at single numbers", "anchors": ["tslearn/metrics/_gak.py:gak", "tslearn/metrics/_gak.py:unnormalized_gak", "tslearn/metrics/_gak.py:_gak_from_gram_matrix_generic"]}
{"id": "C196", "title": "With the kernel \"gak\" the inertia of KernelKMeans bounds the sum of squared feature-space distances from above", "statement": "With kernel=\"gak\", sigma other than 0 and positive sample weights, the inertia_ that KernelKMeans reports is at least the sum, over the training series, of the squared distance in the feature space of the kernel between the series and the weighted mean of its cluster (means of the partition that the reported labels were computed from). Every such squared distance is at least 0. Hence inertia_ is never negative, and it is less than twice the number of series.", "quantifier": "all training sets of real series, all numbers of clusters, iterations and attempts, all random initial labels, all positive weights", "why_tests_cant": "needs positive semi-definiteness of the kernel for all series", "anchors": ["tslearn/clustering/kmeans.py:KernelKMeans.fit", "tslearn/clustering/kmeans.py:KernelKMeans._compute_dist", "tslearn/clustering/kmeans.py:KernelKMeans._compute_inertia"]}
{"id": "C197", "title": "KernelKMeans gives every series to the nearest cluster center of the feature space", "statement": "The label that KernelKMeans computes (in fit and in predict) for a series is that of the cluster whose weighted mean, in the feature space of the kernel, is nearest to the series.", "quantifier": "all kernel matrices of normalized kernels, all weights, all partitions", "why_tests_cant": "depends on the geometry of all clusters at once", "anchors": ["tslearn/clustering/kmeans.py:KernelKMeans._compute_dist", "tslearn/clustering/kmeans.py:KernelKMeans.predict"]}
{"id": "C198", "title": "LB_Keogh is the Euclidean distance to the envelope", "statement": "lb_keogh(q, c, radius) is the smallest Euclidean distance between q and a series all of whose values lie between two values that c takes at most radius time steps away. Hence it never grows with the radius; it is the Euclidean distance for radius 0; it is 0 exactly for the series inside the envelope; an affine map x -> a x + b of both series multiplies it by |a|; reversing both series leaves it unchanged.", "quantifier": "all real univariate series of the same length, all radii", "why_tests_cant": "a statement about all series in a box", "anchors": ["tslearn/metrics/dtw_variants.py:lb_keogh", "tslearn/metrics/dtw_variants.py:lb_envelope", "tslearn/metrics/dtw_variants.py:_njit_lb_envelope"]}
{"id": "C199", "title": "LCSS follows similarities of the series and grows with eps and with the constraint", "statement": "The similarity lcss of two real series does not change when one vector is added to all time steps of both, the features of both are rearranged, both series are multiplied by a (not 0) and eps by |a|, or (without constraint or with a band wider than the bare diagonal of a square) both are reversed in time. Raising eps, and allowing more cells when the larger set of cells is such a wide one, never lowers it.", "quantifier": "all non-empty real series of any lengths with the same number of features, all eps, all accepted constraints", "why_tests_cant": "a maximum over exponentially many common subsequences", "anchors": ["tslearn/metrics/dtw_variants.py:lcss", "tslearn/metrics/dtw_variants.py:njit_lcss_accumulated_matrix", "tslearn/metrics/_masks.py:compute_mask"]}
{"id": "C200", "title": "The scalers do not see unit and origin of the data, and scaling twice is scaling once", "statement": "Let X be a dataset of numbers and missing values, and let X' hold the same measurements in other positive units and from other origins: every number v of series i and feature k is replaced by a*v+b, where a > 0 and b are the same for all entries that share their scale (per series with per_timeseries=True, per feature with per_feature=True, both, or one for all). TimeSeriesScalerMinMax and TimeSeriesScalerMeanVariance give the same array for X' as for X: fit_transform always, and fit(X).transform(Z) compared with fit(X').transform(Z') whenever each number of Z occurs among the numbers its scale is learnt from or those numbers are not all equal. (Where they are all equal the code divides by 1 and the result does follow the unit.) Moreover fit_transform(fit_transform(X)) = fit_transform(X) for every value_range and for every target mean and target standard deviation >= 0, constant data included.", "quantifier": "all numbers and sizes of series, all numbers of features, all patterns of missing values, all four combinations of per_timeseries and per_feature, all units and origins, all target ranges, means and deviations", "why_tests_cant": "Tests scale one dataset; the invariance quantifies over pairs of datasets and all units, and constant scopes are the case tests usually leave out.", "anchors": ["tslearn/preprocessing/preprocessing.py:TimeSeriesScalerMinMax.transform", "tslearn/preprocessing/preprocessing.py:TimeSeriesScalerMinMax._process", "tslearn/preprocessing/preprocessing.py:TimeSeriesScalerMeanVariance.transform", "tslearn/preprocessing/preprocessing.py:TimeSeriesScalerMeanVariance._process"]}
{"id": "C201", "title": "PAA follows a change of unit and origin, SAX words with scale=True do not see it", "statement": "Let X' hold the measurements of X in other units: every number v of feature k is replaced by a_k*v+b_k. The PAA representation of X' is the PAA representation of X converted in the same way (missing values included; here the units may also differ from series to series and need not be positive). If all a_k > 0, SymbolicAggregateApproximation(scale=True) fitted on X' gives the converted series Z' the same words as the one fitted on X gives Z, and the same MINDIST distances between them, for every number of segments and alphabet size, provided that in every feature each number of Z occurs in X or the numbers of X are not all equal; in particular fit_transform(X') = fit_transform(X).", "quantifier": "all datasets with missing values, all units and origins, all numbers of segments, alphabet sizes and quantile functions", "why_tests_cant": "A test compares a few datasets; the claim quantifies over all conversions and over all patterns of missing values.", "anchors": ["tslearn/piecewise/piecewise.py:PiecewiseAggregateApproximation._transform", "tslearn/piecewise/piecewise.py:SymbolicAggregateApproximation._fit", "tslearn/piecewise/piecewise.py:SymbolicAggregateApproximation._scale", "tslearn/piecewise/piecewise.py:SymbolicAggregateApproximation._transform", "tslearn/piecewise/piecewise.py:SymbolicAggregateApproximation.distance"]}
{"id": "C202", "title": "1d-SAX words with scale=True do not see unit and origin", "statement": "With scale=True the series are standardised by the mean and the standard deviation of the training data, so OneD_SymbolicAggregateApproximation fitted on converted data (every number v of feature k replaced by a_k*v+b_k, a_k > 0) gives the converted series the same words as before, if no feature of the training data is constant.", "quantifier": "all datasets, all units and origins, all numbers of segments, alphabet sizes and sigma_l", "why_tests_cant": "Needs pairs of datasets; a test with data of mean 0 and deviation 1 cannot notice a second standardisation.", "anchors": ["tslearn/piecewise/piecewise.py:OneD_SymbolicAggregateApproximation._transform", "tslearn/piecewise/piecewise.py:OneD_SymbolicAggregateApproximation._fit", "tslearn/piecewise/piecewise.py:SymbolicAggregateApproximation._scale"]}
{"id": "C203", "title": "Resampling and imputation follow a change of unit", "statement": "If every feature of every series is converted to another unit and origin (v becomes a*v+b), TimeSeriesResampler and TimeSeriesImputer (mean, median, linear, ffill, bfill, or constant with the fill value converted too) give the converted result: converting before or after the step is the same, for any a (negative or zero included) and b, and an error is raised in one case exactly when it is raised in the other.", "quantifier": "all equal-shape datasets of numbers and NaN whose last time step is not empty, all units and origins per series and feature, all requested sizes, all imputation methods, with and without keep_trailing_nans", "why_tests_cant": "A numeric test uses a few conversion factors and tolerances; the equality is an identity over all data, NaN patterns and factors, including negative ones which reverse the order used by the median.", "anchors": ["tslearn/preprocessing/preprocessing.py:TimeSeriesResampler.transform", "tslearn/preprocessing/preprocessing.py:TimeSeriesImputer.transform"]}
{"id": "C204", "title": "TimeSeriesKMeans does not depend on the order of the series nor on the origin of the values", "statement": "Take TimeSeriesKMeans(metric='euclidean') and series of one length with no missing value. Training it on the same series given in another order, each value v at time t and feature k replaced by a*v+b[t,k] (a not 0), with the initial centres replaced the same way and tol multiplied by a squared, ends the same way: the same exception or none, the same number of iterations, the labels in the new order, the centres replaced the same way, the inertia multiplied by a squared; predict gives new series, replaced the same way, the same labels. When a is 1 or -1 the tolerance, hence the estimator, is the same; when only the order changes the centres and the inertia are the same.", "quantifier": "for every number of clusters, iterations and attempts, every tolerance, dataset, permutation, a, b, every initial centres given as an array or drawn at each attempt, and every earlier state of the estimator", "why_tests_cant": "Tests fit a few seeds on one order of one dataset; with k-means++ the draws depend on the order, so the property can only be seen with the draws fixed, and the stopping rule, the empty-cluster restarts and the best-of-n_init selection all have to commute with the transformation.", "anchors": ["tslearn/clustering/kmeans.py:TimeSeriesKMeans.fit", "tslearn/clustering/kmeans.py:TimeSeriesKMeans._fit_one_init", "tslearn/clustering/kmeans.py:TimeSeriesKMeans._assign", "tslearn/clustering/kmeans.py:TimeSeriesKMeans.predict"]}
{"id": "C205", "title": "TimeSeriesKMeans finds the same clusters whatever the unit", "statement": "TimeSeriesKMeans(metric='euclidean') with the same parameters, trained on the same series and initial centres measured in another unit, gives the same labels.", "quantifier": "for every dataset, initial centres, positive factor and parameters", "why_tests_cant": "Tests use one unit; whether tol, compared with an absolute decrease of the inertia, makes the result depend on the unit does not show on well separated data.", "anchors": ["tslearn/clustering/kmeans.py:TimeSeriesKMeans._fit_one_init", "tslearn/clustering/kmeans.py:TimeSeriesKMeans.fit"]}
{"id": "C206", "title": "AutoVARIMA tests the differenced series themselves and takes the least stationary order", "statement": "For a dataset whose series, padded or not, all have at least seasonal_period + max_d values, AutoVARIMA gives the kpss test, for each feature of each series and each order d it tries, exactly the values of that series after removing the seasonality (x[t+s]-x[t]) and differencing d times, without any padding; the order it selects is the least d up to max_d at which the test accepts (p-value above 0.05) every feature of every series, and if there is none default_d_for_non_stationarity, or ValueError when that is None.", "quantifier": "for every test (any function from samples to p-values), dataset, number of features, padding, seasonal period, max_d and default", "why_tests_cant": "Tests fit a few datasets of one length; whether the slice that removes the padding is right depends on the length of every series, the seasonal period and the order together, and a wrong slice only shifts a p-value.", "anchors": ["tslearn/forecasting/_arima.py:AutoVARIMA.fit", "tslearn/forecasting/_arima.py:AutoVARIMA._is_stationary", "tslearn/forecasting/_arima.py:AutoVARIMA._determine_d"]}
{"id": "C207", "title": "The stationarity test of AutoVARIMA never sees missing values", "statement": "When AutoVARIMA.fit accepts the lengths of the series, the kpss test is only given actual values of the (differenced) series.", "quantifier": "for every accepted dataset, every order tried", "why_tests_cant": "Only datasets with one short series beside longer ones, on which several orders are tried, are concerned.", "anchors": ["tslearn/forecasting/_arima.py:AutoVARIMA.fit", "tslearn/forecasting/_arima.py:AutoVARIMA._is_stationary"]}
{"id": "C208", "title": "The shapelets shown by LearningShapelets are those its features refer to", "statement": "For a fitted LearningShapelets with n_shapelets_per_size_ = {size: count} and any weights, shapelets_ lists the count shapelets of every size in the order of the dictionary, none missing; shapelets_as_time_series_ has the same shapelets in the same order, each followed by NaN up to the largest size; and, for series of one feature (or one shapelet per size), column j of transform is the least mean squared distance between row j of shapelets_as_time_series_ without its NaN and a window of the series.", "quantifier": "for every dictionary of sizes and counts, weights, dataset of accepted series", "why_tests_cant": "Tests check the shape of shapelets_as_time_series_; whether its rows are in the order of the columns of transform depends on dictionary order, layer names and concatenation together.", "anchors": ["tslearn/shapelets/shapelets.py:LearningShapelets.shapelets_", "tslearn/shapelets/shapelets.py:LearningShapelets.shapelets_as_time_series_", "tslearn/shapelets/shapelets.py:LearningShapelets.transform", "tslearn/shapelets/shapelets.py:LearningShapelets._set_model_layers"]}
{"id": "C209", "title": "LearningShapelets comes back from JSON and pickle with its shapelet sizes", "statement": "A fitted LearningShapelets that to_json could save and from_json could load again has the dictionaries n_shapelets_per_size and n_shapelets_per_size_ it was saved with: same integer sizes, same counts, same order (which fixes the layers and columns), though JSON writes the keys as strings; and _X_fit_dims has the same numbers. to_pickle and from_pickle give back all hyper-parameters and attributes as they were.", "quantifier": "for every dictionary of distinct sizes, dimensions, and other hyper-parameters and attributes", "why_tests_cant": "The tests reload one model with one dictionary; keys that collide as strings, negative or multi-digit sizes and order are not covered.", "anchors": ["tslearn/shapelets/shapelets.py:LearningShapelets._organize_model", "tslearn/shapelets/shapelets.py:LearningShapelets._get_model_params", "tslearn/bases/bases.py:BaseModelPackage.from_json", "tslearn/bases/bases.py:BaseModelPackage.to_json", "tslearn/bases/bases.py:BaseModelPackage.from_pickle"]}
{"id": "C210", "title": "A reloaded LearningShapelets can be saved again", "statement": "A LearningShapelets loaded by from_json can be saved by to_json again.", "quantifier": "for every fitted model that to_json saves and from_json loads", "why_tests_cant": "No test saves a reloaded model.", "anchors": ["tslearn/shapelets/shapelets.py:LearningShapelets._organize_model", "tslearn/bases/bases.py:BaseModelPackage._listify", "tslearn/bases/bases.py:BaseModelPackage.to_json"]}
{"id": "C211", "title": "Subsequence DTW under longer series, similarities and reversal", "statement": "The score of dtw_subsequence_path(query, series) is non-negative, at most dtw(query, series), and does not grow when time steps are added before or after the series. It is 0 exactly if the query equals a contiguous part of the series up to repeated time steps. It is multiplied by k when all time steps of both are mapped by a similarity of factor k (shift, change of unit, reordered features), and unchanged when both are reversed.", "quantifier": "for all real series of one or more features and any lengths", "why_tests_cant": "Tests compare a few literal scores; relations between calls with different arguments need a statement over all of them.", "anchors": ["tslearn/metrics/dtw_variants.py:dtw_subsequence_path", "tslearn/metrics/dtw_variants.py:subsequence_cost_matrix", "tslearn/metrics/dtw_variants.py:subsequence_path"]}
{"id": "C212", "title": "DTW of limited warping length: symmetric, similarities, reversal, Euclidean bound", "statement": "dtw_limited_warping_length(s1, s2, L) for an accepted L is symmetric, 0 on identical series, multiplied by k under a similarity of factor k applied to all time steps, unchanged when both series are reversed; for series of equal length n it lies between dtw and the Euclidean distance, and equals the Euclidean distance for L = n.", "quantifier": "for all real series of one or more features, any lengths and any L at least the longer length", "why_tests_cant": "Tests compare a few literal scores.", "anchors": ["tslearn/metrics/dtw_variants.py:dtw_limited_warping_length", "tslearn/metrics/dtw_variants.py:_limited_warping_length_cost"]}
{"id": "C213", "title": "DTW barycenter averaging follows a reordering and a change of origin and unit", "statement": "Let the series given to dtw_barycenter_averaging (either algorithm) be reordered together with their weights, padded differently, and let every value v of feature k become a*v+c_k. If the initial barycenter (when given) is converted in the same way and tol is multiplied by a*a, the returned barycenter is the converted one; with no initial barycenter the same holds for the default average. In particular the order of the series does not matter, and a change of origin needs no change of tol.", "quantifier": "for all datasets of real series of any lengths with positive weights, all a <> 0, all offsets per feature, all permutations, all paddings, all global constraints that admit a path, all barycenter sizes, initial barycenters, iteration counts >= 1, tolerances and numbers of attempts >= 1", "why_tests_cant": "tests run one dataset; nothing in the suite compares two runs of the averaging on related data, and ties between alignments could break the correspondence on particular inputs only", "anchors": ["tslearn/barycenters/dba.py:dtw_barycenter_averaging", "tslearn/barycenters/dba.py:dtw_barycenter_averaging_petitjean", "tslearn/barycenters/dba.py:_mm_assignment", "tslearn/barycenters/dba.py:_init_avg"]}
{"id": "C214", "title": "The barycenter does not depend on the unit of the data", "statement": "With the same tol, multiplying every value of the series and of the initial barycenter by a constant multiplies the barycenter returned by dtw_barycenter_averaging by that constant.", "quantifier": "for all datasets, constants <> 0 and tolerances", "why_tests_cant": "the stopping rule compares a difference of squared costs with an absolute tolerance; a test in one unit cannot show that another unit stops at another iteration", "anchors": ["tslearn/barycenters/dba.py:dtw_barycenter_averaging", "tslearn/barycenters/dba.py:dtw_barycenter_averaging_one_init"]}
{"id": "C215", "title": "TimeSeriesKMeans with DTW does not depend on the order of the series nor on the origin of the values", "statement": "For TimeSeriesKMeans with metric=\"dtw\" (no named global constraint), training on the same series given in another order, with an offset added to every feature and possibly the sign of all values changed, and with the initial centres (array or drawn) expressed the same way, ends the same way: same exception or none, same inertia and number of iterations, the same labels in the new order, the same centres converted; predict on new series gives the same labels.", "quantifier": "all datasets of series of any (unequal) lengths and dimensions, padded to any length; all orders, offsets, signs; all centre lengths, Sakoe-Chiba radii and Itakura slopes that the lengths allow; all n_clusters > 0, n_init, max_iter, tol; all initialisations and previous states of the estimator; exact real arithmetic", "why_tests_cant": "A test fixes one dataset, order and offset. The relation has to hold at every decision of the nested loops: assignments, the thirty inner iterations of barycenter averaging with their alignment paths, empty clusters, restarts and both stopping tests.", "anchors": ["tslearn/clustering/kmeans.py:TimeSeriesKMeans.fit", "tslearn/clustering/kmeans.py:TimeSeriesKMeans._update_centroids", "tslearn/clustering/kmeans.py:TimeSeriesKMeans.predict", "tslearn/barycenters/dba.py:dtw_barycenter_averaging_petitjean"]}
{"id": "C216", "title": "TimeSeriesKMeans with DTW follows a change of unit when tol is converted too", "statement": "For TimeSeriesKMeans with metric=\"dtw\", multiplying every value of the series and of the initial centres by a factor and tol by its square multiplies the centres by the factor.", "quantifier": "all datasets, factors, tolerances and parameters", "why_tests_cant": "Needs values small enough for the fixed inner tolerance to stop the averaging early; with data of ordinary magnitude the two runs agree.", "anchors": ["tslearn/clustering/kmeans.py:TimeSeriesKMeans._update_centroids", "tslearn/barycenters/dba.py:dtw_barycenter_averaging_petitjean"]}
{"id": "C217", "title": "With the PyTorch back end dtw_subsequence_path of double tensors finds the best match to double precision", "statement": "For two float64 tensors, dtw_subsequence_path with the PyTorch back end returns a path of least cost among all paths aligning the query with some window of the long series, and its distance to the accuracy of float64, as the NumPy back end does.", "quantifier": "For every number of features, every two non-empty series of real numbers whose local costs are zero or at least 2^-126, and every number k of roundings that is at least half the sum of the lengths plus one.", "why_tests_cant": "The tests compare the two back ends on a few small values with a tolerance wider than single precision; the loss appears only when accumulated costs need more than 24 significant bits.", "anchors": ["tslearn/metrics/dtw_variants.py:_subsequence_cost_matrix", "tslearn/metrics/dtw_variants.py:dtw_subsequence_path", "tslearn/metrics/dtw_variants.py:_subsequence_path"]}
{"id": "C218", "title": "dtw_path_from_metric with a callable metric is accurate to double precision on double tensors", "statement": "With the PyTorch back end, float64 tensors and a callable metric, dtw_path_from_metric returns an admissible warping path and its score is the least total distance over the admissible warping paths, to the accuracy of float64.", "quantifier": "For every two non-empty series of real vectors, every callable metric with distances that are zero or at least 2^-126, every accepted global constraint that admits a warping path.", "why_tests_cant": "The tests use a few short series of small numbers and tolerances wider than single precision.", "anchors": ["tslearn/metrics/_dtw.py:dtw_path_from_metric", "tslearn/backend/pytorch_backend.py:PyTorchBackend.pairwise_distances"]}
{"id": "C219", "title": "lcss_path_from_metric with a callable metric matches exactly the pairs within eps", "statement": "With the PyTorch back end, float64 tensors, a callable metric and no global constraint, lcss_path_from_metric returns a longest sequence of pairs of time steps, increasing in both series, whose distance is at most eps, and its length over the smaller length.", "quantifier": "For every two non-empty series of real vectors, every callable metric and every eps below 2^128.", "why_tests_cant": "A distance must lie within a relative 2^-24 of eps for the wrong decision to show.", "anchors": ["tslearn/metrics/dtw_variants.py:lcss_path_from_metric", "tslearn/backend/pytorch_backend.py:PyTorchBackend.pairwise_distances"]}
{"id": "C220", "title": "The nearest neighbours do not depend on the order of the training series nor on unit and origin", "statement": "Take a nearest neighbour estimator with metric 'dtw' or 'frechet' and any accepted global constraint. Reorder the training series and move all series, queries included, by a similarity of factor c > 0. The distances returned by kneighbors are multiplied by c, and for a query whose distances to the training series are all different the neighbours are the same series in the same order.", "quantifier": "For every training set and queries of real series of any lengths, every permutation, every similarity of the feature space with positive factor, every number of neighbours, and however numpy breaks ties.", "why_tests_cant": "It relates two searches on all data; the tests search a few fixed datasets once.", "anchors": ["tslearn/neighbors/neighbors.py:KNeighborsTimeSeriesMixin.kneighbors", "tslearn/metrics/_dtw.py:dtw", "tslearn/metrics/_frechet.py:frechet"]}
{"id": "C221", "title": "KernelKMeans does not depend on the order of the series", "statement": "Fitting KernelKMeans on the series in another order, with their sample weights and the initial random labels in the same order, gives every series the same label and the same inertia_ and n_iter_, and raises or warns in the same cases. predict on new series is the same for a model fitted on reordered series, and follows the order of the series it is given.", "quantifier": "for all data sets, kernels, sample weights, parameters, sequences of initial labels and permutations", "why_tests_cant": "It relates two runs of an iterative algorithm with restarts for every permutation; the tests fit one data set in one order.", "anchors": ["tslearn/clustering/kmeans.py:KernelKMeans.fit", "tslearn/clustering/kmeans.py:KernelKMeans._fit_one_init", "tslearn/clustering/kmeans.py:KernelKMeans._compute_dist", "tslearn/clustering/kmeans.py:KernelKMeans.predict"]}
{"id": "C222", "title": "DBSCAN with a larger eps or a smaller min_ts only merges clusters", "statement": "When eps grows or min_ts shrinks, every core series of TimeSeriesDBSCAN stays a core series, no series becomes noise, and series that shared a cluster still share one.", "quantifier": "for all symmetric matrices of non-negative distances, all eps <= eps' and min_ts' <= min_ts", "why_tests_cant": "It relates two runs for every data set and every pair of parameters.", "anchors": ["tslearn/clustering/dbscan.py:TimeSeriesDBSCAN.fit"]}
{"id": "C223", "title": "DBSCAN with DTW does not depend on unit and origin", "statement": "TimeSeriesDBSCAN with metric dtw on series moved by a similarity (other unit, origin, sense of the axis, order of the features) with eps in the new unit returns the same labels, with the same numbers, and the same core_ts_indices_.", "quantifier": "for all data sets of finite series of any lengths, similarities, eps, min_ts, constraints other than Itakura and thread schedules", "why_tests_cant": "It relates two runs for every data set and every similarity.", "anchors": ["tslearn/clustering/dbscan.py:TimeSeriesDBSCAN.fit", "tslearn/metrics/_dtw.py:cdist_dtw"]}
{"id": "C224", "title": "Shape similarity does not depend on the unit of each series", "statement": "normalized_cc of two series multiplied by positive numbers equals normalized_cc of the series; multiplying one of them by a negative number changes the sign of every entry; cdist_normalized_cc (norms recomputed) is the same matrix when every series is in its own unit.", "quantifier": "for all series, all numbers of features and all positive factors", "why_tests_cant": "It relates two computations through Fourier transforms for all series and factors.", "anchors": ["tslearn/metrics/cycc.py:normalized_cc", "tslearn/metrics/cycc.py:cdist_normalized_cc"]}
{"id": "C225", "title": "mae and mse follow a change of unit and origin and are symmetric", "statement": "When truth and forecast are both replaced by a*x + b (b may differ between features), mae is multiplied by |a| and mse by a^2, for every kind of averaging and all weights. Exchanging truth and forecast changes nothing.", "quantifier": "for all datasets of the same shape, weights not summing to zero, multioutput, a and b", "why_tests_cant": "It relates two scores for all data, weights and units.", "anchors": ["tslearn/metrics/performance.py:mae", "tslearn/metrics/performance.py:mse"]}
{"id": "C226", "title": "mase does not depend on the units of the features", "statement": "When truth, forecast and training data are converted, each feature k to u_k*x + o_k with u_k <> 0, mase is unchanged.", "quantifier": "for all datasets, weights, seasonal periods, multioutput and conversions, with non-zero seasonal differences", "why_tests_cant": "It relates two scores for all data and units.", "anchors": ["tslearn/metrics/performance.py:mase"]}
{"id": "C227", "title": "The matrix profile of a reversed series is the reversed profile, and more data never increase an entry", "statement": "For a univariate series x and a segment length m with 1 <= m <= len(x), with or without scaling: the profile of x read backwards is the profile of x read backwards; and in the profile of any series that contains x as a contiguous part, the entry of a segment lying in x is at most its entry in the profile of x.", "quantifier": "for all univariate series of real numbers, all segment lengths, all data placed before and after the series, with and without scaling", "why_tests_cant": "Tests compare the profile of a few literals with tabulated numbers; they never relate the profiles of two different series.", "anchors": ["tslearn/matrix_profile/matrix_profile.py:MatrixProfile._transform"]}
{"id": "C228", "title": "silhouette_score does not depend on unit and origin", "statement": "Multiplying all precomputed distances by a positive number leaves silhouette_score unchanged. So does, for metric=\"dtw\" and metric=\"euclidean\", any map of the time steps that multiplies all distances between time steps by a positive number c (changes of unit and origin, reflections, reorderings of the features). For metric=\"softdtw\" the score, or the ValueError for negative values, is unchanged when gamma is replaced by c^2*gamma.", "quantifier": "for all datasets of real series (of different lengths for DTW and soft-DTW), labelings with at least two and fewer than n labels, global constraints other than Itakura, numbers of jobs and schedules, and similarities", "why_tests_cant": "Tests compute a handful of scores of random data; they never relate the scores of two datasets.", "anchors": ["tslearn/clustering/utils.py:silhouette_score"]}
{"id": "C229", "title": "Backend.all reduces over the requested axes with PyTorch as with numpy", "statement": "For a tensor x, all(x) is one truth value, all(x, axis) with an integer or a tuple of different axes (counted from either end) has the shape of x without these axes, and an entry is true exactly when all entries of x with its coordinates are true, as numpy.all.", "quantifier": "for all shapes, entries, integers and tuples of axes", "why_tests_cant": "tslearn itself only calls all without axis; no test passes a tuple.", "anchors": ["tslearn/backend/pytorch_backend.py:PyTorchBackend.all"]}
{"id": "C230", "title": "frechet_path_from_metric is optimal for any metric and does not depend on increasing changes of it", "statement": "With any non-negative matrix of local distances the score is the least over the admissible warping paths of the largest distance met, and the returned path attains it. With metric=\"euclidean\" path and score are exactly those of frechet_path; with metric=\"sqeuclidean\" the path is the same and the score is the square. Applying a strictly increasing function to all distances leaves the path unchanged and applies the function to the score.", "quantifier": "for all matrices of non-negative numbers (exact, and binary64 for the optimality), series of all lengths and feature counts, global constraints with a mask, strictly increasing functions of non-negative numbers", "why_tests_cant": "Tests compare a few literal paths; the claims quantify over matrices and over functions.", "anchors": ["tslearn/metrics/_frechet.py:frechet_path_from_metric", "tslearn/metrics/utils.py:_compute_path"]}
{"id": "C231", "title": "The moving average of VARIMA uses the last errors, each with the coefficient estimated for its lag", "statement": "After VARIMA.fit on a complete univariate series the errors kept are those of its last q one-step forecasts, and the forecast adds each of them times its moving-average coefficient. The coefficients the optimiser starts from are the averages over the series of the least squares estimates (intercept, AR, MA), and the one estimated for lag k+1 of the residuals multiplies the error at lag k+1.", "quantifier": "all orders p and q, with and without constant, all coefficients and all complete univariate series, all results of the least squares fits of any number of series", "why_tests_cant": "The optimiser moves away from its start, so a start applied in the wrong order only shows as a worse local optimum; the tests check shapes and a few forecasts.", "anchors": ["tslearn/forecasting/_arima.py:_loss", "tslearn/forecasting/_arima.py:_varma_next", "tslearn/forecasting/_arima.py:compute_var", "tslearn/forecasting/_arima.py:VARIMA._default_params", "tslearn/forecasting/_arima.py:VARIMA._unravel_params"]}
{"id": "C232", "title": "check_equal_size, check_dataset and check_dims accept exactly what they promise", "statement": "For series with a common number of features, check_equal_size is True exactly when all series have the same length, where trailing all-NaN rows do not count. check_dataset returns the dataset of to_time_series_dataset when every demand made by its flags (one feature, equal lengths, one series) is met and raises ValueError otherwise; an accepted dataset is accepted again unchanged. check_dims accepts data whose number of features (and, unless only features are checked, length) is that of the fitted data, treats 2-d data as series of one feature, and raises ValueError otherwise.", "quantifier": "all datasets of any number of series, lengths, features and NaN patterns, all flag combinations, all shapes", "why_tests_cant": "The docstrings show three or four datasets; combinations of flags with padded, all-NaN, empty or single series are not tried.", "anchors": ["tslearn/utils/utils.py:check_equal_size", "tslearn/utils/utils.py:_check_equal_size", "tslearn/utils/utils.py:check_dataset", "tslearn/utils/utils.py:check_dims"]}
{"id": "C233", "title": "Entries of metric_params reach the metric", "statement": "TimeSeriesKMeans, the neighbour searches and TimeSeriesDBSCAN call the metric with their datasets and with every entry of metric_params under its own name. The n_jobs of the estimator overrides an n_jobs entry. KMeans refuses an entry the metric does not know with TypeError and DBSCAN ignores it. The neighbour searches read gamma_sdtw as gamma. Every parameter of the metric other than the datasets may be given.", "quantifier": "all dictionaries (or None), all values, all estimators' n_jobs and verbose, metrics dtw and softdtw for KMeans, dtw, ctw, softdtw and frechet for the neighbour searches, dtw, ctw, frechet and softdtw_normalized for DBSCAN", "why_tests_cant": "A test gives one or two dictionaries; which combinations of keys are refused, overridden or lost depends on the union of all key sets with each metric's signature.", "anchors": ["tslearn/clustering/kmeans.py:TimeSeriesKMeans._get_metric_params", "tslearn/clustering/kmeans.py:TimeSeriesKMeans._transform", "tslearn/neighbors/neighbors.py:KNeighborsTimeSeriesMixin._get_metric_params", "tslearn/neighbors/neighbors.py:KNeighborsTimeSeriesMixin._precompute_cross_dist", "tslearn/clustering/dbscan.py:TimeSeriesDBSCAN._get_metric_params", "tslearn/clustering/dbscan.py:TimeSeriesDBSCAN.fit"]}
{"id": "C234", "title": "Lists of UCR/UEA datasets: corrected names, columns, missing server", "statement": "When the server answers both requests of the constructor, the stored univariate table is the server's with every occurrence of the two misspelt names corrected and no other character changed, none of the misspellings is left, and list_datasets returns the names of its column problem followed by those of the column Problem of the multivariate table. Without an answer to the first request no stored file changes, list_multivariate_datasets still reads the table of an earlier session, and list_univariate_datasets and list_datasets raise AttributeError. When only the second request fails, list_univariate_datasets returns the list of the earlier session.", "quantifier": "all texts sent by the server, all previously stored files, all splittings of the text into fields that give a rectangular table with distinct titles", "why_tests_cant": "A test uses the table the server has today; that replacing one name can neither leave nor create a misspelling holds for every text only because the words do not overlap.", "anchors": ["tslearn/datasets/ucr_uea.py:UCR_UEA_datasets.__init__", "tslearn/datasets/ucr_uea.py:UCR_UEA_datasets.list_univariate_datasets", "tslearn/datasets/ucr_uea.py:UCR_UEA_datasets.list_multivariate_datasets", "tslearn/datasets/ucr_uea.py:UCR_UEA_datasets.list_datasets", "tslearn/datasets/datasets.py:in_file_string_replace"]}
{"id": "C235", "title": "silhouette_score hands its parameters to the metric", "statement": "For metrics dtw and softdtw, silhouette_score calls the metric with the data and every entry of metric_params and every further keyword argument under its own name; a keyword argument wins over an entry with the same name. The n_jobs argument overrides an n_jobs entry. Every parameter of the metric other than the datasets may be given in metric_params.", "quantifier": "all dictionaries (or None), all keyword arguments, all values, metrics dtw and softdtw", "why_tests_cant": "Which combinations of entries and keyword arguments are merged, refused or lost depends on their key sets and on two signatures.", "anchors": ["tslearn/clustering/utils.py:silhouette_score"]}
