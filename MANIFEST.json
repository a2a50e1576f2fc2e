{
 "claims": [
  {
   "property": "C01",
   "status": "proved",
   "theorems": [
    "C01_bins_partition",
    "C01_left_of_limits_raises"
   ],
   "note": ""
  },
  {
   "property": "C02",
   "status": "proved",
   "theorems": [
    "C02_bin_effect_is_mean"
   ],
   "note": ""
  },
  {
   "property": "C03",
   "status": "proved",
   "theorems": [
    "C03_bin_variance"
   ],
   "note": ""
  },
  {
   "property": "C04",
   "status": "proved",
   "theorems": [
    "C04_fill_nans",
    "C04_fill_nans_total"
   ],
   "note": ""
  },
  {
   "property": "C05",
   "status": "partial",
   "theorems": [
    "C05_accumulated_effect_exact",
    "C05_accumulated_effect_partial",
    "C05_accumulated_effect_square_partial",
    "C05_refuted"
   ],
   "note": "REFUTED as stated: the sentinel BIG_M=1e8 in utils.py:355 makes the curve wrong for x beyond the last limit when the limits exceed 1e8-ish values (C05_refuted). Proved: C05_accumulated_effect_exact gives the value for every input; under the bound last limit and x below BIG_M it is the integral (C05_accumulated_effect_partial, square variant likewise)."
  },
  {
   "property": "C06",
   "status": "partial",
   "theorems": [
    "C06_shape",
    "C06_api_partial",
    "C06_refuted_discontinuous"
   ],
   "note": "REFUTED as stated: beyond the last limit and above the BIG_M=1e8 sentinel the curve jumps and keeps growing (C06_refuted_discontinuous). Proved: the shape of the integral itself (C06_shape) and of the API result for positions below the sentinel (C06_api_partial)."
  },
  {
   "property": "C07",
   "status": "partial",
   "theorems": [
    "C07_local_effects_exact",
    "C07_local_effects_uniform_partial",
    "C07_refuted_wrong_width",
    "C07_refuted_mutation"
   ],
   "note": "REFUTED as stated: the first bin width is used for all bins (C07_refuted_wrong_width) and the caller's limits are mutated (C07_refuted_mutation). Proved: exact value for every input (C07_local_effects_exact) and the English property for equal-width bins up to the last-bin EPS (C07_local_effects_uniform_partial)."
  },
  {
   "property": "C08",
   "status": "proved",
   "theorems": [
    "C08_jacobian_entries",
    "C08_jacobian_affine",
    "C08_jacobian_int_rejected"
   ],
   "note": ""
  },
  {
   "property": "C09",
   "status": "proved",
   "theorems": [
    "C09_feature_types",
    "C09_feature_types_invariant"
   ],
   "note": ""
  },
  {
   "property": "C10",
   "status": "proved",
   "theorems": [
    "C10_prep_centering",
    "C10_prep_features",
    "C10_prep_confidence_interval"
   ],
   "note": ""
  },
  {
   "property": "C11",
   "status": "proved",
   "theorems": [
    "C11_fixed"
   ],
   "note": ""
  },
  {
   "property": "C12",
   "status": "proved",
   "theorems": [
    "C12_categorical"
   ],
   "note": ""
  },
  {
   "property": "C13",
   "status": "proved",
   "theorems": [
    "C13_greedy",
    "C13_rule",
    "C13_one_bin"
   ],
   "note": "C13_greedy for N >= 2*min_points and limits np.allclose can tell apart; C13_one_bin for min_points <= N < 2*min_points (one bin). C13_rule: the exact stopping rule of every bin, min_points = 0 included."
  },
  {
   "property": "C14",
   "status": "partial",
   "theorems": [
    "C14_dp_optimal_partial",
    "C14_one_bin_refuted",
    "C14_min_points_zero_refuted"
   ],
   "note": "REFUTED as stated: with min_points=0 (string 'dp', or DynamicProgramming(min_points_per_bin=0)) an empty grid cell yields NaN costs and DP returns something that is not a binning (C14_min_points_zero_refuted). Proved for min_points>=1, discount<=1, whenever some grid binning costs less than the 1e8 sentinel (C14_dp_optimal_partial). A third exception: with min_points <= N < 2*min_points the code returns the single bin without searching, although points on a shared limit are counted in both neighbours, so two populated bins can exist and cost less (C14_one_bin_refuted); the partial theorem therefore assumes N >= 2*min_points."
  },
  {
   "property": "C15",
   "status": "partial",
   "theorems": [
    "C15_dp_valid_partial",
    "C15_one_bin",
    "C15_single_bin_cheap_partial",
    "C15_min_points_refuted",
    "C15_not_increasing_refuted"
   ],
   "note": "REFUTED as stated: when real costs exceed the 1e8 sentinel DP returns infeasible bins (C15_min_points_refuted) or non-increasing limits (C15_not_increasing_refuted). Proved whenever some binning of the grid costs < 1e8 (C15_dp_valid_partial), in particular when the single bin does (C15_single_bin_cheap_partial). When min_points <= N < 2*min_points exactly one bin is returned (C15_one_bin)."
  },
  {
   "property": "C16",
   "status": "partial",
   "theorems": [
    "C16_points_per_bin_partial",
    "C16_categorical",
    "C16_refuted"
   ],
   "note": "REFUTED (closed-interval counting vs half-open averaging). Proved when no instance sits on an interior limit, and unconditionally for categorical features."
  },
  {
   "property": "C17",
   "status": "partial",
   "theorems": [
    "C17_greedy_dp",
    "C17_fixed_too_few_partial",
    "C17_fixed_constant_refuted",
    "C17_none_min_points",
    "C17_rhale_fit_assertion"
   ],
   "note": "REFUTED for Fixed on a constant feature (IndexError instead of False). Greedy/DP proved in full; Fixed with too few instances proved."
  },
  {
   "property": "C18",
   "status": "partial",
   "theorems": [
    "C18_find_limits_objects",
    "C18_find_limits_strings",
    "C18_rhale_dp_string_refuted",
    "C18_rhale_dynamic_string"
   ],
   "note": "REFUTED: RHALE.fit rejects 'dp' and accepts 'dynamic', which find_limits then rejects, so no string selects dynamic programming (C18_rhale_dp_string_refuted, C18_rhale_dynamic_string). The dispatch of find_limits itself is proved for every argument."
  },
  {
   "property": "C19",
   "status": "partial",
   "theorems": [
    "C19_no_heterogeneity",
    "C19_affine_curve_partial",
    "C19_refuted"
   ],
   "note": "REFUTED for features treated as categorical with unequally spaced values (C19_refuted). Proved over all histories: heterogeneity exactly 0 (C19_no_heterogeneity) and, for non-categorical features, the curve is the line up to |a_s|*1e-8*nof_bins (C19_affine_curve_partial)."
  },
  {
   "property": "C20",
   "status": "proved",
   "theorems": [
    "C20_zero_start",
    "C20_zero_integral",
    "C20_constant_shift"
   ],
   "note": ""
  },
  {
   "property": "C21",
   "status": "proved",
   "theorems": [
    "C21_rhale_affine",
    "C21_affine_model_qualifies"
   ],
   "note": ""
  },
  {
   "property": "C22",
   "status": "proved",
   "theorems": [
    "C22_heterogeneity"
   ],
   "note": ""
  },
  {
   "property": "C23",
   "status": "proved",
   "theorems": [
    "C23_history_independent"
   ],
   "note": ""
  },
  {
   "property": "C24",
   "status": "partial",
   "theorems": [
    "C24_refuted",
    "C24_same_centering_partial"
   ],
   "note": "REFUTED: eval with another centering silently refits with the default binning (C24_refuted). Proved: with the same centering or centering=False the fitted bins are used unchanged."
  },
  {
   "property": "C25",
   "status": "proved",
   "theorems": [
    "C25_ice",
    "C25_jacobian",
    "C25_central_difference",
    "C25_agree",
    "C25_returned"
   ],
   "note": ""
  },
  {
   "property": "C26",
   "status": "proved",
   "theorems": [
    "C26_eval",
    "C26_eval_any_limits"
   ],
   "note": ""
  },
  {
   "property": "C27",
   "status": "partial",
   "theorems": [
    "C27_zero_start_partial",
    "C27_zero_integral_partial",
    "C27_fresh",
    "C27_refuted"
   ],
   "note": "REFUTED when the axis limits are narrower than the data: a call on another feature shrinks self.data and the stored constants are broadcast against the wrong instances (C27_refuted). Proved: any history when the instances lie inside the limits (always for default limits), and fresh objects with any limits (C27_fresh)."
  },
  {
   "property": "C28",
   "status": "proved",
   "theorems": [
    "C28_additive",
    "C28_additive_fresh"
   ],
   "note": ""
  },
  {
   "property": "C29",
   "status": "partial",
   "theorems": [
    "C29_no_interference_partial",
    "C29_history_free_partial",
    "C29_default_limits",
    "C29_refuted",
    "C29_refuted_crash"
   ],
   "note": "REFUTED for axis limits narrower than the data (_fit_feature permanently filters self.data: different curve C29_refuted, ValueError C29_refuted_crash). Proved for instances inside the limits, for any model and history (C29_no_interference_partial, C29_history_free_partial); C29_default_limits shows the default limits meet this."
  },
  {
   "property": "C30",
   "status": "partial",
   "theorems": [
    "C30_float",
    "C30_integer_partial",
    "C30_refuted"
   ],
   "note": "REFUTED for integer data (positions are truncated towards zero by the in-place assignment, C30_refuted). Proved exactly: position for float data, truncated position for integer data."
  },
  {
   "property": "C31",
   "status": "proved",
   "theorems": [
    "C31_quadratic",
    "C31_jacobian_agrees"
   ],
   "note": ""
  },
  {
   "property": "C32",
   "status": "partial",
   "theorems": [
    "C32_with_features",
    "C32_vectorized_partial",
    "C32_returned_partial",
    "C32_refuted_loop",
    "C32_refuted_jacobian"
   ],
   "note": "REFUTED: pdp_nd_non_vectorized raises TypeError on every non-empty call (C32_refuted_loop) and pdp_nd_vectorized raises ValueError for Jacobians with two or more features (C32_refuted_jacobian). Proved: pdp_nd_vectorized on predictions is the mean as stated."
  },
  {
   "property": "C33",
   "status": "partial",
   "theorems": [
    "C33_hindex_refuted",
    "C33_repid_refuted"
   ],
   "note": "REFUTED: on every dataset, model and history of calls (including plot) HIndex and REPID raise TypeError (keyword 'uncertainty' that the pdp functions lack); no value other than the diagonal 0 is ever returned, and only the heatmap [[0]] of a one-feature dataset is drawn."
  },
  {
   "property": "C34",
   "status": "proved",
   "theorems": [
    "C34_eval",
    "C34_zero_start",
    "C34_zero_integral",
    "C34_heterogeneity"
   ],
   "note": "Explainer, argsort and spline are parameters (argsort assumed to sort). Proved after any history of calls."
  },
  {
   "property": "C35",
   "status": "proved",
   "theorems": [
    "C35_construct_aligned",
    "C35_subsampling",
    "C35_subsampling_all",
    "C35_rows_aligned",
    "C35_all_rows",
    "C35_pdp_construct",
    "C35_shap_construct"
   ],
   "note": ""
  },
  {
   "property": "C36",
   "status": "proved",
   "theorems": [
    "C36_data",
    "C36_effects",
    "C36_misaligned"
   ],
   "note": "split_dataset is a pair of complementary order-preserving filters; effects split in alignment; misaligned effects raise IndexError."
  },
  {
   "property": "C37",
   "status": "proved",
   "theorems": [
    "C37_numerical",
    "C37_categorical"
   ],
   "note": ""
  },
  {
   "property": "C38",
   "status": "proved",
   "theorems": [
    "C38_best"
   ],
   "note": "Proved for every level of every search: reported values are exact and no candidate of any conditioning feature has a larger drop."
  },
  {
   "property": "C39",
   "status": "proved",
   "theorems": [
    "C39_longest_prefix",
    "C39_nothing",
    "C39_search"
   ],
   "note": ""
  },
  {
   "property": "C40",
   "status": "proved",
   "theorems": [
    "C40_levels",
    "C40_nodes",
    "C40_children"
   ],
   "note": ""
  },
  {
   "property": "C41",
   "status": "partial",
   "theorems": [
    "C41_refuted",
    "C41_partial",
    "C41_no_effects_partial"
   ],
   "note": "REFUTED as stated: from level 2 on, splits_to_tree line 437 passes the data instead of the effects down, so nodes of level >= 2 carry their own *data* as effects (C41_refuted, characterised for every tree by C41_partial). Proved: levels 0 and 1, and every level when there are no effects."
  },
  {
   "property": "C42",
   "status": "proved",
   "theorems": [
    "C42_names",
    "C42_parents"
   ],
   "note": ""
  },
  {
   "property": "C43",
   "status": "partial",
   "theorems": [
    "C43_refuted",
    "C43_partial"
   ],
   "note": "REFUTED as stated: split_dataset uses '<' / '>=' while the labels say '<=' / '>' (C43_refuted: an instance at the position). Proved when no instance sits at a numerical split position, and for categorical splits."
  },
  {
   "property": "C44",
   "status": "partial",
   "theorems": [
    "C44_refuted",
    "C44_partial"
   ],
   "note": "REFUTED as stated: small subregions are only penalised with BIG_M, weighted by their (small) share (C44_refuted). Proved when h0*(N+2^levels) <= BIG_M."
  },
  {
   "property": "C45",
   "status": "partial",
   "theorems": [
    "C45_lossless",
    "C45_consistent_partial",
    "C45_refuted",
    "C45_order_refuted"
   ],
   "note": "REFUTED as stated: DataTransformer uses '<=' / '>' where the tree uses '<' / '>=' (C45_refuted), and a dictionary filled in another order duplicates values (C45_order_refuted). Proved: lossless masking for every in-order dictionary (C45_lossless, full), consistency with the tree without ties (C45_consistent_partial)."
  },
  {
   "property": "C46",
   "status": "proved",
   "theorems": [
    "C46_depth",
    "C46_none"
   ],
   "note": ""
  },
  {
   "property": "C47",
   "status": "partial",
   "theorems": [
    "C47_refuted",
    "C47_overflow_refuted",
    "C47_partial",
    "C47_inferred_types_partial"
   ],
   "note": "REFUTED as stated: a user-declared categorical feature with more than max(nof_candidate_splits, cat_limit) values raises IndexError (C47_refuted), heterogeneities above BIG_M too (C47_overflow_refuted). Proved: with inferred types / few categories and heterogeneities in [0, BIG_M] the search never fails."
  },
  {
   "property": "C48",
   "status": "partial",
   "theorems": [
    "C48_latest_partial",
    "C48_first",
    "C48_refuted",
    "C48_none_refuted"
   ],
   "note": "REFUTED. Proved for every history, every regional class and every option set, under the guard that no plot(scale_x_list=...) of the feature precedes the last fit (C48_latest_partial), and without guard for a feature no call has touched (C48_first). Refuted in general: plot with scale_x_list stores a scaled tree that later fits do not drop, so eval/plot read the stale tree (C48_refuted) or crash (C48_none_refuted)."
  },
  {
   "property": "C49",
   "status": "partial",
   "theorems": [
    "C49_nodes_partial",
    "C49_root_partial",
    "C49_no_split",
    "C49_subsample_refuted",
    "C49_effects_refuted"
   ],
   "note": "REFUTED. C49_nodes_partial: every node of every level evaluates to the global effect of the instances of its subregion, for every class and history. Missing cases are refuted: nodes with more than 300 (PDP, d-PDP) / 100 (SHAP) instances are subsampled (C49_subsample_refuted), and RHALE nodes of level >= 2 carry data in place of effects (C49_effects_refuted). If no split is found no node, not even the root, can be evaluated (C49_no_split)."
  },
  {
   "property": "C50",
   "status": "partial",
   "theorems": [
    "C50_ale_slopes_partial",
    "C50_ale_error_bars",
    "C50_pdp_band",
    "C50_scale_y_alone_refuted",
    "C50_scale_x_alone_refuted",
    "C50_std_err_refuted",
    "C50_derivative_refuted",
    "C50_shap_scaled_refuted"
   ],
   "note": "REFUTED. Proved for ALE/RHALE with both scales or none (C50_ale_slopes_partial: bar height = slope of the drawn curve inside the bin, bars on the rescaled bins; C50_ale_error_bars: stretched by |std_y/std_x|) and for the PDP std band (C50_pdp_band). Refuted: scale_y without scale_x is a TypeError; scale_x alone leaves the bars unscaled; 'std_err' draws the standard deviation; d-PDP plots add the mean of scale_y to a derivative; a scaled SHAP plot is a TypeError unless heterogeneity='shap_values'."
  },
  {
   "property": "C51",
   "status": "partial",
   "theorems": [
    "C51_mean_exact_on_affine",
    "C51_mean_within_range",
    "C51_mean_midpoints",
    "C51_mean_error",
    "C51_integrate_value",
    "C51_integrate_constant_partial",
    "C51_integrate_refuted"
   ],
   "note": "REFUTED for integrate_1d_linspace (999/1000 of the true integral of every constant, C51_integrate_value in general); mean_1d_linspace fully proved: midpoint rule (C51_mean_midpoints), exact on affine functions, within the range of the function, error bound L(b-a)/(2(n-1)) for slopes up to L (C51_mean_error)."
  },
  {
   "property": "C52",
   "status": "proved",
   "theorems": [
    "C52_axis_limits",
    "C52_default_limits_drop_nothing",
    "C52_dropping_keeps_exactly_the_inside_points",
    "C52_feature_names_distinct",
    "C52_feature_names"
   ],
   "note": ""
  },
  {
   "property": "C53",
   "status": "partial",
   "theorems": [
    "C53_refuted",
    "C53_ale_condition",
    "C53_ale_default_partial",
    "C53_rhale_default_partial"
   ],
   "note": "REFUTED: when no bin holds two instances fit raises ValueError (2 points, or 16 evenly spaced points). Proved: exact success condition for ALE, and success with more than 20 (ALE) / 100 (RHALE) in-range instances."
  },
  {
   "property": "C54",
   "status": "partial",
   "theorems": [
    "C54_next_eval_partial",
    "C54_refuted"
   ],
   "note": "REFUTED: an intermediate eval with another centering refits with the default 100 points (C54_refuted). Proved: the directly following evals use n (C54_next_eval_partial); in general the number is 100 or one asked for in a fit of the feature (C27_zero_integral_partial)."
  },
  {
   "property": "C55",
   "status": "proved",
   "theorems": [
    "C55_linear"
   ],
   "note": ""
  },
  {
   "property": "C56",
   "status": "proved",
   "theorems": [
    "C56_instance_order",
    "C56_history"
   ],
   "note": "C56_instance_order: fresh object, successful evaluation. C56_history: after any history of calls, whatever the limits and outcomes (same exception included); with return_all the columns are permuted."
  },
  {
   "property": "C57",
   "status": "partial",
   "theorems": [
    "C57_refuted"
   ],
   "note": "REFUTED: raises TypeError on every object (np.linspace with a string count)."
  },
  {
   "property": "C58",
   "status": "proved",
   "theorems": [
    "C58_navigation",
    "C58_level_stats"
   ],
   "note": ""
  },
  {
   "property": "C59",
   "status": "proved",
   "theorems": [
    "C59_choose_before_search",
    "C59_history",
    "C59_pipeline"
   ],
   "note": ""
  },
  {
   "property": "C60",
   "status": "partial",
   "theorems": [
    "C60_refuted",
    "C60_partial"
   ],
   "note": "REFUTED as stated: n/N weights in get_level_stats, (n+1)/(N+2^L) weights in the search (C60_refuted). Proved equal at levels with equally sized subregions."
  },
  {
   "property": "C61",
   "status": "partial",
   "theorems": [
    "C61_history_partial",
    "C61_refuted"
   ],
   "note": "REFUTED as stated: with axis limits that exclude instances, evaluating one feature removes rows used for the others (C61_refuted). Proved when the limits contain the data and calls use the default subsampling."
  },
  {
   "property": "C62",
   "status": "partial",
   "theorems": [
    "C62_overwritten",
    "C62_indices_partial",
    "C62_regional",
    "C62_refuted"
   ],
   "note": "REFUTED for RHALE and ShapDP (indices overwritten with 0,1,2,... by the base class, C62_refuted). Proved for ALE, PDP, DerPDP and the regional classes."
  },
  {
   "property": "C63",
   "status": "partial",
   "theorems": [
    "C63_curve_partial",
    "C63_rhale_partial",
    "C63_drawn",
    "C63_ale_refuted",
    "C63_rhale_refuted",
    "C63_greedy_refuted"
   ],
   "note": "REFUTED. Proved for RegionalPDP, RegionalDerPDP and RegionalShapDP nodes that are not subsampled (C63_curve_partial), and for RegionalRHALE fitted with Greedy(100, 0, 0.3, 15) (C63_rhale_partial); C63_drawn says what the ALE classes draw in general. Refuted: RegionalALE.plot draws a RHALE curve (C63_ale_refuted); RegionalRHALE.eval ignores the fitted binning (C63_rhale_refuted); with the default 'greedy' plot and eval use different minimum bin sizes and one may fail (C63_greedy_refuted)."
  },
  {
   "property": "C64",
   "status": "proved",
   "theorems": [
    "C64_jacobian",
    "C64_given",
    "C64_numerical"
   ],
   "note": "For row-wise Jacobians, numerical Jacobians of row-wise models on float data, and user-given effects; any subsample, limits and types."
  },
  {
   "property": "C65",
   "status": "proved",
   "theorems": [
    "C65_ale",
    "C65_pdp",
    "C65_ice",
    "C65_shap"
   ],
   "note": "All global classes, after any history of calls (PDP and SHAP: in any state). The numbers handed to matplotlib are modelled, not the drawing."
  },
  {
   "property": "C66",
   "status": "partial",
   "theorems": [
    "C66_points",
    "C66_all_partial",
    "C66_refuted"
   ],
   "note": "REFUTED. C66_points holds after any history. 'all' means every instance only when the axis limits contain the data (C66_all_partial); otherwise evaluating another feature removes instances and the points of the largest values disappear (C66_refuted)."
  },
  {
   "property": "C67",
   "status": "proved",
   "theorems": [
    "C67_printed",
    "C67_no_splits",
    "C67_features"
   ],
   "note": "For any history before and after the fit, both trees and any scale; C67_features covers lists of features from any state. Output printed before an exception is not modelled."
  },
  {
   "property": "C68",
   "status": "partial",
   "theorems": [
    "C68_levels_partial",
    "C68_succeeds_partial",
    "C68_important",
    "C68_refuted"
   ],
   "note": "REFUTED. The figures are right whenever the report is printed (C68_levels_partial), and it is printed when the depth is below the recursion limit and, for the ALE classes, no level but the last has heterogeneity zero (C68_succeeds_partial); with only_important=True that is automatic (C68_important). Refuted in general: ZeroDivisionError for RegionalALE of an additive model with only_important=False (C68_refuted)."
  },
  {
   "property": "C69",
   "status": "proved",
   "theorems": [
    "C69_described",
    "C69_skipped",
    "C69_features"
   ],
   "note": "For any history before and after the fit, both trees and any scale; a zero heterogeneity before the split makes the printed percentage nan or inf ([None])."
  },
  {
   "property": "C70",
   "status": "partial",
   "theorems": [
    "C70_too_small",
    "C70_pdp",
    "C70_dpdp",
    "C70_dpdp_numerical",
    "C70_ale",
    "C70_nonneg",
    "C70_shap",
    "C70_centering_refuted"
   ],
   "note": "REFUTED. PDP and d-PDP in closed form for row-wise models on float data with subregions inside the axis limits; ALE, RHALE and ShapDP through the API of the global object. Refuted: with centering=True the heterogeneity of RegionalPDP/RegionalDerPDP is still that of the uncentred curves, so an additive model gets a non-zero heterogeneity (C70_centering_refuted)."
  },
  {
   "property": "C71",
   "status": "proved",
   "theorems": [
    "C71_ale_definition",
    "C71_ale_requested_bins",
    "C71_definition_unique"
   ],
   "note": "Row-wise models (map g); axis limits and positions up to 1e8 (beyond, see C05). ALESpec.v is the specification. The finite differences of all bins are divided by the width of the first bin, which ale_effect states explicitly (see C19_refuted)."
  },
  {
   "property": "C72",
   "status": "proved",
   "theorems": [
    "C72_rhale_definition",
    "C72_rhale_requested_bins"
   ],
   "note": "Limits found by find_limits_b, specified by C11-C16; positions up to 1e8."
  },
  {
   "property": "C73",
   "status": "proved",
   "theorems": [
    "C73_linear",
    "C73_rhale_linear"
   ],
   "note": "ALE for any Fixed options; RHALE for Fixed bins (Greedy and DP choose the bins from the effects)."
  },
  {
   "property": "C75",
   "status": "proved",
   "theorems": [
    "C75_no_heterogeneity",
    "C75_curve"
   ],
   "note": "C75_curve: exact at every bin limit except the last one, which stands for hi + 1e-8 (the code moves the last limit)."
  },
  {
   "property": "C76",
   "status": "proved",
   "theorems": [
    "C76_ale",
    "C76_rhale"
   ],
   "note": "ALE, RHALE; PDP in C28."
  },
  {
   "property": "C77",
   "status": "proved",
   "theorems": [
    "C77_ale",
    "C77_rhale"
   ],
   "note": "No restriction on the positions."
  },
  {
   "property": "C78",
   "status": "partial",
   "theorems": [
    "C78_rhale",
    "C78_ale_partial",
    "C78_ale_refuted"
   ],
   "note": "REFUTED. RHALE: every binning. ALE: equal-width bins, bound M*(1 + 1e-8*n/(hi-lo)); refuted for the unequal bins of a categorical feature, where the code divides by the width of the first bin (C78_ale_refuted)."
  },
  {
   "property": "C74",
   "status": "proved",
   "theorems": [
    "C74_ale",
    "C74_rhale_effects",
    "C74_rhale_jacobian",
    "C74_rhale_numerical",
    "C74_constructed"
   ],
   "note": "Unconditional: includes every exception. Without subsampling (nof_instances = 'all' or at least the number of instances)."
  },
  {
   "property": "C79",
   "status": "proved",
   "theorems": [
    "C79_ale",
    "C79_rhale",
    "C79_dpdp",
    "C79_dpdp_numerical",
    "C79_pdp_refuted"
   ],
   "note": "RegionalALE (C79_ale), RegionalRHALE (C79_rhale), RegionalDerPDP with a Jacobian and with the numerical derivative (C79_dpdp, C79_dpdp_numerical). The statement's exception, RegionalPDP, is C79_pdp_refuted: its heterogeneity ignores the centering that fit was asked for (C70_centering_refuted), so x0 + 5 x1 is split."
  },
  {
   "property": "C80",
   "status": "proved",
   "theorems": [
    "C80_names",
    "C80_distinct",
    "C80_order_refuted"
   ],
   "note": "C80_names, C80_distinct for splits given feature by feature (keys feat_0, ..., feat_{D-1} in this order); the statement's last sentence is C80_order_refuted (C45_order_refuted shows the same for the data)."
  },
  {
   "property": "C81",
   "status": "proved",
   "theorems": [
    "C81_first"
   ],
   "note": "C81_first: the chosen split's drop is strictly larger than that of every earlier candidate (earlier feature of the conditioning list, or same feature and earlier position)."
  },
  {
   "property": "C82",
   "status": "proved",
   "theorems": [
    "C82_ale",
    "C82_rhale_effects",
    "C82_rhale",
    "C82_pdp"
   ],
   "note": "C82_ale, C82_rhale, C82_rhale_effects, C82_pdp: from the constructors, for any history of calls (fit with any options, eval, plot, both reports). RegionalShapDP is not covered (the SHAP object depends on argsort's treatment of ties and on the external explainer); all instances must be kept, for PDP/DerPDP at most 300 since the per-node objects subsample to 300."
  },
  {
   "property": "C83",
   "status": "proved",
   "theorems": [
    "C83_searched",
    "C83_splits",
    "C83_important",
    "C83_defaults",
    "C83_min_points"
   ],
   "note": "End-to-end through fit, for any history; C83_searched, C83_splits, C83_important, C83_defaults, C83_min_points. The heterogeneity function itself is described by C70."
  },
  {
   "property": "C84",
   "status": "proved",
   "theorems": [
    "C84_construct",
    "C84_wellformed"
   ],
   "note": "C84_construct, C84_wellformed (which discharges the hypothesis wf_reg used by C49, C63, C67-C69, C83 for every constructed object with enough names)."
  },
  {
   "property": "C85",
   "status": "partial",
   "theorems": [
    "C85_mean_partial",
    "C85_variance_partial",
    "C85_pieces"
   ],
   "note": "Partial: with more than 300 instances the nodes are evaluated on a random subsample (C49_subsample_refuted), and a scaled plot before the last fit leaves a stale tree (C48_refuted). C85_pieces (global classes, any pieces) is unguarded apart from instance-wise models."
  },
  {
   "property": "C86",
   "status": "partial",
   "theorems": [
    "C86_cut_partial",
    "C86_levels_partial",
    "C86_refuted"
   ],
   "note": "REFUTED. Refuted as stated (C86_refuted): the ten points at which a subregion is measured span its own range of the feature, so a subregion lying where the curves differ most is reported with a larger heterogeneity and the printed drop is negative. Proved when both subregions have instances at both ends of the range, keep at least min_points instances inside the limits; the square root is used through monotonicity and concavity only."
  },
  {
   "property": "C87",
   "status": "proved",
   "theorems": [
    "C87_shape",
    "C87_laws"
   ],
   "note": "C87_shape is the general law, C87_laws its instances; any history of calls."
  },
  {
   "property": "C88",
   "status": "partial",
   "theorems": [
    "C88_1D",
    "C88_1D_integral",
    "C88_2D_first",
    "C88_2D_partial",
    "C88_2D_refuted",
    "C88_2D_feature"
   ],
   "note": "REFUTED. Refuted for expecation_2D with s = 1 or 2 (C88_2D_refuted): it always uses the limits of the features 1 and 2. Proved for s = 0, for all features when the limits it uses coincide with the right ones, and for the one-dimensional helpers. scipy's quad is a parameter."
  },
  {
   "property": "C89",
   "status": "partial",
   "theorems": [
    "C89_dale",
    "C89_min_points_refuted",
    "C89_ale"
   ],
   "note": "REFUTED. Refuted for min_points_per_bin (C89_min_points_refuted), whose check looks at max_nof_bins; everything else is proved. The two functions are not called inside the package."
  },
  {
   "property": "C90",
   "status": "proved",
   "theorems": [
    "C90_ale",
    "C90_pdp",
    "C90_models"
   ],
   "note": "All four classes, through the constructors and any history (C90_ale covers ALE and RHALE with given effects, a Jacobian or the numerical one; C90_pdp PDP and DerPDP). C90_models: when a reduced model exists."
  },
  {
   "property": "C91",
   "status": "partial",
   "theorems": [
    "C91_models",
    "C91_pdp",
    "C91_ale_partial",
    "C91_ale_units_refuted",
    "C91_ale_origin_refuted",
    "C91_ale_sentinel_refuted"
   ],
   "note": "REFUTED. PDP and ICE: proved for every positive unit change and every history (C91_pdp; C91_models: the converted model always exists). DerPDP: proved for a change of origin. ALE/RHALE: REFUTED as stated: ALE enlarges the last limit by an absolute 1e-8, so a tiny unit doubles the curve (C91_ale_units_refuted); RHALE's greedy/DP methods use np.allclose with a relative tolerance, so another origin collapses the bins (C91_ale_origin_refuted); positions above the sentinel 1e8 (C91_ale_sentinel_refuted). Proved: another origin changes nothing for ALE when nothing exceeds 1e8, and for RHALE when moreover np.allclose gives the same verdict on the two ends (C91_ale_partial), over all histories and methods."
  },
  {
   "property": "C92",
   "status": "partial",
   "theorems": [
    "C92_first_level_partial",
    "C92_greater_refuted",
    "C92_negative_refuted",
    "C92_second_level_refuted",
    "C92_only_names"
   ],
   "note": "REFUTED: every '>' condition (C92_greater_refuted) and every negative threshold (C92_negative_refuted) stays in scaled units, and a threshold printed twice is converted with the scale of the first feature (C92_second_level_refuted). Proved: first-level '<=', '==', '!=' nodes with non-negative thresholds (C92_first_level_partial); nothing but the names changes, also when it raises (C92_only_names). The method is not called inside the package."
  },
  {
   "property": "C93",
   "status": "proved",
   "theorems": [
    "C93_other_features",
    "C93_other_features_plot",
    "C93_fit_together",
    "C93_fit_succeeds",
    "C93_fit_order"
   ],
   "note": "Unconditional for the deletion of calls. After a fit that raises, the features after the failing one keep their old state (Example C93_failure), so the statements about lists assume that the fit succeeds."
  },
  {
   "property": "C94",
   "status": "proved",
   "theorems": [
    "C94_ale",
    "C94_shap",
    "C94_pdp"
   ],
   "note": "ALE, RHALE and ShapDP without hypotheses; PDP and d-PDP for row-wise models and well-shaped data (a model that mixes the rows of its batch would make the claim false)."
  },
  {
   "property": "C95",
   "status": "proved",
   "theorems": [
    "C95_pdp",
    "C95_pdp_history",
    "C95_ale",
    "C95_ale_default",
    "C95_rhale",
    "C95_rhale_jacobian",
    "C95_single_instance_differs"
   ],
   "note": "The heterogeneity part of ALE/RHALE carries the guard no_single (no bin of the binning holds exactly one instance), shown necessary by C95_single_instance_differs. Greedy and dynamic-programming binnings count instances (min_points), so copies legitimately change them; SHAP values are an oracle."
  },
  {
   "property": "C96",
   "status": "proved",
   "theorems": [
    "C96_ale",
    "C96_ale_nearby",
    "C96_ale_nearby_categorical",
    "C96_rhale_no_model",
    "C96_rhale_numerical",
    "C96_pdp",
    "C96_pdp_history"
   ],
   "note": "Row-wise models. ALE and RHALE: any history, equality including exceptions. PDP/d-PDP: fresh objects with any limits, and any history when the instances lie inside the limits. C96_ale_instance/C96_pdp_differs: two correlated features, where ALE cannot see a change of the model away from the data and PDP does."
  },
  {
   "property": "C97",
   "status": "proved",
   "theorems": [
    "C97_ale",
    "C97_rhale",
    "C97_pdp",
    "C97_greedy_differs"
   ],
   "note": "PDP: fresh objects (any history inside the limits by C29). The bound is on growth differences, so it holds for every centering; evaluating at the start as well gives the bound on the zero_start curves."
  },
  {
   "property": "C98",
   "status": "partial",
   "theorems": [
    "C98_widening",
    "C98_ale_refuted",
    "C98_rhale_refuted",
    "C98_ale_partial",
    "C98_rhale_partial"
   ],
   "note": "REFUTED. True exactly for last limits in [-2^27, 2^27) (C98_widening); from 2^27 = 134217728 on, 1e-8 is less than half a unit in the last place, the limit does not move, and ALE.fit raises IndexError on every non-categorical feature; RHALE reports one bin too many and every evaluation raises ValueError. Proved in the binary64 model (FloatModel.v, Flocq)."
  },
  {
   "property": "C99",
   "status": "partial",
   "theorems": [
    "C99_zero_refuted",
    "C99_identity_partial"
   ],
   "note": "REFUTED. From 2^27 on x + 1e-8 rounds back to x and every derivative is exactly 0, silently. Within |x| <= 2^e, e <= 26, the derivative of x is within 2^(e-25) of 1; at 2^26 it is off by 49 % (example)."
  },
  {
   "property": "C100",
   "status": "proved",
   "theorems": [
    "C100_limits"
   ],
   "note": "Weakly increasing always; strictly when the range is at least 2^-48 K max(|lo|,|hi|); within 2^-49 max(|lo|,|hi|) of the exact grid. The guards exclude overflow of hi - lo and ranges in the subnormal domain."
  },
  {
   "property": "C101",
   "status": "proved",
   "theorems": [
    "C101_pdp",
    "C101_bins"
   ],
   "note": "C101_pdp for every summation tree; C101_bins for np.bincount's left-to-right accumulation. Proved in the binary64 model (Flocq); model outputs are taken as given floats."
  },
  {
   "property": "C102",
   "status": "proved",
   "theorems": [
    "C102_curve"
   ],
   "note": "Relative to the exact integral of the float64 bin effects; the error of the bin effects themselves is C101_bins. Positions above the last limit are covered up to 1e8 (beyond, the sentinel of C05)."
  },
  {
   "property": "C103",
   "status": "proved",
   "theorems": [
    "C103_increasing",
    "C103_zero_start",
    "C103_zero_integral",
    "C103_midpoints"
   ],
   "note": "C103_increasing, C103_zero_start (exact), C103_zero_integral (for any order in which np.mean adds)."
  },
  {
   "property": "C104",
   "status": "partial",
   "theorems": [
    "C104_zero_refuted",
    "C104_identity_partial"
   ],
   "note": "REFUTED as stated: above 2^34 = 1.7e10 in absolute value (timestamps in ms, identifiers) both abscissae round to x and the d-PDP is exactly 0 for every model (C104_zero_refuted). Proved: for |x| <= 2^e, e <= 32, the derivative of x is within 2^(e-32) of 1 and the mean within 2^(e-32) + 4(N+1)2^-53 (C104_identity_partial). Between 2^32 and 2^34 it can be off by 90 % (example)."
  },
  {
   "property": "C105",
   "status": "partial",
   "theorems": [
    "C105_variance",
    "C105_constant_partial",
    "C105_zero_refuted",
    "C105_defined",
    "C105_negative_refuted"
   ],
   "note": "REFUTED. Accuracy and sign of the variance of every bin proved (C105_variance); after interpolation every variance is finite and non-negative when the populated ones are 0 or in [2^-900, 2^1020] (C105_defined). REFUTED: constant effects do not give zero - three times 0.1 has a positive variance (C105_zero_refuted); proved instead that it is at most about (n 2^-52 |c|)^2 (C105_constant_partial). REFUTED: without the lower bound an interpolated variance can be negative, so its square root is NaN (C105_negative_refuted, effects of 1e-162)."
  },
  {
   "property": "C106",
   "status": "partial",
   "theorems": [
    "C106_missing_value",
    "C106_ignored",
    "C106_bin_discarded",
    "C106_refuted",
    "C106_pdp"
   ],
   "note": "REFUTED for ALE/RHALE: one NaN effect makes the reported curve and heterogeneity independent of every other effect in its bin (C106_bin_discarded, for all inputs), and the bin is silently interpolated from its neighbours (C106_refuted). Proved: a NaN in the feature's column makes the fit with default axis limits raise IndexError (C106_missing_value), with given limits the instance is ignored (C106_ignored), PDP reports NaN (C106_pdp)."
  },
  {
   "property": "C107",
   "status": "partial",
   "theorems": [
    "C107_partial",
    "C107_refuted"
   ],
   "note": "REFUTED for values one float64 apart: 1 and 1 + 2^-52 share a bin and the other bin is empty (C107_refuted). Proved when any two distinct values differ by at least 2^-50 of the larger one, 2^-1000, and are at most 2^1000 (C107_partial)."
  },
  {
   "property": "C108",
   "status": "proved",
   "theorems": [
    "C108_slopes",
    "C108_ale",
    "C108_linear"
   ],
   "note": "C108_slopes: any bins, effects within t of one slope. C108_ale: the whole ALE pipeline with equal bins and default limits. C108_linear: the model w*x_f + c(r) computed in float64. The guards (values below 2^26, bins wider than 16 * width_err) are part of the property: narrower bins are distorted by the 1e-8 added to the last limit."
  },
  {
   "property": "C109",
   "status": "proved",
   "theorems": [
    "C109_greedy",
    "C109_rule",
    "C109_single"
   ],
   "note": "C109_greedy, for every function in place of np.var. Integer min_points; the categorical branch is C107. C109_rule: the exact stopping rule, with no hypothesis on the values; C109_single: one value gives False."
  },
  {
   "property": "C110",
   "status": "proved",
   "theorems": [
    "C110_rhale",
    "C110_jacobian"
   ],
   "note": "C110_rhale: any Jacobian within t of a slope. C110_jacobian: the numerical Jacobian (EPS = 1e-8) composed with it. The dynamic-programming binning is C111."
  },
  {
   "property": "C111",
   "status": "partial",
   "theorems": [
    "C111_dp_partial",
    "C111_variance",
    "C111_refuted"
   ],
   "note": "REFUTED. C111_dp_partial: guarded by 'some binning costs less than BIG_M' and by |values| <= 2^22 for 'every instance has a bin'; C111_refuted: without the second guard it is false. C111_variance: the two-pass variance meets the hypothesis on np.var."
  },
  {
   "property": "C112",
   "status": "proved",
   "theorems": [
    "C112_best",
    "C112_near_optimal",
    "C112_reported",
    "C112_accepted",
    "C112_positions",
    "C112_regions",
    "C112_levels",
    "C112_none",
    "C112_chosen",
    "C112_first",
    "C112_midpoints",
    "C112_categories"
   ],
   "note": "Regions modelled in binary64 (FloatRegion.v); narrow_empty: below the guard on the spread a candidate can leave its left part empty."
  },
  {
   "property": "C113",
   "status": "proved",
   "theorems": [
    "C113_nan",
    "C113_root",
    "C113_missing",
    "C113_rows"
   ],
   "note": "Examples region8_nan and region8_missing: the same data lose their only split to one NaN."
  },
  {
   "property": "C114",
   "status": "partial",
   "theorems": [
    "C114_partial",
    "C114_refuted",
    "C114_parts_partial"
   ],
   "note": "REFUTED. C114_refuted: IndexError on ten instances with default options when the root heterogeneity is 0; C114_partial needs the root heterogeneity to be at least 2^-20. C114_parts_partial needs heter_func to return only on parts of the data."
  },
  {
   "property": "C115",
   "status": "proved",
   "theorems": [
    "C115_ice",
    "C115_kept",
    "C115_shape",
    "C115_accuracy",
    "C115_chains",
    "C115_start",
    "C115_integral"
   ],
   "note": "Any fixed order of summation, with the number of consecutive roundings of that order in the bound."
  },
  {
   "property": "C116",
   "status": "proved",
   "theorems": [
    "C116_monotone",
    "C116_sign"
   ],
   "note": "Exact statements about binary64 results."
  },
  {
   "property": "C117",
   "status": "partial",
   "theorems": [
    "C117_unused",
    "C117_additive_partial",
    "C117_refuted"
   ],
   "note": "REFUTED. C117_unused: exactly 0 with zero_start. C117_additive_partial: the statement with a rounding bound instead of exactness. C117_refuted: exactly zero is false for the constant 0.1 (uncentered mean above every output, positive heterogeneity; zero_integral curve not 0)."
  },
  {
   "property": "C118",
   "status": "proved",
   "theorems": [
    "C118_heter",
    "C118_few",
    "C118_flat",
    "C118_limits",
    "C118_positions",
    "C118_search",
    "C118_min_points",
    "C118_important",
    "C118_proviso_needed"
   ],
   "note": "End to end from the model's float64 outputs to the chosen and reported splits. C118_proviso_needed: without the proviso on the scale of the target a too small subregion is reported (the exact-arithmetic version is C44_refuted). nof_instances='all' and a row-wise model are assumed; eval is without centering whatever the centering argument (C70_centering_refuted, C79_pdp_refuted)."
  },
  {
   "property": "C119",
   "status": "partial",
   "theorems": [
    "C119_ale_large",
    "C119_ale_refuted",
    "C119_rhale_large",
    "C119_rhale_refuted",
    "C119_heter_partial",
    "C119_regions_partial",
    "C119_search_partial",
    "C119_rhale_data",
    "C119_rhale_heter_partial",
    "C119_rhale_search_partial",
    "C119_ale_data",
    "C119_ale_heter_partial",
    "C119_ale_search_partial"
   ],
   "note": "REFUTED. Refuted for features that reach 2^27: C119_ale_refuted, C119_rhale_refuted (any model, any data). Proved for regions whose fitted bins have finite widths and variances of sign + (good_bins), and end to end: RegionalRHALE with equal or greedy bins on data of size at most 2^25 (regional_rhale64), RegionalALE with a row-wise model on data of size at most 2^24 (regional_ale_data64). nof_instances='all' is assumed; the centering constant is computed and only matters if it raises."
  },
  {
   "property": "C120",
   "status": "partial",
   "theorems": [
    "C120_pdp_partial",
    "C120_ale_partial",
    "C120_rhale_partial",
    "C120_refuted",
    "C120_flat_refuted"
   ],
   "note": "REFUTED. Refuted: C120_refuted (AssertionError, constant subregion with cat_limit=0), C120_flat_refuted (IndexError, flat effect). Proved with a heterogeneity of the whole dataset of at least 2^-20, cat_limit >= 1 and values small enough for BIG_M=1e8 to dominate. RHALE with DP bins not covered."
  },
  {
   "property": "C121",
   "status": "proved",
   "theorems": [
    "C121_pdp",
    "C121_dpdp",
    "C121_heter"
   ],
   "note": "All of PDP, d-PDP by central differences and the RegionalPDP heterogeneity; for factors that are not powers of two the exactness fails (other_factors). ALE and RHALE not covered."
  },
  {
   "property": "C122",
   "status": "proved",
   "theorems": [
    "C122_negative",
    "C122_ale",
    "C122_rhale",
    "C122_rhale_model",
    "C122_var",
    "C122_pdp",
    "C122_regional_pdp",
    "C122_regional_ale",
    "C122_regional_rhale"
   ],
   "note": "ShapDP and its regional method are not covered in binary64. np.var is a parameter that does not see the sign; C122_var proves that of the mean of squared deviations in any order of summation."
  },
  {
   "property": "C123",
   "status": "proved",
   "theorems": [
    "C123_columns",
    "C123_limits",
    "C123_ale",
    "C123_rhale",
    "C123_pdp",
    "C123_ale_batch",
    "C123_pdp_batch"
   ],
   "note": "The order in which numpy adds (np.mean, np.std) is a parameter that depends on the number of summands only; the regional classes and ShapDP are not covered here (exact-arithmetic versions: C90, C94)."
  },
  {
   "property": "C124",
   "status": "proved",
   "theorems": [
    "C124_between",
    "C124_ale",
    "C124_jacobian",
    "C124_pdp"
   ],
   "note": "RHALE without a Jacobian asks through the numerical Jacobian (C124_jacobian); with one it takes no model (by type). Exact-arithmetic version after any history: C96."
  },
  {
   "property": "C125",
   "status": "proved",
   "theorems": [
    "C125_pdp",
    "C125_ale",
    "C125_rhale",
    "C125_unread",
    "C125_parts"
   ],
   "note": "The default foc='all' enumerates the columns in order, so moving columns also reorders the candidates and ties may be broken differently: the theorem takes the same order of conditioning features on both sides. Feature types are given, as in C112. RegionalShapDP is not covered in binary64."
  },
  {
   "property": "C126",
   "status": "proved",
   "theorems": [
    "C126_depth",
    "C126_search",
    "C126_thresholds",
    "C126_options",
    "C126_nan_threshold"
   ],
   "note": "min_points_per_subregion and the number of candidate positions change the heterogeneities and the candidates, and are not monotone. The exact-arithmetic facts about depth and pruning are C39 and C46."
  },
  {
   "property": "C127",
   "status": "proved",
   "theorems": [
    "C127_recode",
    "C127_pdp",
    "C127_instances"
   ],
   "note": "PDP only: ALE and RHALE divide by bin widths, d-PDP by a step, so a code changes them (exact-arithmetic change of unit: C91)."
  },
  {
   "property": "C128",
   "status": "proved",
   "theorems": [
    "C128_pdp",
    "C128_ale",
    "C128_rhale",
    "C128_parts",
    "C128_order_matters"
   ],
   "note": "The types of the features are given, as everywhere in the binary64 model of the search; RegionalShapDP has no binary64 model."
  }
 ]
}