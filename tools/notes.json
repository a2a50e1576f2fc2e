{
 "C05": {
  "note": "REFUTED as stated: the sentinel BIG_M=1e8 in utils.py:355 makes the curve wrong for x beyond the last limit when the limits exceed 1e8-ish values (C05_refuted). Proved: C05_accumulated_effect_exact gives the value for every input; under the bound last limit and x below BIG_M it is the integral (C05_accumulated_effect_partial, square variant likewise)."
 },
 "C06": {
  "note": "REFUTED as stated: beyond the last limit and above the BIG_M=1e8 sentinel the curve jumps and keeps growing (C06_refuted_discontinuous). Proved: the shape of the integral itself (C06_shape) and of the API result for positions below the sentinel (C06_api_partial)."
 },
 "C07": {
  "note": "REFUTED as stated: the first bin width is used for all bins (C07_refuted_wrong_width) and the caller's limits are mutated (C07_refuted_mutation). Proved: exact value for every input (C07_local_effects_exact) and the English property for equal-width bins up to the last-bin EPS (C07_local_effects_uniform_partial)."
 },
 "C51": {
  "note": "REFUTED for integrate_1d_linspace (999/1000 of the true integral of every constant, C51_integrate_value in general); mean_1d_linspace fully proved: midpoint rule (C51_mean_midpoints), exact on affine functions, within the range of the function, error bound L(b-a)/(2(n-1)) for slopes up to L (C51_mean_error)."
 },
 "C14": {
  "note": "REFUTED as stated: with min_points=0 (string 'dp', or DynamicProgramming(min_points_per_bin=0)) an empty grid cell yields NaN costs and DP returns something that is not a binning (C14_min_points_zero_refuted). Proved for min_points>=1, discount<=1, whenever some grid binning costs less than the 1e8 sentinel (C14_dp_optimal_partial). A third exception: with min_points <= N < 2*min_points the code returns the single bin without searching, although points on a shared limit are counted in both neighbours, so two populated bins can exist and cost less (C14_one_bin_refuted); the partial theorem therefore assumes N >= 2*min_points."
 },
 "C15": {
  "note": "REFUTED as stated: when real costs exceed the 1e8 sentinel DP returns infeasible bins (C15_min_points_refuted) or non-increasing limits (C15_not_increasing_refuted). Proved whenever some binning of the grid costs < 1e8 (C15_dp_valid_partial), in particular when the single bin does (C15_single_bin_cheap_partial). When min_points <= N < 2*min_points exactly one bin is returned (C15_one_bin)."
 },
 "C16": {
  "note": "REFUTED (closed-interval counting vs half-open averaging). Proved when no instance sits on an interior limit, and unconditionally for categorical features."
 },
 "C17": {
  "note": "REFUTED for Fixed on a constant feature (IndexError instead of False). Greedy/DP proved in full; Fixed with too few instances proved."
 },
 "C18": {
  "note": "REFUTED: RHALE.fit rejects 'dp' and accepts 'dynamic', which find_limits then rejects, so no string selects dynamic programming (C18_rhale_dp_string_refuted, C18_rhale_dynamic_string). The dispatch of find_limits itself is proved for every argument."
 },
 "C19": {
  "note": "REFUTED for features treated as categorical with unequally spaced values (C19_refuted). Proved over all histories: heterogeneity exactly 0 (C19_no_heterogeneity) and, for non-categorical features, the curve is the line up to |a_s|*1e-8*nof_bins (C19_affine_curve_partial)."
 },
 "C24": {
  "note": "REFUTED: eval with another centering silently refits with the default binning (C24_refuted). Proved: with the same centering or centering=False the fitted bins are used unchanged."
 },
 "C53": {
  "note": "REFUTED: when no bin holds two instances fit raises ValueError (2 points, or 16 evenly spaced points). Proved: exact success condition for ALE, and success with more than 20 (ALE) / 100 (RHALE) in-range instances."
 },
 "C27": {
  "note": "REFUTED when the axis limits are narrower than the data: a call on another feature shrinks self.data and the stored constants are broadcast against the wrong instances (C27_refuted). Proved: any history when the instances lie inside the limits (always for default limits), and fresh objects with any limits (C27_fresh)."
 },
 "C29": {
  "note": "REFUTED for axis limits narrower than the data (_fit_feature permanently filters self.data: different curve C29_refuted, ValueError C29_refuted_crash). Proved for instances inside the limits, for any model and history (C29_no_interference_partial, C29_history_free_partial); C29_default_limits shows the default limits meet this."
 },
 "C30": {
  "note": "REFUTED for integer data (positions are truncated towards zero by the in-place assignment, C30_refuted). Proved exactly: position for float data, truncated position for integer data."
 },
 "C32": {
  "note": "REFUTED: pdp_nd_non_vectorized raises TypeError on every non-empty call (C32_refuted_loop) and pdp_nd_vectorized raises ValueError for Jacobians with two or more features (C32_refuted_jacobian). Proved: pdp_nd_vectorized on predictions is the mean as stated."
 },
 "C54": {
  "note": "REFUTED: an intermediate eval with another centering refits with the default 100 points (C54_refuted). Proved: the directly following evals use n (C54_next_eval_partial); in general the number is 100 or one asked for in a fit of the feature (C27_zero_integral_partial)."
 },
 "C57": {
  "note": "REFUTED: raises TypeError on every object (np.linspace with a string count)."
 },
 "C36": {
  "note": "split_dataset is a pair of complementary order-preserving filters; effects split in alignment; misaligned effects raise IndexError."
 },
 "C38": {
  "note": "Proved for every level of every search: reported values are exact and no candidate of any conditioning feature has a larger drop."
 },
 "C41": {
  "note": "REFUTED as stated: from level 2 on, splits_to_tree line 437 passes the data instead of the effects down, so nodes of level >= 2 carry their own *data* as effects (C41_refuted, characterised for every tree by C41_partial). Proved: levels 0 and 1, and every level when there are no effects."
 },
 "C43": {
  "note": "REFUTED as stated: split_dataset uses '<' / '>=' while the labels say '<=' / '>' (C43_refuted: an instance at the position). Proved when no instance sits at a numerical split position, and for categorical splits."
 },
 "C44": {
  "note": "REFUTED as stated: small subregions are only penalised with BIG_M, weighted by their (small) share (C44_refuted). Proved when h0*(N+2^levels) <= BIG_M."
 },
 "C45": {
  "note": "REFUTED as stated: DataTransformer uses '<=' / '>' where the tree uses '<' / '>=' (C45_refuted), and a dictionary filled in another order duplicates values (C45_order_refuted). Proved: lossless masking for every in-order dictionary (C45_lossless, full), consistency with the tree without ties (C45_consistent_partial)."
 },
 "C47": {
  "note": "REFUTED as stated: a user-declared categorical feature with more than max(nof_candidate_splits, cat_limit) values raises IndexError (C47_refuted), heterogeneities above BIG_M too (C47_overflow_refuted). Proved: with inferred types / few categories and heterogeneities in [0, BIG_M] the search never fails."
 },
 "C60": {
  "note": "REFUTED as stated: n/N weights in get_level_stats, (n+1)/(N+2^L) weights in the search (C60_refuted). Proved equal at levels with equally sized subregions."
 },
 "C33": {
  "note": "REFUTED: on every dataset, model and history of calls (including plot) HIndex and REPID raise TypeError (keyword 'uncertainty' that the pdp functions lack); no value other than the diagonal 0 is ever returned, and only the heatmap [[0]] of a one-feature dataset is drawn."
 },
 "C34": {
  "note": "Explainer, argsort and spline are parameters (argsort assumed to sort). Proved after any history of calls."
 },
 "C61": {
  "note": "REFUTED as stated: with axis limits that exclude instances, evaluating one feature removes rows used for the others (C61_refuted). Proved when the limits contain the data and calls use the default subsampling."
 },
 "C62": {
  "note": "REFUTED for RHALE and ShapDP (indices overwritten with 0,1,2,... by the base class, C62_refuted). Proved for ALE, PDP, DerPDP and the regional classes."
 },
 "C48": {
  "note": "Proved for every history, every regional class and every option set, under the guard that no plot(scale_x_list=...) of the feature precedes the last fit (C48_latest_partial), and without guard for a feature no call has touched (C48_first). Refuted in general: plot with scale_x_list stores a scaled tree that later fits do not drop, so eval/plot read the stale tree (C48_refuted) or crash (C48_none_refuted)."
 },
 "C49": {
  "note": "C49_nodes_partial: every node of every level evaluates to the global effect of the instances of its subregion, for every class and history. Missing cases are refuted: nodes with more than 300 (PDP, d-PDP) / 100 (SHAP) instances are subsampled (C49_subsample_refuted), and RHALE nodes of level >= 2 carry data in place of effects (C49_effects_refuted). If no split is found no node, not even the root, can be evaluated (C49_no_split)."
 },
 "C50": {
  "note": "Proved for ALE/RHALE with both scales or none (C50_ale_slopes_partial: bar height = slope of the drawn curve inside the bin, bars on the rescaled bins; C50_ale_error_bars: stretched by |std_y/std_x|) and for the PDP std band (C50_pdp_band). Refuted: scale_y without scale_x is a TypeError; scale_x alone leaves the bars unscaled; 'std_err' draws the standard deviation; d-PDP plots add the mean of scale_y to a derivative; a scaled SHAP plot is a TypeError unless heterogeneity='shap_values'."
 },
 "C65": {
  "note": "All global classes, after any history of calls (PDP and SHAP: in any state). The numbers handed to matplotlib are modelled, not the drawing."
 },
 "C66": {
  "note": "C66_points holds after any history. 'all' means every instance only when the axis limits contain the data (C66_all_partial); otherwise evaluating another feature removes instances and the points of the largest values disappear (C66_refuted)."
 },
 "C63": {
  "note": "Proved for RegionalPDP, RegionalDerPDP and RegionalShapDP nodes that are not subsampled (C63_curve_partial), and for RegionalRHALE fitted with Greedy(100, 0, 0.3, 15) (C63_rhale_partial); C63_drawn says what the ALE classes draw in general. Refuted: RegionalALE.plot draws a RHALE curve (C63_ale_refuted); RegionalRHALE.eval ignores the fitted binning (C63_rhale_refuted); with the default 'greedy' plot and eval use different minimum bin sizes and one may fail (C63_greedy_refuted)."
 },
 "C64": {
  "note": "For row-wise Jacobians, numerical Jacobians of row-wise models on float data, and user-given effects; any subsample, limits and types."
 },
 "C67": {
  "note": "For any history before and after the fit, both trees and any scale; C67_features covers lists of features from any state. Output printed before an exception is not modelled."
 },
 "C68": {
  "note": "The figures are right whenever the report is printed (C68_levels_partial), and it is printed when the depth is below the recursion limit and, for the ALE classes, no level but the last has heterogeneity zero (C68_succeeds_partial); with only_important=True that is automatic (C68_important). Refuted in general: ZeroDivisionError for RegionalALE of an additive model with only_important=False (C68_refuted)."
 },
 "C69": {
  "note": "For any history before and after the fit, both trees and any scale; a zero heterogeneity before the split makes the printed percentage nan or inf ([None])."
 },
 "C70": {
  "note": "PDP and d-PDP in closed form for row-wise models on float data with subregions inside the axis limits; ALE, RHALE and ShapDP through the API of the global object. Refuted: with centering=True the heterogeneity of RegionalPDP/RegionalDerPDP is still that of the uncentred curves, so an additive model gets a non-zero heterogeneity (C70_centering_refuted).",
  "status": "partial"
 },
 "C71": {
  "note": "Row-wise models (map g); axis limits and positions up to 1e8 (beyond, see C05). ALESpec.v is the specification. The finite differences of all bins are divided by the width of the first bin, which ale_effect states explicitly (see C19_refuted)."
 },
 "C72": {
  "note": "Limits found by find_limits_b, specified by C11-C16; positions up to 1e8."
 },
 "C73": {
  "note": "ALE for any Fixed options; RHALE for Fixed bins (Greedy and DP choose the bins from the effects)."
 },
 "C75": {
  "note": "C75_curve: exact at every bin limit except the last one, which stands for hi + 1e-8 (the code moves the last limit)."
 },
 "C76": {
  "note": "ALE, RHALE; PDP in C28."
 },
 "C77": {
  "note": "No restriction on the positions."
 },
 "C78": {
  "note": "RHALE: every binning. ALE: equal-width bins, bound M*(1 + 1e-8*n/(hi-lo)); refuted for the unequal bins of a categorical feature, where the code divides by the width of the first bin (C78_ale_refuted)."
 },
 "C74": {
  "note": "Unconditional: includes every exception. Without subsampling (nof_instances = 'all' or at least the number of instances)."
 },
 "C79": {
  "status": "proved",
  "note": "RegionalALE (C79_ale), RegionalRHALE (C79_rhale), RegionalDerPDP with a Jacobian and with the numerical derivative (C79_dpdp, C79_dpdp_numerical). The statement's exception, RegionalPDP, is C79_pdp_refuted: its heterogeneity ignores the centering that fit was asked for (C70_centering_refuted), so x0 + 5 x1 is split."
 },
 "C80": {
  "status": "proved",
  "note": "C80_names, C80_distinct for splits given feature by feature (keys feat_0, ..., feat_{D-1} in this order); the statement's last sentence is C80_order_refuted (C45_order_refuted shows the same for the data)."
 },
 "C81": {
  "note": "C81_first: the chosen split's drop is strictly larger than that of every earlier candidate (earlier feature of the conditioning list, or same feature and earlier position)."
 },
 "C82": {
  "note": "C82_ale, C82_rhale, C82_rhale_effects, C82_pdp: from the constructors, for any history of calls (fit with any options, eval, plot, both reports). RegionalShapDP is not covered (the SHAP object depends on argsort's treatment of ties and on the external explainer); all instances must be kept, for PDP/DerPDP at most 300 since the per-node objects subsample to 300.",
  "status": "proved"
 },
 "C56": {
  "note": "C56_instance_order: fresh object, successful evaluation. C56_history: after any history of calls, whatever the limits and outcomes (same exception included); with return_all the columns are permuted."
 },
 "C13": {
  "note": "C13_greedy for N >= 2*min_points and limits np.allclose can tell apart; C13_one_bin for min_points <= N < 2*min_points (one bin). C13_rule: the exact stopping rule of every bin, min_points = 0 included."
 },
 "C83": {
  "note": "End-to-end through fit, for any history; C83_searched, C83_splits, C83_important, C83_defaults, C83_min_points. The heterogeneity function itself is described by C70."
 },
 "C84": {
  "note": "C84_construct, C84_wellformed (which discharges the hypothesis wf_reg used by C49, C63, C67-C69, C83 for every constructed object with enough names)."
 },
 "C85": {
  "note": "Partial: with more than 300 instances the nodes are evaluated on a random subsample (C49_subsample_refuted), and a scaled plot before the last fit leaves a stale tree (C48_refuted). C85_pieces (global classes, any pieces) is unguarded apart from instance-wise models."
 },
 "C86": {
  "note": "Refuted as stated (C86_refuted): the ten points at which a subregion is measured span its own range of the feature, so a subregion lying where the curves differ most is reported with a larger heterogeneity and the printed drop is negative. Proved when both subregions have instances at both ends of the range, keep at least min_points instances inside the limits; the square root is used through monotonicity and concavity only."
 },
 "C87": {
  "note": "C87_shape is the general law, C87_laws its instances; any history of calls."
 },
 "C88": {
  "note": "Refuted for expecation_2D with s = 1 or 2 (C88_2D_refuted): it always uses the limits of the features 1 and 2. Proved for s = 0, for all features when the limits it uses coincide with the right ones, and for the one-dimensional helpers. scipy's quad is a parameter."
 },
 "C89": {
  "note": "Refuted for min_points_per_bin (C89_min_points_refuted), whose check looks at max_nof_bins; everything else is proved. The two functions are not called inside the package."
 },
 "C90": {
  "note": "All four classes, through the constructors and any history (C90_ale covers ALE and RHALE with given effects, a Jacobian or the numerical one; C90_pdp PDP and DerPDP). C90_models: when a reduced model exists."
 },
 "C91": {
  "note": "PDP and ICE: proved for every positive unit change and every history (C91_pdp; C91_models: the converted model always exists). DerPDP: proved for a change of origin. ALE/RHALE: REFUTED as stated: ALE enlarges the last limit by an absolute 1e-8, so a tiny unit doubles the curve (C91_ale_units_refuted); RHALE's greedy/DP methods use np.allclose with a relative tolerance, so another origin collapses the bins (C91_ale_origin_refuted); positions above the sentinel 1e8 (C91_ale_sentinel_refuted). Proved: another origin changes nothing for ALE when nothing exceeds 1e8, and for RHALE when moreover np.allclose gives the same verdict on the two ends (C91_ale_partial), over all histories and methods."
 },
 "C92": {
  "note": "REFUTED: every '>' condition (C92_greater_refuted) and every negative threshold (C92_negative_refuted) stays in scaled units, and a threshold printed twice is converted with the scale of the first feature (C92_second_level_refuted). Proved: first-level '<=', '==', '!=' nodes with non-negative thresholds (C92_first_level_partial); nothing but the names changes, also when it raises (C92_only_names). The method is not called inside the package."
 },
 "C93": {
  "note": "Unconditional for the deletion of calls. After a fit that raises, the features after the failing one keep their old state (Example C93_failure), so the statements about lists assume that the fit succeeds."
 },
 "C94": {
  "note": "ALE, RHALE and ShapDP without hypotheses; PDP and d-PDP for row-wise models and well-shaped data (a model that mixes the rows of its batch would make the claim false)."
 },
 "C95": {
  "note": "The heterogeneity part of ALE/RHALE carries the guard no_single (no bin of the binning holds exactly one instance), shown necessary by C95_single_instance_differs. Greedy and dynamic-programming binnings count instances (min_points), so copies legitimately change them; SHAP values are an oracle."
 },
 "C96": {
  "note": "Row-wise models. ALE and RHALE: any history, equality including exceptions. PDP/d-PDP: fresh objects with any limits, and any history when the instances lie inside the limits. C96_ale_instance/C96_pdp_differs: two correlated features, where ALE cannot see a change of the model away from the data and PDP does."
 },
 "C97": {
  "note": "PDP: fresh objects (any history inside the limits by C29). The bound is on growth differences, so it holds for every centering; evaluating at the start as well gives the bound on the zero_start curves."
 },
 "C98": {
  "note": "True exactly for last limits in [-2^27, 2^27) (C98_widening); from 2^27 = 134217728 on, 1e-8 is less than half a unit in the last place, the limit does not move, and ALE.fit raises IndexError on every non-categorical feature; RHALE reports one bin too many and every evaluation raises ValueError. Proved in the binary64 model (FloatModel.v, Flocq)."
 },
 "C99": {
  "note": "From 2^27 on x + 1e-8 rounds back to x and every derivative is exactly 0, silently. Within |x| <= 2^e, e <= 26, the derivative of x is within 2^(e-25) of 1; at 2^26 it is off by 49 % (example)."
 },
 "C100": {
  "note": "Weakly increasing always; strictly when the range is at least 2^-48 K max(|lo|,|hi|); within 2^-49 max(|lo|,|hi|) of the exact grid. The guards exclude overflow of hi - lo and ranges in the subnormal domain."
 },
 "C101": {
  "note": "C101_pdp for every summation tree; C101_bins for np.bincount's left-to-right accumulation. Proved in the binary64 model (Flocq); model outputs are taken as given floats."
 },
 "C102": {
  "note": "Relative to the exact integral of the float64 bin effects; the error of the bin effects themselves is C101_bins. Positions above the last limit are covered up to 1e8 (beyond, the sentinel of C05)."
 },
 "C103": {
  "note": "C103_increasing, C103_zero_start (exact), C103_zero_integral (for any order in which np.mean adds)."
 },
 "C104": {
  "note": "REFUTED as stated: above 2^34 = 1.7e10 in absolute value (timestamps in ms, identifiers) both abscissae round to x and the d-PDP is exactly 0 for every model (C104_zero_refuted). Proved: for |x| <= 2^e, e <= 32, the derivative of x is within 2^(e-32) of 1 and the mean within 2^(e-32) + 4(N+1)2^-53 (C104_identity_partial). Between 2^32 and 2^34 it can be off by 90 % (example)."
 },
 "C105": {
  "note": "Accuracy and sign of the variance of every bin proved (C105_variance); after interpolation every variance is finite and non-negative when the populated ones are 0 or in [2^-900, 2^1020] (C105_defined). REFUTED: constant effects do not give zero - three times 0.1 has a positive variance (C105_zero_refuted); proved instead that it is at most about (n 2^-52 |c|)^2 (C105_constant_partial). REFUTED: without the lower bound an interpolated variance can be negative, so its square root is NaN (C105_negative_refuted, effects of 1e-162)."
 },
 "C106": {
  "note": "REFUTED for ALE/RHALE: one NaN effect makes the reported curve and heterogeneity independent of every other effect in its bin (C106_bin_discarded, for all inputs), and the bin is silently interpolated from its neighbours (C106_refuted). Proved: a NaN in the feature's column makes the fit with default axis limits raise IndexError (C106_missing_value), with given limits the instance is ignored (C106_ignored), PDP reports NaN (C106_pdp)."
 },
 "C107": {
  "note": "REFUTED for values one float64 apart: 1 and 1 + 2^-52 share a bin and the other bin is empty (C107_refuted). Proved when any two distinct values differ by at least 2^-50 of the larger one, 2^-1000, and are at most 2^1000 (C107_partial)."
 },
 "C108": {
  "note": "C108_slopes: any bins, effects within t of one slope. C108_ale: the whole ALE pipeline with equal bins and default limits. C108_linear: the model w*x_f + c(r) computed in float64. The guards (values below 2^26, bins wider than 16 * width_err) are part of the property: narrower bins are distorted by the 1e-8 added to the last limit."
 },
 "C109": {
  "note": "C109_greedy, for every function in place of np.var. Integer min_points; the categorical branch is C107. C109_rule: the exact stopping rule, with no hypothesis on the values; C109_single: one value gives False."
 },
 "C110": {
  "note": "C110_rhale: any Jacobian within t of a slope. C110_jacobian: the numerical Jacobian (EPS = 1e-8) composed with it. The dynamic-programming binning is C111."
 },
 "C111": {
  "note": "C111_dp_partial: guarded by 'some binning costs less than BIG_M' and by |values| <= 2^22 for 'every instance has a bin'; C111_refuted: without the second guard it is false. C111_variance: the two-pass variance meets the hypothesis on np.var."
 },
 "C112": {
  "note": "Regions modelled in binary64 (FloatRegion.v); narrow_empty: below the guard on the spread a candidate can leave its left part empty."
 },
 "C113": {
  "note": "Examples region8_nan and region8_missing: the same data lose their only split to one NaN."
 },
 "C114": {
  "note": "C114_refuted: IndexError on ten instances with default options when the root heterogeneity is 0; C114_partial needs the root heterogeneity to be at least 2^-20. C114_parts_partial needs heter_func to return only on parts of the data."
 },
 "C115": {
  "note": "Any fixed order of summation, with the number of consecutive roundings of that order in the bound."
 },
 "C116": {
  "note": "Exact statements about binary64 results."
 },
 "C117": {
  "note": "C117_unused: exactly 0 with zero_start. C117_additive_partial: the statement with a rounding bound instead of exactness. C117_refuted: exactly zero is false for the constant 0.1 (uncentered mean above every output, positive heterogeneity; zero_integral curve not 0)."
 },
 "C118": {
  "note": "End to end from the model's float64 outputs to the chosen and reported splits. C118_proviso_needed: without the proviso on the scale of the target a too small subregion is reported (the exact-arithmetic version is C44_refuted). nof_instances='all' and a row-wise model are assumed; eval is without centering whatever the centering argument (C70_centering_refuted, C79_pdp_refuted)."
 },
 "C119": {
  "note": "Refuted for features that reach 2^27: C119_ale_refuted, C119_rhale_refuted (any model, any data). Proved for regions whose fitted bins have finite widths and variances of sign + (good_bins), and end to end: RegionalRHALE with equal or greedy bins on data of size at most 2^25 (regional_rhale64), RegionalALE with a row-wise model on data of size at most 2^24 (regional_ale_data64). nof_instances='all' is assumed; the centering constant is computed and only matters if it raises."
 },
 "C120": {
  "note": "Refuted: C120_refuted (AssertionError, constant subregion with cat_limit=0), C120_flat_refuted (IndexError, flat effect). Proved with a heterogeneity of the whole dataset of at least 2^-20, cat_limit >= 1 and values small enough for BIG_M=1e8 to dominate. RHALE with DP bins not covered."
 },
 "C121": {
  "note": "All of PDP, d-PDP by central differences and the RegionalPDP heterogeneity; for factors that are not powers of two the exactness fails (other_factors). ALE and RHALE not covered."
 },
 "C122": {
  "note": "ShapDP and its regional method are not covered in binary64. np.var is a parameter that does not see the sign; C122_var proves that of the mean of squared deviations in any order of summation."
 },
 "C123": {
  "note": "The order in which numpy adds (np.mean, np.std) is a parameter that depends on the number of summands only; the regional classes and ShapDP are not covered here (exact-arithmetic versions: C90, C94)."
 },
 "C124": {
  "note": "RHALE without a Jacobian asks through the numerical Jacobian (C124_jacobian); with one it takes no model (by type). Exact-arithmetic version after any history: C96."
 },
 "C125": {
  "note": "The default foc='all' enumerates the columns in order, so moving columns also reorders the candidates and ties may be broken differently: the theorem takes the same order of conditioning features on both sides. Feature types are given, as in C112. RegionalShapDP is not covered in binary64."
 },
 "C126": {
  "note": "min_points_per_subregion and the number of candidate positions change the heterogeneities and the candidates, and are not monotone. The exact-arithmetic facts about depth and pruning are C39 and C46."
 },
 "C127": {
  "note": "PDP only: ALE and RHALE divide by bin widths, d-PDP by a step, so a code changes them (exact-arithmetic change of unit: C91)."
 },
 "C128": {
  "note": "The types of the features are given, as everywhere in the binary64 model of the search; RegionalShapDP has no binary64 model."
 }
}
