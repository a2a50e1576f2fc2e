{"id": "C01", "title": "Bin membership is a partition", "statement": "Given increasing bin limits that cover the data, compute_bin_effect / compute_ale_params assign every instance to exactly one bin: bin k receives exactly the instances with limits[k] <= x < limits[k+1] (the last bin also its right edge), points_per_bin has one entry per bin and sums to the number of instances. Instances left of the first limit make the call raise ValueError.", "quantifier": "all datasets, all increasing limit vectors, all bin indices", "why_tests_cant": "boundary instances, duplicated values and empty bins form an unbounded family of inputs; a test only samples a few limit vectors", "anchors": ["effector/utils.py:compute_bin_effect", "effector/utils.py:compute_ale_params"]}
{"id": "C02", "title": "Bin effect is the mean of the instance effects of the bin", "statement": "compute_bin_effect returns for each non-empty bin the arithmetic mean of the effects of exactly the instances inside the bin and NaN for each empty bin; the count-weighted sum of the bin effects is the sum of all effects.", "quantifier": "all datasets, effects and covering limits", "why_tests_cant": "has to hold for every allocation of points into bins, including empty ones", "anchors": ["effector/utils.py:compute_bin_effect"]}
{"id": "C03", "title": "Bin variance is the population variance of the bin", "statement": "compute_bin_variance, given the bin means, returns for each bin with at least two instances their population variance (never negative; zero iff all effects in the bin agree) and variance/count as estimator variance, and NaN for bins with fewer than two instances.", "quantifier": "all datasets, effects and covering limits", "why_tests_cant": "non-negativity and the exact value are claims over all real effects", "anchors": ["effector/utils.py:compute_bin_variance"]}
{"id": "C04", "title": "NaN filling keeps data, interpolates between, extrapolates flat", "statement": "fill_nans returns an array of the same length with no NaN, leaves every non-NaN entry unchanged, puts in every gap the linear interpolation of the nearest valid neighbours (flat at both ends, hence never outside the range of the valid entries), and raises ValueError exactly when there is no valid entry at all.", "quantifier": "all arrays with any NaN pattern", "why_tests_cant": "exponentially many NaN patterns", "anchors": ["effector/utils.py:fill_nans"]}
{"id": "C05", "title": "Accumulated effect is the integral of the bin-effect step function", "statement": "compute_accumulated_effect(x, limits, bin_effect, dx) returns at every x the integral from limits[0] to x of the step function that equals bin_effect[k] on bin k: zero left of the first limit, the full sum right of the last limit.", "quantifier": "all increasing limits, all effects, all evaluation points", "why_tests_cant": "continuum of evaluation points and unbounded number of bins", "anchors": ["effector/utils.py:compute_accumulated_effect"]}
{"id": "C06", "title": "The ALE curve is continuous, piecewise monotone and flat outside the range", "statement": "The accumulated effect starts at 0, is Lipschitz with constant max |bin_effect|, is non-decreasing when no bin effect is negative, and is constant left of the first and right of the last limit.", "quantifier": "all limits, effects and pairs of evaluation points", "why_tests_cant": "pairs of points from a continuum", "anchors": ["effector/utils.py:compute_accumulated_effect"]}
{"id": "C07", "title": "The ALE local effect is the finite difference across the instance's own bin", "statement": "compute_local_effects returns for each instance (f(x with x_s = right limit) - f(x with x_s = left limit)) / (right limit - left limit) for the bin holding the instance, and does not modify its arguments.", "quantifier": "all models, datasets, covering limits", "why_tests_cant": "quantifies over arbitrary black-box models and non-uniform bins", "anchors": ["effector/utils.py:compute_local_effects"]}
{"id": "C08", "title": "Numerical Jacobian is exact on affine models", "statement": "compute_jacobian_numerically(f, X) returns entry (i,j) = (f(x_i + eps e_j) - f(x_i))/eps; on every affine f this is exactly the coefficient of feature j; X is not modified; and integer-typed X is rejected with a TypeError rather than silently truncated.", "quantifier": "all datasets, all affine models, all shapes", "why_tests_cant": "quantifies over functions", "anchors": ["effector/utils.py:compute_jacobian_numerically"]}
{"id": "C09", "title": "Feature typing", "statement": "get_feature_types labels feature f 'cat' iff the column has fewer than categorical_limit distinct values, otherwise 'cont', one label per feature, independent of row order and duplication.", "quantifier": "all datasets and limits", "why_tests_cant": "all columns and row orders", "anchors": ["effector/utils.py:get_feature_types"]}
{"id": "C10", "title": "Argument normalisation", "statement": "prep_centering accepts exactly False, True, 'zero_start', 'zero_integral' (True meaning 'zero_integral') and rejects every other string; prep_features expands 'all' to every feature index once and wraps an int; prep_confidence_interval maps True to 'std'.", "quantifier": "all argument values", "why_tests_cant": "unbounded set of strings/ints", "anchors": ["effector/helpers.py:prep_centering", "effector/helpers.py:prep_features", "effector/helpers.py:prep_confidence_interval"]}
{"id": "C11", "title": "Fixed binning: equal width, covering, populated", "statement": "When Fixed.find on a non-categorical feature returns limits, they are nof_bins+1 equally spaced values from xs_min to xs_max and every closed bin holds at least min_points instances; it returns False exactly when some bin does not.", "quantifier": "all datasets, nof_bins >= 1, min_points", "why_tests_cant": "all datasets", "anchors": ["effector/bin_splitting.py:Fixed.find", "effector/bin_splitting.py:BinBase._bin_valid"]}
{"id": "C12", "title": "Categorical binning gives each value its own bin", "statement": "For a feature with 2..cat_limit distinct values the limits returned are strictly increasing, there is one bin per distinct value and each distinct value lies strictly inside its own bin; limits are returned iff every value occurs at least min_points times, otherwise False.", "quantifier": "all datasets with few distinct values", "why_tests_cant": "all multisets of values", "anchors": ["effector/bin_splitting.py:BinBase._is_categorical"]}
{"id": "C13", "title": "Greedy binning is a valid merge of the grid", "statement": "When Greedy.find reaches the merging stage, the limits returned start at xs_min, end at xs_max, are strictly increasing, are a subset of the initial equal-width grid, and every bin (closed interval) holds at least min_points instances. A bin ends at the first grid point where it and its extension by one grid step both hold min_points instances and the extension has the larger cost (variance of its effects x width x discount factor), or at xs_max; the last limit but one is dropped when the last bin is short of instances.", "quantifier": "all datasets, effects, grid sizes, discounts", "why_tests_cant": "the loop history depends on every cost comparison, including NaN costs of empty bins", "anchors": ["effector/bin_splitting.py:Greedy.find"]}
{"id": "C14", "title": "Dynamic programming binning is optimal", "statement": "DP.find returns a binning whose total cost (sum over bins of variance * width * discount factor, infeasible bins costing 1e8) is minimal among all binnings of the max_nof_bins grid.", "quantifier": "all datasets, effects with min_points >= 1, all grid partitions", "why_tests_cant": "exponentially many partitions per dataset", "anchors": ["effector/bin_splitting.py:DP.find", "effector/bin_splitting.py:DP._argmatrix_to_limits", "effector/bin_splitting.py:DP._cost_of_move"]}
{"id": "C15", "title": "Dynamic programming binning is a valid binning", "statement": "The limits returned by DP.find start at xs_min, end at xs_max, strictly increase and every bin holds at least min_points instances.", "quantifier": "all datasets and effects for which the search runs", "why_tests_cant": "all datasets", "anchors": ["effector/bin_splitting.py:DP.find"]}
{"id": "C16", "title": "min_points_per_bin is respected by the points actually averaged", "statement": "After a successful fit with min_points_per_bin = m, points_per_bin of the fitted feature is at least m in every bin.", "quantifier": "all datasets and binning methods", "why_tests_cant": "boundary instances are needed to break it", "anchors": ["effector/bin_splitting.py:BinBase._bin_valid", "effector/utils.py:filter_points_in_bin", "effector/utils.py:compute_bin_effect"]}
{"id": "C17", "title": "Impossible binning is reported as such", "statement": "When no binning exists (constant feature or fewer than min_points instances) Greedy.find, DP.find and Fixed.find return False, so ALE.fit/RHALE.fit fail with the documented AssertionError.", "quantifier": "all constant features / too small datasets", "why_tests_cant": "all parameter combinations", "anchors": ["effector/bin_splitting.py:BinBase._none_valid_binning", "effector/bin_splitting.py:BinBase._is_categorical", "effector/bin_splitting.py:Fixed.find", "effector/global_effect_ale.py:ALE._fit_feature"]}
{"id": "C18", "title": "Binning method dispatch", "statement": "find_limits runs the algorithm named by the argument with exactly the parameters of the argument object (defaults for strings), and RHALE.fit accepts every documented value 'greedy', 'dp', 'fixed'.", "quantifier": "all method arguments", "why_tests_cant": "all parameter tuples", "anchors": ["effector/binning_methods.py:find_limits", "effector/global_effect_ale.py:RHALE.fit"]}
{"id": "C19", "title": "ALE of an affine model is the affine curve", "statement": "For f(x) = b + sum a_j x_j, ALE.eval of feature s is the line a_s (x - start) on the axis range and the heterogeneity is 0.", "quantifier": "all datasets, coefficients, uniform bins", "why_tests_cant": "all datasets and coefficients", "anchors": ["effector/global_effect_ale.py:ALE", "effector/utils.py:compute_local_effects"]}
{"id": "C20", "title": "ALE/RHALE centering", "statement": "eval(centering='zero_start') is exactly 0 at the left axis limit; eval(centering=True) has zero mean over the midpoint grid of the axis range; both differ from the uncentered curve by a constant, and heterogeneity is unaffected by centering.", "quantifier": "all fitted objects, evaluation points", "why_tests_cant": "all curves", "anchors": ["effector/global_effect_ale.py:ALEBase.eval", "effector/global_effect_ale.py:ALEBase._compute_norm_const", "effector/utils_integrate.py:mean_1d_linspace"]}
{"id": "C21", "title": "RHALE of an affine model with exact Jacobian is exact with zero heterogeneity", "statement": "With a Jacobian (or data_effect) that is constantly a_s in feature s, RHALE.eval of feature s returns a_s (x - limits[0]) (minus the centering constant) for every x between the first and the last limit (up to the 1e8 sentinel of C05) and heterogeneity 0 everywhere, whatever binning method and history of calls produced the limits.", "quantifier": "all datasets, all limits", "why_tests_cant": "all binnings", "anchors": ["effector/global_effect_ale.py:RHALE", "effector/utils.py:compute_ale_params"]}
{"id": "C22", "title": "Heterogeneity is non-negative and non-decreasing along the axis", "statement": "For every fit and every history of calls, the heterogeneity returned by ALE/RHALE.eval is >= 0, is 0 up to the left edge of the first bin and never decreases along the axis.", "quantifier": "all fits and points", "why_tests_cant": "continuum of points", "anchors": ["effector/global_effect_ale.py:ALEBase._eval_unnorm"]}
{"id": "C23", "title": "ALE/RHALE eval never returns stale centering", "statement": "After any history of fit/eval calls with the default binning method, eval(feature, xs, centering=c) returns the same value as on a freshly constructed object.", "quantifier": "all finite histories of fit/eval calls", "why_tests_cant": "unbounded histories", "anchors": ["effector/global_effect.py:GlobalEffectBase.refit", "effector/global_effect_ale.py:ALEBase.eval", "effector/global_effect_ale.py:ALEBase._fit_loop"]}
{"id": "C24", "title": "A user-chosen binning survives evaluation", "statement": "After fit(features, binning_method=m), eval uses the bins of m whatever centering is requested.", "quantifier": "all binning objects, centering values", "why_tests_cant": "needs fit/eval interleavings", "anchors": ["effector/global_effect_ale.py:ALEBase.eval", "effector/global_effect_ale.py:ALE.fit"]}
{"id": "C25", "title": "Vectorised and loop PDP agree and equal the ICE definition", "statement": "pdp_1d_vectorized and pdp_1d_non_vectorized return the same (T,N) matrix for every row-wise model and every non-empty grid; entry (t,i) is f(x_i with feature s set to x_t) (or column s of the Jacobian there / the central difference with step 1e-6).", "quantifier": "all row-wise models, datasets, grids", "why_tests_cant": "quantifies over models and shapes; index/reshape errors", "anchors": ["effector/global_effect_pdp.py:pdp_1d_vectorized", "effector/global_effect_pdp.py:pdp_1d_non_vectorized"]}
{"id": "C26", "title": "PDP.eval returns mean and standard deviation of ICE curves", "statement": "Without centering and after any history of calls, PDP.eval(xs) at x_t is the mean over instances of f(x_i with x_s=x_t), with heterogeneity=True also the population standard deviation, and return_all gives the (T,N) ICE matrix. The instances are all of them when they lie inside the axis limits (always for the default limits), otherwise those inside the limits of s and of features touched before.", "quantifier": "all row-wise models, float datasets, grids, histories of fit/eval calls", "why_tests_cant": "all models", "anchors": ["effector/global_effect_pdp.py:PDPBase.eval"]}
{"id": "C27", "title": "PDP centering", "statement": "With centering='zero_start' every ICE curve (and the PDP) is 0 at the left axis limit; with True/'zero_integral' every ICE curve has zero mean on the centering grid.", "quantifier": "all models, datasets", "why_tests_cant": "all models", "anchors": ["effector/global_effect_pdp.py:PDPBase._fit_feature", "effector/global_effect_pdp.py:PDPBase.eval"]}
{"id": "C28", "title": "Additive models have zero centered PDP heterogeneity", "statement": "If f(x) = g(x_s) + h(x without s) then all centered ICE curves of feature s coincide, the heterogeneity is 0 and the centered PDP is g(x) minus its grid mean (or g(start)).", "quantifier": "all g, h, datasets inside the axis limits, histories of fit/eval calls (or fresh objects with any limits)", "why_tests_cant": "quantifies over functions g, h", "anchors": ["effector/global_effect_pdp.py:PDPBase.eval"]}
{"id": "C29", "title": "PDP evaluations do not interfere across features", "statement": "The result of PDP.eval(feature, xs, centering) does not depend on which other fit/eval calls were made before on the same object.", "quantifier": "all finite histories of fit/eval calls, all axis_limits", "why_tests_cant": "unbounded histories; needs axis limits narrower than the data", "anchors": ["effector/global_effect_pdp.py:PDPBase._fit_feature", "effector/global_effect_pdp.py:PDPBase.eval"]}
{"id": "C30", "title": "PDP/ALE evaluate the model at the requested position for every data dtype", "statement": "For float and integer data arrays alike, the value put into feature s before calling the model is the requested evaluation position.", "quantifier": "all datasets of either dtype, all positions", "why_tests_cant": "dtype x position combinations", "anchors": ["effector/global_effect_pdp.py:pdp_1d_vectorized", "effector/global_effect_pdp.py:pdp_1d_non_vectorized", "effector/utils.py:compute_local_effects"]}
{"id": "C31", "title": "d-PDP by finite differences is exact on quadratics and agrees with the Jacobian", "statement": "Without model_jac the d-ICE value is the central difference with step 1e-6; for every model at most quadratic in x_s it equals the exact partial derivative, so DerPDP with and without model_jac agree.", "quantifier": "all such models, datasets, positions", "why_tests_cant": "quantifies over models", "anchors": ["effector/global_effect_pdp.py:PDPBase._predict"]}
{"id": "C32", "title": "n-dimensional PDP variants agree", "statement": "pdp_nd_vectorized and pdp_nd_non_vectorized return the mean over instances of f with the listed features set to the k-th position.", "quantifier": "all models, datasets, feature lists", "why_tests_cant": "quantifies over models", "anchors": ["effector/global_effect_pdp.py:pdp_nd_vectorized", "effector/global_effect_pdp.py:pdp_nd_non_vectorized"]}
{"id": "C33", "title": "H-index and REPID are computable", "statement": "HIndex.eval_pairwise / eval_one_vs_all / fit / plot and REPID.eval_one_vs_all / fit / plot return on every dataset and model, whatever was called before.", "quantifier": "all datasets, models, features, histories of calls", "why_tests_cant": "whether a call returns depends on the cached matrix and flags left by the earlier calls", "anchors": ["effector/interaction.py:HIndex", "effector/interaction.py:REPID"]}
{"id": "C34", "title": "SHAP-DP evaluation and centering", "statement": "ShapDP.eval evaluates the fitted spline; 'zero_start' makes the curve 0 at the smallest instance value, the (x, shap) pairs used for fitting are those of the dataset sorted by x, heterogeneity is unaffected by centering.", "quantifier": "all explainer outputs, spline fits, datasets", "why_tests_cant": "external explainer treated as arbitrary", "anchors": ["effector/global_effect_shap.py:ShapDP._fit_feature", "effector/global_effect_shap.py:ShapDP.eval"]}
{"id": "C35", "title": "Sub-sampling keeps rows distinct, in range and aligned", "statement": "nof_instances < N selects that many distinct rows of the dataset, otherwise all rows in order; RHALE/Regional effects select the same rows of data and of data_effect.", "quantifier": "all N, nof_instances, random choices", "why_tests_cant": "all outcomes of the random generator", "anchors": ["effector/helpers.py:prep_nof_instances", "effector/global_effect_ale.py:RHALE.__init__", "effector/regional_effect.py:RegionalEffectBase.__init__", "effector/global_effect_shap.py:ShapDP.__init__"]}
{"id": "C36", "title": "A split partitions the instances", "statement": "split_dataset sends every instance to exactly one side, keeps the relative order and splits the effects in alignment with the data.", "quantifier": "all datasets, features, positions, types", "why_tests_cant": "all datasets", "anchors": ["effector/partitioning.py:Regions.split_dataset"]}
{"id": "C37", "title": "Candidate split positions", "statement": "Numerical candidates are nof_splits equally spaced positions strictly between min and max; categorical candidates are exactly the distinct values.", "quantifier": "all columns", "why_tests_cant": "all columns", "anchors": ["effector/partitioning.py:Regions.find_positions_cont", "effector/partitioning.py:Regions.find_positions_cat"]}
{"id": "C38", "title": "The chosen split is the best candidate", "statement": "single_level_splits returns a candidate (feature, position) whose weighted heterogeneity drop is at least that of every other candidate of every conditioning feature, and reports the drop, heterogeneities and sizes of exactly that split.", "quantifier": "all datasets, heterogeneity functions, conditioning features", "why_tests_cant": "exhaustive search over data dependent candidates", "anchors": ["effector/partitioning.py:Regions.single_level_splits"]}
{"id": "C39", "title": "Important splits are the longest prefix of sufficiently large drops", "statement": "choose_important_splits returns exactly the longest prefix of the found splits in which each level reduces the weighted heterogeneity by more than heter_pcg_drop_thres (relative), and nothing when the initial heterogeneity is below heter_small_enough or is the failure value BIG_M.", "quantifier": "all split histories, thresholds", "why_tests_cant": "all sequences of heterogeneities", "anchors": ["effector/partitioning.py:Regions.choose_important_splits"]}
{"id": "C40", "title": "The partition tree is a complete binary partition of the data", "statement": "Level L of the (full or pruned) tree has 2^L nodes; children partition their parent's data; the data of a level is a permutation of the dataset; node nof_instances and weight agree with the node data and the weights of a level sum to 1; node heterogeneity is the heterogeneity of the node data.", "quantifier": "all datasets, heterogeneity functions, depths", "why_tests_cant": "unbounded depth and data", "anchors": ["effector/partitioning.py:Regions.splits_to_tree", "effector/partitioning.py:Regions.search_all_splits", "effector/partitioning.py:Tree"]}
{"id": "C41", "title": "Tree nodes carry the effects of their own instances", "statement": "In every node of the tree, data_effect holds the effect rows of exactly the instances in data, so regional RHALE evaluates each subregion with its own effects.", "quantifier": "all nodes of all trees", "why_tests_cant": "needs depth >= 2 with effects", "anchors": ["effector/partitioning.py:Regions.splits_to_tree", "effector/regional_effect.py:RegionalEffectBase.get_node_info"]}
{"id": "C42", "title": "Node names are unique and parents are resolved correctly", "statement": "All node names of a tree are distinct, so add_node links every node to the parent whose data it splits.", "quantifier": "all feature names, positions, depths", "why_tests_cant": "all strings", "anchors": ["effector/partitioning.py:Tree.add_node", "effector/partitioning.py:Regions.splits_to_tree"]}
{"id": "C43", "title": "Node labels describe the split", "statement": "The comparison shown for a node ('<=', '>', '==', '!=') holds for all the instances in the node and fails for all in its sibling.", "quantifier": "all datasets", "why_tests_cant": "needs instances exactly at the split position", "anchors": ["effector/partitioning.py:Regions.splits_to_tree", "effector/partitioning.py:Regions.split_dataset"]}
{"id": "C44", "title": "min_points_per_subregion is respected by important splits", "statement": "No important split produces a subregion with fewer than min_points_per_subregion instances.", "quantifier": "all datasets, models, scales of the target", "why_tests_cant": "depends on the scale of the heterogeneity", "anchors": ["effector/partitioning.py:Regions.choose_important_splits", "effector/regional_effect_pdp.py:RegionalPDPBase._create_heterogeneity_function"]}
{"id": "C45", "title": "DataTransformer is a lossless masking consistent with the partition", "statement": "For every row and feature exactly one of the 2^k masked copies is active, so the copies sum to the original value; the active copy is the leaf of the partition tree that contains the row.", "quantifier": "all datasets, split lists", "why_tests_cant": "all rows/splits", "anchors": ["effector/partitioning.py:DataTransformer.transform"]}
{"id": "C46", "title": "Depth and early stopping", "statement": "The search performs at most max_depth splits and never splits further once some subregion has fewer than min_points instances; level l splits 2^l regions.", "quantifier": "all datasets", "why_tests_cant": "all datasets", "anchors": ["effector/partitioning.py:Regions.search_all_splits"]}
{"id": "C47", "title": "Candidate tables fit the candidates", "statement": "single_level_splits never indexes outside its tables, for every choice of feature types, cat_limit and nof_candidate_splits.", "quantifier": "all configurations", "why_tests_cant": "config combinations", "anchors": ["effector/partitioning.py:Regions.single_level_splits"]}
{"id": "C48", "title": "Regional eval/plot use the latest fit", "statement": "After fit, eval(feature, node) reads the partition produced by the most recent fit of that feature.", "quantifier": "all histories of fit/plot/eval", "why_tests_cant": "histories with scaled plots", "anchors": ["effector/regional_effect.py:RegionalEffectBase.get_node_info", "effector/regional_effect.py:RegionalEffectBase.plot"]}
{"id": "C49", "title": "Regional eval is the global effect of the node's instances", "statement": "eval(feature, node_idx, xs, heterogeneity, centering) equals eval of the corresponding global method constructed on the node's data (and effects); unknown node ids raise AssertionError.", "quantifier": "all fitted objects, nodes, points", "why_tests_cant": "all trees", "anchors": ["effector/regional_effect.py:RegionalEffectBase.eval", "effector/regional_effect.py:RegionalEffectBase._create_fe_object"]}
{"id": "C50", "title": "Scaled plots are consistent", "statement": "ale_plot with scale_x and scale_y draws bin slopes equal to the slopes of the drawn curve; PDP 'std' band is |scale| times the std; derivative plots are scaled without adding the mean; the 'std_err' band is the standard error.", "quantifier": "all scales, curves", "why_tests_cant": "all reals", "anchors": ["effector/visualization.py:ale_plot", "effector/visualization.py:plot_pdp_ice", "effector/visualization.py:trans_bin"]}
{"id": "C51", "title": "Numerical integration helpers", "statement": "mean_1d_linspace is exact for affine functions and bounded by the function's range; integrate_1d_linspace is exact for constants.", "quantifier": "all functions, intervals", "why_tests_cant": "all functions", "anchors": ["effector/utils_integrate.py:mean_1d_linspace", "effector/utils_integrate.py:integrate_1d_linspace"]}
{"id": "C52", "title": "Axis limits bound the data", "statement": "Default axis_limits are the tightest box containing the data used, so with default limits no instance is dropped.", "quantifier": "all datasets", "why_tests_cant": "all datasets", "anchors": ["effector/helpers.py:axis_limits_from_data", "effector/global_effect.py:GlobalEffectBase.__init__"]}
{"id": "C53", "title": "ALE/RHALE fit succeeds on ordinary data", "statement": "On every non-constant feature with default options, ALE.fit and RHALE.fit produce parameters (no exception).", "quantifier": "all datasets with at least two distinct values", "why_tests_cant": "corner datasets with singleton bins", "anchors": ["effector/global_effect_ale.py:ALE._fit_feature", "effector/utils.py:fill_nans"]}
{"id": "C54", "title": "The centering resolution chosen in fit stays in force", "statement": "After fit(feature, centering=True, points_for_centering=n), every later centered eval of that feature centers with n points.", "quantifier": "all models, n, histories of evals", "why_tests_cant": "unbounded histories", "anchors": ["effector/global_effect_pdp.py:PDPBase.fit", "effector/global_effect_pdp.py:PDPBase.eval", "effector/global_effect.py:GlobalEffectBase.refit"]}
{"id": "C55", "title": "PDP is linear in the model", "statement": "For every pair of row-wise models f, g and numbers a, b, the PDP curve of a*f+b*g is a times the curve of f plus b times the curve of g, for every centering mode and axis limits.", "quantifier": "all row-wise models f, g, scalars, datasets, grids, centering modes", "why_tests_cant": "quantifies over pairs of models", "anchors": ["effector/global_effect_pdp.py:PDPBase.eval"]}
{"id": "C56", "title": "PDP does not depend on the order of the instances", "statement": "Permuting the rows of the data changes neither the PDP/d-PDP curve nor its heterogeneity.", "quantifier": "all permutations of all datasets, row-wise models, centering modes", "why_tests_cant": "all permutations", "anchors": ["effector/global_effect_pdp.py:PDPBase.eval"]}
{"id": "C57", "title": "points_for_centering='all' is supported", "statement": "As documented, fit(points_for_centering='all') centers with all the dataset points.", "quantifier": "all objects and features", "why_tests_cant": "documented value on every object", "anchors": ["effector/global_effect_pdp.py:PDPBase.fit"]}
{"id": "C58", "title": "Navigation in the partition tree", "statement": "get_root returns the node holding the whole dataset, get_children(name) exactly the nodes whose parent is that node (two above the last level, none at it), get_level_nodes exactly the nodes of a level, and get_level_stats the heterogeneities of a level weighted by their share of instances; a tree of depth L has 2^(L+1)-1 nodes.", "quantifier": "all trees built from all searches, all names", "why_tests_cant": "unbounded depth, all strings", "anchors": ["effector/partitioning.py:Tree"]}
{"id": "C59", "title": "A Regions object does not depend on its call history", "statement": "After any sequence of search_all_splits / choose_important_splits / splits_to_tree calls containing a search, each of them returns what it returns on a fresh search; choose_important_splits before any search raises AssertionError.", "quantifier": "all histories of calls, all heterogeneity functions", "why_tests_cant": "unbounded histories", "anchors": ["effector/partitioning.py:Regions"]}
{"id": "C60", "title": "The level heterogeneity shown is the one used for pruning", "statement": "The weighted heterogeneity of a level reported by the tree (get_level_stats, show_partitioning) equals the one compared with heter_pcg_drop_thres.", "quantifier": "all trees and levels", "why_tests_cant": "depends on subregion sizes", "anchors": ["effector/partitioning.py:Tree.get_level_stats", "effector/partitioning.py:Regions.single_level_splits"]}
{"id": "C61", "title": "A ShapDP object does not depend on the history of calls", "statement": "eval of a ShapDP object returns the same values whatever fit and eval calls were made before on the same object.", "quantifier": "all datasets, explainers, splines and all histories of fit/eval calls", "why_tests_cant": "unbounded call histories, arbitrary explainers", "anchors": ["effector/global_effect_shap.py:ShapDP"]}
{"id": "C62", "title": "The attribute indices tells which instances were kept", "statement": "After constructing any effect object, row i of its data is row indices[i] of the dataset it was given.", "quantifier": "all datasets, nof_instances and random subsamples", "why_tests_cant": "random subsampling of arbitrary datasets", "anchors": ["effector/global_effect.py:GlobalEffect.__init__", "effector/global_effect_ale.py:RHALE.__init__", "effector/global_effect_shap.py:ShapDP.__init__", "effector/regional_effect.py:RegionalEffectBase.__init__"]}
{"id": "C63", "title": "A regional plot shows the regional eval", "statement": "The curve drawn by plot(feature, node_idx) of a regional effect is the curve eval(feature, node_idx) returns on the drawn grid, moved to the scaled axes.", "quantifier": "all regional classes, datasets, models, node indices, scalings and histories of calls", "why_tests_cant": "needs every tree, node, model and history; plot and eval build their own global effect objects", "anchors": ["effector/regional_effect.py:RegionalEffectBase.plot", "effector/regional_effect_ale.py:RegionalRHALE.plot", "effector/regional_effect_ale.py:RegionalALE.plot", "effector/regional_effect.py:RegionalEffectBase.eval"]}
{"id": "C64", "title": "Instance effects stay aligned with the instances", "statement": "After constructing a RegionalRHALE (with or without user-given instance effects, with or without subsampling) row i of the instance effects it works with is the gradient of the model at row i of its data.", "quantifier": "all datasets, row-wise jacobians, nof_instances and random subsamples", "why_tests_cant": "random subsampling of arbitrary datasets", "anchors": ["effector/regional_effect_ale.py:RegionalRHALE.__init__", "effector/regional_effect_ale.py:RegionalRHALE.compile", "effector/regional_effect.py:RegionalEffectBase.__init__"]}
{"id": "C65", "title": "A plot shows what eval returns", "statement": "The curve plotted by ALE, RHALE, PDP, d-PDP and SHAP-DP is eval on an equally spaced grid with the same centering, moved to the scaled axes; so are the average-output line, the ICE curves and the SHAP heterogeneity band.", "quantifier": "all datasets, models, histories of calls, centerings, scalings and numbers of points", "why_tests_cant": "plots are not unit-testable for every model, history and scaling", "anchors": ["effector/global_effect_ale.py:ALEBase.plot", "effector/global_effect_pdp.py:PDPBase.plot", "effector/global_effect_shap.py:ShapDP.plot", "effector/visualization.py:ale_plot", "effector/visualization.py:plot_pdp_ice", "effector/visualization.py:plot_shap"]}
{"id": "C66", "title": "The SHAP points drawn are genuine", "statement": "With heterogeneity='shap_values' each drawn point is the (value, SHAP value) pair of an instance, points belong to distinct instances, and are moved and scaled like the curve; with nof_shap_values='all' there is one for every instance.", "quantifier": "all datasets, explainers, splines, histories, random selections and scalings", "why_tests_cant": "random selections and unbounded call histories", "anchors": ["effector/global_effect_shap.py:ShapDP.plot", "effector/visualization.py:plot_shap"]}
{"id": "C67", "title": "The printed partition is the partition", "statement": "show_partitioning(feature) prints the partition tree found by the latest fit of the feature (the important part of it, or all of it): one line per subregion with its number, name, number of instances, share of the dataset and heterogeneity, indented so that the tree can be read off, or 'no splits found'; a call for several features prints what separate calls would print.", "quantifier": "all datasets, models, classes, fit options, scales and histories of fit, eval, plot, show_partitioning and describe_subregions calls", "why_tests_cant": "printed trees of every depth after every history of calls", "anchors": ["effector/regional_effect.py:RegionalEffectBase.show_partitioning", "effector/partitioning.py:Tree.show_full_tree"]}
{"id": "C68", "title": "The printed level statistics are right", "statement": "show_partitioning prints, for each level, the heterogeneity of the subregions weighted by their share of the data, and the drop with respect to the previous level, absolute and in percent; it never fails after a successful fit.", "quantifier": "all datasets, models, classes, fit options, scales and histories", "why_tests_cant": "heterogeneity zero at some level occurs only for particular models and binnings", "anchors": ["effector/partitioning.py:Tree.show_level_stats", "effector/partitioning.py:Tree.get_level_stats", "effector/regional_effect.py:RegionalEffectBase.show_partitioning"]}
{"id": "C69", "title": "describe_subregions tells the splits", "statement": "describe_subregions(feature) reports one split per level: the feature split on, its type and position (in the given scale), the weighted heterogeneity before and after, the drop in percent, and the numbers of instances before and after, which add up to the dataset; 'no important splits' when there are none, nothing when no split was found.", "quantifier": "all datasets, models, classes, fit options, scales and histories", "why_tests_cant": "reports of every depth after every history of calls", "anchors": ["effector/regional_effect.py:RegionalEffectBase.describe_subregions"]}
{"id": "C70", "title": "The heterogeneity of a subregion is that of its global effect", "statement": "The heterogeneity by which a regional method splits, and which it prints, is the heterogeneity of the corresponding global method on the subregion: mean standard deviation of the ICE (d-ICE) curves at ten points for PDP (d-PDP), accumulated standard deviation at the right end for ALE and RHALE, mean ShapDP heterogeneity for SHAP; a huge constant for subregions with too few instances; never negative.", "quantifier": "all datasets, subregions, models, classes and fit options", "why_tests_cant": "must hold for every subregion any split can produce", "anchors": ["effector/regional_effect_ale.py:RegionalRHALE._create_heterogeneity_function", "effector/regional_effect_ale.py:RegionalALE._create_heterogeneity_function", "effector/regional_effect_pdp.py:RegionalPDPBase._create_heterogeneity_function", "effector/regional_effect_shap.py:RegionalShapDP._create_heterogeneity_function"]}
{"id": "C71", "title": "ALE is the accumulated mean finite difference of the model", "statement": "Whatever was called before, ALE.eval(feature, xs, heterogeneity, centering) returns: the instances inside the axis limits distributed over equal-width bins (or one bin per value, for a feature with few values), in each bin the mean over its instances of the change of the model when the feature is moved from the left to the right limit of the bin, divided by the bin width, empty bins filled in from their neighbours, integrated from the start to x, minus the requested centering; the heterogeneity is the integrated standard deviation. This determines the result uniquely.", "quantifier": "all datasets, row-wise models, bins, centerings, positions and histories of fit/eval calls", "why_tests_cant": "must hold for every dataset, model and call history", "anchors": ["effector/global_effect_ale.py:ALE._fit_feature", "effector/global_effect_ale.py:ALEBase.eval", "effector/global_effect_ale.py:ALEBase.fit", "effector/utils.py:compute_local_effects", "effector/utils.py:compute_ale_params", "effector/utils.py:compute_accumulated_effect"]}
{"id": "C72", "title": "RHALE is the accumulated mean derivative", "statement": "RHALE.eval returns the integral of the per-bin mean of the derivative column (user-given effects, user Jacobian or numerical Jacobian) over the bins found by the binning method in force, empty bins filled in, minus the requested centering; the heterogeneity integrates the per-bin standard deviation of the derivative.", "quantifier": "all datasets, effect matrices, Jacobians, binning methods, centerings, positions and histories", "why_tests_cant": "must hold for every dataset, effect matrix and call history", "anchors": ["effector/global_effect_ale.py:RHALE._fit_feature", "effector/global_effect_ale.py:ALEBase.eval", "effector/utils.py:compute_ale_params"]}
{"id": "C73", "title": "ALE is linear in the model", "statement": "With the same data, limits, bins and centering, the ALE curve of al*g1 + be*g2 is al times the curve of g1 plus be times the curve of g2; likewise for RHALE with Fixed bins and effects that combine.", "quantifier": "all datasets, pairs of models, coefficients, bins, centerings, positions and histories", "why_tests_cant": "ranges over all models and coefficients", "anchors": ["effector/global_effect_ale.py:ALE._fit_feature", "effector/global_effect_ale.py:ALEBase.eval", "effector/global_effect_ale.py:ALEBase.fit", "effector/utils.py:compute_local_effects", "effector/utils.py:compute_ale_params", "effector/utils.py:compute_accumulated_effect", "effector/global_effect_ale.py:RHALE._fit_feature"]}
{"id": "C75", "title": "ALE recovers an additive component and reports no heterogeneity for it", "statement": "If the effect of moving the feature is the same for every instance (no interaction), ALE reports heterogeneity 0 everywhere, and with equal-width non-empty bins the curve equals the component, up to a constant, at the bin limits.", "quantifier": "all datasets, models without interaction in the feature, bins, centerings, histories", "why_tests_cant": "ranges over all additive models", "anchors": ["effector/global_effect_ale.py:ALE._fit_feature", "effector/global_effect_ale.py:ALEBase.eval", "effector/global_effect_ale.py:ALEBase.fit", "effector/utils.py:compute_local_effects", "effector/utils.py:compute_ale_params", "effector/utils.py:compute_accumulated_effect"]}
{"id": "C76", "title": "A feature the model ignores has a zero ALE and RHALE curve", "statement": "If the model does not depend on the feature (all derivatives with respect to it are 0), ALE (RHALE) returns 0 everywhere, with heterogeneity 0, for every centering.", "quantifier": "all datasets, models ignoring the feature, binnings, centerings, histories", "why_tests_cant": "ranges over all models and histories", "anchors": ["effector/global_effect_ale.py:ALE._fit_feature", "effector/global_effect_ale.py:ALEBase.eval", "effector/global_effect_ale.py:ALEBase.fit", "effector/utils.py:compute_local_effects", "effector/utils.py:compute_ale_params", "effector/utils.py:compute_accumulated_effect", "effector/global_effect_ale.py:RHALE._fit_feature"]}
{"id": "C77", "title": "Monotone models have monotone ALE and RHALE curves", "statement": "If the model is non-decreasing in the feature for every instance, the ALE curve is non-decreasing; if all derivatives are non-negative, so is the RHALE curve.", "quantifier": "all datasets (integer or float), monotone models, binnings, centerings, positions, histories", "why_tests_cant": "ranges over all monotone models and all pairs of positions", "anchors": ["effector/global_effect_ale.py:ALE._fit_feature", "effector/global_effect_ale.py:ALEBase.eval", "effector/global_effect_ale.py:ALEBase.fit", "effector/utils.py:compute_local_effects", "effector/utils.py:compute_ale_params", "effector/utils.py:compute_accumulated_effect", "effector/global_effect_ale.py:RHALE._fit_feature"]}
{"id": "C78", "title": "A bound on the derivative bounds the slope of the curve", "statement": "If |derivative| <= M for every instance the RHALE curve is M-Lipschitz; if the model is M-Lipschitz in the feature, so is the ALE curve.", "quantifier": "all datasets, models, bounds M, binnings, positions and histories", "why_tests_cant": "ranges over all models and positions", "anchors": ["effector/global_effect_ale.py:ALE._fit_feature", "effector/global_effect_ale.py:ALEBase.eval", "effector/global_effect_ale.py:ALEBase.fit", "effector/utils.py:compute_local_effects", "effector/utils.py:compute_ale_params", "effector/utils.py:compute_accumulated_effect", "effector/global_effect_ale.py:RHALE._fit_feature"]}
{"id": "C74", "title": "The order of the instances does not matter for ALE and RHALE", "statement": "Shuffling the rows of the dataset (and, for RHALE, of the effect matrix along with them) changes neither the curve nor the heterogeneity nor the exception that eval produces, after any history of fit/eval calls with any binning methods; objects built by the constructor with axis limits taken from the data included.", "quantifier": "all datasets, permutations, row-wise models and Jacobians, binning methods, histories, positions", "why_tests_cant": "ranges over all permutations of all datasets", "anchors": ["effector/global_effect_ale.py:ALE", "effector/global_effect_ale.py:RHALE", "effector/bin_splitting.py:Fixed", "effector/bin_splitting.py:Greedy", "effector/bin_splitting.py:DP", "effector/utils.py:compute_ale_params"]}
{"id": "C79", "title": "A feature without interactions is not split", "statement": "If the model's change along feature f is the same for every instance (additive feature; for RHALE: the derivative along f is the same number at every instance; for DerPDP: the derivative along f depends on feature f only), then after any successful fit of a regional object that includes f, with whatever options and whatever was called before and after, describe_subregions(f, only_important=True) reports that there are no (important) splits. For RegionalPDP this fails even with centering requested: an additive model is split.", "quantifier": "all datasets, models, axis limits, binning methods, options of fit, and histories of calls around the fit", "why_tests_cant": "it ranges over every additive model and dataset, every binning and every option of the split search; a test sees one model and one grid of options", "anchors": ["effector/regional_effect_ale.py: RegionalALE._create_heterogeneity_function, RegionalRHALE._create_heterogeneity_function", "effector/regional_effect_pdp.py: RegionalPDPBase._create_heterogeneity_function", "effector/partitioning.py: Regions.choose_important_splits", "effector/regional_effect.py: describe_subregions"]}
{"id": "C80", "title": "DataTransformer's column names describe its columns", "statement": "After DataTransformer(splits).transform(X) with the splits given feature by feature, new_names has one name per column of the new data, all different however the positions round; the name of a copy of feature f lists one comparison per split of f, with the split's feature and position, and the copy holds the value of f in exactly the rows that satisfy the comparisons and 0 in the others. With the dictionary filled in another order the names do not match the columns.", "quantifier": "all split dictionaries, datasets, formattings of the positions", "why_tests_cant": "ranges over every set of splits, every row and every rounding of the positions", "anchors": ["effector/partitioning.py: DataTransformer.transform"]}
{"id": "C81", "title": "Ties between candidate splits are resolved by order", "statement": "When several candidate (feature, position) pairs reach the same largest weighted heterogeneity drop at a level, the regional fit takes the first conditioning feature in the order searched and, for that feature, the smallest position: no strictly earlier candidate has a drop as large as the one chosen.", "quantifier": "every dataset, model, heterogeneity function, conditioning list and level of the search", "why_tests_cant": "A test fixes one dataset; ties arise for particular data only, and the order in which they are resolved must hold for all of them.", "anchors": ["effector/partitioning.py:Regions.single_level_splits", "effector/partitioning.py:Regions.search_all_splits"]}
{"id": "C82", "title": "The order of the instances does not matter to a regional object", "statement": "Building a RegionalALE, RegionalRHALE, RegionalPDP or RegionalDerPDP object on the same instances in another order (with their effects reordered along) gives an object that cannot be told apart: the constructor raises the same exception, and after any identical history of fit, eval, plot, show_partitioning and describe_subregions calls each of these returns the same result (same splits, node names, numbers of instances, heterogeneities, curves) or raises the same exception.", "quantifier": "every dataset and permutation of it, row-wise model and Jacobian, constructor and fit options that keep all instances (for the PDP classes at most 300 instances: above that a node is evaluated on a random sample), and history of calls", "why_tests_cant": "There are factorially many orders and unboundedly many histories; a test compares a few.", "anchors": ["effector/regional_effect.py:RegionalEffectBase", "effector/regional_effect_ale.py:RegionalRHALE", "effector/regional_effect_ale.py:RegionalALE", "effector/regional_effect_pdp.py:RegionalPDPBase", "effector/partitioning.py:Regions"]}
{"id": "C83", "title": "The options of a regional fit are honoured", "statement": "After fit(features, heter_pcg_drop_thres, heter_small_enough, max_depth, nof_candidate_splits_for_numerical, min_points_per_subregion, candidate_conditioning_features, split_categorical_features, ...) of a regional object, whatever was called before and after (except another fit of the feature): there are no splits exactly when the dataset has fewer than min_points_per_subregion instances, max_depth is 0, or the feature is categorical and split_categorical_features is False; otherwise there are between 1 and max_depth levels, fewer than max_depth only because a subregion became smaller than min_points_per_subregion; every split is on one of the conditioning features (all others by default) with its declared type, at one of the nof_candidate_splits positions (or a value of a categorical feature) and no other such split has a larger weighted drop of heterogeneity; the important splits are the leading ones that each drop the heterogeneity by more than heter_pcg_drop_thres, none when the initial heterogeneity is below heter_small_enough. A feature that was not fitted is fitted with the documented defaults.", "quantifier": "all regional objects, histories of fit/eval/plot/show_partitioning/describe_subregions calls, options, features, heterogeneities", "why_tests_cant": "the options interact with the data, the heterogeneity function and the history; optimality ranges over all candidate splits", "anchors": ["effector/regional_effect.py:RegionalEffectBase._fit_feature", "effector/regional_effect_ale.py:RegionalRHALE.fit", "effector/regional_effect_pdp.py:RegionalPDP.fit", "effector/partitioning.py:Regions"]}
{"id": "C84", "title": "What the regional constructors store", "statement": "RegionalX(data, model, ..., nof_instances, axis_limits, feature_types, cat_limit, feature_names) keeps exactly the selected instances in the order of the selection; axis limits are the given ones or the extrema of the whole dataset; feature types are the given ones or categorical exactly for the features with fewer than cat_limit distinct values in the whole dataset; names are the given ones or x_0, x_1, ...; instance effects, if any, have one row per kept instance.", "quantifier": "all classes, datasets, options of the constructor, random selections", "why_tests_cant": "ranges over all datasets and selections", "anchors": ["effector/regional_effect.py:RegionalEffectBase.__init__", "effector/regional_effect_ale.py:RegionalRHALE.__init__"]}
{"id": "C85", "title": "The PDP of the dataset is the weighted average of the PDPs of the subregions", "statement": "For RegionalPDP and RegionalDerPDP after a fit that finds splits, uncentered eval of node 0 equals, at every point and for every level of the tree, the average of eval over the nodes of that level weighted by their shares of the instances; with heterogeneity=True the squared standard deviation of node 0 is the weighted average of the squared standard deviations within the nodes plus the weighted squared distance of the node curves to the root curve (law of total variance). The same average law holds for the global PDP and DerPDP and any way of cutting a dataset into non-empty pieces.", "quantifier": "every dataset (at most 300 instances per object, beyond which nodes are evaluated on a random subsample), every instance-wise model or Jacobian, every feature, options of fit, history without a scaled plot before the last fit, level, evaluation points", "why_tests_cant": "The identity relates evaluations of exponentially many nodes on every dataset and for every partition the search may find; a test checks one partition of one dataset.", "anchors": ["effector/regional_effect.py:RegionalEffectBase.eval", "effector/global_effect_pdp.py:PDPBase.eval", "effector/partitioning.py:Regions.splits_to_tree"]}
{"id": "C86", "title": "Cutting a subregion does not increase its heterogeneity", "statement": "For RegionalPDP and RegionalDerPDP, when instances are cut in two subregions, the heterogeneity the search computes for the two, weighted by their shares of the instances, is at most the heterogeneity of the whole; hence the weighted heterogeneity printed for a level of the partition is at most the one of the level above.", "quantifier": "every dataset, instance-wise model or Jacobian, feature, options of fit, cut in two, partition found, level", "why_tests_cant": "An inequality over all datasets and all cuts; a test shows it for the cut at hand, and the datasets that break it (a subregion whose range of the feature is where the curves differ most) are not the ones tests use.", "anchors": ["effector/regional_effect_pdp.py:RegionalPDPBase._create_heterogeneity_function", "effector/partitioning.py:Regions.find_best_split_for_one_feature"]}
{"id": "C87", "title": "The PDP inherits the shape of the ICE curves", "statement": "If every ICE curve (d-ICE curve for DerPDP) of the dataset is non-decreasing, flat, convex, of slope at most M, or between a and b, so is the curve returned by eval (the range for uncentered curves). In general every linear inequality between values at the evaluation points that all ICE curves satisfy is satisfied by the PDP, with any centering when the weights add up to zero.", "quantifier": "every instance-wise model or Jacobian, dataset inside the axis limits, feature, evaluation points, centering, earlier calls of fit and eval, vectorised or loop evaluation", "why_tests_cant": "A law over all models, datasets and histories; tests compare one curve with its closed form.", "anchors": ["effector/global_effect_pdp.py:PDPBase.eval", "effector/global_effect_pdp.py:PDPBase._fit_feature"]}
{"id": "C88", "title": "The expectations fix the feature of interest and integrate the others over their own limits", "statement": "integrate_1d_quad integrates the function between start and stop; expectation_1D(xs, func, p_xc, s) integrates func(x) p_xc(x_c) with the feature s fixed at xs and the other feature running over [start, stop]; expecation_2D(xs, func, p_xc, s, axis_limits) fixes the feature s of three and integrates each of the two others over its own limits.", "quantifier": "every function, density, position, axis limits, feature s and quadrature rule", "why_tests_cant": "A statement over all functions, limits and features; a test with feature 0, or with the same limits for all features, does not show the error.", "anchors": ["effector/utils_integrate.py:expectation_1D", "effector/utils_integrate.py:expecation_2D", "effector/utils_integrate.py:integrate_1d_quad"]}
{"id": "C89", "title": "Parameter dictionaries are validated and completed", "statement": "prep_dale_fit_params and prep_ale_fit_params keep the given entries, add the missing ones with their defaults, change nothing else, and reject an entry of the wrong kind with AssertionError.", "quantifier": "every dictionary of parameters", "why_tests_cant": "ranges over all dictionaries", "anchors": ["effector/helpers.py:prep_dale_fit_params", "effector/helpers.py:prep_ale_fit_params"]}
{"id": "C90", "title": "Column position and unread columns do not matter", "statement": "Build an ALE, RHALE, PDP or DerPDP object on a table and another on a table holding only some of its columns, in any order, with a model that returns on each reduced row what the original model returns on the full row (so the left-out columns are ones the model does not read). Then, after any history of fit and eval calls naming the same features, eval of a feature returns the same curve and heterogeneity (or raises the same exception) on both; the two constructors succeed or fail alike. Such a reduced model exists exactly when the model reads no left-out column, so reordering columns never changes a curve.", "quantifier": "all tables, column selections without repetition, row-wise models/Jacobians related by the selection, instance counts, axis limits (given or from the data), user-supplied effects, histories of calls, evaluation points, centering modes", "why_tests_cant": "it must hold for every table, every permutation or selection of columns and every history; tests compare a few tables", "anchors": ["effector/global_effect.py:GlobalEffectBase.__init__", "effector/global_effect_ale.py:ALE._fit_feature", "effector/global_effect_ale.py:RHALE._fit_feature", "effector/global_effect_pdp.py:PDPBase._fit_feature", "effector/utils.py:compute_local_effects", "effector/utils.py:compute_jacobian_numerically", "effector/helpers.py:axis_limits_from_data"]}
{"id": "C91", "title": "Changing the unit or the origin of a feature changes only the feature axis", "statement": "Let the columns of the data be expressed in other units, x -> a*x + b with a > 0 per column (Celsius to Fahrenheit, metres to feet, years since another origin), and let the model be the same model reading the new units. Then for every feature, every history of fit and eval calls, every centering and every option, the effect object on the converted data returns at the converted positions exactly what the original object returns at the original positions.", "quantifier": "all float datasets, all per-column conversions with positive factor, all models, all histories of fit/eval calls, all evaluation positions, axis limits given (converted) or inferred, PDP/ICE, DerPDP, ALE, RHALE", "why_tests_cant": "a metamorphic relation between two runs for every dataset, every conversion, every model and every call history; tests sample a few", "anchors": ["effector/global_effect_pdp.py: PDPBase.fit, PDPBase.eval, pdp_1d_vectorized, pdp_1d_non_vectorized", "effector/global_effect_ale.py: ALE, RHALE, _fit_loop, eval", "effector/utils.py: compute_local_effects, compute_accumulated_effect, EPS, BIG_M", "effector/bin_splitting.py: _only_one_bin_possible (np.allclose), Greedy, DP, Fixed", "effector/helpers.py: axis_limits_from_data"]}
{"id": "C92", "title": "rename_nodes shows the thresholds in original units", "statement": "Tree.rename_nodes(scale) replaces the threshold of every condition in every node name by std * threshold + mean of the feature the condition is about, and changes nothing else in the tree.", "quantifier": "all trees, node names, thresholds and scales", "why_tests_cant": "the names are rewritten by a regular expression and a textual replace: whether a condition is found, and what else is replaced, depends on the signs, the sign of the threshold and coincidences between the printed numbers", "anchors": ["effector/partitioning.py:Tree.rename_nodes", "effector/partitioning.py:Tree._rename_node"]}
{"id": "C93", "title": "ALE and RHALE answers about a feature ignore the calls about the others", "statement": "On one ALE or RHALE object, removing from any history of fit, eval and plot calls those that do not name feature f changes neither eval nor plot of f. A fit of a list of features that succeeds is, for each of them, the same as fitting that feature alone, and it succeeds exactly when each single fit does, so the order of the list and the other features in it do not matter.", "quantifier": "all models, datasets, Jacobians or data effects, binning methods, histories of fit/eval/plot calls, lists of features", "why_tests_cant": "one object holds a shared cache (data_effect) and per-feature dictionaries updated in place by every call; a test only tries a few interleavings", "anchors": ["effector/global_effect_ale.py:ALEBase._fit_loop", "effector/global_effect_ale.py:ALEBase.eval", "effector/global_effect_ale.py:RHALE._fit_feature", "effector/global_effect_ale.py:ALEBase.plot", "effector/global_effect.py:GlobalEffectBase.refit"]}
{"id": "C94", "title": "Eval is a curve: pointwise and independent of the heterogeneity flag", "statement": "After any history of calls, the value eval returns for a position does not depend on the other positions passed in the same call, on their order, or on whether the heterogeneity is requested; if eval succeeds for one list of positions it succeeds for all. For PDP objects of row-wise models it does not depend on use_vectorized or return_all either.", "quantifier": "all objects of the five effect classes, histories, features, centerings, lists of positions", "why_tests_cant": "the positions are processed together by digitize/take/broadcasting or one big prediction, and the first eval also fits; equality for all lists of positions cannot be sampled", "anchors": ["effector/global_effect_ale.py:ALEBase.eval", "effector/global_effect_pdp.py:PDPBase.eval", "effector/global_effect_shap.py:ShapDP.eval", "effector/utils.py:compute_accumulated_effect"]}
{"id": "C95", "title": "Duplicating the dataset leaves the effects unchanged", "statement": "Two objects with the same model and limits, one holding every instance of the other k times in any order: PDP and d-PDP eval return the same mean and heterogeneity; ALE (default or requested fixed bins) and RHALE with fixed bins return the same curve, and the same heterogeneity when no bin holds exactly one instance. A bin with exactly one instance takes its variance from its neighbours, so there doubling the data does change the heterogeneity (refutation of the unguarded claim).", "quantifier": "all row-wise models and Jacobians, datasets, numbers of copies, orders, features, positions, histories before the fit", "why_tests_cant": "equality of two runs for every dataset and number of copies; binning, masking and filling all see different arrays", "anchors": ["effector/global_effect_pdp.py:PDPBase.eval", "effector/global_effect_ale.py:ALE._fit_feature", "effector/global_effect_ale.py:RHALE._fit_feature", "effector/utils.py:compute_bin_effect", "effector/utils.py:compute_ale_params", "effector/axis_partitioning.py:Fixed.find_limits"]}
{"id": "C96", "title": "Where the model is asked: ALE does not extrapolate", "statement": "An effect depends on the model only through its values at a stated set of points. ALE asks at the two limits of the bin of each instance, the other features being those of the instance: less than one bin width (plus 1e-8) from the instance, or at most half way to the neighbouring value for a categorical feature; two models that agree there give the same results (or exceptions) after any history. RHALE with a Jacobian or data_effect never asks the model; without them it asks at the instances and 1e-8 beyond them along each feature. PDP and d-PDP ask at the positions evaluated and at the centering points (1e-6 around them without a Jacobian), combined with every instance.", "quantifier": "all pairs of row-wise models, datasets, limits, histories, features, centerings, positions", "why_tests_cant": "it is a statement about pairs of models that differ everywhere else; a test can only perturb a model at a few places", "anchors": ["effector/utils.py:compute_local_effects", "effector/utils.py:compute_jacobian_numerically", "effector/global_effect_ale.py:ALE._fit_feature", "effector/global_effect_ale.py:RHALE.compile", "effector/global_effect_pdp.py:PDPBase.eval"]}
{"id": "C97", "title": "A small change of the model changes the effects by little", "statement": "If two models differ by at most M at the points an effect asks (C96), the PDP means differ by at most M (2M when centered; times 10^6 for d-PDP by finite differences); the ALE curves for the same fixed binning grow alike up to 2M/w per unit of the axis (w the width of the first bin); RHALE curves for the same fixed binning, with effects that differ by at most M, grow alike up to M per unit. The greedy binning is excluded: a change of 1e-9 in the effects can merge two bins and move the curve by more than 4/5 (C97_greedy_differs).", "quantifier": "all pairs of row-wise models or effect matrices, datasets, histories, features, centerings, positions", "why_tests_cant": "a bound over all perturbations of the model", "anchors": ["effector/global_effect_pdp.py:PDPBase.eval", "effector/global_effect_ale.py:ALEBase.eval", "effector/utils.py:compute_local_effects", "effector/utils.py:compute_ale_params", "effector/bin_splitting.py:Greedy.find"]}
{"id": "C98", "title": "In float64, the instance with the largest value belongs to the last bin", "statement": "ALE and RHALE widen the last bin by 1e-8 so that the instance that sits on the upper limit has a bin. In IEEE binary64 arithmetic this should work for every finite feature: the fit succeeds, every instance between the limits is in the one bin that contains it, and the tables have one entry per bin.", "quantifier": "all float64 datasets, models, sorted limits, numbers of bins", "why_tests_cant": "the boundary is a property of the rounding at every magnitude; tests use small features", "anchors": ["effector/utils.py:compute_local_effects", "effector/utils.py:compute_bin_effect", "effector/utils.py:compute_ale_params", "effector/utils.py:compute_accumulated_effect", "effector/global_effect_ale.py:ALE._fit_feature", "effector/helpers.py:EPS"]}
{"id": "C99", "title": "In float64, the numerical Jacobian is close to the derivative", "statement": "RHALE without a Jacobian uses the forward difference (model(x + 1e-8) - model(x)) / 1e-8. For a model with derivative 1 in a feature, the float64 result should be close to 1 at every instance.", "quantifier": "all float64 datasets, all magnitudes of the feature, all models (for the zero derivative)", "why_tests_cant": "depends on the rounding of x + 1e-8 at every magnitude", "anchors": ["effector/utils.py:compute_jacobian_numerically", "effector/global_effect_ale.py:RHALE.compile"]}
{"id": "C100", "title": "In float64, the equally spaced bin limits are an increasing grid between the axis limits", "statement": "The limits of the fixed binning start at the lower and end at the upper axis limit exactly, are increasing, and are close to the exact equally spaced grid.", "quantifier": "all pairs of finite floats up to 2^1021 that are at least 2^-900 apart, all numbers of bins up to 2^48", "why_tests_cant": "rounding of every product and sum, for all magnitudes and counts", "anchors": ["effector/bin_splitting.py:Fixed.find"]}
{"id": "C101", "title": "In float64, the reported averages are accurate", "statement": "The PDP value at a position and the effect of an ALE / RHALE bin are averages. Computed in IEEE binary64, whatever the order in which numpy adds the terms, they are within ((1 + 2^-53)^(d+1) - 1) times the average absolute value (plus half the smallest subnormal) of the exact average, d the depth of the summation (at most the number of terms); an empty bin is NaN and is left to the interpolation.", "quantifier": "all float64 datasets and models with finite outputs whose absolute sum is at most 2^1022, all summation orders, up to 2^50 instances, all sorted limits", "why_tests_cant": "the error of a sum depends on all terms and the order numpy chooses; tests compare with a tolerance on one dataset", "anchors": ["effector/global_effect_pdp.py:pdp_1d_vectorized", "effector/global_effect_pdp.py:pdp_1d_non_vectorized", "effector/utils.py:compute_bin_effect"]}
{"id": "C102", "title": "In float64, the ALE / RHALE curve is an accurate integral of its bin effects", "statement": "For a fitted table of bins, the value returned at a position in IEEE binary64 is within ((1 + 2^-53)^(K+2) - 1) times the integral of the absolute bin effects up to that position, plus K 2^-1074, of the exact integral of the bin effects, K the number of bins.", "quantifier": "all fitted float64 tables without overflow (sorted limits, finite effects, up to 2^50 bins), all positions below the last limit or up to 1e8", "why_tests_cant": "rounding of every difference, product and partial sum, for all tables and positions", "anchors": ["effector/utils.py:compute_accumulated_effect", "effector/utils.py:compute_ale_params", "effector/global_effect_ale.py:ALEBase._eval_unnorm"]}
{"id": "C103", "title": "In float64, ALE / RHALE curves of non-negative effects never go down, and centering does what it says", "statement": "When all bin effects are non-negative, the float64 curve is non-negative and non-decreasing exactly (no rounding makes it dip inside a bin or between bins). With zero_start centering the curve is exactly 0 at the start; with zero_integral centering the mean of the centred values over the positions used for centering is 0 up to (gamma + 3 2^-53) times their mean absolute value.", "quantifier": "all fitted float64 tables, pairs of positions, summation orders", "why_tests_cant": "monotonicity under rounding has to hold for every pair of positions", "anchors": ["effector/utils.py:compute_accumulated_effect", "effector/global_effect_ale.py:ALEBase._compute_norm_const", "effector/global_effect_ale.py:ALEBase.eval", "effector/utils_integrate.py:mean_1d_linspace"]}
{"id": "C104", "title": "In float64, the numerical d-PDP is close to the derivative", "statement": "DerPDP without a Jacobian uses the central difference (model(x + 1e-6) - model(x - 1e-6)) / 2e-6. For a model with derivative 1 in a feature, the float64 ICE derivatives and their mean should be close to 1 at every position.", "quantifier": "all float64 positions, datasets and (for the zero derivative) models, all summation orders", "why_tests_cant": "depends on the rounding of x + 1e-6 at every magnitude", "anchors": ["effector/global_effect_pdp.py:pdp_1d_non_vectorized", "effector/global_effect_pdp.py:pdp_1d_vectorized", "effector/global_effect_pdp.py:DerPDP"]}
{"id": "C105", "title": "In float64, the heterogeneity of a bin is the variance of its effects, never negative, and zero for constant effects", "statement": "The float64 variance reported for an ALE/RHALE bin is close to the variance of the effects of its instances; it is never negative (its square root is what the plots show), also for the bins filled by interpolation; and it is zero when all effects in the bin are equal.", "quantifier": "all float64 datasets, effects and strictly increasing or equal limits, every bin", "why_tests_cant": "rounding errors for every input", "anchors": ["effector/utils.py:compute_bin_variance", "effector/utils.py:fill_nans", "effector/utils.py:compute_ale_params"]}
{"id": "C106", "title": "Missing or undefined values do not silently hide the effect of the other instances", "statement": "If the feature of one instance is NaN, or the model returns NaN for one instance, the effect reported from the other instances stays visible: either the instance is ignored or an error / NaN is reported; the other instances of the bin still count.", "quantifier": "all float64 datasets, effects, models, bin limits and summation orders", "why_tests_cant": "all positions of the NaN and all values of the other instances", "anchors": ["effector/utils.py:fill_nans", "effector/utils.py:compute_bin_effect", "effector/utils.py:compute_bin_variance", "effector/helpers.py:axis_limits_from_data", "effector/global_effect_ale.py:ALE._fit_feature", "effector/bin_splitting.py:BinBase._is_categorical"]}
{"id": "C107", "title": "In float64, each value of a categorical feature has its own bin", "statement": "For a feature with 2..cat_limit distinct float64 values the limits of Fixed.find, computed in float64 and widened by EPS as everywhere else, are increasing, there is one bin per distinct value, each value lies strictly inside its bin, and two instances share a bin exactly when they have the same value; the limits are refused exactly when some value occurs less than min_points times.", "quantifier": "all float64 columns and all min_points", "why_tests_cant": "depends on the rounding of every midpoint", "anchors": ["effector/bin_splitting.py:BinBase._is_categorical", "effector/bin_splitting.py:Fixed.find", "effector/bin_splitting.py:BinBase._bin_valid"]}
{"id": "C108", "title": "In float64, the ALE / RHALE curve of a linear model is the line", "statement": "If the model is linear in the feature up to an output error delta (in particular w*x + c(other features) computed in float64), the feature values are at most M <= 2^26 and the K equal bins are at least 16 (2^-47 M + 2^-26) wide, then the uncentered float64 ALE curve at every position in the data range is within a stated bound (about 15 (|a| 2^-26 + delta) / bin width, plus N + K roundings) of a (x - lo); for any bins, the same holds for RHALE when every Jacobian entry is within t of a, also across empty bins.", "quantifier": "all float64 datasets, slopes, models within delta of linear, bin counts and positions", "why_tests_cant": "rounding of the grid, of the widened last limit, of model differences, means, interpolation and prefix sums for every input", "anchors": ["effector/global_effect_ale.py:ALE._fit_feature", "effector/global_effect_ale.py:ALEBase._eval_unnorm", "effector/utils.py:compute_local_effects", "effector/utils.py:compute_ale_params", "effector/utils.py:compute_accumulated_effect", "effector/utils.py:fill_nans", "effector/bin_splitting.py:Fixed.find"]}
{"id": "C109", "title": "In float64, Greedy bins cover the data and hold min_points instances", "statement": "On a non-categorical finite float64 feature with all values in [xs_min, xs_max], Greedy.find returns False exactly when there are fewer than min_points instances; otherwise its limits are a sub-grid of the n+1 equally spaced points that keeps both ends (so they start at xs_min, end exactly at xs_max and are weakly increasing), every bin holds at least min_points instances, and for xs_max in [-2^27, 2^27) every instance gets exactly one bin. This holds whatever the effects (NaN included), the discount and the rounding of np.var. Each bin ends at the first computed grid point where it and its extension both hold min_points instances and the extension's computed cost is not <= its own (NaN included), or at xs_max, with the last-but-one limit dropped when the last bin is short. A feature with a single value gives False.", "quantifier": "all float64 feature columns, effects, discounts, variance functions, initial bin counts and min_points", "why_tests_cant": "the merging decisions depend on every rounding of every candidate bin's variance", "anchors": ["effector/bin_splitting.py:Greedy.find", "effector/bin_splitting.py:BinBase._bin_valid", "effector/bin_splitting.py:BinBase._bin_cost", "effector/bin_splitting.py:BinBase._only_one_bin_possible"]}
{"id": "C110", "title": "In float64, RHALE of a linear model fits, has nearly no heterogeneity and draws the line", "statement": "RHALE on default axis limits with equal or greedy bins (fewer bins than instances), values at most 2^26 in absolute value, and a Jacobian whose entries for the feature are all within t of a slope a: the fit succeeds, every bin effect is within a stated bound of a, every heterogeneity value is at most about 16 t^2 (plus roundings), and the curve at every position in the data range is within a stated bound of a (x - lo). For the numerical Jacobian of a model within delta of linear, t is about 2 (2^-53 |a| M + 2 delta) / 1e-8.", "quantifier": "all float64 datasets, variance functions, discounts, slopes, models within delta of linear, bin counts and positions", "why_tests_cant": "composes the roundings of the finite difference, of the greedy decisions, of the means, variances, interpolations and prefix sums for every input", "anchors": ["effector/global_effect_ale.py:RHALE._fit_feature", "effector/global_effect_ale.py:RHALE.compile", "effector/utils.py:compute_jacobian_numerically", "effector/utils.py:compute_ale_params", "effector/utils.py:compute_bin_variance", "effector/bin_splitting.py:Greedy.find", "effector/bin_splitting.py:Fixed.find"]}
{"id": "C111", "title": "In float64, the dynamic-programming binning returns the cheapest valid binning", "statement": "On a non-categorical feature with at least 2 m instances and K >= 2 candidate bins (min_points m >= 1, discount in [0,1], np.var finite and not negative): if some binning along the K+1 grid points costs less than BIG_M, the returned limits are grid points from the first to the last whose float64 total cost (added left to right) is the smallest of all such binnings, every bin holds at least m instances, the limits increase from lo to within M 2^-49 of hi, and every instance has a bin. The last claim holds for |values| up to 2^22 only: for values up to 2^26 the last limit can be computed below the largest instance, the fit then has one bin effect too many and every evaluation raises ValueError.", "quantifier": "all float64 datasets, variance functions, discounts, bin counts, min_points and all competing binnings", "why_tests_cant": "optimality ranges over exponentially many binnings and every rounding of the cost table; the lost instance depends on a one-ulp error of the last grid point", "anchors": ["effector/bin_splitting.py:DP.find", "effector/bin_splitting.py:DP._argmatrix_to_limits", "effector/bin_splitting.py:DP._cost_of_move", "effector/bin_splitting.py:BinBase._bin_cost", "effector/global_effect_ale.py:RHALE._fit_feature"]}
{"id": "C112", "title": "In float64, the subregion search picks the best candidate and every reported split lowers the heterogeneity by the threshold", "statement": "For any heterogeneity function that returns finite non-negative numbers (up to 2^900) or raises, any summation order in np.sum, and instances plus subregions up to 2^40: at each level the chosen split is one of the candidates, the heterogeneities, populations, weighted drop and weighted heterogeneity reported with it are its own, and its computed weighted drop is at least that of every candidate; in exact arithmetic it is within 2 (n+4) (2^-50 H + 2^-1074) of the best (n subregions, heterogeneities up to H). Every split reported by choose_important_splits satisfies w1 <= (1 - thres/(1+2^-53)) w0, so k reported levels shrink the weighted heterogeneity geometrically. The candidate positions of a numerical feature lie between its minimum and maximum, and leave instances on both sides when the spread is at least K M 2^-49. The subregions of a level are the instances that take the same turns at all splits; a level is searched exactly while levels are left and every subregion has min_points instances; of equally good candidates the first is chosen; the positions of a numerical feature are the midpoints of nof_splits equal cells up to 2^-49 M, those of a categorical one its distinct values; the reported splits are the longest prefix whose relative drop exceeds the threshold, none if the root heterogeneity is BIG_M or small.", "quantifier": "all datasets, heterogeneity functions, feature types, thresholds, numbers of candidates, levels and summation orders", "why_tests_cant": "ranges over all datasets, heterogeneity functions and roundings, and the comparison is with every candidate at every level", "anchors": ["effector/partitioning.py:Regions.search_all_splits", "effector/partitioning.py:Regions.single_level_splits", "effector/partitioning.py:Regions.choose_important_splits", "effector/partitioning.py:Regions.find_positions_cont"]}
{"id": "C113", "title": "One NaN silently ends the subregion search, and rows with missing values drop out of numerical splits", "statement": "If the heterogeneity of any subregion of any candidate of a level is NaN, no split of that level or a deeper one is reported, however large the drop of the other candidates (np.argmax prefers NaN); if the heterogeneity of the whole dataset is NaN nothing is reported. A numerical conditioning feature with a missing value in any instance is never used by a reported split (threshold at least 2^-8, heterogeneity BIG_M for an empty subregion). When a region is cut by a numerical feature, an instance whose value is missing goes to neither side; every other instance goes to exactly one; by a categorical feature every instance goes to exactly one.", "quantifier": "all datasets, heterogeneity functions, levels, candidates and positions of the NaN", "why_tests_cant": "the failure is silent and depends on where one NaN appears among all candidates of all levels", "anchors": ["effector/partitioning.py:Regions.single_level_splits", "effector/partitioning.py:Regions.choose_important_splits", "effector/partitioning.py:Regions.split_dataset", "effector/partitioning.py:Regions.find_positions_cont"]}
{"id": "C114", "title": "In float64, the subregion search returns whatever the data", "statement": "If heter_func returns numbers in [0, BIG_M], every categorical conditioning feature has at most max(nof_splits, cat_limit) values and there is at least one instance and one conditioning feature, the search and the choice of the important splits return without an exception. False as stated: with ten instances, the default min_points 10, and one categorical conditioning feature with values 1, 0, ..., 0, an effect without heterogeneity makes the search raise IndexError, because the weighted drop of every candidate rounds to just below the filler -BIG_M of the table and the chosen cell holds no candidate (exact arithmetic, C47, does not fail there). It holds when the heterogeneity of the whole dataset is at least 2^-20.", "quantifier": "all datasets, heterogeneity functions, feature types, numbers of candidates and levels, and summation orders", "why_tests_cant": "the failure needs a rounding of the weights in one direction for every candidate of the first level; the guarantee ranges over all datasets and levels", "anchors": ["effector/partitioning.py:Regions.search_all_splits", "effector/partitioning.py:Regions.single_level_splits"]}
{"id": "C115", "title": "In float64, the centered PDP and its heterogeneity are accurate", "statement": "For PDP and DerPDP (with or without Jacobian) with any centering: eval raises AssertionError exactly when the limits are not increasing; otherwise the float64 mean and heterogeneity at every position are finite, the heterogeneity is not negative, and they are within (6 d1 + 2 d0 + 3) 2^-53 M + 2^-1073 and (15 d1 + 2 d0 + 30) 2^-53 M + 2^-533 of the exact mean and standard deviation of the exactly centered ICE values, M a bound of the model's outputs, d1 and d0 the longest chains of roundings in the averages over the instances and over the centering grid. With zero_start the curve and the heterogeneity are exactly 0 at the lower limit; with zero_integral the values reported at the centering points average to 0 within the same bound.", "quantifier": "all row-wise models, datasets up to 2^40 instances, limits, positions, centerings, centering grids and orders of summation", "why_tests_cant": "the bounds are over all outputs and all summation orders numpy may choose", "anchors": ["effector/global_effect_pdp.py:PDPBase._fit_feature", "effector/global_effect_pdp.py:PDPBase.eval", "effector/global_effect_pdp.py:pdp_1d_vectorized"]}
{"id": "C116", "title": "In float64, the PDP of non-decreasing ICE curves never goes down, and the sign of the model is only a sign", "statement": "If at two positions every ICE value of the first is at most that of the second, the reported (centered or not) PDP values are in the same order exactly, not up to rounding. Negating the model negates the reported curve exactly and leaves the reported heterogeneity unchanged bit for bit.", "quantifier": "all row-wise models with outputs up to 2^380, datasets up to 2^40 instances, pairs of positions, centerings and fixed orders of summation", "why_tests_cant": "rounding could break the order for rare outputs; the claim is over all of them", "anchors": ["effector/global_effect_pdp.py:PDPBase._fit_feature", "effector/global_effect_pdp.py:PDPBase.eval", "effector/global_effect_pdp.py:pdp_1d_vectorized"]}
{"id": "C117", "title": "In float64, a feature the model uses additively has no heterogeneity and one it ignores has no effect", "statement": "For a model that does not depend on the feature the reported effect and heterogeneity are 0; for a model additive in the feature the centered curve is the component and the heterogeneity is 0. In float64: exactly so for an ignored feature with zero_start; within 2 delta plus the rounding bounds of C115 for additive models with either centering, delta the rounding error of the model itself. Not exactly: a model that always returns 0.1, on three instances, gets an uncentered PDP above 0.1 and a positive heterogeneity, and with zero_integral a curve that is not 0.", "quantifier": "all row-wise models, datasets, limits, positions, centerings and orders of summation", "why_tests_cant": "the bound holds for all outputs; the failures need particular constants", "anchors": ["effector/global_effect_pdp.py:PDPBase._fit_feature", "effector/global_effect_pdp.py:PDPBase.eval", "effector/global_effect_pdp.py:pdp_1d_vectorized"]}
{"id": "C118", "title": "In float64, Regional PDP picks the split that most reduces the spread of the model's ICE curves, up to rounding", "statement": "For RegionalPDP and RegionalDerPDP: the heterogeneity of a region is 1e8 when it has fewer rows than min_points_per_subregion or the feature is constant; otherwise it is a finite non-negative float64 within (5 D + 31) 2^-53 M + 2^-533 of the exact average, over ten positions spread over the region, of the exact standard deviation of the model's outputs with the feature set to that position (M a bound of the outputs, D the longest chain of roundings of an average over the region). Limits taken from the data exclude no row. At every level the chosen split reduces the weighted exact heterogeneity as much as any candidate split, up to a stated rounding term (search_error). If some candidate leaves every subregion at least min_points rows, and 1e8 / (rows + subregions) exceeds 2 M plus that term, the chosen split leaves every subregion at least min_points rows. The reported (important) splits never leave a subregion with fewer than min_points rows provided 1e8 / (rows + subregions) exceeds M plus rounding. The proviso is needed: with a target of 2^40 for one of eight rows RegionalPDP reports a subregion of one row although two are required and other candidates leave at least two on each side.", "quantifier": "all row-wise models, datasets (up to 2^40 rows), features, limits that contain the data, candidate numbers, levels, minimum sizes and orders of summation", "why_tests_cant": "the claim is about every dataset and model, every candidate of every level and every summation order; tests compare a few outputs with a tolerance", "anchors": ["effector/regional_effect_pdp.py:RegionalPDPBase._create_heterogeneity_function", "effector/regional_effect_pdp.py:RegionalPDPBase.fit", "effector/partitioning.py:Regions.single_level_splits", "effector/global_effect_pdp.py:PDPBase.eval"]}
{"id": "C119", "title": "In float64, RegionalALE and RegionalRHALE pick the split that most reduces the accumulated spread of the effect, up to rounding", "statement": "For RegionalALE.fit and RegionalRHALE.fit: the heterogeneity the search uses for a region is 1e8 when it has fewer rows than min_points_per_subregion or no bins can be computed; otherwise it is a finite non-negative float64 within a stated rounding bound of the exact accumulation, from the smallest to the largest value of the feature in the region, of the standard deviations of the effect in the bins. At every level the chosen split reduces the weighted exact heterogeneity as much as any candidate split, up to a stated rounding term, whatever the magnitude of the feature. (Refuted as stated: once the feature reaches 2^27 = 134217728, RegionalALE gives every such region 1e8 and silently reports no subregion, and RegionalRHALE.fit raises ValueError with the default centering=False or silently reports no subregion with centering.)", "quantifier": "all datasets, models or Jacobians, features, bin methods, candidate splits, levels, minimum sizes and orders of summation", "why_tests_cant": "the claim is about every dataset and model, every candidate of every level, every magnitude of the feature and every summation order; tests use small features and compare a few outputs with a tolerance", "anchors": ["effector/regional_effect_ale.py:RegionalALE._create_heterogeneity_function", "effector/regional_effect_ale.py:RegionalRHALE._create_heterogeneity_function", "effector/partitioning.py:Regions.single_level_splits", "effector/global_effect_ale.py:ALEBase.eval", "effector/utils.py:compute_accumulated_effect"]}
{"id": "C120", "title": "In float64, fit of RegionalPDP, RegionalALE and RegionalRHALE returns for finite data", "statement": "For finite data, models with finite values, at least one conditioning feature, one row and one candidate position, no more levels than conditioning features and at most max(nof_splits, cat_limit) values of a categorical conditioning feature, fit returns and does not raise. (Refuted as stated: with cat_limit=0 in the bin method, a subregion in which the feature is constant makes fit raise AssertionError; and a flat effect on ten rows with the minimum region size of ten makes it raise IndexError.)", "quantifier": "all datasets, models or Jacobians, features, bin methods, conditioning features and thresholds, minimum sizes and orders of summation", "why_tests_cant": "termination without an exception has to hold for every dataset and model, and for every subregion and candidate the search meets on the way; tests fit a few datasets", "anchors": ["effector/regional_effect_pdp.py:RegionalPDP.fit", "effector/regional_effect_ale.py:RegionalALE.fit", "effector/regional_effect_ale.py:RegionalRHALE.fit", "effector/partitioning.py:Regions.splits_to_df", "effector/partitioning.py:Regions.choose_important_splits", "effector/global_effect_ale.py:ALEBase.eval"]}
{"id": "C121", "title": "In float64, expressing the output in a unit that is a power of two smaller or larger rescales PDP, d-PDP and their heterogeneity exactly", "statement": "If one model returns exactly 2^k times what another returns, then PDP.eval and DerPDP.eval (central differences) of the first return, at every position and with every centering, exactly 2^k times the curve and 2^k times the heterogeneity of the second, and so does the heterogeneity RegionalPDP gives to a subregion with enough rows: no rounding happens differently, whatever the order of summation. Outputs that are 0 or between 2^-80 (2^-40 for d-PDP) and 2^250 (2^200) in size, and |k| <= 100, exclude underflow and overflow.", "quantifier": "all models, datasets, features, positions, centerings, numbers of centering points, orders of summation and powers of two", "why_tests_cant": "bit-for-bit equality up to the factor has to hold for every model and dataset and every order in which numpy adds; tests compare a few curves with a tolerance", "anchors": ["effector/global_effect_pdp.py:PDPBase._predict", "effector/global_effect_pdp.py:PDPBase._fit_feature", "effector/global_effect_pdp.py:PDPBase.eval", "effector/global_effect_pdp.py:DerPDP", "effector/regional_effect_pdp.py:RegionalPDP.fit"]}
{"id": "C122", "title": "In float64, negating the model negates every curve and changes neither heterogeneity, bins nor subregions", "statement": "If one model returns exactly the negative of what another returns (or a Jacobian is negated), then the fits and evals of ALE, RHALE (any binning; Jacobian given or by finite differences), PDP and DerPDP (Jacobian or central differences), with every centering, raise the same exceptions or return curves that are each other's negatives at every position, and heterogeneities that are bit-for-bit the same numbers; RHALE chooses the same bins; and RegionalPDP, RegionalDerPDP, RegionalALE and RegionalRHALE report the same subregions with the same numbers. Nothing is assumed of the data or the model: NaN, infinities and overflow are included; only the sign of a zero is left open.", "quantifier": "all models and Jacobians, datasets (with NaN and infinities), features, limits, positions, centerings, binning methods, orders of summation and search parameters", "why_tests_cant": "bit-for-bit symmetry, including the choice of bins and splits by comparisons of rounded numbers, has to hold for every model and dataset; tests compare a few curves with a tolerance", "anchors": ["effector/global_effect_ale.py:ALE", "effector/global_effect_ale.py:RHALE", "effector/global_effect_ale.py:ALEBase.eval", "effector/global_effect_pdp.py:PDPBase.eval", "effector/utils.py:compute_ale_params", "effector/utils.py:compute_jacobian_numerically", "effector/bin_splitting.py", "effector/regional_effect_ale.py", "effector/regional_effect_pdp.py", "effector/partitioning.py"]}
{"id": "C123", "title": "In float64, columns the model does not read, the position of the columns and the batch of positions change no bit", "statement": "If two datasets hold, row by row, the same numbers in the columns a model reads (in any positions, next to any other columns) and the two models give the same answers, then for corresponding features the default axis limits, the fits of ALE and RHALE (bins, effects, variances, or the exception) and the curves and heterogeneities of PDP and DerPDP are the same bit for bit. And eval of ALE, RHALE, PDP and DerPDP is pointwise: a non-empty batch of positions returns exactly when each position alone returns, with the same float64 numbers. Nothing is assumed of the numbers (NaN, infinities, overflow included).", "quantifier": "all models, Jacobians, datasets, placements of columns, features, limits, binnings, centerings, orders of summation and batches of positions", "why_tests_cant": "bit-for-bit equality has to hold for every dataset, placement and batch; tests compare a few curves with a tolerance", "anchors": ["effector/global_effect_ale.py:ALE", "effector/global_effect_ale.py:RHALE", "effector/global_effect_ale.py:ALEBase.eval", "effector/global_effect_pdp.py:PDPBase.eval", "effector/utils.py:compute_local_effects", "effector/utils.py:compute_accumulated_effect", "effector/helpers.py:axis_limits_from_data"]}
{"id": "C124", "title": "In float64, where the model is asked: ALE at the two limits of the instance's own bin, PDP at the positions, the Jacobian eps beyond the instance", "statement": "A float64 effect depends on the model only through its answers at a stated set of rows. ALE asks, for every instance between the axis limits, at two rows only: the instance with its feature moved to two consecutive bin limits between which its value lies (one limit at most the value, the other greater). Two models that agree at these rows give the same bins, effects and variances, bit for bit. The numerical Jacobian asks at the instances and at eps beyond them along one feature at a time. PDP asks at the positions evaluated and the positions used for centering, combined with every instance between the limits; two models that agree there give the same curve and heterogeneity, or the same exception. NaN, infinities and overflow included.", "quantifier": "all pairs of row-wise models, datasets, limits, binnings, features, centerings and positions", "why_tests_cant": "it is a statement about pairs of models that differ everywhere else, and about every rounding of a bin limit", "anchors": ["effector/utils.py:compute_local_effects", "effector/utils.py:compute_jacobian_numerically", "effector/global_effect_ale.py:ALE._fit_feature", "effector/global_effect_pdp.py:PDPBase.eval"]}
{"id": "C125", "title": "In float64, columns that are neither read nor conditioned on, and the position of the columns, change no subregion", "statement": "Take two datasets that hold, row by row, the same numbers in the columns the model reads and the columns the search may condition on (in any positions, next to any other columns, which may hold NaN or infinities), two models that give the same answers on them, and the same list of conditioning features in the same order. Then RegionalPDP, RegionalDerPDP, RegionalALE and RegionalRHALE find the same subregions: the same splits, on the corresponding columns, with the same positions, populations and heterogeneities bit for bit, or the same exception; and every subregion holds the same instances. If no column moves, the results are equal.", "quantifier": "all models, Jacobians, datasets, placements of columns, limits, binnings, centerings, thresholds, depths and orders of summation", "why_tests_cant": "equality bit for bit of whole searches has to hold for every dataset and every content of the unread columns, NaN included; tests compare one tree", "anchors": ["effector/partitioning.py:Regions.search_all_splits", "effector/partitioning.py:Regions.choose_important_splits", "effector/partitioning.py:Regions.split_dataset", "effector/regional_effect_pdp.py:RegionalPDPBase", "effector/regional_effect_ale.py:RegionalALE", "effector/regional_effect_ale.py:RegionalRHALE"]}
{"id": "C126", "title": "In float64, a deeper search extends the shallower one and stricter thresholds only prune", "statement": "Let a search for subregions with at most n' levels return. Then with n <= n' levels it returns too and reports exactly the first n of the splits it reported with n' (same features, positions, populations and heterogeneities, bit for bit). Raising the required relative drop (heter_pcg_drop_thres) or heter_small_enough reports an initial part of the splits reported before; all three changes together never add or alter a split. A NaN threshold reports no split. Nothing is assumed of the heterogeneity function, which may raise or return NaN or infinities.", "quantifier": "all heterogeneity functions, datasets, conditioning features and types, depths, thresholds and orders of summation", "why_tests_cant": "it relates pairs of runs with different options for every dataset and heterogeneity, NaN included", "anchors": ["effector/partitioning.py:Regions.search_all_splits", "effector/partitioning.py:Regions.choose_important_splits", "effector/regional_effect.py:RegionalEffectBase._fit_feature"]}
{"id": "C127", "title": "In float64, recoding the feature by any order-preserving code only relabels the axis of its PDP", "statement": "Recode one feature by any function that keeps the order of the axis limits and of the feature's values (another unit, a logarithm, ranks), recode the limits and the positions the same way, and let the model answer at a recoded position what it answered at the position. Then PDP averages the same instances and returns exactly the same curve and heterogeneity, position by position, or the same exception, without centering and with zero_start. With zero_integral the same holds when the recoded centering points are the centering points between the recoded limits (true for doubling, false for squaring). NaN, infinities and overflow included.", "quantifier": "all codes, models, datasets, limits, positions, numbers of centering points and orders of summation", "why_tests_cant": "equality bit for bit of pairs of runs has to hold for every code and model", "anchors": ["effector/global_effect_pdp.py:PDPBase.eval", "effector/global_effect_pdp.py:PDPBase._predict", "effector/global_effect_pdp.py:PDPBase._fit_feature"]}
{"id": "C128", "title": "In float64, recoding the labels of a categorical feature by an order-preserving code changes no subregion but the labels in its splits", "statement": "Recode the labels of a categorical conditioning feature (not the feature of interest) by any code that keeps the comparisons between the labels of the data, and let the model answer on a recoded row what it answered on the row. Then RegionalPDP, RegionalDerPDP, RegionalALE and RegionalRHALE raise the same exception, or find the same splits: same features, populations, heterogeneities and drops, bit for bit, the position of a split on that feature being the code of the former position, and the parts hold the same instances. Keeping labels apart is not enough: a code that exchanges two labels can change which of two equally good splits is returned. NaN, infinities and overflow included.", "quantifier": "all codes, datasets, models, categorical features, centering options, binning methods and search parameters", "why_tests_cant": "equality bit for bit of pairs of searches has to hold for every code, dataset and model", "anchors": ["effector/partitioning.py:Regions.search_all_splits", "effector/partitioning.py:Regions.single_level_splits", "effector/partitioning.py:Regions.split_dataset", "effector/partitioning.py:Regions.find_positions_cat", "effector/regional_effect_pdp.py:RegionalPDPBase._create_heterogeneity_function", "effector/regional_effect_ale.py:RegionalALE._create_heterogeneity_function", "effector/regional_effect_ale.py:RegionalRHALE._create_heterogeneity_function"]}
