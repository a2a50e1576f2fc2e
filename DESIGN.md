# Formal model of givasile/effector in Rocq (Coq 8.16.1)

The plan below was written before the proofs (C01-C53) and extended with each later property; MANIFEST.json is
the authoritative status of each property, COVERAGE.md (generated by `tools/coverage.py`) lists for every function of
`/repo/effector` the model definitions that cite it.

## 1. Approach

* The model is shallow: each Python function becomes a total, computable Gallina function that
  follows it branch by branch, and every definition cites the file and lines it models.
* **Numbers** are `Qc` (Coq's canonical rationals): exact, computable, Leibniz equality, no axioms.
  Finite binary64 values are rationals, so every finite numpy array is representable; *rounding* is
  not modelled there. A second, smaller model (FloatModel.v, C98-C128) repeats the bin computations in IEEE-754 binary64
  with Flocq's executable operations, to say what rounding changes.  NaN that the code itself creates (empty bins, `0/0` in cost functions) is modelled
  as `None` in `option Qc` with numpy's comparison/argmin rules.  NaN / inf coming from user data is
  outside the model; where numpy would produce a NaN or an infinity that is not tracked, the model raises the
  pseudo-exception `NonFinite`, so that no theorem silently treats it as a number.
* **Exceptions** are values: `res A := Ok a | Raise e` with the Python exception class.  Stateful
  classes are explicit state records with methods `state -> ... -> state * res out` so that the
  state left behind by a raising call is visible.
* **Black boxes** (the user's model and Jacobian, `np.random.choice`, `shap.Explainer`,
  `scipy.UnivariateSpline`, `scipy.integrate.quad`, string formatting of floats, `sqrt`) are parameters of the definitions,
  constrained only by explicit hypotheses in theorem statements; each hypothesis is shown satisfiable.
* numpy primitives (`digitize`, `bincount`, `linspace`, `interp`, `unique`, `cumsum`, `argmin`,
  `nanmin`, `allclose`, fancy indexing with negative indices and IndexError, broadcasting checks)
  are modelled in `Numpy.v` from their documented behaviour.
* `Spec.v` holds the small independent specifications used in the theorem statements
  (set of members of a bin, mean, population variance, integral of a step function, ...).
* `Prop_*.v` files contain only property theorems, closed by `exact`, followed by `Print Assumptions`,
  next to `Example`s showing that the hypotheses are met by concrete non-trivial data.

If a property of `properties.jsonl` is false of the code, the file contains `..._refuted` (a witness
evaluated by the kernel) plus the exactly-guarded positive statement (suffix `_partial` when weaker
than the English property), and MANIFEST.json says `partial` with a note starting with REFUTED.

## 2. Per-property plan

| id | model | proof idea |
|----|-------|-----------|
| C01 | utils.compute_bin_effect/digitize/bincount | digitize on a sorted list = count of limits <= x; bin k iff l_k <= x < l_{k+1}; counts sum to N; ValueError branch |
| C02 | compute_bin_effect | bincount with weights = sum over filter; mean spec; weighted sum |
| C03 | compute_bin_variance | same, variance spec, sum of squares argument |
| C04 | fill_nans + np.interp | interp at index positions; spec by nearest valid neighbours |
| C05 | compute_accumulated_effect | induction over bins against spec  sum_k e_k (clamp(x,l_k,l_k+1) - l_k); refuted for x > 1e8 |
| C06 | same | corollaries of C05 |
| C07 | compute_local_effects | per-row spec; refuted (first bin width, in-place EPS); positive guarded theorem |
| C08 | compute_jacobian_numerically | per-entry; affine algebra; dtype branch |
| C09 | get_feature_types | unique length; permutation/duplication invariance |
| C10 | helpers.prep_* | case analysis over a Python value datatype |
| C11 | bin_splitting.Fixed.find | linspace + validity |
| C12 | BinBase._is_categorical | sorted distinct values, midpoints |
| C13 | Greedy.find | invariant of the while loop; the stopping rule: the loop is a walk over grid positions (Walk.v, GreedyRule.v) |
| C14 | DP.find | Bellman optimality by induction over the bin index |
| C15 | DP.find | backtracking gives a monotone path; refuted when real costs reach 1e8; guarded |
| C16 | Fixed.find + compute_bin_effect | refuted by witness; bound that does hold: closed-interval count |
| C17 | find of the three classes | Greedy/DP proved; Fixed refuted |
| C18 | binning_methods.find_limits, RHALE.fit | dispatch by cases; refuted for "dp"/"dynamic" |
| C19 | ALE end-to-end | C07+C02+C05 composed, exact curve incl. the EPS deviation of last bin |
| C20 | ALEBase.eval | state model; linspace midpoints |
| C21 | RHALE end-to-end | bin mean of constants |
| C22 | _eval_unnorm | C03 + C04 non-negativity; refuted for square=True accumulation? decide from model |
| C23 | ALEBase state machine | invariant over all histories |
| C24 | ALE.eval | refuted by witness history |
| C25 | pdp_1d_* | map/concat/reshape algebra for row-wise models |
| C26 | PDPBase.eval | composition with mean/std spec |
| C27 | PDPBase centering | subtraction of per-instance constants |
| C28 | PDPBase | algebra |
| C29 | PDP state machine | refuted with axis_limits; proved when limits cover data |
| C30 | dtype truncation | refuted for ints; proved for floats |
| C31 | PDPBase._predict | algebra of central differences |
| C32 | pdp_nd_* | vectorized proved; loop version raises (refuted) |
| C33 | interaction | refuted: TypeError for every input |
| C34 | ShapDP | oracle spline, stable sort, eval |
| C35 | prep_nof_instances, constructors | oracle choice, alignment |
| C36 | split_dataset | filter/partition lemmas |
| C37 | find_positions_* | linspace interior, unique |
| C38 | single_level_splits | argmax over table |
| C39 | choose_important_splits | takeWhile characterisation |
| C40 | search_all_splits, splits_to_tree | invariant: level lists are complete binary partitions |
| C41 | splits_to_tree | refuted at depth 2, proved at depth 1 |
| C42 | Tree.add_node | name injectivity for prefix-free formatting |
| C43 | labels | refuted at boundary, guarded positive |
| C44 | heterogeneity functions + choose_important | refuted for large scales; guarded positive |
| C45 | DataTransformer | disjointness/cover of masks; inconsistency at boundary |
| C46 | search_all_splits | induction over depth |
| C47 | single_level_splits | refuted; guarded positive |
| C48 | regional state machine | refuted; guarded |
| C49 | RegionalEffectBase.eval | composition |
| C50 | visualization arithmetic | algebra of scaling |
| C51 | utils_integrate | linspace sums |
| C52 | axis_limits_from_data | min/max lemmas |
| C53 | ALE/RHALE fit | refuted (all bins with <= 1 point); characterised |
| C54 | ALE/PDP state machines, points_for_centering | refuted by a history; the number in force characterised |
| C55, C56, C87 | GlobalPDP | algebra of means over permuted / combined rows; relational argument over histories |
| C57 | PDP/ShapDP fit with points_for_centering="all" | every run raises TypeError |
| C58, C60, C67-C69 | Tree navigation, get_level_stats, the printed reports (Report.v) | structural induction over the tree |
| C59 | Regions as a state machine (search / choose / to-tree) | invariant over all call sequences |
| C61, C66 | GlobalShap state machine | refuted with excluding limits; invariant when the limits contain the data |
| C62 | `indices` attribute | refuted for RHALE/ShapDP (overwritten); proved otherwise |
| C63, C65 | plot methods up to the arrays given to matplotlib (VisProofs, RegPlotProofs) | plot = eval on the same grid, any history |
| C64, C84, C90 | constructors | subsample of rows and effects commute with row-wise Jacobians; column selection |
| C70, C79, C83, C86 | heterogeneity functions of regional_effect_*.py, regional fit | end-to-end composition |
| C71-C78, C91 | ALE/RHALE end-to-end against ALESpec.v | refinement to the textbook sums; linearity, order, additivity, monotonicity, units |
| C80 | DataTransformer column names | case analysis over splits |
| C81 | single_level_splits | argmax_first |
| C82 | regional objects on permuted data (RegOrder*.v) | two-run relational invariant over all histories |
| C85 | PDP on the nodes of the tree | weighted mean / law of total variance over the partition |
| C88 | expectation_1D/2D, mean_1d_quad (Quad.v) | quad as oracle with its specification |
| C92 | Tree.rename_nodes (Rename.v): regular expression and str.replace on characters | refuted in three ways; text lemmas for the first level |
| C93 | histories of fit/eval/plot on ALE/RHALE objects (FeatHist.v) | simulation on the entries of one feature; the shared data_effect cache holds at most one value |
| C94 | eval of the five classes (Pointwise.v) | each evaluation function is a map once it succeeds |
| C95 | no new code: two objects, the second with k copies of every instance (Copies.v `copies`) | means and variances are invariant under copies, the binning depends on the set of values only; ALE/RHALE through the C71/C72 definitions; heterogeneity guarded by "no bin with one instance", refuted otherwise |
| C96 | no new code: two objects that differ only in the model (Query.v `asked`, Prop_Query.v `pdp_asked`) | the local effects read the model only at the limits of the bins of the instances; the histories are compared call by call, only the fits that take place have to agree |
| C97 | no new code: two objects whose models differ by at most M at the points asked | means and filled bin effects are non-expansive (Stable.v), step integrals are Lipschitz in the slopes; counterexample for the greedy binning |
| C98 | the bin computations, Fixed.find and ALE._fit_feature once more in binary64 (FloatModel.v, Flocq's executable IEEE-754 operations) | where rounding loses 1e-8: successor/ulp arguments (FloatFacts.v); digitize, bincount and the shapes follow (FloatBins.v, FloatProofs.v) |
| C99 | compute_jacobian_numerically in binary64 | same rounding fact for the zero; half-ulp and relative errors for the bound (FloatJac.v) |
| C100 | np.linspace in binary64 | monotonicity of rounding, relative errors of the three operations (FloatGrid.v) |
| C101 | np.mean over any summation tree and np.bincount's weighted sum, in binary64 | induction on the tree with the factor (1+2^-53)^depth (FloatMean.v) |
| C102 | compute_accumulated_effect and _eval_unnorm in binary64 | induction over the bins: three roundings per bin, gradual underflow (FloatAcc.v) |
| C103 | the same, with centering | monotonicity of every rounding; the partial sum at the end of a bin is the value at its right end |
| C104 | the derivative branch of pdp_1d_(non_)vectorized in binary64, row-wise models | a step below half the spacing is lost; error of the two abscissae (FloatDer.v) |
| C105 | compute_bin_variance, fill_nans and np.interp in binary64 | error of a rounded sum of rounded squares; the variance about the rounded mean = variance + squared error of the mean; sign of each rounded interpolation step (FloatVar.v, FloatFill.v) |
| C106 | compute_ale_params, axis limits, ALE._fit_feature and np.mean in binary64 with NaN inputs | NaN absorbs sums; groups containing a NaN are indistinguishable (FloatNan.v) |
| C107 | BinBase._is_categorical, _bin_valid and Fixed.find in binary64 | the rounded midpoint stays strictly inside a gap of 2^-50 relative width; sorted-unique invariants (FloatCat.v) |
| C108 | ALE._fit_feature, compute_local_effects, compute_ale_params, fill_nans and the evaluation composed, in binary64 | forward error analysis: grid widths (C100) + widening, model differences, quotient, mean (C101), interpolation (an invariant of fill_nans), prefix sums (C102) (FloatLine.v, FloatLine2.v, FloatLine3.v) |
| C109 | Greedy.find in binary64 (FloatAdapt.v), np.var an arbitrary function | loop invariant: the limits so far are grid positions in falling order whose bins are valid; the last merge absorbs into a valid bin; the stopping rule through the same walk (Walk.v, FloatGreedy.v) |
| C110 | compute_jacobian_numerically, RHALE._fit_feature (FloatAdapt.v), compute_ale_params and the evaluation composed, in binary64 | pigeonhole: some bin holds two instances, so no fill_nans fails; C105 bounds the variance; C108/C109 give curve and bins (FloatFit.v) |
| C111 | DP.find, _cost_of_move, _argmatrix_to_limits in binary64 (FloatAdapt.v) | float addition is monotone, so the table holds the smallest float cost over all paths (induction over its columns, FloatDP.v); the grid's last point is within M 2^-49 of hi (FloatDPGrid.v); counterexample by computation |
| C112 | Regions.search_all_splits, single_level_splits, choose_important_splits, find_positions_* in binary64 (FloatRegion.v), np.sum as any order of additions, heter_func any function | argmax and table by induction (FloatRegionProofs.v); forward error of the weighted sums (FloatRegionSum.v); monotonicity of rounding for the acceptance test (FloatRegionTop.v); error of the positions (FloatRegionPos.v) |
| C113 | the same model with NaN | NaN propagates through the weighted sums; argmax returns the first NaN; every comparison with NaN is false; the weighted heterogeneity of empty parts is BIG_M up to rounding (FloatRegionNan.v) |
| C114 | the same model | false: counterexample by computation; with a root heterogeneity of at least 2^-20, an exact drop above -BIG_M by more than the rounding error at the first level, and at the next ones the candidate that repeats the last split loses at most BIG_M/2 (FloatRegionTotal.v) |
| C115 | PDP and d-PDP objects in binary64 (FloatPDP.v): ICE values, norm constants, np.mean and np.std with any fixed order of summation; specification in FloatPDPSpec.v | error of sums, means, squared deviations and of the square root; Minkowski for the standard deviation (FloatPDPMean.v, FloatPDPStd.v, FloatPDPProofs.v) |
| C116 | the same model | rounding is monotone and odd; induction on the order of summation (FloatPDPMore.v) |
| C117 | the same model | zeros stay zeros exactly; additive models through C115; refuted by computation for the constant 0.1 |
| C118 | the heterogeneity function of RegionalPDP/RegionalDerPDP in binary64 (FloatRegionPDP.v), plugged into the binary64 search (FloatRegion.v); exact heterogeneity and exact weighted drop as specification | error of the mean of ten standard deviations, signs of the results, then a stability lemma for the weighted drop (FloatRegionIdeal.v, FloatRegionPDPProofs.v) |
| C119 | the heterogeneity function of RegionalALE/RegionalRHALE in binary64 (FloatRegionALE.v), plugged into the binary64 search (FloatRegion.v); exact accumulation of the bins' standard deviations as specification | error and sign of the accumulation (FloatAcc.v, FloatRegionALEProofs.v); effects that are 0 or at least 2^-240 have variances that are 0 or at least 2^-900 (FloatGrain.v, FloatGood.v, FloatRegionALEGood.v; for the finite differences of RegionalALE: FloatRegionALEDiff.v); then the stability lemma for the weighted drop (FloatRegionIdeal.v); refuted for features that reach 2^27 |
| C120 | the models of C118 and C119 | the search calls heter_func on parts of the data only (guard, FloatRegionGuard.v; FloatRegionExt.v), on which the heterogeneity is a number in [0, 1e8]; a constant feature has no categorical bins; then C114; refuted by two computed examples |
| C121 | the binary64 PDP model (FloatPDP.v) | rounding commutes with 2^k above the subnormal range; numbers that are 0 or at least 2^-80 are multiples of 2^-132, and so are their sums, so that every quotient, deviation and square stays above it (FloatScale.v) |
| C122 | the binary64 models of ALE, RHALE, PDP, the numerical Jacobian and the subregion search | negation commutes with every rounded operation, overflow and NaN included (FloatOpp.v); the relation "negative up to the sign of a zero" is carried through every function of the fits, evals and binnings (FloatOppALE.v, FloatOppAll.v); squares of negatives are equal, so variances, costs, heterogeneities and hence every comparison are the same |
| C123 | the binary64 models of ALE, RHALE and PDP | a relation between rows that fixes the feature and survives replacing it is carried through fit and eval; every array operation over positions is a map (FloatAsk.v) |
| C124 | the binary64 models of ALE, compute_jacobian_numerically and PDP | np.digitize on monotone binary64 edges puts a number between two consecutive edges (FloatEdges.v), so the rows asked are determined |
| C125 | the binary64 search for subregions with the heterogeneities of RegionalPDP, RegionalALE, RegionalRHALE | a relation between rows that fixes the conditioning features is carried through splits, tables and levels (FloatTree.v); heterogeneities agree on related regions by C123's lemmas |
| C126 | the binary64 search for subregions and its pruning | induction over the levels: a level reads neither the depth nor the thresholds; transitivity of float comparisons for the pruning (FloatTune.v) |
| C127 | the binary64 model of PDP | PDP reads the feature only through comparisons with the limits and replaces it by positions (FloatRecode.v) |
| C128 | the binary64 model of the search, with the heterogeneities of RegionalPDP, RegionalALE and RegionalRHALE | labels are only compared: np.unique and the cuts commute with the code, cell by cell of the table of candidates, then level by level (FloatLabel.v); an exchange of two labels that changes the returned split is computed |
| C89 | prep_dale_fit_params / prep_ale_fit_params (Quad.v) | case analysis over the dictionaries |

## 3. Trusted base

* Coq 8.16.1's kernel. Every property theorem is followed by `Print Assumptions`; every one except those of
  Prop_Float.v, Prop_FloatMean.v, Prop_FloatAcc.v, Prop_FloatDer.v, Prop_FloatVar.v, Prop_FloatNan.v, Prop_FloatCat.v, Prop_FloatLine.v, Prop_FloatGreedy.v, Prop_FloatRhale.v, Prop_FloatMid.v, Prop_FloatDP.v, Prop_FloatRegion.v, Prop_FloatRegion2.v, Prop_FloatPDP.v, Prop_FloatRegionPDP.v, Prop_FloatRegionALE.v, Prop_FloatRegionALE2.v, Prop_FloatRegionALE3.v, Prop_FloatRegion3.v, Prop_FloatScale.v, Prop_FloatOpp.v, Prop_FloatAsk.v, Prop_FloatEdges.v, Prop_FloatTree.v, Prop_FloatTune.v, Prop_FloatRecode.v and Prop_FloatLabel.v (C98-C128) prints "Closed under the global context". C98-C128 speak about real numbers and use the standard
  library's axioms of the reals, and no other: `ClassicalDedekindReals.sig_not_dec`, `ClassicalDedekindReals.sig_forall_dec`,
  `FunctionalExtensionality.functional_extensionality_dep`, `Classical_Prop.classic`. Flocq (which adds no axiom of its own)
  supplies the definition of binary64 arithmetic, which is therefore part of what has to be trusted for C98-C128. (The `Coq.ssr.ssrunder.*` constants that
  `vcheck` lists as library axioms are module-type fields of the ssreflect plugin's library, loaded with the standard
  library; no theorem depends on them.)
* The faithfulness of the hand-written model to the Python text, and of `Numpy.v` to numpy's documented behaviour
  (`digitize`, `bincount`, `linspace`, `interp`, `unique`, `argmin`, `nanmin`, `allclose`, indexing, broadcasting
  checks, integer dtype truncation on assignment).
* The specifications: `Spec.v`, `ALESpec.v`, and the small definitions at the head of each `Prop_*.v`.

**Modelled**: every function and method of every module of `effector/` except those listed next; see COVERAGE.md.

**Not modelled**
* floating-point rounding, overflow, and NaN/inf in user data, outside the functions of FloatModel.v (numbers are exact
  rationals everywhere else); the payload of NaNs and floating-point warnings anywhere;
* the drawing itself (matplotlib calls): of each plot function the arrays and labels handed to matplotlib are modelled;
  `BinBase.plot` (bin_splitting.py:135-153), which only draws stored arrays, is not modelled;
* the internals of `shap.Explainer`, `UnivariateSpline`, `scipy.integrate.quad`, `np.random.choice` (oracles);
* abstract methods (`BinBase.find`, `ALEBase._fit_feature`, `GlobalEffectBase.fit/plot/eval`, `RegionalEffectBase.fit`) which only
  raise or return NotImplementedError, and `rename_features` (body `pass`);
* `Node.show` (prints the fields of a node), logging, tqdm, `timeit`, warnings, output printed before an exception;
* threads, processes, pickling, persistence: the code has none.

**Simplifications stated at the definitions**: feature indices are natural numbers (numpy's negative indices are modelled
where the code itself uses them); the user's model is a function (no hidden state) - row-wise (`map g`) only where a theorem
says so; data matrices are rectangular where a theorem says so; the square root is an oracle `rt` used pointwise.

## 4. Testing the theorems

`seeded/LOG.jsonl` records the wrong programs tried (`tools/seed.py` applies an edit to the model in a scratch copy and
rebuilds everything; in the scratch copy only, each broken proof is replaced by a hole, and a property theorem counts as
failed when it rests on a hole); each entry lists the theorems that no longer prove, and those tightened as a consequence.
