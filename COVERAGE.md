# Coverage: functions of /repo/effector and the model definitions citing their lines

Generated by tools/coverage.py from the citation comments of the model files.


## bin_splitting.py

| function | lines | model definitions |
|---|---|---|
| BinBase.__init__ | 12-40 | Binning.lims, Binning.binner, Binning.make_binner |
| BinBase._bin_cost | 42-57 | Binning.bin_cost, FloatAdapt.bin_cost64, Numpy.lift2, Numpy.np_var |
| BinBase._bin_valid | 59-73 | Binning.bin_valid, FloatModel.bin_valid64 |
| BinBase._none_valid_binning | 75-88 | Binning.none_valid_binning, FloatAdapt.none_valid64, FloatModel.uinsert64, FloatModel.bin_valid64, Numpy.uinsert |
| BinBase._only_one_bin_possible | 90-103 | Binning.only_one_bin_possible, FloatAdapt.allclose64, FloatAdapt.only_one64, Numpy.allclose |
| BinBase._is_categorical | 105-128 | Binning.cat_limits, Binning.is_categorical, FloatCat.below_all, FloatModel.uinsert64, FloatModel.cat_limits64, Numpy.uinsert |
| BinBase.find | 130-133 | — (see DESIGN.md, Not modelled) |
| BinBase.plot | 135-153 | — (see DESIGN.md, Not modelled) |
| Greedy.__init__ | 160-165 | Binning.greedy_find |
| Greedy.find | 167-244 | Binning.close_bin, Binning.greedy_loop, Binning.greedy_merge, Binning.greedy_find, FloatAdapt.close64, FloatAdapt.greedy_loop64, FloatAdapt.greedy_merge64, FloatAdapt.greedy_find64, Numpy.linspace, Prop_Binning.ex14o |
| DP.__init__ | 249-250 | Binning.dp_find |
| DP._index_to_position | 252-256 | Binning.position, FloatAdapt.position64 |
| DP._cost_of_move | 258-273 | Binning.cost_of_move, FloatAdapt.cost64 |
| DP._argmatrix_to_limits | 275-300 | Binning.backtrack, Binning.dedup, Binning.dp_path, Binning.dp_limits, FloatAdapt.position64, FloatAdapt.backtrack64, FloatAdapt.dedup64, FloatAdapt.dp_path64, FloatAdapt.dp_limits64 |
| DP.find | 302-355 | Binning.dp_column, Binning.dp_columns, Binning.dp_path, Binning.dp_find, FloatAdapt.dp_column64, FloatAdapt.dp_path64, FloatAdapt.dp_find64, Numpy.argmin_from |
| Fixed.__init__ | 359-360 | Binning.fixed_find |
| Fixed.find | 362-378 | Binning.fixed_find, FloatModel.linspace64, FloatModel.fixed_find64, Numpy.linspace |

## binning_methods.py

| function | lines | model definitions |
|---|---|---|
| DynamicProgramming.__init__ | 7-15 | Binning.method, Binning.Fixed_default, FloatAdapt.binning64 |
| Greedy.__init__ | 19-28 | Binning.method, Binning.Fixed_default, FloatAdapt.binning64 |
| Fixed.__init__ | 32-39 | Binning.method, Binning.Fixed_default, FloatAdapt.binning64 |
| find_limits | 42-94 | Binning.find_limits_b, FloatAdapt.binning64, FloatAdapt.find64 |

## global_effect.py

| function | lines | model definitions |
|---|---|---|
| GlobalEffectBase.__init__ | 10-89 | GlobalALE.config, GlobalALE.construct, GlobalALE.fresh, GlobalPDP.pconfig, GlobalPDP.pstate, GlobalPDP.pconstruct, GlobalPDP.pts_of, GlobalPDP.default_pts, GlobalShap.sconfig, GlobalShap.sconstruct, Indices.base_select, Vis.avg_line |
| GlobalEffectBase.fit | 92-98 | — (see DESIGN.md, Not modelled) |
| GlobalEffectBase.plot | 101-109 | — (see DESIGN.md, Not modelled) |
| GlobalEffectBase.refit | 111-120 | GlobalALE.refit, GlobalPDP.prefit, GlobalShap.srefit |
| GlobalEffectBase.eval | 123-166 | GlobalShap.spts_of |

## global_effect_ale.py

| function | lines | model definitions |
|---|---|---|
| ALEBase.__init__ | 15-36 | GlobalALE.construct |
| ALEBase._fit_feature | 39-43 | — (see DESIGN.md, Not modelled) |
| ALEBase.fit | 46-49 | — (see DESIGN.md, Not modelled) |
| ALEBase._compute_norm_const | 51-68 | FloatModel.norm_start64, FloatRegionALE.norm_const64, GlobalALE.compute_norm_const |
| ALEBase._fit_loop | 70-88 | GlobalALE.fit_one |
| ALEBase._eval_unnorm | 90-105 | FloatModel.eval_unnorm64, FloatOppAll.ale_eval64, FloatRegionALE.eval_std64, GlobalALE.eval_unnorm |
| ALEBase.eval | 107-157 | FloatModel.eval64, FloatOppAll.ale_eval64, FloatRegionALE.eval_heter64, GlobalALE.eval_unnorm, GlobalALE.eval_fitted, GlobalALE.eval |
| ALEBase.plot | 159-235 | Vis.scaling, Vis.avg_line, Vis.aplot |
| ALE.__init__ | 239-307 | Indices.effect_class |
| ALE._fit_feature | 309-348 | FloatModel.in_range64, FloatModel.ale_fit_feature64, GlobalALE.in_range, GlobalALE.ale_fit_feature |
| ALE.fit | 350-380 | GlobalALE.method_allowed, GlobalALE.fit, GlobalALE.default_method |
| RHALE.__init__ | 384-471 | GlobalALE.kind, GlobalALE.config, GlobalALE.construct, Indices.effect_class |
| RHALE.compile | 473-479 | FloatAdapt.rhale_fit_feature64, GlobalALE.compile |
| RHALE._fit_feature | 481-518 | FloatAdapt.rhale_fit_feature64, GlobalALE.in_range, GlobalALE.rhale_fit_feature |
| RHALE.fit | 520-560 | GlobalALE.fit, GlobalALE.default_method |

## global_effect_pdp.py

| function | lines | model definitions |
|---|---|---|
| PDPBase.__init__ | 12-34 | GlobalPDP.pconstruct, Indices.effect_class |
| PDPBase._predict | 36-47 | FloatPDP.ice64, FloatPDP.predict64, GlobalPDP.predict |
| PDPBase._fit_feature | 49-77 | FloatPDP.mean64, FloatPDP.kept64, FloatPDP.norm_const64, GlobalPDP.pfit_feature |
| PDPBase.fit | 79-122 | GlobalPDP.pfit_one, GlobalPDP.pfit |
| PDPBase.eval | 124-189 | FloatPDP.mean64, FloatPDP.std64, FloatPDP.centered64, FloatPDP.pdp_eval64, GlobalPDP.peval, Interaction.sig_pdp_eval |
| PDPBase.plot | 191-261 | Vis.scaling, Vis.avg_line, Vis.pplot |
| PDP.__init__ | 265-334 | GlobalPDP.pconstruct |
| DerPDP.__init__ | 338-414 | GlobalPDP.pconstruct |
| pdp_1d_non_vectorized | 417-493 | FloatDer.H64, FloatDer.HH64, FloatDer.ice_derivatives64, FloatPDP.ice64, GlobalPDP.call_model, GlobalPDP.assign_col, GlobalPDP.STEP, GlobalPDP.stack_rows, GlobalPDP.pdp_1d_non_vectorized, GlobalPDP.row_means, GlobalPDP.returned, Prop_FloatMean.pdp_outputs64 |
| pdp_1d_vectorized | 496-578 | FloatDer.H64, FloatDer.HH64, FloatPDP.ice64, GlobalPDP.call_model, GlobalPDP.STEP, GlobalPDP.tensor, GlobalPDP.pdp_1d_vectorized, GlobalPDP.row_means, Interaction.sig_pdp_1d_vectorized, Prop_FloatMean.pdp_outputs64 |
| pdp_nd_non_vectorized | 582-637 | GlobalPDP.pdp_nd_non_vectorized |
| pdp_nd_vectorized | 641-699 | GlobalPDP.assign_features, GlobalPDP.pdp_nd_matrix, GlobalPDP.pdp_nd, Interaction.sig_pdp_nd_vectorized |

## global_effect_shap.py

| function | lines | model definitions |
|---|---|---|
| ShapDP.__init__ | 12-95 | GlobalShap.sconstruct, Indices.effect_class |
| ShapDP._fit_feature | 97-146 | GlobalShap.trapz_from, GlobalShap.fitted_shap, GlobalShap.snorm, GlobalShap.sfit_feature |
| ShapDP.fit | 148-200 | GlobalShap.sfit_one, GlobalShap.seval |
| ShapDP.eval | 202-248 | GlobalShap.seval_fitted, GlobalShap.seval |
| ShapDP.plot | 250-334 | Vis.scaling, Vis.avg_line, Vis.scalable, Vis.splot |

## helpers.py

| function | lines | model definitions |
|---|---|---|
| prep_features | 10-16 | GlobalALE.fit, Helpers.prep_features |
| prep_centering | 19-27 | GlobalALE.cent, Helpers.prep_centering |
| prep_confidence_interval | 30-37 | Helpers.prep_confidence_interval |
| axis_limits_from_data | 40-47 | FloatModel.axis_limits64, Helpers.axis_limits_from_data, Numpy.np_min |
| prep_dale_fit_params | 50-74 | Quad.prep_dale_fit_params |
| prep_ale_fit_params | 77-82 | Quad.prep_ale_fit_params |
| prep_nof_instances | 85-107 | Helpers.prep_nof_instances |
| get_feature_names | 110-112 | Helpers.nat_to_string |
| prep_avg_output | 115-118 | Helpers.prep_avg_output |
| drop_points_outside_axis_limits | 121-125 | Helpers.drop_points_outside |

## interaction.py

| function | lines | model definitions |
|---|---|---|
| HIndex.__init__ | 17-38 | Interaction.hobj |
| HIndex.fit | 40-57 | Interaction.pair_loop, Interaction.matrix_loop, Interaction.hfit |
| HIndex.plot | 59-70 | Interaction.hplot |
| HIndex.eval_pairwise | 72-99 | Interaction.pairwise_value, Interaction.eval_pairwise |
| HIndex.eval_one_vs_all | 101-114 | Interaction.one_vs_all_value |
| HIndex._pdp_1d | 116-120 | Interaction.h_pdp_1d |
| HIndex._pdp_2d | 122-127 | Interaction.h_pdp_nd |
| HIndex._pdp_minus_1d | 129-136 | Interaction.h_pdp_nd |
| HIndex._plot_interaction_matrix | 138-157 | Interaction.empty_symbol |
| HIndex._plot_one_vs_all_matrix | 159-167 | Interaction.h_bars |
| REPID.__init__ | 175-189 | Interaction.repid |
| REPID.fit | 191-196 | Interaction.qstate |
| REPID.eval_one_vs_all | 198-216 | Interaction.repid, Interaction.repid_value |
| REPID.plot | 218-229 | Interaction.repid_plot |

## partitioning.py

| function | lines | model definitions |
|---|---|---|
| Regions.__init__ | 12-73 | FloatRegion.regions64, Partition.conditioning, Partition.regions, Partition.regions_init |
| Regions.search_all_splits | 75-139 | FloatRegion.split_all64, FloatRegion.search_levels64, FloatRegion.search64, Partition.heter_func, Partition.split_all, Partition.split_all_jac, Partition.root, Partition.search_levels, Partition.search_all_splits, Partition.rstep |
| Regions.single_level_splits | 141-267 | FloatRegion.split_all64, FloatRegion.positions64, FloatRegion.weights64, FloatRegion.drops64, FloatRegion.score64, FloatRegion.evaluate64, FloatRegion.width64, FloatRegion.table64, FloatRegion.flat_drops64, FloatRegion.argmax_from64, FloatRegion.split64, FloatRegion.single_level64, Partition.split_all, Partition.split_all_jac, Partition.sub_heters, Partition.weights, Partition.score, Partition.evaluate_split, Partition.split, Partition.positions, Partition.width, Partition.table_row, Partition.single_level_splits |
| Regions.choose_important_splits | 269-308 | FloatRegion.valid64, FloatRegion.valid_prefix64, FloatRegion.choose64, Partition.drop_exceeds, Partition.choose_important_splits, Partition.rstep |
| Regions.split_dataset | 310-325 | FloatRegion.row64, FloatRegion.goes_left64, Partition.mask_rows, Partition.split_dataset |
| Regions.find_positions_cat | 327-328 | FloatRegion.find_positions_cat64, Partition.find_positions_cat |
| Regions.find_positions_cont | 330-332 | FloatRegion.find_positions_cont64, Partition.find_positions_cont |
| Regions.flatten_list | 334-335 | Partition.flatten_list |
| Regions.splits_to_tree | 337-439 | Partition.comparison, Partition.label, Partition.level_state, Partition.add_level_node, Partition.add_levels, Partition.splits_to_tree |
| Node.__init__ | 443-459 | Partition.comparison |
| Node.show | 461-476 | — (see DESIGN.md, Not modelled) |
| Tree.__init__ | 480-482 | Partition.comparison |
| Tree.rename_nodes | 484-488 | Prop_Rename.feature_name, Rename.text, Rename.set_name |
| Tree._rename_node | 490-502 | Prop_Rename.feature_name, Rename.text, Rename.ops, Rename.finditer, Rename.rename_node |
| Tree.add_node | 504-514 | Partition.add_node |
| Tree.get_node | 516-522 | Partition.get_node |
| Tree.get_level_nodes | 524-529 | Partition.get_level_nodes |
| Tree.get_root | 531-538 | Partition.get_root |
| Tree.get_children | 540-546 | Partition.get_children |
| Tree.get_level_stats | 548-556 | Partition.get_level_stats |
| Tree.show_full_tree | 558-566 | Report.printed, Report.show_below |
| Tree.show_level_stats | 568-577 | Report.printed, Report.stats_loop |
| DataTransformer.__init__ | 581-582 | Partition.dsplit |
| DataTransformer.transform | 584-667 | Partition.dsplit, Partition.transform_row, Transformer.name_part, Transformer.new_columns |
| rename_features | 670-671 | — (see DESIGN.md, Not modelled) |

## regional_effect.py

| function | lines | model definitions |
|---|---|---|
| RegionalEffectBase.__init__ | 20-86 | FloatRegionPDP.pdpheter64, Indices.regional_built, Regional.rconfig, Regional.rconstruct |
| RegionalEffectBase._fit_feature | 88-132 | Regional.partition_of |
| RegionalEffectBase.refit | 134-136 | Regional.rrefit |
| RegionalEffectBase.get_node_info | 138-157 | Regional.node_info |
| RegionalEffectBase._create_fe_object | 159-171 | Regional.fe_eval |
| RegionalEffectBase.eval | 173-200 | Regional.reval |
| RegionalEffectBase.fit | 202-203 | — (see DESIGN.md, Not modelled) |
| RegionalEffectBase.plot | 205-232 | RegPlot.gfigure, RegPlot.drawn_figure, Regional.store_scaled, Regional.drawn_curve, Regional.rplot |
| RegionalEffectBase.show_partitioning | 234-260 | Report.shown_tree, Report.partitioning_report, Report.show_partitioning |
| RegionalEffectBase.describe_subregions | 262-319 | Report.printed, Report.partitioning_report, Report.show_partitioning, Report.describe_level, Report.describe_feature, Report.describe_subregions |

## regional_effect_ale.py

| function | lines | model definitions |
|---|---|---|
| RegionalRHALE.__init__ | 17-62 | Regional.initial_effects |
| RegionalRHALE._create_heterogeneity_function | 64-83 | FloatRegionALE.region_rhale64, FloatRegionALE.ale_heter64, Regional.heter_ale, Report.quotient |
| RegionalRHALE.fit | 85-145 | Regional.fitopts, Regional.rfit_loop |
| RegionalRHALE.plot | 147-174 | RegPlot.gfigure, RegPlot.drawn_figure, Regional.store_scaled, Regional.drawn_curve, Regional.rplot |
| RegionalALE.__init__ | 178-213 | Regional.rconstruct |
| RegionalALE._create_heterogeneity_function | 215-235 | FloatRegionALE.region_ale64, FloatRegionALE.ale_heter64, Regional.heter_ale, Report.quotient |
| RegionalALE.fit | 237-293 | Regional.fitopts, Regional.rfit_loop |
| RegionalALE.plot | 295-322 | RegPlot.gfigure, RegPlot.drawn_figure, Regional.store_scaled, Regional.drawn_curve, Regional.rplot |
| prep_binning_method | 325-335 | Regional.prep_binning_method |

## regional_effect_pdp.py

| function | lines | model definitions |
|---|---|---|
| RegionalPDPBase.__init__ | 12-36 | Regional.rconstruct |
| RegionalPDPBase._create_heterogeneity_function | 38-63 | FloatRegionPDP.region_pdp64, FloatRegionPDP.region_points64, FloatRegionPDP.pdp_heter64, Regional.heter_pdp, Report.quotient |
| RegionalPDPBase.fit | 65-109 | Regional.fitopts, Regional.rfit_loop |
| RegionalPDP.__init__ | 115-136 | Regional.rconstruct |
| RegionalDerPDP.__init__ | 140-162 | Regional.rconstruct |

## regional_effect_shap.py

| function | lines | model definitions |
|---|---|---|
| RegionalShapDP.__init__ | 13-76 | Regional.rconstruct |
| RegionalShapDP._create_heterogeneity_function | 78-92 | Regional.heter_shap, Report.quotient |
| RegionalShapDP.fit | 94-153 | Regional.fitopts, Regional.rfit_loop |

## utils.py

| function | lines | model definitions |
|---|---|---|
| compute_local_effects | 10-64 | FloatModel.fmin, FloatModel.mono_incr64, FloatModel.widen64, FloatModel.compute_local_effects64, Numpy.take, Numpy.mono_incr, Numpy.np_min, Utils.set_col, Utils.compute_local_effects |
| filter_points_in_bin | 67-104 | FloatAdapt.selected64, FloatModel.bin_valid64, Utils.closed_in |
| compute_bin_effect | 107-160 | FloatModel.mono_incr64, FloatModel.fsum, FloatModel.widen64, FloatModel.bin_indices64, FloatModel.divide_where64, FloatModel.compute_bin_effect64, Numpy.lift2, Numpy.mono_incr, Numpy.zmax0, Utils.bin_indices, Utils.divide_where, Utils.compute_bin_effect |
| compute_bin_variance | 163-244 | FloatGrain.grain, FloatModel.mono_incr64, FloatModel.fsum, FloatModel.widen64, FloatModel.bin_indices64, FloatModel.divide_where64, FloatModel.compute_bin_variance64, FloatVar.sqdev, Numpy.lift2, Numpy.getz, Numpy.mono_incr, Numpy.zmax0, Utils.bin_indices, Utils.divide_where, Utils.compute_bin_variance |
| fill_nans | 247-276 | FloatFill.moderate, FloatModel.interp_step64, FloatModel.valid_points64, Numpy.lift2, Numpy.interp_from, Prop_Utils.None, Utils.valid_points |
| compute_accumulated_effect | 279-364 | FloatAcc.sumR, FloatModel.mono_incr64, FloatModel.cumsum_from64, FloatModel.compute_accumulated_effect64, Numpy.take, Numpy.mono_incr, Numpy.cumsum_from, Utils.compute_accumulated_effect |
| compute_ale_params | 367-419 | FloatModel.params64, FloatModel.compute_ale_params64, Prop_Utils.ex_xs, Utils.ale_params, Utils.diffs, Utils.compute_ale_params |
| get_feature_types | 422-442 | Numpy.uinsert, Utils.ftype |
| compute_jacobian_numerically | 445-479 | FloatModel.compute_jacobian64, GlobalALE.compile, Utils.add_col, Utils.compute_jacobian_numerically |

## utils_integrate.py

| function | lines | model definitions |
|---|---|---|
| integrate_1d_quad | 5-18 | Quad.integrate_1d_quad |
| integrate_1d_linspace | 21-31 | Integrate.integrate_1d_linspace, Numpy.linspace, Numpy.midpoints |
| mean_1d_linspace | 34-45 | FloatModel.half64, FloatRegionALE.norm_const64, GlobalALE.compute_norm_const, Integrate.mean_1d_linspace, Numpy.linspace, Numpy.midpoints |
| expectation_1D | 48-66 | GlobalALE.compute_norm_const, Quad.expectation_1D |
| expecation_2D | 69-100 | FloatRegionALE.norm_const64, Quad.expecation_2D |

## visualization.py

| function | lines | model definitions |
|---|---|---|
| trans_affine | 10-11 | Vis.trans_affine |
| trans_scale | 14-16 | Vis.trans_scale |
| trans_bin | 19-21 | Vis.trans_bin |
| ale_plot | 24-111 | Vis.bin_opt, Vis.curve_points, Vis.ale_plot |
| ale_curve | 114-118 | Vis.ale_bins |
| ale_bins | 121-135 | Vis.ale_bins |
| plot_pdp_ice | 138-233 | Vis.nof_ice_of, Vis.plot_pdp_ice |
| plot_shap | 236-294 | Vis.scalable, Vis.plot_shap |
