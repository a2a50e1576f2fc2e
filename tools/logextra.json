{
 "tight": {
  "M624": [
   "C119_heter_partial (no longer assumes that the centering constant is computed)"
  ],
  "M090": [
   "C35_shap_construct (new)"
  ],
  "M096": [
   "C62_overwritten (new)"
  ],
  "M042": [
   "C15_one_bin (now covers max_nof_bins = 1 and nearly equal limits)"
  ],
  "M136": [
   "C83_min_points (new)"
  ],
  "M080": [
   "C25_returned (new)",
   "C32_returned_partial (new)"
  ],
  "M208": [
   "C89_dale, C89_ale (the admitted values are now spelled out in the statement)"
  ],
  "M253": [
   "C63_drawn, C70_ale (the binning each string names is now spelled out in the statement)"
  ],
  "M449": [
   "C103_midpoints (new)"
  ],
  "M509": [
   "C109_single (new)"
  ],
  "M514": [
   "C13_rule, C109_rule (new: the stopping rule)"
  ]
 },
 "note": {
  "M093": "not behavioural: the line is never reached, every call raises before it (C33_hindex_refuted)",
  "M094": "not behavioural: the line is never reached, every call raises before it (C33_hindex_refuted)",
  "M096": "not behavioural for np.random.choice: drawing n out of n rows keeps all of them",
  "M267": "not behavioural: trans_scale is never called with square=True in the package",
  "M316": "not behavioural: the line is never reached, every REPID evaluation raises before it (C33_repid_refuted)",
  "M317": "not behavioural: the line is never reached, every REPID evaluation raises before it (C33_repid_refuted)"
 },
 "cl": {}
}