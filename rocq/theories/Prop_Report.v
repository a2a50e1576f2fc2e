(** Properties C67-C70: the printed reports of the regional classes (show_partitioning, describe_subregions) and the
    heterogeneities they are made of. [region], [paths], [heterogeneities] are in PartSpec.v; histories [xcall] (fit, eval,
    plot, show_partitioning, describe_subregions in any order) in Report.v. *)
From Verif Require Prop_RegPlot.
From Verif Require Import Base Numpy Spec NumpyFacts Utils UtilsProofs Helpers HelpersProofs Binning LimitsProofs GlobalALE ALEState GlobalPDP PDPProofs GlobalShap
  PartSpec Partition PartProofs PartSearch PartTree PartFacts PartNodes Regional RegProofs RegNodes RegPlotProofs Report ReportProofs HeterProofs Prop_Regional.
Open Scope Qc_scope.
Open Scope list_scope.

(** A scale for every feature, when scales are given. *)
Definition scales_all (c : rconfig) (scale : option (list (Qc * Qc))) : Prop :=
  match scale with None => True | Some sc => (dim (q_data c) <= length sc)%nat end.
(** The heterogeneities of the subregions of a level, weighted by the share of the instances. *)
Definition level_heterogeneity (h : Mat -> option Mat -> res Qc) (X : Mat) (E : option Mat) (cs : list cond) (l : nat) (v : Qc) : Prop :=
  exists hs, heterogeneities h X E cs (paths l) hs /\
    v = sumq (map (fun q => qn (length (region X cs (fst q))) / qn (length X) * snd q) (combine (paths l) hs)).
(** [ls] can be read as a tree: the parent of a line is the closest line above that is less indented, and the number of
    the parent of node number k is (k - 1) / 2. *)
Definition readable (ls : list printed) : Prop :=
  forall i a, (0 < i)%nat -> nth_error ls i = Some a ->
  exists k b, (k < i)%nat /\ nth_error ls k = Some b /\ (pr_indent b < pr_indent a)%nat /\
    (forall m e, (k < m < i)%nat -> nth_error ls m = Some e -> (pr_indent a <= pr_indent e)%nat) /\ pr_idx b = ((pr_idx a - 1) / 2)%nat.

Lemma partition_heter x c f o g fd imp : partition_of x c f o = Ok (g, fd, imp) -> heter_of x c f o = Ok (g_heter g).
Proof.
  intros H. unfold partition_of in H. apply bind_ok in H as (h & HH & H). apply bind_ok in H as (g' & HG & H). apply bind_ok in H as (fd' & HS & H). injection H as <- <- <-.
  unfold regions_init in HG. apply bind_ok in HG as (ft & HF & HG). injection HG as <-. exact HH.
Qed.
(** Everything the theorems below need about the tree of a fitted feature. *)
Lemma fitted_tree x c limit ks1 fs o ks2 f (only : bool) scale g r ss imp : wf_reg c -> In f fs -> Forall (fun k => ~ xfits f k) ks2 ->
  snd (rfit x c (xrun x c limit qfresh ks1) fs o) = Ok tt -> partition_of x c f o = Ok (g, Some (r, ss), imp) -> scales_all c scale ->
  let st := xrun x c limit qfresh (ks1 ++ XCall (QFit fs o) :: ks2) in let used := if only then imp else ss in
  let t := tree_to g (x_fmt x) scale (r_heter r) used (length used) in
  wf_regions g /\ search_all_splits g = Ok (Some (r, ss)) /\ imp = choose_important_splits g (Some (r, ss)) /\ g_data g = q_data c /\ g_effect g = q_effects c /\
  g_names g = q_names c /\ (f < dim (q_data c))%nat /\ (1 <= g_min_points g)%nat /\ g_drop_thres g = fo_drop o /\
  splits_to_tree g (x_fmt x) (Some (r, ss)) imp only scale = Ok (Some t) /\
  show_partitioning x c limit st [f] only scale = (st, rmap (fun a => [a]) (report_tree c limit (Some t))) /\
  describe_subregions x c st [f] only scale = (st, rmap (fun a => [a]) (describe_feature c only scale st f)) /\
  exists t1 t2, settled x st f (g, Some (r, ss), imp) t1 t2.
Proof.
  intros [WA WN] HI HN HF HP SC st used t. destruct (after_fit x c limit ks1 fs o ks2 f HI HN HF) as (p & t1 & t2 & P & S0 & Hf & Hm). rewrite HP in P. injection P as <-. fold st in S0.
  destruct (partition_fields _ _ _ _ _ _ _ HP) as (SR & EI & EF & ED & EE & EN & LF & E1 & E2 & E3).
  assert (W : wf_regions g) by (split; [exact LF|rewrite ED, EE; exact WA]).
  assert (NM : named g scale) by (split; [rewrite EF, EN; lia|split; [rewrite ED, EN; exact WN|rewrite ED; exact SC]]).
  pose proof (fun b => search_tree g (x_fmt x) scale r ss W NM SR imp b (or_intror EI)) as T.
  split; [exact W|]. split; [exact SR|]. split; [exact EI|]. split; [exact ED|]. split; [exact EE|]. split; [exact EN|]. split; [exact Hf|]. split; [lia|]. split; [exact E2|].
  split; [exact (T only)|]. split; [apply (show_settled x c limit st f only scale (g, Some (r, ss), imp) t1 t2 (Some t) Hf S0); [exact (T only)|intros _; eexists; exact (T (negb only))]|].
  split; [exact (describe_settled x c st f only scale _ t1 t2 Hf S0)|]. eauto.
Qed.

(** * C67  show_partitioning prints the partition of the latest fit *)
(** Any history, then a fit that includes [f] and succeeds, then any history without a fit of [f]. [t] is the tree whose
    names C42/C43 describe: the pruned one when only_important, with the positions in the names in the scale given. *)
Theorem C67_printed : forall x c limit ks1 fs o ks2 f (only : bool) scale g r ss imp lines stats, wf_reg c -> In f fs ->
  Forall (fun k => ~ xfits f k) ks2 -> snd (rfit x c (xrun x c limit qfresh ks1) fs o) = Ok tt ->
  partition_of x c f o = Ok (g, Some (r, ss), imp) -> scales_all c scale ->
  let st := xrun x c limit qfresh (ks1 ++ XCall (QFit fs o) :: ks2) in
  let used := if only then imp else ss in
  let X := rows (q_data c) in let cs := conditions used in
  snd (show_partitioning x c limit st [f] only scale) = Ok [Some (lines, stats)] ->
  exists t h, splits_to_tree g (x_fmt x) (Some (r, ss)) imp only scale = Ok (Some t) /\ heter_of x c f o = Ok h /\
  length lines = (2 ^ S (length used) - 1)%nat /\
  (* every subregion has exactly one line, with its figures *)
  (forall l j, (l <= length used)%nat -> (j < 2 ^ l)%nat -> let p := nth j (paths l) [] in let k := (2 ^ l - 1 + j)%nat in
     exists i a n, nth_error lines i = Some a /\ pr_idx a = k /\ (forall i' a', nth_error lines i' = Some a' -> pr_idx a' = k -> i' = i) /\
       nth_error t k = Some n /\ pr_name a = n_name n /\ pr_indent a = (2 * l)%nat /\ pr_nof a = length (region X cs p) /\
       pr_weight a = qn (length (region X cs p)) / qn (length X) /\
       h (region X cs p) (option_map (fun e => region_effects X e cs p) (q_effects c)) = Ok (pr_heter a)) /\
  (* and the indentation shows the tree *)
  readable lines.
Proof.
  intros x c limit ks1 fs o ks2 f only scale g r ss imp lines stats W0 HI HN HF HP SC st used X cs HS.
  destruct (fitted_tree x c limit ks1 fs o ks2 f only scale g r ss imp W0 HI HN HF HP SC) as (W & SR & EI & ED & EE & EN & Hf & Hm & _ & T & SH & _). fold st in SH.
  set (t := tree_to g (x_fmt x) scale (r_heter r) (if only then imp else ss) (length (if only then imp else ss))) in *. exists t, (g_heter g).
  split; [exact T|]. split; [exact (partition_heter _ _ _ _ _ _ _ HP)|]. fold used in t.
  assert (EL : lines = pre g (x_fmt x) scale (r_heter r) used (length used) 0 0).
  { rewrite SH in HS. simpl in HS. destruct (show_full_tree limit t) as [ls|e] eqn:ES; [|discriminate]. simpl in HS. destruct (show_level_stats _ t); [|discriminate]. simpl in HS. injection HS as <- _.
    unfold show_full_tree, t in ES. rewrite tree_root in ES. cbn [bind] in ES.
    destruct (Nat.lt_ge_cases (length used) limit) as [LL|LL].
    - rewrite (show_pre g (x_fmt x) scale (r_heter r) used (length used) (length used) 0 0 limit) in ES by (simpl; lia). now injection ES as <-.
    - exfalso. assert (G : forall n k l j ls, (k <= n)%nat -> (l + n = length used)%nat -> (j < 2 ^ l)%nat -> show_below k (tree_to g (x_fmt x) scale (r_heter r) used (length used)) (node_at g (x_fmt x) scale (r_heter r) used l j) = Ok ls -> False).
      { clear. intros n k. revert n. induction k as [|k IH]; intros n l j ls Hk HL Hj H; [discriminate|]. cbn [show_below] in H. rewrite children_of in H by lia. destruct (Nat.ltb_spec l (length used)); [|lia].
        apply bind_ok in H as (q & H & _). cbn [mapM] in H. apply bind_ok in H as (a & H & _). apply (IH (n - 1)%nat (S l) (2 * j)%nat a); [lia|lia|simpl; lia|exact H]. }
      exact (G (length used) limit 0%nat 0%nat ls LL ltac:(lia) ltac:(simpl; lia) ES). }
  pose proof (pre_perm g (x_fmt x) scale (r_heter r) used (length used)) as PM. rewrite <- EL in PM. fold t in PM.
  assert (ND : NoDup (map pr_idx lines)).
  { eapply Permutation_NoDup; [apply Permutation_map, Permutation_sym, PM|]. rewrite map_map. unfold t.
    assert (EX : map (fun n => pr_idx (line_of n)) (tree_to g (x_fmt x) scale (r_heter r) used (length used)) = seq 0 (2 ^ S (length used) - 1)).
    { apply list_ext with 0%nat; [rewrite map_length, seq_length; apply tree_to_length|]. rewrite map_length, tree_to_length. intros k Hk. rewrite nth_seq by exact Hk. simpl plus.
      assert (Hk' : (k < length (tree_to g (x_fmt x) scale (r_heter r) used (length used)))%nat) by now rewrite tree_to_length.
      destruct (nth_error (tree_to g (x_fmt x) scale (r_heter r) used (length used)) k) as [n|] eqn:En; [|apply nth_error_None in En; lia].
      pose proof En as HIn. apply nth_error_In in HIn. apply in_tree_to in HIn as (l' & j' & Hl' & Hj' & ->).
      pose proof (tree_nth g (x_fmt x) scale (r_heter r) used (length used) l' j' Hl' Hj') as HK.
      pose proof (NoDup_map_inv _ _ (tree_to_names g (x_fmt x) scale (r_heter r) used (length used))) as NDt. rewrite NoDup_nth_error in NDt.
      assert (k = (2 ^ l' - 1 + j')%nat) as -> by (apply NDt; [exact Hk'|congruence]).
      rewrite nth_map_in with (d := node_at g (x_fmt x) scale (r_heter r) used l' j') by exact Hk'.
      rewrite (nth_error_nth _ _ _ HK). cbn [line_of pr_idx]. now apply node_at_idx. }
    rewrite EX. apply seq_NoDup. }
  split; [rewrite EL; apply pre_length|]. split.
  - intros l j Hl Hj p k. set (n := node_at g (x_fmt x) scale (r_heter r) used l j).
    assert (HT : nth_error t k = Some n) by (apply tree_nth; assumption).
    assert (HIn : In (line_of n) lines). { eapply Permutation_in; [apply Permutation_sym, PM|]. apply in_map. eapply nth_error_In, HT. }
    apply In_nth_error in HIn as [i Hi]. exists i, (line_of n), n. split; [exact Hi|].
    assert (EX : pr_idx (line_of n) = k) by (cbn [line_of pr_idx]; now apply node_at_idx). split; [exact EX|]. split.
    { intros i' a' Hi' Ea. rewrite NoDup_nth_error in ND. apply ND; [rewrite map_length; apply nth_error_Some; congruence|]. rewrite !nth_error_map, Hi, Hi'. cbn [option_map]. congruence. }
    split; [exact HT|]. split; [reflexivity|]. split; [cbn [line_of pr_indent]; unfold n; rewrite node_at_level; lia|].
    destruct (used_prefix g r ss imp only (or_intror EI)) as (m & E & _). fold used in E. pose proof (search_nonempty g r ss W SR) as NE.
    assert (RG : n_data n = region X cs p). { unfold n. rewrite node_data by exact Hj. rewrite ED. reflexivity. }
    split; [cbn [line_of pr_nof]; rewrite <- RG; unfold n; rewrite E in *; now apply (node_nof g (x_fmt x) scale r ss W SR m)|].
    split; [cbn [line_of pr_weight]; rewrite <- RG; unfold n, X; rewrite <- ED; now apply node_weight|].
    cbn [line_of pr_heter]. rewrite <- RG. unfold n, X. rewrite <- ED, <- EE. unfold cs, conditions. rewrite E in *. now apply (node_heter g (x_fmt x) scale r ss W SR m).
  - pose proof (pre_reads g (x_fmt x) scale (r_heter r) used (length used) (length used) 0 0 ltac:(lia) ltac:(simpl; lia)) as R. rewrite <- EL in R. fold t in R.
    intros i a Hi Ha. destruct (R i a Hi Ha) as (k & b & Hk & Hb & HL & HM & HPa). exists k, b. repeat (split; [assumption|]).
    apply nth_error_In in Ha. eapply Permutation_in in Ha; [|exact PM]. apply in_map_iff in Ha as (n & <- & Hn). apply in_tree_to in Hn as (l & j & Hl & Hj & ->).
    cbn [line_of pr_idx] in HPa |- *. rewrite node_at_idx in HPa |- * by assumption. unfold parent_in in HPa. unfold t in HPa. rewrite tree_nth in HPa by assumption. destruct l as [|l]; [discriminate|].
    change (n_parent (node_at g (x_fmt x) scale (r_heter r) used (S l) j)) with (Some (2 ^ l - 1 + j / 2)%nat) in HPa. injection HPa as <-.
    pose proof (two_pow_pos l). replace (2 ^ S l - 1 + j - 1)%nat with ((2 ^ l - 1) * 2 + j)%nat by (simpl; lia). rewrite Nat.div_add_l by lia. reflexivity.
Qed.
Print Assumptions C67_printed.
(** No splits found: this is what is printed. *)
Theorem C67_no_splits : forall x c limit ks1 fs o ks2 f only scale g imp, In f fs -> Forall (fun k => ~ xfits f k) ks2 ->
  snd (rfit x c (xrun x c limit qfresh ks1) fs o) = Ok tt -> partition_of x c f o = Ok (g, None, imp) ->
  snd (show_partitioning x c limit (xrun x c limit qfresh (ks1 ++ XCall (QFit fs o) :: ks2)) [f] only scale) = Ok [None].
Proof.
  intros x c limit ks1 fs o ks2 f only scale g imp HI HN HF HP. destruct (after_fit x c limit ks1 fs o ks2 f HI HN HF) as (p & t1 & t2 & P & S0 & Hf & Hm). rewrite HP in P. injection P as <-.
  rewrite (show_settled x c limit _ f only scale (g, None, imp) t1 t2 None Hf S0); [reflexivity|reflexivity|intros _; eexists; reflexivity].
Qed.
Print Assumptions C67_no_splits.
(** Several features, from any state: each report is the one a separate call would print (a feature that is not fitted yet
    is fitted with the default options). *)
Theorem C67_features : forall x c limit st fs only scale rs, snd (show_partitioning x c limit st fs only scale) = Ok rs ->
  Forall2 (fun f a => snd (show_partitioning x c limit st [f] only scale) = Ok [a]) fs rs.
Proof. intros x c limit st fs only scale rs H. exact (loop_local x c _ fs (show_local x c limit only scale) st st rs (fun f => or_introl eq_refl) H). Qed.
Print Assumptions C67_features.

(** * C68  Level statistics *)
Theorem C68_levels_partial : forall x c limit ks1 fs o ks2 f (only : bool) scale g r ss imp lines stats, wf_reg c -> In f fs ->
  Forall (fun k => ~ xfits f k) ks2 -> snd (rfit x c (xrun x c limit qfresh ks1) fs o) = Ok tt ->
  partition_of x c f o = Ok (g, Some (r, ss), imp) -> scales_all c scale ->
  let st := xrun x c limit qfresh (ks1 ++ XCall (QFit fs o) :: ks2) in
  let used := if only then imp else ss in
  snd (show_partitioning x c limit st [f] only scale) = Ok [Some (lines, stats)] ->
  exists h, heter_of x c f o = Ok h /\
  let LH := level_heterogeneity h (rows (q_data c)) (q_effects c) (conditions used) in
  length stats = S (length used) /\
  forall l, (l <= length used)%nat -> exists a, nth_error stats l = Some a /\ ll_level a = l /\ LH l (ll_heter a) /\
    match l with
    | O => ll_drop a = None
    | S k => exists u d q, LH k u /\ ll_drop a = Some (d, q) /\ d = u - ll_heter a /\ (u <> 0 -> q = Some (Q2Qc 100 * d / u)) /\ (u = 0 -> q = None)
    end.
Proof.
  intros x c limit ks1 fs o ks2 f only scale g r ss imp lines stats W0 HI HN HF HP SC st used HS.
  destruct (fitted_tree x c limit ks1 fs o ks2 f only scale g r ss imp W0 HI HN HF HP SC) as (W & SR & EI & ED & EE & EN & Hf & Hm & _ & T & SH & _). fold st in SH.
  exists (g_heter g). split; [exact (partition_heter _ _ _ _ _ _ _ HP)|]. intros LH.
  assert (SL : forall l, (l <= length used)%nat -> LH l (stat g (x_fmt x) scale r ss imp only l)).
  { intros l Hl. unfold LH. rewrite <- ED, <- EE. exact (stat_heter g (x_fmt x) scale r ss imp only W SR EI l Hl). }
  rewrite SH in HS. cbn [snd] in HS. destruct (report_tree c limit (Some _)) as [a|e] eqn:RT in HS; [|discriminate]. simpl in HS. injection HS as ->. rename RT into HS. cbn [report_tree] in HS. apply bind_ok in HS as (ls & _ & HS). apply bind_ok in HS as (sts & HS & E2). injection E2 as -> ->.
  unfold show_level_stats in HS. rewrite max_level_tree in HS. cbn [bind] in HS. fold used in HS.
  set (python := python_floats (q_kind c)) in *. set (tt0 := tree_to g (x_fmt x) scale (r_heter r) used (length used)) in *.
  set (H := stat g (x_fmt x) scale r ss imp only) in *.
  assert (GS : forall l, (l <= length used)%nat -> get_level_stats tt0 l = Ok (H l)) by (intros l Hl; exact (level_stats g (x_fmt x) scale r ss imp only l Hl)).
  assert (ES : stats = map (stat_line H) (seq 0 (length used + 1))).
  { destruct python.
    - destruct (forallb (fun k => negb (H k =? 0)) (seq 0 (length used))) eqn:EB.
      + rewrite (stats_from true tt0 H) in HS; [now injection HS as <-|lia|intros; apply GS; lia|].
        intros _ k Hk E0. rewrite forallb_forall in EB. specialize (EB k ltac:(apply in_seq; lia)). rewrite E0 in EB. discriminate.
      + exfalso. assert (ZE : exists k, (k < length used)%nat /\ H k = 0).
        { assert (G : forall ks, forallb (fun k => negb (H k =? 0)) ks = false -> exists k, In k ks /\ H k = 0).
          { clear. induction ks as [|k ks IH]; simpl; [discriminate|]. destruct (Qceqb_spec (H k) 0) as [E|E]; simpl; [intros _; exists k; auto|]. intros Hf. destruct (IH Hf) as (q & A & B). exists q. auto. }
          destruct (G _ EB) as (k & A & B). apply in_seq in A. exists k. split; [lia|assumption]. }
        destruct ZE as (k & Hk & E0). rewrite (stats_zero tt0 H) in HS; [discriminate|lia|intros; apply GS; lia|]. exists k. split; [lia|assumption].
    - rewrite (stats_from false tt0 H) in HS; [now injection HS as <-|lia|intros; apply GS; lia|discriminate]. }
  rewrite ES. split; [rewrite map_length, seq_length; lia|]. intros l Hl. exists (stat_line H l). split; [rewrite nth_error_map; rewrite (nth_error_nth' _ 0%nat) by (rewrite seq_length; lia); rewrite nth_seq by lia; reflexivity|].
  split; [reflexivity|]. split; [exact (SL l Hl)|]. destruct l as [|k]; [reflexivity|]. eexists (H k), _, _. split; [apply SL; lia|]. split; [reflexivity|]. split; [reflexivity|].
  destruct (Qceqb_spec (H k) 0) as [E0|E0]; split; intros E1; try contradiction; reflexivity.
Qed.
Print Assumptions C68_levels_partial.
(** The report is printed whenever the tree is less deep than Python's recursion limit and, for the ALE classes, no level
    but the last has heterogeneity zero. *)
Theorem C68_succeeds_partial : forall x c limit ks1 fs o ks2 f (only : bool) scale g r ss imp h, wf_reg c -> In f fs ->
  Forall (fun k => ~ xfits f k) ks2 -> snd (rfit x c (xrun x c limit qfresh ks1) fs o) = Ok tt ->
  partition_of x c f o = Ok (g, Some (r, ss), imp) -> scales_all c scale ->
  let st := xrun x c limit qfresh (ks1 ++ XCall (QFit fs o) :: ks2) in
  let used := if only then imp else ss in
  (length used < limit)%nat -> heter_of x c f o = Ok h ->
  (python_floats (q_kind c) = true -> forall l v, (l < length used)%nat ->
     level_heterogeneity h (rows (q_data c)) (q_effects c) (conditions used) l v -> v <> 0) ->
  exists lines stats, snd (show_partitioning x c limit st [f] only scale) = Ok [Some (lines, stats)].
Proof.
  intros x c limit ks1 fs o ks2 f only scale g r ss imp h W0 HI HN HF HP SC st used HL HH HZ.
  destruct (fitted_tree x c limit ks1 fs o ks2 f only scale g r ss imp W0 HI HN HF HP SC) as (W & SR & EI & ED & EE & EN & Hf & Hm & _ & T & SH & _). fold st in SH.
  rewrite (partition_heter _ _ _ _ _ _ _ HP) in HH. injection HH as <-. fold used in SH. rewrite SH. cbn [snd report_tree]. unfold show_full_tree. rewrite tree_root. cbn [bind].
  rewrite (show_pre g (x_fmt x) scale (r_heter r) used (length used) (length used) 0 0 limit) by (simpl; lia). cbn [bind].
  unfold show_level_stats. rewrite max_level_tree. cbn [bind]. rewrite (stats_from _ _ (stat g (x_fmt x) scale r ss imp only)).
  - cbn [bind rmap]. eauto.
  - lia.
  - intros l Hl. apply (level_stats g (x_fmt x) scale r ss imp only l). fold used. lia.
  - intros PF k Hk. apply (HZ PF k); [lia|]. rewrite <- ED, <- EE. exact (stat_heter g (x_fmt x) scale r ss imp only W SR EI k ltac:(fold used; lia)).
Qed.
Print Assumptions C68_succeeds_partial.
(** A binning with at least one bin. *)
Definition some_bins (m : method) : Prop := match m with MFixed n _ _ => (1 <= n)%nat | _ => True end.
Lemma names_bins m m' : Prop_RegPlot.names m m' -> some_bins m -> some_bins m'.
Proof. destruct m as [s|n p d|n p d q|n p d q]; cbn [Prop_RegPlot.names some_bins]; [intros [(_ & ->)|[(_ & ->)|(_ & ->)]] _; cbn [some_bins]; auto; lia|intros -> H; exact H..]. Qed.
Lemma prep_bins m m' : prep_binning_method m = Ok m' -> some_bins m -> some_bins m'.
Proof.
  destruct m as [s|n p d|n p d q|n p d q]; simpl; try (intros H; injection H as <-; auto).
  destruct (String.eqb s "greedy"); [intros H; injection H as <-; exact (fun _ => I)|]. destruct (String.eqb s "dp"); [intros H; injection H as <-; exact (fun _ => I)|].
  destruct (String.eqb s "fixed"); [|discriminate]. intros H. injection H as <-. intros _. simpl. lia.
Qed.
(** With the default only_important = True there is no such exception, for every class. *)
Theorem C68_important : forall x c limit ks1 fs o ks2 f scale g r ss imp, wf_reg c -> In f fs ->
  Forall (fun k => ~ xfits f k) ks2 -> snd (rfit x c (xrun x c limit qfresh ks1) fs o) = Ok tt ->
  partition_of x c f o = Ok (g, Some (r, ss), imp) -> scales_all c scale ->
  (length imp < limit)%nat -> (forall q, 0 <= q -> 0 <= x_rt x q) -> 0 <= fo_drop o -> some_bins (fo_binning o) ->
  exists lines stats, snd (show_partitioning x c limit (xrun x c limit qfresh (ks1 ++ XCall (QFit fs o) :: ks2)) [f] true scale) = Ok [Some (lines, stats)].
Proof.
  intros x c limit ks1 fs o ks2 f scale g r ss imp W0 HI HN HF HP SC HL HR HD HB. pose proof (partition_heter _ _ _ _ _ _ _ HP) as HH.
  refine (C68_succeeds_partial x c limit ks1 fs o ks2 f true scale g r ss imp (g_heter g) W0 HI HN HF HP SC HL HH _). intros PF l v Hl LV E0. subst v.
  destruct (fitted_tree x c limit ks1 fs o ks2 f true scale g r ss imp W0 HI HN HF HP SC) as (W & SR & EI & ED & EE & EN & Hf & Hm & HT & _).
  assert (NN : forall Z E v, g_heter g Z E = Ok v -> 0 <= v).
  { intros Z E v Hv. unfold heter_of in HH. destruct (q_kind c) as [jac| | |jac|]; try discriminate PF.
    - apply bind_ok in HH as (m & PM & HH). injection HH as HH; rewrite <- HH in Hv. revert Hv. apply ale_nonneg; [exact HR|]. intros n p d ->. exact (prep_bins _ _ PM HB).
    - apply bind_ok in HH as (m & PM & HH). injection HH as HH; rewrite <- HH in Hv. revert Hv. apply ale_nonneg; [exact HR|]. intros n p d ->. exact (prep_bins _ _ PM HB). }
  apply (stat_nonzero g (x_fmt x) scale r ss imp true W SR EI l eq_refl NN Hm Hl); [now rewrite HT|].
  pose proof (stat_heter g (x_fmt x) scale r ss imp true W SR EI l ltac:(lia)) as SL. rewrite ED, EE in SL. exact (level_heter_unique _ _ _ _ _ _ _ SL LV).
Qed.
Print Assumptions C68_important.

(** * C69  describe_subregions *)
Theorem C69_described : forall x c limit ks1 fs o ks2 f (only : bool) scale g r ss imp, wf_reg c -> In f fs ->
  Forall (fun k => ~ xfits f k) ks2 -> snd (rfit x c (xrun x c limit qfresh ks1) fs o) = Ok tt ->
  partition_of x c f o = Ok (g, Some (r, ss), imp) -> scales_all c scale ->
  let st := xrun x c limit qfresh (ks1 ++ XCall (QFit fs o) :: ks2) in
  let used := if only then imp else ss in let X := rows (q_data c) in let cs := conditions used in
  (only = true -> imp = [] -> snd (describe_subregions x c st [f] only scale) = Ok [NoImportantSplits]) /\
  (used <> [] -> exists h reports, heter_of x c f o = Ok h /\ snd (describe_subregions x c st [f] only scale) = Ok [Levels reports] /\ length reports = length used /\
     let LH := level_heterogeneity h X (q_effects c) cs in
     forall k s, nth_error used k = Some s -> exists a, nth_error reports k = Some a /\
       nth_error (q_names c) (s_feature s) = Some (sr_name a) /\ sr_type a = s_type s /\
       match scale with
       | None => sr_position a = s_position s
       | Some sc => exists mean std, nth_error sc (s_feature s) = Some (mean, std) /\ sr_position a = s_position s * std + mean
       end /\
       LH k (sr_before a) /\ LH (S k) (sr_after a) /\ sr_drop a = sr_before a - sr_after a /\
       (sr_before a <> 0 -> sr_percent a = Some ((sr_before a - sr_after a) / sr_before a * Q2Qc 100)) /\ (sr_before a = 0 -> sr_percent a = None) /\
       sr_nof_before a = map (fun p => length (region X cs p)) (paths k) /\ sr_nof_after a = map (fun p => length (region X cs p)) (paths (S k)) /\
       sumn (sr_nof_before a) = length X /\ sumn (sr_nof_after a) = length X).
Proof.
  intros x c limit ks1 fs o ks2 f only scale g r ss imp W0 HI HN HF HP SC st used X cs.
  pose proof W0 as [_ WN].
  destruct (fitted_tree x c limit ks1 fs o ks2 f only None g r ss imp W0 HI HN HF HP I) as (W & SR & EI & ED & EE & EN & Hf & Hm & _ & T & _ & _ & t1 & t2 & S0). fold st in S0.
  pose proof (describe_settled x c st f only scale _ t1 t2 Hf S0) as DS. destruct S0 as (_ & QF & QP & _ & T1 & T2).
  assert (NM : named g None). { destruct (partition_fields _ _ _ _ _ _ _ HP) as (_ & _ & EF & _). split; [rewrite EF, EN; lia|split; [rewrite ED, EN; exact WN|exact I]]. }
  pose proof (fun b => search_tree g (x_fmt x) None r ss W NM SR imp b (or_intror EI)) as TB.
  unfold tree_of in T1, T2. rewrite (TB false) in T1. rewrite (TB true) in T2. cbv iota in T1, T2. injection T1 as <-. injection T2 as <-.
  assert (DF : describe_feature c only scale st f =
     (if only then (if Nat.eqb (length (tree_to g (x_fmt x) None (r_heter r) imp (length imp))) 1 then Ok NoImportantSplits else rmap Levels (mapM (describe_level c (tree_to g (x_fmt x) None (r_heter r) used (length used)) scale) (seq 1 (length used))))
      else rmap Levels (mapM (describe_level c (tree_to g (x_fmt x) None (r_heter r) used (length used)) scale) (seq 1 (length used))))).
  { unfold describe_feature. rewrite QF. cbn [bind]. rewrite (getn_ok _ _ ""%string) by lia. cbn [bind]. rewrite QP. unfold used. destruct only; cbn [bind].
    - destruct (Nat.eqb _ 1); [reflexivity|]. rewrite max_level_tree. reflexivity.
    - rewrite max_level_tree. reflexivity. }
  split.
  - intros -> E0. rewrite DS. cbn [snd]. rewrite DF, E0. reflexivity.
  - intros NE0. exists (g_heter g).
    assert (DM : mapM (describe_level c (tree_to g (x_fmt x) None (r_heter r) used (length used)) scale) (seq 1 (length used)) =
       Ok (map (described g (x_fmt x) None r ss imp only (g_names g) scale) (seq 0 (length used)))).
    { assert (G : forall n a, (a + n <= length used)%nat -> mapM (describe_level c (tree_to g (x_fmt x) None (r_heter r) used (length used)) scale) (seq (S a) n) = Ok (map (described g (x_fmt x) None r ss imp only (g_names g) scale) (seq a n))).
      { induction n as [|n IH]; intros a Ha; [reflexivity|]. cbn [seq mapM map].
        unfold used at 1 2. rewrite (describe_level_ok g (x_fmt x) None r ss imp only W SR EI c scale a); [|now rewrite EN|rewrite ED, EN; exact WN|rewrite ED; exact SC|fold used; lia].
        cbn [bind]. fold used. rewrite IH by lia. reflexivity. }
      apply G. lia. }
    exists (map (described g (x_fmt x) None r ss imp only (g_names g) scale) (seq 0 (length used))). split; [exact (partition_heter _ _ _ _ _ _ _ HP)|].
    split.
    { rewrite DS. cbn [snd]. rewrite DF, DM. destruct only; [|reflexivity]. destruct (Nat.eqb_spec (length (tree_to g (x_fmt x) None (r_heter r) imp (length imp))) 1) as [E1|E1]; [|reflexivity].
      exfalso. rewrite tree_to_length in E1. unfold used in NE0. destruct imp as [|s0 imp0]; [congruence|]. simpl in E1. pose proof (two_pow_pos (length imp0)). lia. }
    split; [now rewrite map_length, seq_length|]. intros LH k s Hs.
    assert (Hk : (k < length used)%nat) by (apply nth_error_Some; congruence).
    exists (described g (x_fmt x) None r ss imp only (g_names g) scale k). split; [rewrite nth_error_map, (nth_error_nth' _ 0%nat) by (rewrite seq_length; lia); rewrite nth_seq by lia; reflexivity|].
    assert (ES : nth k used d0 = s) by (apply nth_error_nth; exact Hs).
    destruct (used_prefix g r ss imp only (or_intror EI)) as (m & E & Em). fold used in E. destruct (search_inv g r ss W SR) as (_ & _ & _ & _ & _ & HLv & _).
    assert (Hd : (s_feature s < dim (q_data c))%nat).
    { rewrite <- ES, <- ED, E, nth_firstn_ by (rewrite E, firstn_length in Hk; lia). apply (lo_dim _ _ _ _ _ (HLv k ltac:(rewrite E, firstn_length in Hk; lia) d0)). }
    assert (SL : forall l, (l <= length used)%nat -> LH l (stat g (x_fmt x) None r ss imp only l)).
    { intros l Hl. unfold LH, X. rewrite <- ED, <- EE. exact (stat_heter g (x_fmt x) None r ss imp only W SR EI l Hl). }
    unfold described. fold used. rewrite ES. cbn [sr_name sr_type sr_position sr_before sr_after sr_drop sr_percent sr_nof_before sr_nof_after].
    split; [rewrite <- EN; apply nth_error_nth'; rewrite EN; lia|]. split; [reflexivity|]. split.
    { destruct scale as [sc|]; [|reflexivity]. simpl in SC. destruct (nth (s_feature s) sc (0, 0)) as [mu sd] eqn:EM. exists mu, sd. split; [rewrite (nth_error_nth' _ (0, 0)) by lia; now rewrite EM|reflexivity]. }
    split; [apply SL; lia|]. split; [apply SL; lia|]. split; [reflexivity|].
    split; [intros NZ; destruct (Qceqb_spec (stat g (x_fmt x) None r ss imp only k) 0); [contradiction|reflexivity]|].
    split; [intros NZ; rewrite NZ; reflexivity|]. rewrite ED. split; [reflexivity|]. split; [reflexivity|].
    unfold X. split; rewrite <- ED; [exact (sizes_sum g ss imp only k ltac:(fold used; lia))|exact (sizes_sum g ss imp only (S k) ltac:(fold used; lia))].
Qed.
Print Assumptions C69_described.
(** Nothing is printed about a feature for which no split was found. *)
Theorem C69_skipped : forall x c limit ks1 fs o ks2 f only scale g imp, In f fs -> Forall (fun k => ~ xfits f k) ks2 ->
  snd (rfit x c (xrun x c limit qfresh ks1) fs o) = Ok tt -> partition_of x c f o = Ok (g, None, imp) ->
  snd (describe_subregions x c (xrun x c limit qfresh (ks1 ++ XCall (QFit fs o) :: ks2)) [f] only scale) = Ok [Skipped].
Proof.
  intros x c limit ks1 fs o ks2 f only scale g imp HI HN HF HP. destruct (after_fit x c limit ks1 fs o ks2 f HI HN HF) as (p & t1 & t2 & P & S0 & Hf & Hm). rewrite HP in P. injection P as <-.
  rewrite (describe_settled x c _ f only scale _ t1 t2 Hf S0). cbn [snd]. destruct S0 as (_ & QF & _ & _ & T1 & _). simpl in T1. injection T1 as <-. unfold describe_feature. rewrite QF. reflexivity.
Qed.
Print Assumptions C69_skipped.
Theorem C69_features : forall x c st fs only scale rs, snd (describe_subregions x c st fs only scale) = Ok rs ->
  Forall2 (fun f a => snd (describe_subregions x c st [f] only scale) = Ok [a]) fs rs.
Proof. intros x c st fs only scale rs H. exact (loop_local x c _ fs (describe_local c only scale) st st rs (fun f => or_introl eq_refl) H). Qed.
Print Assumptions C69_features.

(** Refuted in general: a RegionalALE of an additive model, default binning. The partition has a split (found because
    the subregions are smaller, not because it helps), the heterogeneity is zero, and the report with only_important =
    False fails; describe_subregions prints the same level with an undefined percentage. *)
Definition ex68 : rconfig := ex_get (rconstruct ex_x RALE (mkData Float64 2 (map (fun i => [qn (Nat.div i 2); qn (Nat.modulo i 2)]) (seq 0 24)))
  (map (fun r => r@0 + r@1)) None (PyStr "all") None (Some [Cont; Cat]) 4 None).
Definition ex68_opts : fitopts := mkFO (Q2Qc (1#10)) (Q2Qc (1 # 10)) 1 3 2 AllFeatures false (MFixed 20 (Some 0%nat) 15) (PyBool false) (PyStr "all") (PyInt 5) true.
Theorem C68_refuted : exists x c o, q_kind c = RALE /\ fo_binning o = fo_binning (default_opts RALE) /\ q_model c = map (fun r => r@0 + r@1) /\
  snd (rfit x c qfresh [0%nat] o) = Ok tt /\
  let st := fst (rfit x c qfresh [0%nat] o) in
  snd (show_partitioning x c 1000 st [0%nat] false None) = Raise ZeroDivisionError /\
  (exists r, snd (show_partitioning x c 1000 st [0%nat] true None) = Ok [Some r]) /\
  exists a, snd (describe_subregions x c st [0%nat] false None) = Ok [Levels [a]] /\ this (sr_before a) = 0%Q /\ sr_percent a = None.
Proof.
  exists ex_x, ex68, ex68_opts. split; [reflexivity|]. split; [reflexivity|]. split; [reflexivity|]. split; [computed|]. cbv zeta. split; [apply raises_is; computed|]. split.
  - assert (B : match snd (show_partitioning ex_x ex68 1000 (fst (rfit ex_x ex68 qfresh [0%nat] ex68_opts)) [0%nat] true None) with Ok [Some _] => true | _ => false end = true) by computed.
    destruct (snd (show_partitioning ex_x ex68 1000 _ [0%nat] true None)) as [[|[a|] [|]]|]; try discriminate. now exists a.
  - assert (B : match snd (describe_subregions ex_x ex68 (fst (rfit ex_x ex68 qfresh [0%nat] ex68_opts)) [0%nat] false None) with Ok [Levels [a]] => match sr_percent a, this (sr_before a) with None, 0%Q => true | _, _ => false end | _ => false end = true) by computed.
    destruct (snd (describe_subregions ex_x ex68 _ [0%nat] false None)) as [[|[| |[|a [|]]] [|]]|]; try discriminate. exists a. split; [reflexivity|].
    destruct (sr_percent a); [discriminate|]. destruct (this (sr_before a)) as [[| |] [| |]]; try discriminate. split; reflexivity.
Qed.
Print Assumptions C68_refuted.

(** * C70  The heterogeneity of a subregion *)
(** [h] is the heterogeneity of C67-C69: [h Z E] belongs to a subregion with instances [Z] and local effects [E]. *)
(** Fewer instances than min_points: a huge constant, for every class. *)
Theorem C70_too_small : forall x c f o h Z E, heter_of x c f o = Ok h -> (length Z < fo_minpts o)%nat -> h Z E = Ok (Q2Qc 100000000).
Proof. intros x c f o h Z E H L. exact (too_small x c f o h Z E H L). Qed.
Print Assumptions C70_too_small.
(** Otherwise. RegionalPDP: the standard deviation of the (uncentred) ICE curves of the subregion, averaged over ten
    points between its extrema. *)
Definition spread (rt : Qc -> Qc) (curve : list Qc -> Qc -> Qc) (Z : Mat) (f : nat) (v : Qc) : Prop :=
  exists lo hi, extrema Z f lo hi /\ v = mean (map (fun t => rt (variance (map (fun r => curve r t) Z))) (linspace lo hi 10)).
(** The subregion: instances of the object, inside the axis limits (always so for the default limits), and a fit that
    centres at all. *)
Definition inside (c : rconfig) (f : nat) (o : fitopts) (Z : Mat) : Prop :=
  (forall r, In r Z -> length r = dim (q_data c) /\ (q_mins c)@f <= r@f <= (q_maxs c)@f) /\ length (q_mins c) = dim (q_data c) /\ length (q_maxs c) = dim (q_data c) /\
  (f < dim (q_data c))%nat /\ (q_mins c)@f < (q_maxs c)@f /\ Z <> [] /\ (fo_minpts o <= length Z)%nat /\ keeps_all (fo_nof o) (length Z) /\
  exists ce, prep_cent (fo_centering o) = Ok ce /\ (ce = ZeroIntegral -> exists n, pts_of (fo_pts o) = Ok n /\ (1 <= n)%nat).
Theorem C70_pdp : forall x c f o h g Z E, q_kind c = RPDP -> q_model c = map g -> dt (q_data c) = Float64 -> inside c f o Z -> heter_of x c f o = Ok h ->
  exists v, h Z E = Ok v /\ spread (x_rt x) (fun r t => g (with_feature r f t)) Z f v.
Proof.
  intros x c f o h g Z E K M DT (W & L1 & L2 & Hf & LH & NE & MP & KA & ce & PC & PT) H. unfold heter_of in H. rewrite K in H. injection H as <-.
  destruct (pdp_value x c f KPDP g (fun r => r) (fo_minpts o) (fo_centering o) (fo_nof o) (fo_pts o) (fo_vec o) Z E ce) as (lo & hi & EX & EV); try assumption.
  - split; [exact M|exact I].
  - intros r Hr. apply W, Hr.
  - intros r Hr. apply W, Hr.
  - rewrite EV. eexists. split; [reflexivity|]. exists lo, hi. split; [exact EX|]. unfold pvalue. rewrite DT. reflexivity.
Qed.
Print Assumptions C70_pdp.
(** RegionalDerPDP: the same of the d-ICE curves, with the Jacobian *)
Theorem C70_dpdp : forall x c f o h g G Z E, q_kind c = RDerPDP (Some (map G)) -> q_model c = map g -> (forall r, length r = dim (q_data c) -> length (G r) = dim (q_data c)) ->
  dt (q_data c) = Float64 -> inside c f o Z -> heter_of x c f o = Ok h ->
  exists v, h Z E = Ok v /\ spread (x_rt x) (fun r t => (G (with_feature r f t))@f) Z f v.
Proof.
  intros x c f o h g G Z E K M HG DT (W & L1 & L2 & Hf & LH & NE & MP & KA & ce & PC & PT) H. unfold heter_of in H. rewrite K in H. injection H as <-.
  destruct (pdp_value x c f (KDer (Some (map G))) g G (fo_minpts o) (fo_centering o) (fo_nof o) (fo_pts o) (fo_vec o) Z E ce) as (lo & hi & EX & EV); try assumption.
  - split; [exact M|]. split; [reflexivity|exact HG].
  - intros r Hr. apply W, Hr.
  - intros r Hr. apply W, Hr.
  - rewrite EV. eexists. split; [reflexivity|]. exists lo, hi. split; [exact EX|]. unfold pvalue. rewrite DT. reflexivity.
Qed.
Print Assumptions C70_dpdp.
(** or with the numerical derivative. *)
Theorem C70_dpdp_numerical : forall x c f o h g Z E, q_kind c = RDerPDP None -> q_model c = map g ->
  dt (q_data c) = Float64 -> inside c f o Z -> heter_of x c f o = Ok h ->
  exists v, h Z E = Ok v /\ spread (x_rt x) (fun r t => (g (with_feature r f (t + Q2Qc (1 # 1000000))) - g (with_feature r f (t - Q2Qc (1 # 1000000)))) / Q2Qc (1 # 500000)) Z f v.
Proof.
  intros x c f o h g Z E K M DT (W & L1 & L2 & Hf & LH & NE & MP & KA & ce & PC & PT) H. unfold heter_of in H. rewrite K in H. injection H as <-.
  destruct (pdp_value x c f (KDer None) g (fun r => r) (fo_minpts o) (fo_centering o) (fo_nof o) (fo_pts o) (fo_vec o) Z E ce) as (lo & hi & EX & EV); try assumption.
  - split; [exact M|exact I].
  - intros r Hr. apply W, Hr.
  - intros r Hr. apply W, Hr.
  - rewrite EV. eexists. split; [reflexivity|]. exists lo, hi. split; [exact EX|]. unfold pvalue. rewrite DT.
    replace (Q2Qc 2 * STEP) with (Q2Qc (1 # 500000)) by (apply Qc_is_canon; reflexivity). reflexivity.
Qed.
Print Assumptions C70_dpdp_numerical.
(** RegionalALE and RegionalRHALE: of the global ALE, respectively RHALE, object of the subregion, fitted with the binning
    of the fit, the heterogeneity at the largest value of the feature; the huge constant when that fit is impossible. *)
Theorem C70_ale : forall x c f o h Z E v, (q_kind c = RALE \/ exists jac, q_kind c = RRHALE jac) -> heter_of x c f o = Ok h -> (fo_minpts o <= length Z)%nat ->
  h Z E = Ok v ->
  let k := match q_kind c with RRHALE jac => KRHALE jac | _ => KALE end in
  exists m gc s, Prop_RegPlot.names (fo_binning o) m /\
    construct (x_choice x) k (as_data c Z) (q_model c) (PyStr "all") None E = Ok (gc, s) /\
    ((exists e, snd (fit gc s [f] m (fo_centering o)) = Raise e /\ v = Q2Qc 100000000) \/
     (exists s1 lo hi y s2, fit gc s [f] m (fo_centering o) = (s1, Ok tt) /\ extrema Z f lo hi /\
        eval gc (x_rt x) s1 f [hi] true (PyBool false) = (s2, Ok (y, Some [v])))).
Proof.
  intros x c f o h Z E v K H MP HV k.
  assert (G : exists m, prep_binning_method (fo_binning o) = Ok m /\ heter_ale x c k f m (fo_minpts o) (fo_centering o) Z E = Ok v).
  { unfold heter_of in H. subst k. destruct K as [K|[jac K]]; rewrite K in *; apply bind_ok in H as (m & PM & H); injection H as H; rewrite <- H in HV; exists m; split; assumption. }
  destruct G as (m & PM & HA). destruct (ale_value x c f k m (fo_minpts o) (fo_centering o) Z E v HA MP) as (gc & e0 & HC & HD).
  exists m, gc, (fresh e0). split; [exact (Prop_RegPlot.prep_names _ _ PM)|]. split; [exact HC|]. destruct HD as [(e & A & B) | (st1 & hi & y & st2 & F & (r & Hr & Er) & UB & EV)]; [left; now exists e|right].
  assert (LE : exists lo, (exists r, In r Z /\ r@f = lo) /\ forall r, In r Z -> lo <= r@f).
  { clear -Hr. revert r Hr. induction Z as [|a Z IH]; intros r Hr; [destruct Hr|]. destruct Z as [|b Z].
    - exists (a@f). split; [exists a; simpl; auto|]. intros q [<-|[]]. apply Qcle_refl.
    - destruct (IH b (or_introl eq_refl)) as (lo & (q & Hq & Eq) & LB). destruct (Qclt_le_dec (a@f) lo) as [L|L].
      + exists (a@f). split; [exists a; simpl; auto|]. intros w [<-|Hw]; [apply Qcle_refl|]. specialize (LB w Hw). qlra.
      + exists lo. split; [exists q; simpl in *; tauto|]. intros w [<-|Hw]; [exact L|now apply LB]. }
  destruct LE as (lo & (rl & Hrl & El) & LB). exists st1, lo, hi, y, st2. split; [exact F|]. split; [|exact EV].
  split; [intros q Hq; split; [now apply LB|now apply UB]|]. split; [now exists rl|now exists r].
Qed.
Print Assumptions C70_ale.
(** It is never negative. *)
Theorem C70_nonneg : forall x c f o h Z E v, (q_kind c = RALE \/ exists jac, q_kind c = RRHALE jac) -> heter_of x c f o = Ok h ->
  (forall q, 0 <= q -> 0 <= x_rt x q) -> some_bins (fo_binning o) -> h Z E = Ok v -> 0 <= v.
Proof.
  intros x c f o h Z E v K H HR HB HV. unfold heter_of in H. destruct K as [K|[jac K]]; rewrite K in *; apply bind_ok in H as (m & PM & H); injection H as H; rewrite <- H in HV;
    revert HV; (apply ale_nonneg; [exact HR|]; intros n p d ->; exact (prep_bins _ _ PM HB)).
Qed.
Print Assumptions C70_nonneg.
(** RegionalShapDP: of the ShapDP object of the subregion, with as many instances as the regional object, the
    heterogeneity averaged over ten points between the extrema. *)
Theorem C70_shap : forall x c f o h Z E v, q_kind c = RShap -> heter_of x c f o = Ok h -> (fo_minpts o <= length Z)%nat -> Z <> [] -> (f < dim (q_data c))%nat ->
  h Z E = Ok v ->
  exists ix gc s s1 lo hi y sd s2, sconstruct (x_choice x) (x_explain x) (x_argsort x) (x_spline x) (as_data c Z) (PyInt (q_nof c)) None = Ok (ix, gc, s) /\
    sfit gc s [f] (fo_centering o) (fo_pts o) = (s1, Ok tt) /\ extrema Z f lo hi /\
    seval gc s1 f (linspace lo hi 10) true (PyBool false) = (s2, Ok (y, Some sd)) /\ v = mean sd.
Proof.
  intros x c f o h Z E v K H MP NE Hf HV. unfold heter_of in H. rewrite K in H. injection H as <-. unfold heter_shap in HV. destruct (Nat.ltb_spec (length Z) (fo_minpts o)); [lia|].
  destruct (axis_limits_ok (as_data c Z) NE) as (mins & maxs & EA & LA & LB & EX). rewrite EA in HV. cbn [bind] in HV. change (dim (as_data c Z)) with (dim (q_data c)) in *. rewrite !(getn_ok _ f 0) in HV by lia. cbn [bind] in HV.
  apply bind_ok in HV as ([[ix gc] s] & HC & HV). destruct (sfit gc s [f] (fo_centering o) (fo_pts o)) as [s1 r] eqn:SF. apply bind_ok in HV as ([] & -> & HV). apply bind_ok in HV as ([y z] & HE & HV).
  destruct (seval gc s1 f (linspace mins@f maxs@f 10) true (PyBool false)) as [s2 q] eqn:SE. simpl in HE. subst q. destruct z as [sd|]; [|discriminate]. injection HV as <-.
  exists ix, gc, s, s1, (mins@f), (maxs@f), y, sd, s2. split; [exact HC|]. split; [exact SF|]. split; [exact (EX f Hf)|]. split; [exact SE|reflexivity].
Qed.
Print Assumptions C70_shap.
(** Refuted: a user who fits RegionalPDP with centering = True expects the heterogeneity of the centred ICE curves, the
    quantity that eval and plot show. For the additive model x0 + 5 x1 the centred curves coincide (standard deviation 0 at
    every point, C28), but the heterogeneity of the whole dataset is not 0. *)
Definition ex70 : rconfig := ex_get (rconstruct ex_x RPDP (mkData Float64 2 (ex_rows 8)) (map (fun r => r@0 + Q2Qc 5 * r@1)) None (PyStr "all") None None 4 None).
Definition ex70_opts : fitopts := mkFO (Q2Qc (1#10)) (Q2Qc (1 # 10)) 1 3 2 AllFeatures false (MStr "fixed") (PyBool true) (PyStr "all") (PyInt 5) true.
Definition only_some {A} (r : res A) (p : A -> bool) : bool := match r with Ok a => p a | Raise _ => false end.
Theorem C70_centering_refuted : exists x c o h v gc s y, q_kind c = RPDP /\ q_model c = map (fun r => r@0 + Q2Qc 5 * r@1) /\ fo_centering o = PyBool true /\
  heter_of x c 0 o = Ok h /\ h (rows (q_data c)) None = Ok v /\ v <> 0 /\
  pconstruct (x_choice x) KPDP (q_data c) (q_model c) (PyStr "all") None = Ok (gc, s) /\
  let pts := linspace 0 (Q2Qc 7) 10 in
  snd (peval gc (x_rt x) s 0 pts true (PyBool true) false true) = Ok (OMeanStd y (map (fun _ => Some 0) pts)).
Proof.
  destruct (is_ok_exists (heter_of ex_x ex70 0 ex70_opts) eq_refl) as [h Hh].
  assert (B : only_some (h (rows (q_data ex70)) None) (fun v => negb (v =? 0)) = true).
  { unfold heter_of in Hh. change (q_kind ex70) with RPDP in Hh. injection Hh as <-. computed. }
  destruct (h (rows (q_data ex70)) None) as [v|] eqn:HV; [|discriminate]. simpl in B.
  assert (B2 : only_some (pconstruct (x_choice ex_x) KPDP (q_data ex70) (q_model ex70) (PyStr "all") None) (fun p =>
     only_some (snd (peval (fst p) (x_rt ex_x) (snd p) 0 (linspace 0 (Q2Qc 7) 10) true (PyBool true) false true)) (fun out => match out with OMeanStd _ z => forallb (fun o => match o with Some q => q =? 0 | None => false end) z && (length z =? 10)%nat | _ => false end)) = true) by computed.
  destruct (pconstruct (x_choice ex_x) KPDP (q_data ex70) (q_model ex70) (PyStr "all") None) as [[gc s]|] eqn:PC; [|discriminate]. cbn [only_some fst snd] in B2.
  destruct (snd (peval gc (x_rt ex_x) s 0 (linspace 0 (Q2Qc 7) 10) true (PyBool true) false true)) as [[y|y z|]|] eqn:PE; try discriminate. cbn [only_some] in B2.
  exists ex_x, ex70, ex70_opts, h, v, gc, s, y. split; [reflexivity|]. split; [reflexivity|]. split; [reflexivity|]. split; [exact Hh|]. split; [exact HV|]. split.
  { intros ->. discriminate. }
  split; [exact PC|]. cbv zeta. rewrite PE. f_equal. f_equal. apply andb_true_iff in B2 as [B2 B3]. apply Nat.eqb_eq in B3.
  assert (G : forall l : list Qc, length z = length l -> z = map (fun _ => Some 0) l).
  { clear -B2. induction z as [|[q|] z IH]; intros [|a l] L; try discriminate L; try reflexivity; simpl in B2; [|discriminate]. apply andb_true_iff in B2 as [B1 B2]. destruct (Qceqb_spec q 0) as [->|]; [|discriminate]. simpl. f_equal. apply IH; [exact B2|simpl in L; lia]. }
  apply G. rewrite B3. now rewrite linspace_length.
Qed.
Print Assumptions C70_centering_refuted.

(** ** Instances *)
Definition as_q (n : nat) : Q := inject_Z (Z.of_nat n).
Definition seen (r : res (list partitioning_report)) := rmap (map (option_map (fun q =>
  (map (fun a => (as_q (pr_indent a), as_q (pr_idx a), this (pr_heter a), as_q (pr_nof a), this (pr_weight a))) (fst q),
   map (fun a => (as_q (ll_level a), this (ll_heter a), option_map (fun d => (this (fst d), option_map this (snd d))) (ll_drop a))) (snd q))))) r.
Definition told (r : res (list description)) := rmap (map (fun d => match d with
  | Levels l => Some (map (fun a => (sr_name a, this (sr_position a), this (sr_before a), this (sr_after a), option_map this (sr_percent a), map as_q (sr_nof_before a), map as_q (sr_nof_after a))) l)
  | _ => None end)) r.
(** C67-C69: a RHALE partition with two levels of splits, after and before other calls. *)
Example C67_instance : exists g r ss imp, let c := ex_get ex_rhale in
  let ks1 := [XCall (QFit [0%nat] (ex_opts (Q2Qc 2) 1 2)); XShow [0%nat] true None] in
  let ks2 := [XDescribe [0%nat] false None; XCall (QFit [1%nat] ex_opts3)] in
  let st := xrun ex_x c 1000 qfresh (ks1 ++ XCall (QFit [0%nat] ex_opts3) :: ks2) in
  wf_reg c /\ Forall (fun k => ~ xfits 0 k) ks2 /\ snd (rfit ex_x c (xrun ex_x c 1000 qfresh ks1) [0%nat] ex_opts3) = Ok tt /\
  partition_of ex_x c 0 ex_opts3 = Ok (g, Some (r, ss), imp) /\ length imp = 2%nat /\
  seen (snd (show_partitioning ex_x c 1000 st [0%nat] true None)) = Ok [Some
    ([(0, 0, 15 # 4, 16, 1); (2, 1, 3 # 8, 8, 1 # 2); (4, 3, 0, 4, 1 # 4); (4, 4, 0, 4, 1 # 4); (2, 2, 3 # 8, 8, 1 # 2); (4, 5, 0, 4, 1 # 4); (4, 6, 0, 4, 1 # 4)],
     [(0, 15 # 4, None); (1, 3 # 8, Some (27 # 8, Some 90)); (2, 0, Some (3 # 8, Some 100))])]%Q /\
  told (snd (describe_subregions ex_x c st [0%nat] true (Some [(0, 1); (Q2Qc 3, Q2Qc 2); (0, 1)]))) = Ok [Some
    [("x_1"%string, 3, 15 # 4, 3 # 8, Some 90, [16], [8; 8]); ("x_2"%string, 0, 3 # 8, 0, Some 100, [8; 8], [4; 4; 4; 4])]]%Q.
Proof.
  set (c := ex_get ex_rhale).
  assert (HP : exists g r ss imp, partition_of ex_x c 0 ex_opts3 = Ok (g, Some (r, ss), imp)).
  { assert (B : match partition_of ex_x c 0 ex_opts3 with Ok (_, Some _, _) => true | _ => false end = true) by computed.
    destruct (partition_of ex_x c 0 ex_opts3) as [[[g [[r ss]|]] imp]|]; try discriminate. now exists g, r, ss, imp. }
  destruct HP as (g & r & ss & imp & HP). exists g, r, ss, imp. cbv zeta.
  assert (IM : imp = match partition_of ex_x c 0 ex_opts3 with Ok (_, _, i) => i | _ => [] end) by now rewrite HP.
  split. { split; [apply Nat.eqb_eq; computed|apply Nat.leb_le; computed]. }
  split; [repeat constructor; simpl; intros; intuition discriminate|]. split; [computed|]. split; [exact HP|]. split; [rewrite IM; computed|].
  split; computed.
Qed.
(** C70: the root of the example of C48 and a region of two instances. *)
Example C70_instance : let c := ex_c 8 in let o := ex_opts (Q2Qc (1#10)) 1 3 in
  inside c 0 o (rows (q_data c)) /\ dt (q_data c) = Float64 /\
  exists h, heter_of ex_x c 0 o = Ok h /\ rmap this (h (rows (q_data c)) None) = Ok (4655 # 1152)%Q /\ rmap this (h [qs [1; 1]; qs [2; 1]] None) = Ok (inject_Z 100000000).
Proof.
  cbv zeta. split; [|split; [reflexivity|]].
  - split.
    { intros r Hr. assert (B : forallb (fun r => (length r =? 2)%nat && ((q_mins (ex_c 8))@0 <=? r@0) && (r@0 <=? (q_maxs (ex_c 8))@0)) (rows (q_data (ex_c 8))) = true) by computed.
      rewrite forallb_forall in B. specialize (B r Hr). apply andb_true_iff in B as [B B3]. apply andb_true_iff in B as [B1 B2]. apply Nat.eqb_eq in B1. split; [exact B1|]. split; now apply Qcleb_le. }
    split; [reflexivity|]. split; [reflexivity|]. split; [apply Nat.ltb_lt; computed|]. split; [computed|]. split; [discriminate|]. split; [apply Nat.leb_le; computed|].
    split; [left; reflexivity|]. eexists. split; [reflexivity|discriminate].
  - eexists. split; [reflexivity|]. split; computed.
Qed.
