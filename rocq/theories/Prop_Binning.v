(** Properties C11-C18: bin_splitting.py and binning_methods.py. *)
From Verif Require Import Base Numpy Spec NumpyFacts Utils UtilsProofs Binning BinProofs GreedyProofs DPProofs Walk GreedyRule.
Open Scope Qc_scope.
Open Scope list_scope.

Definition shown_lims (r : res lims) : res (option (list Q)) :=
  match r with Ok (LArr l) => Ok (Some (show l)) | Ok LFalse => Ok None | Raise e => Raise e end.

(** * C11  Fixed binning *)
(** [b] holds the feature column, its effects and the axis range. More than cat_limit distinct values. *)
Theorem C11_fixed : forall b nof_bins m cat_limit, (1 <= nof_bins)%nat -> (cat_limit < length (unique (b_xs b)))%nat ->
  exists l, length l = S nof_bins /\ (forall i, (i <= nof_bins)%nat -> l@i = grid (b_lo b) (b_hi b) nof_bins i) /\
    l@0 = b_lo b /\ l@nof_bins = b_hi b /\
    (populated (b_xs b) m l -> fixed_find b nof_bins (Some m) cat_limit = Ok (LArr l)) /\
    (~ populated (b_xs b) m l -> fixed_find b nof_bins (Some m) cat_limit = Ok LFalse).
Proof.
  intros b n m c Hn Hc. exists (linspace (b_lo b) (b_hi b) (n + 1)). rewrite linspace_length.
  split; [lia|]. split; [intros i Hi; now apply linspace_grid|]. split; [apply linspace_first; lia|].
  split; [rewrite linspace_grid by lia; now apply grid_K|].
  destruct (fixed_find_cont b n m c Hc) as [[P E]|[P E]]; split; intros Q; (exact E || contradiction).
Qed.
Print Assumptions C11_fixed.
Definition ex11 := mkB (qs [0; 1#2; 1; 2; 5#2; 4]) [] 0 (Q2Qc 4).
Example C11_found : shown_lims (fixed_find ex11 2 (Some 3%nat) 2) = Ok (Some [0; 2; 4]%Q). Proof. vm_compute. reflexivity. Qed.
Example C11_not_found : shown_lims (fixed_find ex11 2 (Some 4%nat) 2) = Ok None. Proof. vm_compute. reflexivity. Qed.

(** * C12  Categorical binning (all three algorithms and all strings) *)
Theorem C12_categorical : forall b mth m, method_known mth -> method_min_points mth = Some m ->
  (2 <= length (unique (b_xs b)))%nat -> (length (unique (b_xs b)) <= method_cat_limit mth)%nat ->
  exists l, length l = S (length (unique (b_xs b))) /\ increasing l /\
    (forall k, (k < length (unique (b_xs b)))%nat -> l@k < (unique (b_xs b))@k < l@(S k)) /\
    ((forall v, In v (b_xs b) -> (m <= occurrences (b_xs b) v)%nat) -> find_limits_b b mth = Ok (LArr l)) /\
    ((exists v, In v (b_xs b) /\ (occurrences (b_xs b) v < m)%nat) -> find_limits_b b mth = Ok LFalse).
Proof. exact find_limits_cat. Qed.
Print Assumptions C12_categorical.
Definition ex12 := mkB (qs [1; 3; 3; 1; 4]) (qs [0; 0; 0; 0; 0]) 1 (Q2Qc 4).
Example C12_found : shown_lims (find_limits_b ex12 (MGreedy 5 (Some 1%nat) 0 3)) = Ok (Some [0; 2; 7#2; 9#2]%Q). Proof. vm_compute. reflexivity. Qed.
Example C12_not_found : shown_lims (find_limits_b ex12 (MDP 5 (Some 2%nat) 0 3)) = Ok None. Proof. vm_compute. reflexivity. Qed.

(** * C13  Greedy binning *)
(** The axis limits are further apart than the tolerance of np.allclose. *)
Definition far_apart (lo hi : Qc) : Prop := Q2Qc (1 # 100000000) + Q2Qc (1 # 100000) * (if 0 <=? hi then hi else - hi) < hi - lo.
Lemma far_allclose lo hi : lo < hi -> far_apart lo hi -> allclose lo hi = false.
Proof.
  intros H F. unfold allclose. apply Qcleb_gt.
  assert (E : Qcabs (lo - hi) = hi - lo) by (unfold Qcabs; replace (0 <=? lo - hi) with false by (symmetry; apply Qcleb_gt; qlra); ring). rewrite E. exact F.
Qed.
Lemma several_bins b m : b_lo b < b_hi b -> far_apart (b_lo b) (b_hi b) -> length (b_eff b) = length (b_xs b) -> (2 * m <= length (b_xs b))%nat -> only_one_bin_possible b m = false.
Proof.
  intros H F E L. unfold only_one_bin_possible. rewrite (far_allclose _ _ H F), E. cbn [orb]. replace (Nat.ltb (length (b_xs b)) (2 * m)) with false by (symmetry; apply Nat.ltb_ge; exact L). apply andb_false_r.
Qed.
Theorem C13_greedy : forall b n d m cat_limit, (1 <= n)%nat -> b_lo b < b_hi b -> length (b_eff b) = length (b_xs b) ->
  (forall x, In x (b_xs b) -> b_lo b <= x <= b_hi b) ->
  (cat_limit < length (unique (b_xs b)))%nat -> (1 < length (unique (b_xs b)))%nat -> (2 * m <= length (b_xs b))%nat -> far_apart (b_lo b) (b_hi b) ->
  exists l, greedy_find b n d (Some m) cat_limit = Ok (LArr l) /\
    grid_binning (b_lo b) (b_hi b) n l /\ populated (b_xs b) m l /\
    increasing l /\ l@0 = b_lo b /\ l@(length l - 1) = b_hi b /\ (forall x, In x l -> In x (linspace (b_lo b) (b_hi b) (n + 1))).
Proof.
  intros b n d m c Hn Hlh He Hin Hc Hu Hm2 Hf. pose proof (several_bins b m Hlh Hf He Hm2) as H1. assert (Hm : (m <= length (b_xs b))%nat) by lia.
  destruct (greedy_find_ok b n d m c Hn Hlh He Hin Hc Hu Hm H1) as (l & E & G & P). exists l.
  destruct (grid_binning_shape _ _ _ _ Hlh Hn G) as (I & _ & F & L & S).
  repeat (split; [assumption|]). intros x Hx. destruct (S x Hx) as (i & Hi & ->).
  rewrite <- linspace_grid by assumption. apply nth_In. rewrite linspace_length. lia.
Qed.
Print Assumptions C13_greedy.
(** Where the bins end: Greedy walks over the n+1 grid positions; from the start a of a bin it goes to the first later position j < n such that
    the bin [a, j] and the bin [a, j+1] both hold at least m instances and the second one costs more ([closes]), or else to the last position
    n. Those are the limits, except that the last but one is dropped when the last bin holds fewer than m instances. *)
Theorem C13_rule : forall b n d m cat_limit, (1 <= n)%nat -> b_lo b < b_hi b -> length (b_eff b) = length (b_xs b) ->
  (cat_limit < length (unique (b_xs b)))%nat -> (1 < length (unique (b_xs b)))%nat -> (2 * m <= length (b_xs b))%nat -> far_apart (b_lo b) (b_hi b) ->
  exists pre a, greedy_walk (closes (b_xs b) (b_eff b) (b_lo b) (b_hi b) n m d) n (pre ++ [a; n]) /\
    greedy_find b n d (Some m) cat_limit =
      Ok (LArr (map (grid (b_lo b) (b_hi b) n) (pre ++ (if Nat.leb m (points_in (b_xs b) (grid (b_lo b) (b_hi b) n a) (b_hi b)) then [a; n] else [n])))).
Proof.
  intros b n d m c Hn Hlh He Hc Hu Hm2 Hf. pose proof (several_bins b m Hlh Hf He Hm2) as H1.
  destruct (greedy_merge_rule b m n d Hn Hlh He) as (pre & a & W & E). exists pre, a. split; [exact W|].
  unfold greedy_find, none_valid_binning. unfold bind at 1. destruct (Nat.eqb_spec (length (unique (b_xs b))) 1); [lia|]. destruct (Nat.ltb_spec (length (b_xs b)) m); [lia|]. cbn [orb].
  rewrite is_categorical_none by exact Hc. unfold bind at 1. rewrite H1, E. reflexivity.
Qed.
Print Assumptions C13_rule.
Definition ex13 := mkB (qs [0; 1#2; 3#4; 3#2; 7#4; 2; 5#2; 11#4; 3; 4]) (qs [0; 0; 0; 4; 4; 4; 4; 5; 4; 9]) 0 (Q2Qc 4).
Example C13_hypotheses_met : (2 * 2 <= length (b_xs ex13))%nat /\ far_apart (b_lo ex13) (b_hi ex13) /\ (3 < length (unique (b_xs ex13)))%nat /\
  shown_lims (greedy_find ex13 8 (Q2Qc (3#10)) (Some 2%nat) 3) = Ok (Some [0; 1; 5#2; 3; 4]%Q).
Proof. split; [vm_compute; repeat constructor|]. split; [vm_compute; reflexivity|]. split; [vm_compute; repeat constructor|vm_compute; reflexivity]. Qed.
(** In ex13 (grid step 1/2) Greedy closes the first bin at position 2 (1): extending it to 3/2 costs more; it does not close it at position 1. *)
Example C13_rule_case : closes (b_xs ex13) (b_eff ex13) 0 (Q2Qc 4) 8 2 (Q2Qc (3#10)) 0 2 /\ ~ closes (b_xs ex13) (b_eff ex13) 0 (Q2Qc 4) 8 2 (Q2Qc (3#10)) 0 1.
Proof.
  split; [split; [vm_compute; repeat constructor|split; [vm_compute; repeat constructor|right; vm_compute; reflexivity]]|].
  intros (_ & _ & [Q|Q]); vm_compute in Q; discriminate Q.
Qed.
Lemma near_allclose lo hi : lo <= hi -> ~ far_apart lo hi -> allclose lo hi = true.
Proof.
  intros H F. unfold allclose. apply Qcleb_le.
  assert (E : Qcabs (lo - hi) = hi - lo) by (unfold Qcabs; destruct (0 <=? lo - hi) eqn:K; [apply Qcleb_le in K; assert (lo = hi) as -> by qlra; reflexivity|ring]). rewrite E.
  destruct (Qclt_le_dec (Q2Qc (1 # 100000000) + Q2Qc (1 # 100000) * Qcabs hi) (hi - lo)) as [K|K]; [exfalso; apply F; exact K|exact K].
Qed.
Lemma one_bin b m : length (b_eff b) = length (b_xs b) -> (m <= length (b_xs b))%nat ->
  (length (b_xs b) < 2 * m)%nat \/ (b_lo b <= b_hi b /\ ~ far_apart (b_lo b) (b_hi b)) -> only_one_bin_possible b m = true.
Proof.
  intros He Hm [H|[H F]]; unfold only_one_bin_possible.
  - rewrite He, (proj2 (Nat.leb_le m (length (b_xs b)))), (proj2 (Nat.ltb_lt (length (b_xs b)) (2 * m))) by lia. now rewrite orb_true_r.
  - now rewrite near_allclose.
Qed.
(** With fewer than 2*min_points instances, or an axis range within the tolerance of np.allclose, there is a single bin, from xs_min to xs_max; it holds every instance of the axis range. *)
Lemma one_bin_populated b m : (forall x, In x (b_xs b) -> b_lo b <= x <= b_hi b) -> (m <= length (b_xs b))%nat -> populated (b_xs b) m [b_lo b; b_hi b].
Proof.
  intros Hin L k Hk. simpl in Hk. assert (k = 0%nat) by lia. subst k. simpl. rewrite points_in_all by exact Hin. exact L.
Qed.
Theorem C13_one_bin : forall b n d m cat_limit, length (b_eff b) = length (b_xs b) ->
  (cat_limit < length (unique (b_xs b)))%nat -> (1 < length (unique (b_xs b)))%nat -> (m <= length (b_xs b))%nat ->
  (length (b_xs b) < 2 * m)%nat \/ (b_lo b <= b_hi b /\ ~ far_apart (b_lo b) (b_hi b)) ->
  greedy_find b n d (Some m) cat_limit = Ok (LArr [b_lo b; b_hi b]) /\
  ((forall x, In x (b_xs b) -> b_lo b <= x <= b_hi b) -> populated (b_xs b) m [b_lo b; b_hi b]).
Proof.
  intros b n d m c He Hc Hu Hm Ho. split; [|intros Hin; apply one_bin_populated; [exact Hin|lia]]. unfold greedy_find, none_valid_binning. unfold bind at 1.
  destruct (Nat.eqb_spec (length (unique (b_xs b))) 1); [lia|]. destruct (Nat.ltb_spec (length (b_xs b)) m); [lia|]. simpl orb. cbv iota.
  rewrite is_categorical_none by exact Hc. unfold bind at 1. now rewrite one_bin.
Qed.
Print Assumptions C13_one_bin.
(** The hypothesis that the data lie in the axis range is needed: on a range without data the loop leaves a
    single limit (bin_splitting.py:238-239). *)
Example C13_out_of_range : shown_lims (greedy_find (mkB (qs [0; 1; 2; 3]) (qs [0; 0; 0; 0]) (Q2Qc (-2)) (Q2Qc (-1))) 3 0 (Some 1%nat) 1) = Ok (Some [-1]%Q).
Proof. vm_compute. reflexivity. Qed.

(** * C14 / C15  Dynamic programming *)
(** The dynamic programme is optimal and valid as soon as SOME binning of the grid costs less than the
    sentinel 1e8 used for infeasible bins. *)
Theorem C14_dp_optimal_partial : forall b K m d cat_limit,
  length (b_eff b) = length (b_xs b) -> (2 <= K)%nat -> (1 <= m)%nat -> d <= 1 -> b_lo b < b_hi b ->
  (cat_limit < length (unique (b_xs b)))%nat -> (1 < length (unique (b_xs b)))%nat -> (2 * m <= length (b_xs b))%nat -> far_apart (b_lo b) (b_hi b) ->
  (exists l0, grid_binning (b_lo b) (b_hi b) K l0 /\ binning_loss (b_xs b) (b_eff b) m d l0 < Q2Qc 100000000) ->
  exists l, dp_find b K (Some m) d cat_limit = Ok (LArr l) /\ grid_binning (b_lo b) (b_hi b) K l /\
    forall l', grid_binning (b_lo b) (b_hi b) K l' ->
      binning_loss (b_xs b) (b_eff b) m d l <= binning_loss (b_xs b) (b_eff b) m d l'.
Proof.
  intros b K m d c He HK Hm Hd Hlh Hc Hu Hm2 Hf H0. pose proof (several_bins b m Hlh Hf He Hm2) as H1. assert (HmN : (m <= length (b_xs b))%nat) by lia. exists (dp_limits b m d K).
  destruct (dp_limits_ok b m d K He Hm HK Hd Hlh H0) as (G & P & C & O).
  split; [exact (dp_find_ok b m d K c He HK Hc Hu HmN H1)|]. split; [exact G|exact O].
Qed.
Print Assumptions C14_dp_optimal_partial.

(** Under the same guard the result is a valid binning: limits on the grid, from lo to hi, increasing, and every bin holds
    at least [m] points (and it is the optimal one, C14). *)
Theorem C15_dp_valid_partial : forall b K m d cat_limit,
  length (b_eff b) = length (b_xs b) -> (2 <= K)%nat -> (1 <= m)%nat -> d <= 1 -> b_lo b < b_hi b ->
  (cat_limit < length (unique (b_xs b)))%nat -> (1 < length (unique (b_xs b)))%nat -> (2 * m <= length (b_xs b))%nat -> far_apart (b_lo b) (b_hi b) ->
  (exists l0, grid_binning (b_lo b) (b_hi b) K l0 /\ binning_loss (b_xs b) (b_eff b) m d l0 < Q2Qc 100000000) ->
  exists l, dp_find b K (Some m) d cat_limit = Ok (LArr l) /\ grid_binning (b_lo b) (b_hi b) K l /\
    populated (b_xs b) m l /\ increasing l /\ l@0 = b_lo b /\ l@(length l - 1) = b_hi b /\
    forall l', grid_binning (b_lo b) (b_hi b) K l' ->
      binning_loss (b_xs b) (b_eff b) m d l <= binning_loss (b_xs b) (b_eff b) m d l'.
Proof.
  intros b K m d c He HK Hm Hd Hlh Hc Hu Hm2 Hf H0. pose proof (several_bins b m Hlh Hf He Hm2) as H1. assert (HmN : (m <= length (b_xs b))%nat) by lia. exists (dp_limits b m d K).
  destruct (dp_limits_ok b m d K He Hm HK Hd Hlh H0) as (G & P & C & O).
  destruct (grid_binning_shape _ _ K _ Hlh ltac:(lia) G) as (I & _ & F & L & _).
  split; [exact (dp_find_ok b m d K c He HK Hc Hu HmN H1)|]. auto 10.
Qed.
Print Assumptions C15_dp_valid_partial.
(** With fewer than 2*min_points instances, an axis range within the tolerance of np.allclose, or max_nof_bins = 1: the
    single bin. *)
Theorem C15_one_bin : forall b K m d cat_limit, length (b_eff b) = length (b_xs b) ->
  (cat_limit < length (unique (b_xs b)))%nat -> (1 < length (unique (b_xs b)))%nat -> (m <= length (b_xs b))%nat ->
  (length (b_xs b) < 2 * m)%nat \/ (b_lo b <= b_hi b /\ ~ far_apart (b_lo b) (b_hi b)) \/ K = 1%nat ->
  dp_find b K (Some m) d cat_limit = Ok (LArr [b_lo b; b_hi b]) /\
  ((forall x, In x (b_xs b) -> b_lo b <= x <= b_hi b) -> populated (b_xs b) m [b_lo b; b_hi b]).
Proof.
  intros b n m d c He Hc Hu Hm Ho. split; [|intros Hin; apply one_bin_populated; [exact Hin|lia]]. unfold dp_find, none_valid_binning. unfold bind at 1.
  destruct (Nat.eqb_spec (length (unique (b_xs b))) 1); [lia|]. destruct (Nat.ltb_spec (length (b_xs b)) m); [lia|]. simpl orb. cbv iota.
  rewrite is_categorical_none by exact Hc. unfold bind at 1. destruct Ho as [Ho|[Ho| ->]]; [now rewrite one_bin; auto|now rewrite one_bin; auto|]. now destruct (only_one_bin_possible b m).
Qed.
Print Assumptions C15_one_bin.
(** When all the data lie in the axis range it is enough that the single bin is cheap. *)
Theorem C15_single_bin_cheap_partial : forall b K m d cat_limit,
  length (b_eff b) = length (b_xs b) -> (2 <= K)%nat -> (1 <= m)%nat -> d <= 1 -> b_lo b < b_hi b ->
  (cat_limit < length (unique (b_xs b)))%nat -> (1 < length (unique (b_xs b)))%nat -> (2 * m <= length (b_xs b))%nat -> far_apart (b_lo b) (b_hi b) ->
  (forall x, In x (b_xs b) -> b_lo b <= x <= b_hi b) ->
  variance (b_eff b) * (b_hi b - b_lo b) * (1 - d) < Q2Qc 100000000 ->
  exists l, dp_find b K (Some m) d cat_limit = Ok (LArr l) /\ grid_binning (b_lo b) (b_hi b) K l /\
    populated (b_xs b) m l /\ increasing l /\ l@0 = b_lo b /\ l@(length l - 1) = b_hi b /\
    forall l', grid_binning (b_lo b) (b_hi b) K l' ->
      binning_loss (b_xs b) (b_eff b) m d l <= binning_loss (b_xs b) (b_eff b) m d l'.
Proof.
  intros b K m d c He HK Hm Hd Hlh Hc Hu Hm2 Hf Hin Hv. assert (HmN : (m <= length (b_xs b))%nat) by lia.
  destruct (one_bin_loss b m d K ltac:(lia) He Hin HmN ltac:(lia)) as (G0 & C0).
  apply C15_dp_valid_partial; try assumption. exists [b_lo b; b_hi b]. split; [exact G0|]. rewrite C0. exact Hv.
Qed.
Print Assumptions C15_single_bin_cheap_partial.

Example C14_hypotheses_met : (2 * 2 <= length (b_xs ex13))%nat /\ far_apart (b_lo ex13) (b_hi ex13) /\
  this (variance (b_eff ex13) * (b_hi ex13 - b_lo ex13) * (1 - Q2Qc (3#10))) = (2464 # 125)%Q /\
  shown_lims (dp_find ex13 8 (Some 2%nat) (Q2Qc (3#10)) 3) = Ok (Some [0; 1; 5#2; 4]%Q).
Proof. split; [vm_compute; repeat constructor|]. split; [vm_compute; reflexivity|]. split; vm_compute; reflexivity. Qed.

(** ** Refutations *)
(** C14: between min_points and 2*min_points instances DP returns the single bin without a search. Since the bins of the grid are counted as closed intervals,
    an instance on a limit belongs to two bins, two populated bins exist, and they are cheaper. *)
Definition ex14o := mkB (qs [0; 1; 2]) (qs [0; 0; 6]) 0 (Q2Qc 2).
Theorem C14_one_bin_refuted : exists l, dp_find ex14o 2 (Some 2%nat) 0 1 = Ok (LArr l) /\
  exists l', grid_binning (b_lo ex14o) (b_hi ex14o) 2 l' /\ populated (b_xs ex14o) 2 l' /\ binning_loss (b_xs ex14o) (b_eff ex14o) 2 0 l' < binning_loss (b_xs ex14o) (b_eff ex14o) 2 0 l.
Proof.
  eexists. split; [vm_compute; reflexivity|]. exists (qs [0; 1; 2]). split; [|split].
  - exists [1%nat]. split; [repeat constructor|]. apply list_ext with 0; [reflexivity|]. intros [|[|[|i]]] Hi; try (simpl in Hi; lia); apply Qc_is_canon; vm_compute; reflexivity.
  - intros k Hk. simpl in Hk. assert (C : k = 0%nat \/ k = 1%nat) by lia. destruct C as [-> | ->]; vm_compute; repeat constructor.
  - apply Qcltb_lt. vm_compute. reflexivity.
Qed.
Print Assumptions C14_one_bin_refuted.
(** C15: real costs above 1e8 make the infeasible sentinel attractive: a bin with 1 point although min_points = 2. *)
Definition ex15 := mkB (qs [0; 3#2; 17#10; 2]) (qs [100000000; 0; 0; 0]) 0 (Q2Qc 2).
Theorem C15_min_points_refuted : exists l, dp_find ex15 2 (Some 2%nat) 0 1 = Ok (LArr l) /\
  ~ populated (b_xs ex15) 2 l /\ (exists l', grid_binning (b_lo ex15) (b_hi ex15) 2 l' /\ populated (b_xs ex15) 2 l').
Proof.
  eexists. split; [vm_compute; reflexivity|]. split.
  - intros H. specialize (H 0%nat ltac:(simpl; lia)). vm_compute in H. lia.
  - exists [b_lo ex15; b_hi ex15]. split.
    + exists []. split; [repeat constructor|reflexivity].
    + intros k Hk. simpl in Hk. assert (k = 0%nat) by lia. subst k. vm_compute. repeat constructor.
Qed.
Print Assumptions C15_min_points_refuted.

(** C15: it can even return limits that are not increasing, [0; 2; 1; 3]. *)
Definition ex15_mid := qs [11#10; 12#10; 13#10; 14#10; 15#10; 16#10; 17#10; 18#10; 19#10; 195#100].
Definition ex15b := mkB (qs [0; 1#2] ++ ex15_mid ++ qs [25#10; 3])
                        (qs [100000; -100000] ++ map (fun _ => 0) ex15_mid ++ qs [100000; -100000]) 0 (Q2Qc 3).
Theorem C15_not_increasing_refuted : exists l, dp_find ex15b 3 (Some 1%nat) 0 1 = Ok (LArr l) /\ ~ increasing l.
Proof.
  eexists. split; [vm_compute; reflexivity|]. intros H.
  specialize (H 1%nat 2%nat ltac:(lia) ltac:(simpl; lia)). vm_compute in H. discriminate.
Qed.
Print Assumptions C15_not_increasing_refuted.

(** C14: with min_points = 0 (the value used for the string "dp") an empty grid cell has cost NaN and poisons
    the minimisation (numpy's argmin returns the first NaN): DP returns [0; 1; 2; 0; 4], which is not a binning
    at all, although the grid has a binning of cost 0. *)
Definition ex14 := mkB (qs [0; 1#2; 9#4; 5#2; 14#4; 4]) (qs [0; 0; 0; 0; 10; 10]) 0 (Q2Qc 4).
Theorem C14_min_points_zero_refuted : exists l, dp_find ex14 4 (Some 0%nat) 0 1 = Ok (LArr l) /\
  ~ grid_binning (b_lo ex14) (b_hi ex14) 4 l /\
  exists l', grid_binning (b_lo ex14) (b_hi ex14) 4 l' /\ binning_loss (b_xs ex14) (b_eff ex14) 0 0 l' = 0.
Proof.
  eexists. split; [vm_compute; reflexivity|]. split.
  - intros G. assert (Q : b_lo ex14 < b_hi ex14) by reflexivity. destruct (grid_binning_shape _ _ 4 _ Q ltac:(lia) G) as (H & _).
    specialize (H 2%nat 3%nat ltac:(lia) ltac:(simpl; lia)). vm_compute in H. discriminate.
  - exists (map (grid (b_lo ex14) (b_hi ex14) 4) [0; 1; 3; 4]%nat). split.
    + exists [1; 3]%nat. split; [repeat constructor|reflexivity].
    + apply Qc_is_canon. vm_compute. reflexivity.
Qed.
Print Assumptions C14_min_points_zero_refuted.

(** * C16  min_points_per_bin and the points actually averaged *)
Theorem C16_points_per_bin_partial : forall xs es l m, length es = length xs -> (2 <= length l)%nat -> increasing l ->
  (forall x, In x xs -> covered l x) -> populated xs m l ->
  (* no instance lies exactly on an interior limit *)
  (forall j, (0 < j < length l - 1)%nat -> ~ In l@j xs) ->
  exists means ppb, compute_bin_effect xs es l = Ok (means, ppb) /\ length ppb = (length l - 1)%nat /\
    forall k, (k < length l - 1)%nat -> (m <= nth k ppb 0)%nat.
Proof. exact ppb_populated. Qed.
Print Assumptions C16_points_per_bin_partial.

(** For categorical features the guarantee is unconditional. *)
Theorem C16_categorical : forall b mth m l es, method_known mth -> method_min_points mth = Some m -> length es = length (b_xs b) ->
  (2 <= length (unique (b_xs b)))%nat -> (length (unique (b_xs b)) <= method_cat_limit mth)%nat ->
  find_limits_b b mth = Ok (LArr l) ->
  exists means ppb, compute_bin_effect (b_xs b) es l = Ok (means, ppb) /\ length ppb = length (unique (b_xs b)) /\
    forall k, (k < length (unique (b_xs b)))%nat -> (m <= nth k ppb 0)%nat.
Proof. exact cat_ppb. Qed.
Print Assumptions C16_categorical.

(** Refuted in general: an instance on a shared limit is counted for both closed bins but averaged in one. *)
Definition ex16 := mkB (qs [0; 1; 2]) (qs [0; 0; 0]) 0 (Q2Qc 2).
Theorem C16_refuted : exists l means ppb, fixed_find ex16 2 (Some 2%nat) 1 = Ok (LArr l) /\
  compute_bin_effect (b_xs ex16) (b_eff ex16) l = Ok (means, ppb) /\ (nth 0 ppb 0 < 2)%nat.
Proof.
  do 3 eexists. split; [vm_compute; reflexivity|]. split; [vm_compute; reflexivity|]. vm_compute. repeat constructor.
Qed.
Print Assumptions C16_refuted.

(** * C17  Impossible binning *)
Theorem C17_greedy_dp : forall b m n d cat_limit, constant (b_xs b) \/ (length (b_xs b) < m)%nat ->
  greedy_find b n d (Some m) cat_limit = Ok LFalse /\ dp_find b n (Some m) d cat_limit = Ok LFalse.
Proof. exact greedy_dp_impossible. Qed.
Print Assumptions C17_greedy_dp.
Theorem C17_fixed_too_few_partial : forall b m n cat_limit, (length (b_xs b) < m)%nat -> (1 < length (unique (b_xs b)))%nat -> (1 <= n)%nat ->
  fixed_find b n (Some m) cat_limit = Ok LFalse.
Proof. exact fixed_too_few. Qed.
Print Assumptions C17_fixed_too_few_partial.
(** Fixed.find on a constant feature never returns False: IndexError for every cat_limit >= 1. *)
Theorem C17_fixed_constant_refuted : forall b m n cat_limit, constant (b_xs b) -> (1 <= cat_limit)%nat ->
  fixed_find b n (Some m) cat_limit = Raise IndexError.
Proof. exact fixed_constant. Qed.
Print Assumptions C17_fixed_constant_refuted.
(** min_points = None, allowed by the type annotations, is a TypeError in all three classes. *)
Theorem C17_none_min_points : forall b n d c, fixed_find b n None c = Raise TypeError /\ greedy_find b n d None c = Raise TypeError /\ dp_find b n None d c = Raise TypeError.
Proof. exact none_min_points. Qed.
Print Assumptions C17_none_min_points.
Example C17_constant_instance : constant (qs [2; 2; 2]) /\ shown_lims (fixed_find (mkB (qs [2; 2; 2]) [] (Q2Qc 2) (Q2Qc 2)) 5 (Some 1%nat) 15) = Raise IndexError.
Proof.
  split; [|vm_compute; reflexivity]. exists (Q2Qc 2). split; [discriminate|]. intros x Hx. simpl in Hx. intuition congruence.
Qed.

(** * C18  Dispatch *)
Theorem C18_find_limits_objects : forall X E f al n m d c, 
  find_limits X E f al (MFixed n m c) = (b <- make_binner X E f (Some al) ;; fixed_find b n m c) /\
  find_limits X E f al (MGreedy n m d c) = (b <- make_binner X E f (Some al) ;; greedy_find b n d m c) /\
  find_limits X E f al (MDP n m d c) = (b <- make_binner X E f (Some al) ;; dp_find b n m d c).
Proof. repeat split. Qed.
Print Assumptions C18_find_limits_objects.
Theorem C18_find_limits_strings : forall X E f al s,
  find_limits X E f al (MStr s) =
    if String.eqb s "fixed" then (b <- make_binner X E f (Some al) ;; fixed_find b 20 (Some 0%nat) 15)
    else if String.eqb s "greedy" then (b <- make_binner X E f (Some al) ;; greedy_find b 100 (Q2Qc (3#10)) (Some 0%nat) 15)
    else if String.eqb s "dp" then (b <- make_binner X E f (Some al) ;; dp_find b 20 (Some 0%nat) (Q2Qc (3#10)) 15)
    else Raise AssertionError.
Proof.
  intros X E f al s. unfold find_limits, find_limits_b.
  destruct (String.eqb_spec s "fixed") as [->|N1]; [reflexivity|].
  destruct (String.eqb_spec s "greedy") as [->|N2]; [reflexivity|].
  destruct (String.eqb_spec s "dp") as [->|N3]; reflexivity.
Qed.
Print Assumptions C18_find_limits_strings.
