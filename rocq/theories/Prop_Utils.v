(** Properties C01-C09: the numerical kernels of effector/utils.py.
    Only statements (closed by [exact]), non-vacuity examples and refutations. *)
From Verif Require Import Base Numpy Spec NumpyFacts Utils UtilsProofs FillProofs AccProofs LocalProofs.
Open Scope Qc_scope.

(** * C01  Bin membership is a partition *)
Theorem C01_bins_partition : forall xs es l,
  length es = length xs -> (2 <= length l)%nat -> increasing l -> (forall x, In x xs -> covered l x) ->
  exists means ppb, compute_bin_effect xs es l = Ok (means, ppb) /\
    length ppb = (length l - 1)%nat /\
    (forall k, (k < length l - 1)%nat -> nth k ppb 0%nat = length (filter (in_bin l k) xs)) /\
    sumn ppb = length xs /\
    (forall x, In x xs -> exists k, (k < length l - 1)%nat /\ in_bin l k x = true /\
       forall j, (j < length l - 1)%nat -> in_bin l j x = true -> j = k).
Proof.
  intros xs es l Hlen Hl Hi Hc. do 2 eexists. split; [exact (compute_bin_effect_eq xs es l Hlen Hl Hi Hc)|].
  split; [now rewrite map_length, seq_length|]. split.
  { intros k Hk. rewrite (nth_map_in _ _ _ 0%nat) by now rewrite seq_length. now rewrite nth_seq. }
  split; [exact (ppb_sum xs l Hl Hi Hc)|].
  intros x Hx. exact (in_bin_exactly_one l x Hl Hi (Hc x Hx)).
Qed.
Print Assumptions C01_bins_partition.

Theorem C01_left_of_limits_raises : forall xs es l x,
  (2 <= length l)%nat -> increasing l -> In x xs -> x < l@0 ->
  compute_bin_effect xs es l = Raise ValueError.
Proof. exact compute_bin_effect_left. Qed.
Print Assumptions C01_left_of_limits_raises.

(** * C02  Bin effect is the mean of the effects of the bin *)
Theorem C02_bin_effect_is_mean : forall xs es l,
  length es = length xs -> (2 <= length l)%nat -> increasing l -> (forall x, In x xs -> covered l x) ->
  exists means ppb, compute_bin_effect xs es l = Ok (means, ppb) /\
    length means = (length l - 1)%nat /\
    (forall k, (k < length l - 1)%nat ->
       (members l xs es k = [] -> nth k means None = None) /\
       (members l xs es k <> [] -> nth k means None = Some (mean (members l xs es k)))) /\
    (* the count-weighted sum of the bin effects is the sum of all effects *)
    sumq (map (fun k => match nth k means None with Some m => qn (nth k ppb 0%nat) * m | None => 0 end)
              (seq 0 (length l - 1))) = sumq es.
Proof.
  intros xs es l Hlen Hl Hi Hc. do 2 eexists. split; [exact (compute_bin_effect_eq xs es l Hlen Hl Hi Hc)|].
  split; [now rewrite map_length, seq_length|].
  assert (N : forall k, (k < length l - 1)%nat ->
     nth k (map (fun k => mean_or_nan (members l xs es k)) (seq 0 (length l - 1))) None = mean_or_nan (members l xs es k)).
  { intros k Hk. rewrite (nth_map_in _ _ _ 0%nat) by now rewrite seq_length. now rewrite nth_seq. }
  split.
  - intros k Hk. rewrite N by exact Hk. split; intros E; [now rewrite E|]. destruct (members l xs es k); [congruence|reflexivity].
  - rewrite <- (members_sum xs es l Hlen Hl Hi Hc). apply sumq_map_ext. intros k Hk. apply in_seq in Hk.
    rewrite N by lia. rewrite (nth_map_in _ _ _ 0%nat) by (rewrite seq_length; lia). rewrite nth_seq by lia.
    simpl Nat.add. rewrite <- (members_length l xs es k Hlen). destruct (members l xs es k) as [|e m] eqn:E; [reflexivity|].
    unfold mean_or_nan. rewrite Qcmult_comm. apply mean_mul_len. discriminate.
Qed.
Print Assumptions C02_bin_effect_is_mean.

(** * C03  Bin variance is the population variance *)
Theorem C03_bin_variance : forall xs es l means ppb,
  length es = length xs -> (2 <= length l)%nat -> increasing l -> (forall x, In x xs -> covered l x) ->
  compute_bin_effect xs es l = Ok (means, ppb) ->
  exists vars evars, compute_bin_variance xs es l means = Ok (vars, evars) /\
    length vars = (length l - 1)%nat /\ length evars = (length l - 1)%nat /\
    forall k, (k < length l - 1)%nat -> let m := members l xs es k in
      ((length m < 2)%nat -> nth k vars None = None /\ nth k evars None = None) /\
      ((2 <= length m)%nat -> nth k vars None = Some (variance m) /\
         nth k evars None = Some (variance m / qn (length m)) /\
         0 <= variance m /\ (variance m = 0 <-> forall a b, In a m -> In b m -> a = b)).
Proof.
  intros xs es l means ppb Hlen Hl Hi Hc H.
  rewrite (compute_bin_effect_eq xs es l Hlen Hl Hi Hc) in H. injection H as <- <-.
  do 2 eexists. split.
  { apply (compute_bin_variance_eq xs es l Hlen Hl Hi Hc).
    - now rewrite map_length, seq_length.
    - intros k Hk Hne. rewrite (nth_map_in _ _ _ 0%nat) by now rewrite seq_length. rewrite nth_seq by exact Hk.
      simpl Nat.add. destruct (members l xs es k); [congruence|reflexivity]. }
  split; [now rewrite map_length, seq_length|]. split; [now rewrite map_length, seq_length|].
  intros k Hk m. rewrite !(nth_map_in _ _ _ 0%nat) by now rewrite seq_length. rewrite nth_seq by exact Hk.
  simpl Nat.add. fold m. unfold var_or_nan, estvar_or_nan. split; intros Hm.
  - destruct (Nat.ltb_spec 1 (length m)); [lia|]. auto.
  - destruct (Nat.ltb_spec 1 (length m)); [|lia]. split; [reflexivity|]. split; [reflexivity|].
    assert (m <> []) by (intros E; rewrite E in Hm; simpl in Hm; lia).
    split; [now apply variance_nonneg|now apply variance_zero_iff].
Qed.
Print Assumptions C03_bin_variance.

(** Non-vacuity / model validation: the docstring example of utils.py:373-377. *)
Definition ex_xs := qs [1#2; 6#5; 2; 23#10].
Definition ex_es := qs [30; 34; 15; 17].
Definition ex_l := qs [0; 3#2; 3].
Example C01_C02_C03_hypotheses_met :
  length ex_es = length ex_xs /\ (2 <= length ex_l)%nat /\ increasing ex_l /\ (forall x, In x ex_xs -> covered ex_l x).
Proof.
  split; [reflexivity|]. split; [simpl; lia|]. split.
  - apply increasing_adj. intros i Hi. simpl in Hi. do 2 (destruct i as [|i]; [reflexivity|]). lia.
  - intros x Hx. simpl in Hx. unfold covered. repeat (destruct Hx as [<-|Hx]; [split; discriminate|]). destruct Hx.
Qed.
Example docstring_compute_ale_params :
  rmap (fun p => (ap_ppb p, show (ap_effect p), show (ap_var p), show (ap_estvar p))) (compute_ale_params ex_xs ex_es ex_l)
  = Ok ([2; 2]%nat, [32; 16]%Q, [4; 1]%Q, [2; 1#2]%Q).
Proof. vm_compute. reflexivity. Qed.
Example docstring_compute_ale_params_interp :
  rmap (fun p => (ap_ppb p, show (ap_effect p), show (ap_var p), show (ap_estvar p)))
    (compute_ale_params (qs [1; 2; 28#10; 4]) (qs [31; 34; 37; 40]) (qs [1; 3; 4]))
  = Ok ([3; 1]%nat, [34; 40]%Q, [6; 6]%Q, [2; 2]%Q).
Proof. vm_compute. reflexivity. Qed.
Example empty_bin_is_nan :
  rmap (fun p => (shown (fst p), snd p)) (compute_bin_effect (qs [1#2; 1#2]) (qs [10; 10]) (qs [0; 1; 2])) = Ok ([Some 10%Q; None], [2; 0]%nat).
Proof. vm_compute. reflexivity. Qed.
Example C01_left_raises_instance : compute_bin_effect (qs [1#2; -1]) (qs [1; 1]) (qs [0; 1]) = Raise ValueError.
Proof. vm_compute. reflexivity. Qed.

(** * C04  NaN filling *)
Theorem C04_fill_nans : forall x y, fill_nans x = Ok y ->
  length y = length x /\
  (forall i v, nth i x None = Some v -> y@i = v) /\
  (forall i a va b vb, nth i x None = None -> nearest_left x i a va -> nearest_right x i b vb ->
     y@i = lerp a va b vb i) /\
  (forall i a va, (i < length x)%nat -> nth i x None = None -> nearest_left x i a va ->
     (forall j, (i < j)%nat -> nth j x None = None) -> y@i = va) /\
  (forall i b vb, nth i x None = None -> nearest_right x i b vb ->
     (forall j, (j < i)%nat -> nth j x None = None) -> y@i = vb) /\
  (forall lo hi, (forall i v, nth i x None = Some v -> lo <= v <= hi) ->
     forall i, (i < length x)%nat -> lo <= y@i <= hi).
Proof.
  intros x y H. split; [exact (fill_nans_length x y H)|]. split; [intros i v; exact (fill_nans_keeps x y i v H)|].
  split; [intros i a va b vb; exact (fill_nans_gap x y i a va b vb H)|].
  split; [intros i a va; exact (fill_nans_gap_right x y i a va H)|].
  split; [intros i b vb; exact (fill_nans_gap_left x y i b vb H)|].
  intros lo hi; exact (fill_nans_range x y lo hi H).
Qed.
Print Assumptions C04_fill_nans.

Theorem C04_fill_nans_total : forall x,
  (fill_nans x = Raise ValueError <-> forall j, nth j x None = None) /\
  ((exists j v, nth j x None = Some v) -> exists y, fill_nans x = Ok y).
Proof.
  intros x. split; [exact (fill_nans_raise_iff x)|]. intros (j & v & E).
  destruct (fill_nans_ok_or_raise x) as [H|H]; [exact H|].
  apply fill_nans_raise_iff with (j := j) in H. congruence.
Qed.
Print Assumptions C04_fill_nans_total.

(** the docstring examples of utils.py:251-261 *)
Example docstring_fill_nans_1 : rmap show (fill_nans [Some 1; None; None; None; Some (Q2Qc 2)]) = Ok [1; 5#4; 3#2; 7#4; 2]%Q.
Proof. vm_compute. reflexivity. Qed.
Example docstring_fill_nans_2 : rmap show (fill_nans [Some (Q2Qc (1#2)); Some 1; None; None; None]) = Ok [1#2; 1; 1; 1; 1]%Q.
Proof. vm_compute. reflexivity. Qed.
Example C04_gap_hypotheses_met :
  let x := [Some 1; None; None; Some (Q2Qc 4)] in
  nearest_left x 1 0 1 /\ nearest_right x 1 3 (Q2Qc 4) /\ rmap show (fill_nans x) = Ok [1; 2; 3; 4]%Q.
Proof.
  split; [|split; [|vm_compute; reflexivity]].
  - split; [lia|]. split; [reflexivity|]. intros j Hj. lia.
  - split; [lia|]. split; [reflexivity|]. intros j Hj. assert (j = 2)%nat as -> by lia. reflexivity.
Qed.

(** * C05  Accumulated effect is the integral of the step function *)

(** Exact value for every evaluation point. *)
Theorem C05_accumulated_effect_exact : forall l es xs,
  (2 <= length l)%nat -> increasing l -> length es = (length l - 1)%nat ->
  compute_accumulated_effect xs l es (diffs l) false =
  Ok (map (fun x => step_integral l es x +
        (if l@(length l - 1) <=? x then es@(length l - 2) * Qcmax 0 (x - BIG_M) else 0)) xs).
Proof. exact accumulated_effect_exact. Qed.
Print Assumptions C05_accumulated_effect_exact.

(** The property under the guard the code needs: points right of the last limit must not exceed 1e8. *)
Theorem C05_accumulated_effect_partial : forall l es xs,
  (2 <= length l)%nat -> increasing l -> length es = (length l - 1)%nat ->
  (forall x, In x xs -> x <= BIG_M \/ x < l@(length l - 1)) ->
  compute_accumulated_effect xs l es (diffs l) false = Ok (map (step_integral l es) xs).
Proof. exact accumulated_effect_below_bigM. Qed.
Print Assumptions C05_accumulated_effect_partial.

Theorem C05_accumulated_effect_square_partial : forall l es xs,
  (2 <= length l)%nat -> increasing l -> length es = (length l - 1)%nat ->
  (forall x, In x xs -> x <= BIG_M \/ x < l@(length l - 1)) ->
  compute_accumulated_effect xs l es (diffs l) true = Ok (map (step_integral_sq l es) xs).
Proof. exact accumulated_effect_sq_below_bigM. Qed.
Print Assumptions C05_accumulated_effect_square_partial.

(** Without the guard it is false: right of 1e8 the curve is extrapolated with the last bin effect. *)
Theorem C05_refuted : exists l es xs,
  (2 <= length l)%nat /\ increasing l /\ length es = (length l - 1)%nat /\
  compute_accumulated_effect xs l es (diffs l) false <> Ok (map (step_integral l es) xs).
Proof.
  exists (qs [0; 1]), (qs [1]), (qs [100000001]). split; [simpl; lia|]. split.
  { apply increasing_adj. intros i Hi. simpl in Hi. destruct i as [|i]; [reflexivity|lia]. }
  split; [reflexivity|]. intros H. apply (f_equal (rmap show)) in H. vm_compute in H. discriminate.
Qed.
Print Assumptions C05_refuted.

Example docstring_accumulated_effect :
  rmap show (compute_accumulated_effect (qs [-1; -1#2; 0; 1#2; 1; 3#2; 2; 5#2; 3]) (qs [0; 3#2; 2]) (qs [1; -1]) (qs [3#2; 1#2]) false)
  = Ok [0; 0; 0; 1#2; 1; 3#2; 1; 1; 1]%Q.
Proof. vm_compute. reflexivity. Qed.

(** * C06  Shape of the curve (of the exact integral; by C05 this is what the code returns below 1e8) *)
Theorem C06_shape : forall l es M x y,
  increasing l -> (2 <= length l)%nat -> length es = (length l - 1)%nat ->
  (forall e, In e es -> Qcabs e <= M) -> x <= y ->
  step_integral l es l@0 = 0 /\
  Qcabs (step_integral l es y - step_integral l es x) <= M * (y - x) /\
  ((forall e, In e es -> 0 <= e) -> step_integral l es x <= step_integral l es y) /\
  (y <= l@0 -> step_integral l es x = step_integral l es y) /\
  (l@(length l - 1) <= x -> step_integral l es x = step_integral l es y).
Proof.
  intros l es M x y Hi Hl He HM Hxy.
  split; [exact (step_integral_left l es _ Hi (Qcle_refl _))|].
  split; [exact (step_integral_lipschitz l es M x y Hi Hl He HM Hxy)|].
  split; [intros Hp; exact (step_integral_mono l es x y Hi He Hp Hxy)|].
  split; intros H.
  - rewrite !step_integral_left; [reflexivity|exact Hi|exact H|exact Hi|exact (Qcle_trans _ _ _ Hxy H)].
  - rewrite !step_integral_right; [reflexivity|exact Hi|exact Hl|exact (Qcle_trans _ _ _ H Hxy)|exact Hi|exact Hl|exact H].
Qed.
Print Assumptions C06_shape.

(** The same stated on the API function itself, below the sentinel. *)
Theorem C06_api_partial : forall l es M x y,
  increasing l -> (2 <= length l)%nat -> length es = (length l - 1)%nat ->
  (forall e, In e es -> Qcabs e <= M) -> x <= y -> y <= BIG_M ->
  exists v0 vx vy, compute_accumulated_effect [l@0; x; y] l es (diffs l) false = Ok [v0; vx; vy] /\
    (l@0 <= BIG_M -> v0 = 0) /\
    Qcabs (vy - vx) <= M * (y - x) /\
    ((forall e, In e es -> 0 <= e) -> vx <= vy) /\
    (y <= l@0 -> vx = vy) /\ (l@(length l - 1) <= x -> vx = vy).
Proof.
  intros l es M x y Hi Hl He HM Hxy Hy.
  do 3 eexists. split.
  { rewrite (accumulated_effect_below_bigM l es _ Hl Hi He); [reflexivity|].
    intros z [<-|[<-|[<-|[]]]].
    - right. apply Hi; lia.
    - left. exact (Qcle_trans _ _ _ Hxy Hy).
    - left. exact Hy. }
  destruct (C06_shape l es M x y Hi Hl He HM Hxy) as (A & B & C & D & E). auto 6.
Qed.
Print Assumptions C06_api_partial.

(** At the sentinel the curve jumps when the last limit exceeds 1e8 (feature values above 1e8): *)
Theorem C06_refuted_discontinuous : exists l es x y,
  increasing l /\ (2 <= length l)%nat /\ length es = (length l - 1)%nat /\ x <= y /\
  (forall e, In e es -> Qcabs e <= 1) /\
  exists vx vy, compute_accumulated_effect [x; y] l es (diffs l) false = Ok [vx; vy] /\
    y - x < Qcabs (vy - vx).
Proof.
  exists (qs [200000000; 200000001]), (qs [1]), (Q2Qc (4000000019 # 20)), (Q2Qc 200000001).
  split. { apply increasing_adj. intros i Hi. simpl in Hi. destruct i as [|i]; [reflexivity|lia]. }
  split; [simpl; lia|]. split; [reflexivity|]. split; [discriminate|].
  split. { intros e [<-|[]]. discriminate. }
  do 2 eexists. split; [|].
  { rewrite accumulated_effect_exact; [reflexivity|simpl; lia| |reflexivity].
    apply increasing_adj. intros i Hi. simpl in Hi. destruct i as [|i]; [reflexivity|lia]. }
  vm_compute. reflexivity.
Qed.
Print Assumptions C06_refuted_discontinuous.

Example C05_C06_hypotheses_met :
  increasing (qs [0; 3#2; 2]) /\ (forall e, In e (qs [1; -1]) -> Qcabs e <= 1) /\
  (forall x, In x (qs [-1; 1; 3]) -> x <= BIG_M \/ x < (qs [0; 3#2; 2])@(3 - 1)).
Proof.
  split. { apply increasing_adj. intros i Hi. simpl in Hi. do 2 (destruct i as [|i]; [reflexivity|]). lia. }
  split; intros x Hx; simpl in Hx.
  - repeat (destruct Hx as [<-|Hx]; [discriminate|]). destruct Hx.
  - left. repeat (destruct Hx as [<-|Hx]; [discriminate|]). destruct Hx.
Qed.

(** * C07  ALE local effects *)

(** What the code computes on float data with a row-wise model, exactly. *)
Theorem C07_local_effects_exact : forall X g l s,
  dt X = Float64 -> (s < dim X)%nat -> rows X <> [] ->
  (2 <= length l)%nat -> increasing l -> (forall r, In r (rows X) -> covered l r@s) ->
  exists effs, compute_local_effects X (map g) l s = (add_last l EPS, Ok effs) /\
    length effs = length (rows X) /\
    forall i k, (i < length (rows X))%nat -> (k < length l - 1)%nat ->
      let r := nth i (rows X) [] in in_bin l k r@s = true ->
      effs@i = (g (with_feature r s (add_last l EPS)@(S k)) - g (with_feature r s (add_last l EPS)@k))
               / ((add_last l EPS)@1 - (add_last l EPS)@0).
Proof.
  intros X g l s Hdt Hs Hne Hl Hi Hc. eexists. split.
  { rewrite (compute_local_effects_eq X g l s Hs Hne Hl Hi Hc). rewrite Hdt. reflexivity. }
  split; [apply map_length|]. intros i k Hin Hk r Hb.
  rewrite (nth_map_in _ _ _ []) by exact Hin. fold r.
  rewrite <- (bnat_unique l r@s k Hl Hi (Hc r (nth_In _ _ Hin)) Hk Hb). reflexivity.
Qed.
Print Assumptions C07_local_effects_exact.

(** The property holds for instances outside the last bin when all bins have the same width. *)
Theorem C07_local_effects_uniform_partial : forall X g l s h,
  dt X = Float64 -> (s < dim X)%nat -> rows X <> [] ->
  (3 <= length l)%nat -> increasing l -> (forall r, In r (rows X) -> covered l r@s) ->
  (forall k, (k < length l - 1)%nat -> l@(S k) - l@k = h) ->
  exists effs, snd (compute_local_effects X (map g) l s) = Ok effs /\
    forall i k, (i < length (rows X))%nat -> (k < length l - 2)%nat ->
      let r := nth i (rows X) [] in in_bin l k r@s = true ->
      effs@i = (g (with_feature r s l@(S k)) - g (with_feature r s l@k)) / (l@(S k) - l@k).
Proof.
  intros X g l s h Hdt Hs Hne Hl Hi Hc Hu.
  destruct (C07_local_effects_exact X g l s Hdt Hs Hne ltac:(lia) Hi Hc) as (effs & E & _ & H).
  exists effs. split; [now rewrite E|]. intros i k Hin Hk r Hb.
  rewrite (H i k Hin ltac:(lia) Hb). rewrite !add_last_nth by lia.
  destruct (Nat.eqb_spec (S k) (length l - 1)); [lia|]. destruct (Nat.eqb_spec k (length l - 1)); [lia|].
  destruct (Nat.eqb_spec 1 (length l - 1)); [lia|]. destruct (Nat.eqb_spec 0 (length l - 1)); [lia|].
  rewrite (Hu k) by lia. rewrite (Hu 0%nat) by lia. reflexivity.
Qed.
Print Assumptions C07_local_effects_uniform_partial.

(** Refuted in general: with bins of different width the difference is divided by the FIRST width. *)
Theorem C07_refuted_wrong_width : exists X g l s effs,
  wf_data X /\ dt X = Float64 /\ (s < dim X)%nat /\ increasing l /\ (2 <= length l)%nat /\
  (forall r, In r (rows X) -> covered l r@s) /\
  snd (compute_local_effects X (map g) l s) = Ok effs /\
  exists i k, (i < length (rows X))%nat /\ (k < length l - 2)%nat /\
    let r := nth i (rows X) [] in in_bin l k r@s = true /\
    effs@i <> (g (with_feature r s l@(S k)) - g (with_feature r s l@k)) / (l@(S k) - l@k).
Proof.
  exists (mkData Float64 1 [qs [1#2]; qs [2]; qs [4]]), (fun r => r@0), (qs [0; 1; 3; 5]), 0%nat.
  eexists. split. { intros r Hr. simpl in Hr. repeat (destruct Hr as [<-|Hr]; [reflexivity|]). destruct Hr. }
  split; [reflexivity|]. split; [simpl; lia|].
  assert (Hi : increasing (qs [0; 1; 3; 5])).
  { apply increasing_adj. intros i Hi. simpl in Hi. do 3 (destruct i as [|i]; [reflexivity|]). lia. }
  split; [exact Hi|]. split; [simpl; lia|].
  assert (Hc : forall r, In r [qs [1#2]; qs [2]; qs [4]] -> covered (qs [0; 1; 3; 5]) r@0).
  { intros r Hr. simpl in Hr. unfold covered. repeat (destruct Hr as [<-|Hr]; [split; discriminate|]). destruct Hr. }
  split; [exact Hc|]. split.
  { rewrite (compute_local_effects_eq _ (fun r => r@0) _ 0%nat); [reflexivity|simpl; lia|discriminate|simpl; lia|exact Hi|exact Hc]. }
  exists 1%nat, 1%nat. split; [simpl; lia|]. split; [simpl; lia|]. cbv zeta. split; [vm_compute; reflexivity|].
  intros H. apply (f_equal this) in H. vm_compute in H. discriminate.
Qed.
Print Assumptions C07_refuted_wrong_width.

(** Refuted: the caller's limits array is modified (its last entry grows by EPS), on EVERY successful call. *)
Theorem C07_refuted_mutation : forall X g l s,
  (s < dim X)%nat -> rows X <> [] ->
  (2 <= length l)%nat -> increasing l -> (forall r, In r (rows X) -> covered l r@s) ->
  fst (compute_local_effects X (map g) l s) <> l /\
  (fst (compute_local_effects X (map g) l s))@(length l - 1) = l@(length l - 1) + EPS.
Proof.
  intros X g l s Hs Hne Hl Hi Hc. rewrite (compute_local_effects_eq X g l s Hs Hne Hl Hi Hc).
  cbn [fst]. assert (E : (add_last l EPS)@(length l - 1) = l@(length l - 1) + EPS).
  { rewrite add_last_nth by lia. now rewrite Nat.eqb_refl. }
  split; [|exact E]. intros C. rewrite C in E. pose proof EPS_pos. qlra.
Qed.
Print Assumptions C07_refuted_mutation.

Example docstring_compute_local_effects :
  rmap show (snd (compute_local_effects (mkData Float64 2 [qs [1; 2]; qs [2; 3]]) (map sumq) (qs [1; 2]) 0)) = Ok [1; 1]%Q.
Proof. vm_compute. reflexivity. Qed.

(** * C08  Numerical Jacobian *)
Theorem C08_jacobian_entries : forall g X eps, dt X = Float64 -> eps <> 0 ->
  compute_jacobian_numerically (map g) X eps =
  Ok (map (fun r => map (fun j => (g (shift_feature r j eps) - g r) / eps) (seq 0 (dim X))) (rows X)).
Proof. exact jacobian_eq. Qed.
Print Assumptions C08_jacobian_entries.
Theorem C08_jacobian_affine : forall b a X eps, dt X = Float64 -> eps <> 0 -> wf_data X -> length a = dim X ->
  compute_jacobian_numerically (map (affine b a)) X eps = Ok (map (fun _ => a) (rows X)).
Proof. exact jacobian_affine. Qed.
Print Assumptions C08_jacobian_affine.
Theorem C08_jacobian_int_rejected : forall model X eps, dt X = Int64 -> (0 < dim X)%nat ->
  compute_jacobian_numerically model X eps = Raise TypeError.
Proof. exact jacobian_int_raises. Qed.
Print Assumptions C08_jacobian_int_rejected.
Example C08_instance :
  rmap (map show) (compute_jacobian_numerically (map (affine 1 (qs [2; -3]))) (mkData Float64 2 [qs [1; 2]; qs [2; 3]]) EPS)
  = Ok [[2; -3]; [2; -3]]%Q.
Proof. vm_compute. reflexivity. Qed.

(** * C09  Feature typing *)
Theorem C09_feature_types : forall X lim,
  length (get_feature_types X lim) = dim X /\
  forall f ds, (f < dim X)%nat -> NoDup ds -> (forall v, In v ds <-> exists r, In r (rows X) /\ r@f = v) ->
    nth f (get_feature_types X lim) Cont = if Nat.ltb (length ds) lim then Cat else Cont.
Proof. intros X lim. split; [exact (feature_types_length X lim)|]. intros f ds. exact (feature_types_spec X lim f ds). Qed.
Print Assumptions C09_feature_types.
Theorem C09_feature_types_invariant : forall X Y lim, dim X = dim Y ->
  (forall r, In r (rows X) <-> In r (rows Y)) -> get_feature_types X lim = get_feature_types Y lim.
Proof. exact feature_types_invariant. Qed.
Print Assumptions C09_feature_types_invariant.
Example C09_instance :
  get_feature_types (mkData Float64 2 [qs [1; 5]; qs [2; 5]; qs [3; 6]; qs [3; 6]]) 3 = [Cont; Cat].
Proof. vm_compute. reflexivity. Qed.
