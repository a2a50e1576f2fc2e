(** C118: RegionalPDP and RegionalDerPDP in binary64, from the model's outputs to the chosen subregions (see properties.jsonl).
    FloatRegionPDP.v: the heterogeneity function and what it should be; FloatRegionIdeal.v: the ideal drop of a split. *)
From Coq Require Import Reals Permutation.
From Flocq Require Import Core.
From Flocq Require Import IEEE754.BinarySingleNaN.
From Verif Require Import Base Numpy NumpyFacts Utils FloatModel FloatFacts FloatGrid FloatBins FloatProofs FloatMean FloatAcc FloatVar FloatDer FloatPDP FloatPDPSpec FloatPDPMean FloatPDPStd FloatPDPProofs FloatRegion FloatRegionProofs FloatRegionSum FloatRegionTop FloatRegionMain FloatRegionGuard FloatRegionAll Prop_FloatRegion FloatRegionIdeal FloatRegionPDP FloatRegionPDPProofs Prop_Float Prop_FloatPDP.
From Coq Require Import Lra.
Open Scope R_scope.

(** the averages add every number once, at least one row is required of a subregion, and the limits are in order *)
Definition heter_setup (c : pdpheter64) : Prop :=
  complete (h64_axis1 c) /\ complete (h64_mean c) /\ (1 <= h64_min_points c)%nat /\ Bltb (h64_lo c) (h64_hi c) = true.

(** The heterogeneity of a region is a finite number with sign +, within [heter_error] = (5 D + 31) 2^-53 M + 2^-533 of the exact
    average, over the ten positions, of the exact standard deviations of the numbers the model returned; D is the longest chain of
    roundings in an average over the region. It is 1e8 for a region with too few rows. *)
Theorem C118_heter c data M : heter_setup c -> (Z.of_nat (length data) <= 2 ^ 40)%Z -> within_limits c data -> tame_region c M data -> 0 <= M <= bpow radix2 380 ->
  exists v, pdp_heter64 c data = Ok v /\ fin v /\ Bsign v = false /\
    Rabs (val v - exact_heter c data) <= heter_error (S (steps (h64_axis1 c (length data)))) M.
Proof.
  intros (C1 & C2 & MP & LO) LD W T HM. destruct (region_close c data M C1 C2 MP LO LD W T HM) as (v & E & [F S] & A & _). exists v. auto.
Qed.
Theorem C118_few c data : (length data < h64_min_points c)%nat -> exists v, pdp_heter64 c data = Ok v /\ val v = 100000000 /\ exact_heter c data = 100000000.
Proof. intros H. apply Nat.ltb_lt in H. unfold pdp_heter64, exact_heter. rewrite H. exists BIGM64. split; [reflexivity|]. split; [apply bigm_ok|reflexivity]. Qed.
(** a constant feature (limits not in order): every region counts 1e8 *)
Theorem C118_flat c data : Bltb (h64_lo c) (h64_hi c) = false -> data <> [] -> pdp_heter64 c data = Ok BIGM64.
Proof.
  intros L N. unfold pdp_heter64. destruct (Nat.ltb _ _); [reflexivity|]. unfold region_points64. destruct data as [|r data]; [congruence|]. cbn [map np_min64 np_max64 bind].
  unfold pdp_eval64. cbn [region_pdp64 p64_lo p64_hi]. rewrite L. reflexivity.
Qed.
(** limits taken from the data hold every row *)
Theorem C118_limits c rows : fins (map (feat64 (h64_feature c)) rows) -> np_min64 (map (feat64 (h64_feature c)) rows) = Ok (h64_lo c) -> np_max64 (map (feat64 (h64_feature c)) rows) = Ok (h64_hi c) ->
  within_limits c rows.
Proof.
  intros F E1 E2 r Hr. assert (N : map (feat64 (h64_feature c)) rows <> []) by (destruct rows; [destruct Hr|discriminate]).
  destruct (np_min64_ok _ F N) as (lo & E & Fl & _ & Ml). rewrite E1 in E. apply ok_inj in E. subst lo. destruct (np_max64_ok _ F N) as (hi & E & Fh & _ & Mh). rewrite E2 in E. apply ok_inj in E. subst hi.
  pose proof (in_map (feat64 (h64_feature c)) _ _ Hr) as I. split; apply fle_val; auto.
Qed.
(** the ten positions: from the smallest to the largest value of the feature in the region, equally spaced up to rounding *)
Theorem C118_positions c data M : data <> [] -> fins (map (feat64 (h64_feature c)) data) -> (forall r, In r data -> Rabs (val (feat64 (h64_feature c) r)) <= M) -> M <= bpow radix2 1021 ->
  exists rl rh xs, In rl data /\ In rh data /\ (forall r, In r data -> val (feat64 (h64_feature c) rl) <= val (feat64 (h64_feature c) r) <= val (feat64 (h64_feature c) rh)) /\
    region_points64 c data = Ok xs /\ length xs = 10%nat /\
    (val (feat64 (h64_feature c) rl) = val (feat64 (h64_feature c) rh) -> forall x, In x xs -> fin x /\ val x = val (feat64 (h64_feature c) rl)) /\
    (bpow radix2 (-900) <= val (feat64 (h64_feature c) rh) - val (feat64 (h64_feature c) rl) ->
       fins xs /\ val (nth 0 xs fnan) = val (feat64 (h64_feature c) rl) /\ val (nth 9 xs fnan) = val (feat64 (h64_feature c) rh) /\
       forall i, (i <= 9)%nat -> Rabs (val (nth i xs fnan) - (val (feat64 (h64_feature c) rl) + IZR (Z.of_nat i) / 9 * (val (feat64 (h64_feature c) rh) - val (feat64 (h64_feature c) rl)))) <= M * bpow radix2 (-49)).
Proof.
  intros N F B HM. set (v := feat64 (h64_feature c)) in *. assert (NC : map v data <> []) by (destruct data; [congruence|discriminate]).
  destruct (np_min64_ok _ F NC) as (lo & El & Fl & Il & Ml). destruct (np_max64_ok _ F NC) as (hi & Eh & Fh & Ih & Mh). apply in_map_iff in Il as (rl & Erl & Irl). apply in_map_iff in Ih as (rh & Erh & Irh).
  exists rl, rh, (linspace64 lo hi 10). rewrite Erl, Erh. split; [exact Irl|]. split; [exact Irh|]. split; [intros r Hr; split; [apply Ml|apply Mh]; now apply in_map|].
  split; [unfold region_points64; fold v; rewrite El, Eh; reflexivity|]. split; [apply points_length|]. split.
  - intros EQ x Hx. unfold linspace64 in Hx. destruct (fsub_same hi lo Fh Fl ltac:(lra)) as [Fd Vd]. set (delta := fsub hi lo) in *. destruct (fofZ_val 9 ltac:(lia)) as [V9 F9]. change (fofn (10 - 1)) with (fofZ 9) in Hx.
    destruct (fdiv_val delta (fofZ 9) Fd F9 ltac:(rewrite V9; lra)) as [Vs Fs]; [rewrite Vd; unfold Rdiv; rewrite Rmult_0_l, Rabs_R0; apply bpow_ge_0|]. rewrite Vd in Vs. unfold Rdiv in Vs. rewrite Rmult_0_l, rnd_0 in Vs. set (step := fdiv delta (fofZ 9)) in *.
    apply in_map_iff in Hx as (i & <- & Hi). apply in_seq in Hi. destruct (Nat.eqb_spec (S i) 10) as [_|_]; [split; [exact Fh|lra]|].
    destruct (fofZ_val (Z.of_nat i) ltac:(lia)) as [Vi Fi]. assert (I9 : 0 <= IZR (Z.of_nat i) <= 9) by (split; apply IZR_le; lia).
    assert (P : exists q, (if Beqb step fzero then fmul (fdiv (fofn i) (fofZ 9)) delta else fmul (fofn i) step) = q /\ fin q /\ val q = 0).
    { eexists. split; [reflexivity|]. unfold fofn. destruct (Beqb step fzero).
      - destruct (fdiv_val (fofZ (Z.of_nat i)) (fofZ 9) Fi F9 ltac:(rewrite V9; lra)) as [_ Fq]; [rewrite Vi, V9, Rabs_pos_eq by lra; apply Rle_trans with (bpow radix2 0); [change (bpow radix2 0) with 1; lra|apply bpow_le; lia]|].
        destruct (fmul_val _ delta Fq Fd) as [V Fm]; [rewrite Vd, Rmult_0_r, Rabs_R0; apply bpow_ge_0|]. split; [exact Fm|]. rewrite V, Vd, Rmult_0_r. apply rnd_0.
      - destruct (fmul_val (fofZ (Z.of_nat i)) step Fi Fs) as [V Fm]; [rewrite Vs, Rmult_0_r, Rabs_R0; apply bpow_ge_0|]. split; [exact Fm|]. rewrite V, Vs, Rmult_0_r. apply rnd_0. }
    destruct P as (q & -> & Fq & Vq). assert (BL : Rabs (val lo) <= M) by (rewrite <- Erl; now apply B). destruct (fadd_val q lo Fq Fl) as [V Fa]; [rewrite Vq, Rplus_0_l; apply Rle_trans with (1 := BL), Rle_trans with (1 := HM), bpow_le; lia|].
    split; [exact Fa|]. rewrite V, Vq, Rplus_0_l. now apply rnd_val.
  - intros G. destruct (C100_limits lo hi 9 M Fl Fh ltac:(rewrite <- Erl; now apply B) ltac:(rewrite <- Erh; now apply B) HM G ltac:(lia) ltac:(cbn; lia)) as (_ & FF & E0 & E9 & _ & CL & _).
    change (9 + 1)%nat with 10%nat in *. split; [exact FF|]. split; [exact E0|]. split; [now rewrite E9|]. intros i Hi. exact (CL i Hi).
Qed.

(** A regional object and its search: heter_func is the function above; every row is between the limits; the model returns finite
    numbers of size at most M for the rows of any part of the data at the ten positions; averages over at most all the rows have
    chains of at most D roundings. *)
Definition regional_pdp64 (c : pdpheter64) (g : regions64) (M : R) (D : nat) : Prop :=
  heter_setup c /\ g64_heter g = pdp_heter64 c /\ g64_min_points g = h64_min_points c /\ sums (g64_sum g) /\ roomy g /\ within_limits c (g64_rows g) /\
  (forall x, part_of (g64_rows g) x -> tame_region c M x) /\ 0 <= M <= bpow radix2 380 /\
  (forall n, (1 <= n <= length (g64_rows g))%nat -> (S (steps (h64_axis1 c n)) <= D)%nat).

Lemma region_all c g M D x : regional_pdp64 c g M D -> part_of (g64_rows g) x ->
  exists v, g64_heter g x = Ok v /\ fin v /\ Bsign v = false /\ Rabs (val v - exact_heter c x) <= heter_error D M /\ val v <= 100000000 + 2 * M.
Proof.
  intros ((C1 & C2 & MP & LO) & EH & _ & _ & RM & W & T & HM & SD) P. rewrite EH. destruct (Nat.ltb (length x) (h64_min_points c)) eqn:Q.
  - apply Nat.ltb_lt in Q. destruct (C118_few c x Q) as (v & E & V & EX). exists v. unfold pdp_heter64 in E. rewrite (proj2 (Nat.ltb_lt _ _) Q) in E. apply ok_inj in E. subst v. destruct bigm_ok as [BV BF]. split; [unfold pdp_heter64; now rewrite (proj2 (Nat.ltb_lt _ _) Q)|].
    split; [exact BF|]. split; [apply val_plus; [exact BF|rewrite BV; lra]|]. rewrite BV, EX, Rminus_diag_eq by reflexivity. rewrite Rabs_R0. split; [|lra]. unfold heter_error. pose proof (bpow_gt_0 radix2 (-533)). assert (0 <= IZR (5 * Z.of_nat D + 31) * bpow radix2 (-53) * M); [|lra]. apply Rmult_le_pos; [|lra]. apply Rmult_le_pos; [apply IZR_le; lia|apply bpow_ge_0].
  - apply Nat.ltb_ge in Q. destruct P as [I L]. destruct (region_close c x M C1 C2 MP LO) as (v & E & [F S] & A & B).
    + unfold roomy in RM. pose proof (Z.pow_nonneg 2 (Z.of_nat (g64_max_levels g)) ltac:(lia)). lia.
    + intros r Hr. apply W, I, Hr.
    + apply T. split; assumption.
    + exact HM.
    + exists v. repeat split; auto. eapply Rle_trans; [exact A|]. unfold heter_error. apply Rplus_le_compat_r. apply Rmult_le_compat_r; [lra|]. apply Rmult_le_compat_r; [apply bpow_ge_0|]. apply IZR_le. specialize (SD (length x) ltac:(lia)). lia.
Qed.
Lemma bound900 M : 0 <= M <= bpow radix2 380 -> 100000000 + 2 * M <= bpow radix2 900.
Proof.
  intros H. assert (100000000 <= bpow radix2 380). { apply Rle_trans with (bpow radix2 30); [unfold bpow; cbn; lra|apply bpow_le; lia]. }
  apply Rle_trans with (bpow radix2 2 * bpow radix2 380); [change (bpow radix2 2) with 4; lra|]. rewrite <- bpow_plus. apply bpow_le. lia.
Qed.
Lemma regional_finite c g M D : regional_pdp64 c g M D -> heter_finite g.
Proof.
  intros R x v P E. destruct (region_all c g M D x R P) as (w & E' & F & S & _ & B). rewrite E in E'. apply ok_inj in E'. subst w. split; [exact F|]. split; [exact S|].
  destruct R as (_ & _ & _ & _ & _ & _ & _ & HM & _). eapply Rle_trans; [exact B|now apply bound900].
Qed.

(** what rounding may cost at a level of n regions *)
Definition search_error (D n : nat) (M : R) : R :=
  4 * heter_error D M + 2 * (IZR (Z.of_nat n + 4) * (bpow radix2 (-50) * (100000000 + 2 * M) + bpow radix2 (-1074))).

(** The split chosen at each level is, for the exact heterogeneity, as good as any candidate up to [search_error]. *)
Theorem C118_search c g M D h0 ss pre s post f t pos : regional_pdp64 c g M D ->
  search64 g = Ok (Some (h0, ss)) -> ss = pre ++ s :: post -> candidate64 g f t pos ->
  ideal_drop (exact_heter c) (regions_after g pre) (split_all64 (regions_after g pre) f pos t) <=
  ideal_drop (exact_heter c) (regions_after g pre) (split_all64 (regions_after g pre) (s64_feature s) (s64_pos s) (s64_type s)) + search_error D (2 ^ S (length pre)) M.
Proof.
  intros R SE AT CA. pose proof (regional_finite c g M D R) as HF. assert (HM : 0 <= M <= bpow radix2 380) by apply R. assert (SUM : sums (g64_sum g)) by apply R. assert (ROOM : roomy g) by apply R.
  pose proof (ideal_near g (exact_heter c) (heter_error D M) (100000000 + 2 * M) h0 ss pre s post f t pos SUM ROOM HF) as N. unfold search_error. rewrite Nat2Z.inj_pow. change (Z.of_nat 2) with 2%Z.
  eapply Rle_trans; [apply N; auto; [|now apply bound900]|lra].
  intros x v P E. destruct (region_all c g M D x R P) as (w & E' & F & S & A & B). rewrite E in E'. apply ok_inj in E'. subst w. auto.
Qed.

(** ** Small subregions *)
Lemma exact_heter_range c g M D x : regional_pdp64 c g M D -> part_of (g64_rows g) x -> (h64_min_points c <= length x)%nat -> 0 <= exact_heter c x <= M.
Proof.
  intros ((C1 & C2 & MP & LO) & EH & _ & _ & RM & W & T & HM & SD) P Q. unfold exact_heter. rewrite (proj2 (Nat.ltb_ge _ _) Q). destruct (region_points64 c x) as [xs|e] eqn:EX; [|lra].
  assert (LX : xs <> []). { intros ->. unfold region_points64 in EX. apply bind_ok in EX as (mn & _ & EX). apply bind_ok in EX as (mx & _ & EX). apply ok_inj in EX. apply (f_equal (@length b64)) in EX. rewrite points_length in EX. discriminate EX. }
  assert (NX : x <> []) by (intros ->; cbn in Q; lia).
  assert (SR : forall y, In y xs -> 0 <= ice_sd c x y <= M). { intros y Hy. split; [apply sqrt_pos|]. unfold ice_sd. eapply Rle_trans; [apply (sd_rms _ x NX)|]. apply rms_bound; [exact NX|lra|]. intros r Hr. now apply (T x P xs y r). }
  split; [apply Ravg_nonneg; intros y Hy; now apply SR|]. apply Rle_trans with (Rabs (Ravg (map (ice_sd c x) xs))); [apply Rle_abs|]. apply Ravg_bound; [exact LX|]. intros y Hy. destruct (SR y Hy). apply Rabs_le. lra.
Qed.
(** If at some level one candidate gives every subregion the required number of rows, so does the chosen split, provided
    1e8 / (rows + subregions) exceeds 2 M plus the rounding. *)
Theorem C118_min_points c g M D h0 ss pre s post f t pos : regional_pdp64 c g M D ->
  search64 g = Ok (Some (h0, ss)) -> ss = pre ++ s :: post -> candidate64 g f t pos ->
  (forall x, In x (split_all64 (regions_after g pre) f pos t) -> (h64_min_points c <= length x)%nat) ->
  2 * M + search_error D (2 ^ S (length pre)) M < 100000000 / INR (length (g64_rows g) + 2 ^ S (length pre)) ->
  forall n, In n (s64_nof s) -> (h64_min_points c <= n)%nat.
Proof.
  intros R SE AT CA LG BIG n Hn. pose proof (C118_search c g M D h0 ss pre s post f t pos R SE AT CA) as OPT. pose proof (regional_finite c g M D R) as HF. assert (HM : 0 <= M <= bpow radix2 380) by apply R.
  assert (SUM : sums (g64_sum g)) by apply R. assert (ROOM : roomy g) by apply R. assert (EM : g64_min_points g = h64_min_points c) by apply R.
  destruct (C112_best g h0 ss pre s post SUM ROOM HF SE AT) as (_ & _ & EN & _). rewrite EN in Hn. set (before := regions_after g pre) in *. set (chosen := split_all64 before (s64_feature s) (s64_pos s) (s64_type s)) in *. set (cand := split_all64 before f pos t) in *.
  destruct (Nat.le_gt_cases (h64_min_points c) n) as [|Q]; [assumption|exfalso].
  pose proof (regions_after_parts g pre) as RP. destruct (regions_after_size g pre) as [S1 S2]. fold before in RP, S1, S2. assert (L1 : (1 <= length before)%nat) by (rewrite S1; pose proof (Nat.pow_nonzero 2 (length pre)); lia).
  assert (LC : length chosen = (2 * length before)%nat) by apply split_all_length. assert (LD : length cand = (2 * length before)%nat) by apply split_all_length.
  assert (PB : forall k, (k < 2 * length before)%nat -> 0 <= exact_heter c (nth (k / 2) before []) <= M).
  { intros k Hk. assert (K2 : (k / 2 < length before)%nat) by (apply Nat.div_lt_upper_bound; lia). apply (exact_heter_range c g M D); [exact R|apply RP, nth_In, K2|]. rewrite <- EM. apply (search_large g h0 ss pre s post); auto. apply nth_In, K2. }
  assert (DB : - M <= ideal_drop (exact_heter c) before cand).
  { apply drop_below; [intros E; rewrite E in LD; cbn in LD; lia|]. intros k Hk. rewrite LD in Hk. pose proof (PB k Hk). assert (0 <= exact_heter c (nth k cand []) <= M); [|lra].
    assert (IK : In (nth k cand []) cand) by (apply nth_In; lia). apply (exact_heter_range c g M D); [exact R|apply (split_all_parts g _ f pos t RP), IK|apply LG, IK]. }
  apply (In_nth _ _ 0%nat) in Hn as (k0 & Hk0 & Ek0). rewrite map_length in Hk0. change 0%nat with (@length row64 []) in Ek0. rewrite map_nth in Ek0.
  assert (ANY : forall k, (k < length chosen)%nat -> 0 <= exact_heter c (nth k chosen [])).
  { intros k Hk. destruct (Nat.le_gt_cases (h64_min_points c) (length (nth k chosen []))) as [Y|Y].
    - apply (exact_heter_range c g M D); [exact R| |exact Y]. apply (split_all_parts g _ (s64_feature s) (s64_pos s) (s64_type s) RP), nth_In, Hk.
    - destruct (C118_few c _ Y) as (v & _ & _ & ->). lra. }
  assert (DA : ideal_drop (exact_heter c) before chosen <= M - 100000000 / INR (total (map (@length row64) chosen))).
  { apply (drop_above _ _ _ M) with (k0 := k0); [intros E; rewrite E in LC; cbn in LC; lia|exact Hk0|lra| |].
    - intros k Hk. pose proof (ANY k Hk). rewrite LC in Hk. pose proof (PB k Hk). lra.
    - rewrite LC in Hk0. pose proof (PB k0 Hk0). destruct (C118_few c (nth k0 chosen []) ltac:(lia)) as (v & _ & _ & ->). lra. }
  assert (TT : (total (map (@length row64) chosen) <= length (g64_rows g) + 2 ^ S (length pre))%nat).
  { unfold total. rewrite sumn_succ, map_length, LC, S1. pose proof (split_all_count before (s64_feature s) (s64_pos s) (s64_type s)) as CT. fold chosen in CT. cbn [Nat.pow]. lia. }
  assert (T1 : (1 <= total (map (@length row64) chosen))%nat) by (apply total_pos; intros E; apply map_eq_nil in E; rewrite E in LC; cbn in LC; lia).
  assert (BB : 100000000 / INR (length (g64_rows g) + 2 ^ S (length pre)) <= 100000000 / INR (total (map (@length row64) chosen))).
  { unfold Rdiv. apply Rmult_le_compat_l; [lra|]. apply Rinv_le_contravar; [apply lt_0_INR; lia|now apply le_INR]. }
  lra.
Qed.

Lemma level_from g h0 ss pre s post x : sums (g64_sum g) -> roomy g -> heter_finite g -> search64 g = Ok (Some (h0, ss)) -> ss = pre ++ s :: post ->
  In x (heter_after h0 pre) \/ In x (s64_heter s) -> exists y, part_of (g64_rows g) y /\ g64_heter g y = Ok x.
Proof.
  intros SUM ROOM HF SE AT [Hx|Hx].
  - assert (SE' := SE). rewrite <- guard_search in SE'. destruct (heter_after_from (guard g) h0 ss pre s post x SE' AT Hx) as (y & Hy). apply guard_ok in Hy. eauto.
  - destruct (C112_best g h0 ss pre s post SUM ROOM HF SE AT) as (_ & E & _ & _). pose proof (mapM_length _ _ _ E) as L. apply (In_nth _ _ fnan) in Hx as (k & Hk & <-). rewrite L in Hk.
    eexists. split; [apply (split_all_parts g _ (s64_feature s) (s64_pos s) (s64_type s) (regions_after_parts g pre)), nth_In, Hk|]. now apply (mapM_nth _ _ _ k [] fnan E).
Qed.
(** The important splits, those that are reported, never leave a subregion with fewer rows than required, provided
    1e8 / (rows + subregions) exceeds M plus the rounding. *)
Definition report_error (D n : nat) (M : R) : R := heter_error D M + IZR (Z.of_nat n + 4) * (bpow radix2 (-51) * (100000000 + 2 * M) + bpow radix2 (-1074)).
Theorem C118_important c g M D h0 ss pre s post : regional_pdp64 c g M D -> fin (g64_thres g) -> 0 <= val (g64_thres g) ->
  search64 g = Ok (Some (h0, ss)) -> choose64 g (Some (h0, ss)) = pre ++ s :: post ->
  M + report_error D (2 ^ S (length pre)) M < 100000000 / INR (length (g64_rows g) + 2 ^ S (length pre)) ->
  forall n, In n (s64_nof s) -> (h64_min_points c <= n)%nat.
Proof.
  intros R FT T0 SE CH BIG n Hn. pose proof (regional_finite c g M D R) as HF. assert (HM : 0 <= M <= bpow radix2 380) by apply R.
  assert (SUM : sums (g64_sum g)) by apply R. assert (ROOM : roomy g) by apply R. assert (EM : g64_min_points g = h64_min_points c) by apply R.
  destruct (choose_spec g h0 ss _ CH) as (rest & ES & _). rewrite <- app_assoc in ES. cbn [app] in ES.
  destruct (C112_accepted g h0 ss SUM ROOM HF FT T0 SE) as [ACC _].
  assert (W0 : forall p, (exists q, choose64 g (Some (h0, ss)) = p ++ q) -> val (wheter_after h0 p) <= val h0).
  { intros p. induction p as [|a p IH] using rev_ind; intros (q & Eq); [apply Rle_refl|]. rewrite <- app_assoc in Eq. destruct (ACC p a q Eq) as [A _]. unfold wheter_after. rewrite map_app. cbn [map]. rewrite last_snoc. apply Rle_trans with (val (wheter_after h0 p)); [lra|]. apply IH. eauto. }
  specialize (W0 pre ltac:(eauto)). destruct (ACC pre s post CH) as [A _].
  destruct (search_at g h0 ss pre s (post ++ rest) SE ES) as (H0 & _ & _).
  assert (H0M : val h0 <= M + heter_error D M).
  { destruct (region_all c g M D (g64_rows g) R (part_refl _)) as (v & E & _ & _ & C & _). rewrite H0 in E. apply ok_inj in E. subst v. assert (LR : (h64_min_points c <= length (g64_rows g))%nat).
    { rewrite <- EM. destruct ss as [|s1 ss1]; [destruct pre; discriminate ES|]. apply (search_large g h0 (s1 :: ss1) [] s1 ss1 (g64_rows g) SE eq_refl). left. reflexivity. }
    pose proof (exact_heter_range c g M D _ R (part_refl _) LR). apply Rabs_le_inv in C. lra. }
  assert (BND : forall x, In x (heter_after h0 pre) \/ In x (s64_heter s) -> val x <= 100000000 + 2 * M).
  { intros x Hx. destruct (level_from g h0 ss pre s (post ++ rest) x SUM ROOM HF SE ES Hx) as (y & Py & Ey). destruct (region_all c g M D y R Py) as (v & E & _ & _ & _ & B). rewrite Ey in E. apply ok_inj in E. now subst v. }
  destruct (C112_reported g h0 ss pre s (post ++ rest) (100000000 + 2 * M) SUM ROOM HF SE ES ltac:(now apply bound900) BND) as [_ REP].
  destruct (C112_best g h0 ss pre s (post ++ rest) SUM ROOM HF SE ES) as (_ & EH & EN & _). set (before := regions_after g pre) in *. set (chosen := split_all64 before (s64_feature s) (s64_pos s) (s64_type s)) in *.
  destruct (Nat.le_gt_cases (h64_min_points c) n) as [|Q]; [assumption|exfalso]. rewrite EN in Hn, REP.
  destruct (regions_after_size g pre) as [S1 S2]. fold before in S1, S2. assert (L1 : (1 <= length before)%nat) by (rewrite S1; pose proof (Nat.pow_nonzero 2 (length pre)); lia).
  assert (LC : length chosen = (2 * length before)%nat) by apply split_all_length. assert (NC : chosen <> []) by (intros E; rewrite E in LC; cbn in LC; lia).
  pose proof (mapM_length _ _ _ EH) as LH.
  apply (In_nth _ _ 0%nat) in Hn as (k0 & Hk0 & Ek0). rewrite map_length in Hk0. change 0%nat with (@length row64 []) in Ek0. rewrite map_nth in Ek0.
  pose proof (mapM_nth _ _ _ k0 [] fnan EH Hk0) as EV. destruct (C118_few c (nth k0 chosen []) ltac:(lia)) as (v & Ev & Vv & _). assert (EG : g64_heter g = pdp_heter64 c) by apply R. rewrite EG, Ev in EV. apply ok_inj in EV.
  assert (POS : forall k, (k < length chosen)%nat -> 0 <= val (nth k (s64_heter s) fnan)).
  { intros k Hk. assert (I : In (nth k (s64_heter s) fnan) (s64_heter s)) by (apply nth_In; lia). destruct (level_from g h0 ss pre s (post ++ rest) _ SUM ROOM HF SE ES (or_intror I)) as (y & Py & Ey). destruct (HF y _ Py Ey) as (F & S & _). apply plus_val. now split. }
  set (ns := map (@length row64) chosen) in *. assert (NN : ns <> []) by (intros E; apply NC; unfold ns in E; now apply map_eq_nil in E).
  assert (T1 : (1 <= total ns)%nat) by now apply total_pos.
  assert (TT : (total ns <= length (g64_rows g) + 2 ^ S (length pre))%nat).
  { unfold total, ns. rewrite sumn_succ, map_length, LC, S1. pose proof (split_all_count before (s64_feature s) (s64_pos s) (s64_type s)) as CT. fold chosen in CT. cbn [Nat.pow]. lia. }
  assert (WP : forall k, 0 <= weight ns k) by (intros k; apply (w_pos chosen NC)).
  assert (WH : 100000000 / INR (total ns) <= exact_wheter (s64_heter s) ns).
  { unfold exact_wheter. rewrite LH. apply Rle_trans with (weight ns k0 * val (nth k0 (s64_heter s) fnan)).
    - rewrite <- EV, Vv. unfold weight. rewrite INR_IZR_INZ. unfold Rdiv. rewrite (Rmult_comm _ 100000000). apply Rmult_le_compat_l; [lra|]. rewrite <- (Rmult_1_l (/ _)) at 1. apply Rmult_le_compat_r; [left; apply Rinv_0_lt_compat, IZR_lt; lia|apply IZR_le; lia].
    - assert (G : forall m F, (forall k, (k < m)%nat -> 0 <= F k) -> forall k, (k < m)%nat -> F k <= rk m F).
      { induction m as [|m IH]; intros F P k Hk; [lia|]. rewrite rk_S. assert (Z : 0 <= rk m F) by (replace 0 with (rk m (fun _ => 0 * 0 + 0)) by (rewrite (rk_lin m 0 (fun _ => 0) 0); ring); apply rk_le; intros i Hi; rewrite Rmult_0_l, Rplus_0_l; apply P; lia).
        destruct (Nat.eq_dec k m) as [->|]; [pose proof (P m ltac:(lia)); lra|]. specialize (IH F ltac:(intros; apply P; lia) k ltac:(lia)). pose proof (P m ltac:(lia)). lra. }
      apply (G _ (fun k => weight ns k * val (nth k (s64_heter s) fnan))); [|exact Hk0]. intros k Hk. apply Rmult_le_pos; [apply WP|now apply POS]. }
  assert (BB : 100000000 / INR (length (g64_rows g) + 2 ^ S (length pre)) <= 100000000 / INR (total ns)).
  { unfold Rdiv. apply Rmult_le_compat_l; [lra|]. apply Rinv_le_contravar; [apply lt_0_INR; lia|now apply le_INR]. }
  unfold report_error in BIG. rewrite Nat2Z.inj_pow in BIG. change (Z.of_nat 2) with 2%Z in BIG. apply Rabs_le_inv in REP. lra.
Qed.

(** ** the hypotheses are met: eight rows, a model whose dependence on feature 0 flips with feature 1 *)
Definition flip_model (r : list b64) : b64 := if xorb (Bltb (nth 0 r fnan) (fofZ 2)) (Bltb (nth 1 r fnan) (fofZ 4)) then fofZ 2 else fzero.
Definition flip_row (i : nat) : row64 := ([fofn (i mod 4); fofn i], []).
Definition flip_heter : pdpheter64 := mk_pdpheter64 (Outputs flip_model) 0 (fofn 0) (fofn 3) 2 one_by_one one_by_one.
Definition flip : regions64 := mkRegions64 (pdp_heter64 flip_heter) sum_left (map flip_row (seq 0 8)) Cont [1]%nat [Cont] 10 2 3 1 thres8 small8 false.
Lemma flip_values r : fin (flip_model r) /\ Rabs (val (flip_model r)) <= 2.
Proof. unfold flip_model. destruct (fofZ_val 2 ltac:(lia)) as [V F]. destruct (xorb _ _); [rewrite V, Rabs_pos_eq by lra; split; [exact F|lra]|]. split; [reflexivity|]. cbn. rewrite Rabs_R0. lra. Qed.
Lemma steps_one_by_one n : steps (one_by_one (S n)) = n.
Proof. induction n as [|n IH]; [reflexivity|]. change (steps (one_by_one (S (S n)))) with (S (Nat.max (steps (one_by_one (S n))) 0)). rewrite IH. lia. Qed.
Example flip_meets : regional_pdp64 flip_heter flip 2 8.
Proof.
  split; [split; [exact one_by_one_complete|split; [exact one_by_one_complete|split; [cbn; lia|vm_compute; reflexivity]]]|]. split; [reflexivity|]. split; [reflexivity|]. split; [exact sum_left_sums|]. split; [unfold roomy; cbn; lia|].
  split.
  { assert (A : forallb (fun r => Bleb (h64_lo flip_heter) (feat64 0 r) && Bleb (feat64 0 r) (h64_hi flip_heter)) (g64_rows flip) = true) by (vm_compute; reflexivity).
    intros r Hr. rewrite forallb_forall in A. specialize (A r Hr). now apply andb_true_iff in A. }
  split; [intros x _ xs y r _ _ _; apply flip_values|]. split; [split; [lra|]; change 2 with (bpow radix2 1); apply bpow_le; lia|].
  intros n Hn. destruct n as [|n]; [lia|]. cbn [flip_heter h64_axis1]. rewrite steps_one_by_one. change (length (g64_rows flip)) with 8%nat in Hn. lia.
Qed.
(** the search finds the split of feature 1 in the middle, the heterogeneity falls from 1 to 0; the other two candidates leave two rows on one side *)
Example flip_search : (exists h0 s, search64 flip = Ok (Some (h0, [s])) /\ s64_nof s = [4; 4]%nat /\ Beqb h0 (fofZ 1) = true /\ Beqb (s64_wheter s) fzero = true) /\
  (match positions64 flip 1 Cont with Ok ps => map (fun p => map (@length row64) (split_all64 [g64_rows flip] 1 p Cont)) ps | Raise _ => [] end) = [[2; 6]; [4; 4]; [6; 2]]%nat.
Proof.
  split; [|vm_compute; reflexivity].
  assert (A : match search64 flip with Ok (Some (h0, [s])) => (if list_eq_dec Nat.eq_dec (s64_nof s) [4; 4]%nat then true else false) && Beqb h0 (fofZ 1) && Beqb (s64_wheter s) fzero | _ => false end = true) by (vm_compute; reflexivity).
  destruct (search64 flip) as [[[h0 [|s [|]]]|]|]; try discriminate A. exists h0, s. destruct (list_eq_dec _ _ _); [|discriminate A]. apply andb_true_iff in A as [A1 A2]. auto.
Qed.
(** and there is room for C118_min_points *)
Example flip_room : 2 * 2 + search_error 8 2 2 < 100000000 / INR (length (g64_rows flip) + 2).
Proof.
  change (length (g64_rows flip) + 2)%nat with 10%nat. rewrite INR_IZR_INZ. change (IZR (Z.of_nat 10)) with 10. unfold search_error, heter_error. change (Z.of_nat 8) with 8%Z. change (Z.of_nat 2) with 2%Z.
  assert (B1 : bpow radix2 (-53) <= / 1000000) by (unfold bpow; cbn; lra). assert (B2 : bpow radix2 (-50) <= / 1000000) by (unfold bpow; cbn; lra). assert (B3 : bpow radix2 (-533) <= 1) by (change 1 with (bpow radix2 0); apply bpow_le; lia). assert (B4 : bpow radix2 (-1074) <= 1) by (change 1 with (bpow radix2 0); apply bpow_le; lia).
  change (5 * 8 + 31)%Z with 71%Z. change (2 + 4)%Z with 6%Z. lra.
Qed.
(** and for C118_important; the split is reported *)
Example flip_reports : 2 + report_error 8 2 2 < 100000000 / INR (length (g64_rows flip) + 2) /\ show (subregions64 flip) = [(1%nat, true, [4; 4]%nat)] /\ fin (g64_thres flip) /\ 0 <= val (g64_thres flip).
Proof.
  split; [|split; [vm_compute; reflexivity|split; [vm_compute; reflexivity|]]].
  - change (length (g64_rows flip) + 2)%nat with 10%nat. rewrite INR_IZR_INZ. change (IZR (Z.of_nat 10)) with 10. unfold report_error, heter_error. change (Z.of_nat 8) with 8%Z. change (Z.of_nat 2) with 2%Z.
    assert (B1 : bpow radix2 (-53) <= / 1000000) by (unfold bpow; cbn; lra). assert (B2 : bpow radix2 (-51) <= / 1000000) by (unfold bpow; cbn; lra). assert (B3 : bpow radix2 (-533) <= 1) by (change 1 with (bpow radix2 0); apply bpow_le; lia). assert (B4 : bpow radix2 (-1074) <= 1) by (change 1 with (bpow radix2 0); apply bpow_le; lia).
    change (5 * 8 + 31)%Z with 71%Z. change (2 + 4)%Z with 6%Z. lra.
  - assert (A : Bleb fzero (g64_thres flip) = true) by (vm_compute; reflexivity). apply fle_val in A; [exact A|reflexivity|vm_compute; reflexivity].
Qed.

(** ** without the proviso it fails: the target is 2^40 for one of eight rows and 0 for the others *)
Definition spike_model (r : list b64) : b64 := if Bltb (nth 1 r fnan) (fofZ 1) then fofZ (2 ^ 40) else fzero.
Definition spike_heter : pdpheter64 := mk_pdpheter64 (Outputs spike_model) 0 (fofn 0) (fofn 3) 2 one_by_one one_by_one.
Definition spike : regions64 := mkRegions64 (pdp_heter64 spike_heter) sum_left (map flip_row (seq 0 8)) Cont [1]%nat [Cont] 10 2 7 1 thres8 small8 false.
Lemma spike_values r : fin (spike_model r) /\ Rabs (val (spike_model r)) <= bpow radix2 40.
Proof.
  unfold spike_model. destruct (fofZ_val (2 ^ 40) ltac:(lia)) as [V F]. destruct (Bltb _ _).
  - rewrite V. split; [exact F|]. change (bpow radix2 40) with (IZR (2 ^ 40)). rewrite Rabs_pos_eq by (apply IZR_le; lia). apply Rle_refl.
  - split; [reflexivity|]. change (val fzero) with 0. rewrite Rabs_R0. apply bpow_ge_0.
Qed.
(** RegionalPDP reports a subregion of one row although two are required and other candidates leave at least two on each side *)
Theorem C118_proviso_needed : regional_pdp64 spike_heter spike (bpow radix2 40) 8 /\ h64_min_points spike_heter = 2%nat /\
  (exists h0 s, search64 spike = Ok (Some (h0, [s])) /\ choose64 spike (Some (h0, [s])) = [s] /\ s64_nof s = [1; 7]%nat) /\
  (exists pos, candidate64 spike 1 Cont pos /\ forall x, In x (split_all64 (regions_after spike []) 1 pos Cont) -> (2 <= length x)%nat).
Proof.
  split; [|split; [reflexivity|split]].
  - split; [split; [exact one_by_one_complete|split; [exact one_by_one_complete|split; [cbn; lia|vm_compute; reflexivity]]]|]. split; [reflexivity|]. split; [reflexivity|]. split; [exact sum_left_sums|]. split; [unfold roomy; cbn; lia|].
    split.
    { assert (A : forallb (fun r => Bleb (h64_lo spike_heter) (feat64 0 r) && Bleb (feat64 0 r) (h64_hi spike_heter)) (g64_rows spike) = true) by (vm_compute; reflexivity).
      intros r Hr. rewrite forallb_forall in A. specialize (A r Hr). now apply andb_true_iff in A. }
    split; [intros x _ xs y r _ _ _; apply spike_values|]. split; [split; [apply bpow_ge_0|apply bpow_le; lia]|].
    intros n Hn. destruct n as [|n]; [lia|]. cbn [spike_heter h64_axis1]. rewrite steps_one_by_one. change (length (g64_rows spike)) with 8%nat in Hn. lia.
  - assert (A : match search64 spike with Ok (Some (h0, [s])) => (if list_eq_dec Nat.eq_dec (s64_nof s) [1; 7]%nat then true else false) && Nat.eqb (length (choose64 spike (Some (h0, [s])))) 1 | _ => false end = true) by (vm_compute; reflexivity).
    destruct (search64 spike) as [[[h0 [|s [|]]]|]|]; try discriminate A. exists h0, s. destruct (list_eq_dec _ _ _) as [Q|]; [|discriminate A]. cbn [andb] in A. apply Nat.eqb_eq in A. split; [reflexivity|]. split; [|exact Q].
    destruct (choose_spec spike h0 [s] _ eq_refl) as (rest & ES & _). destruct (choose64 spike (Some (h0, [s]))) as [|a [|]]; try discriminate A. cbn [app] in ES. congruence.
  - assert (A : match positions64 spike 1 Cont with Ok ps => forallb (fun x => Nat.leb 2 (length x)) (split_all64 (regions_after spike []) 1 (nth 3 ps fnan) Cont) && Nat.leb 7 (length ps) | _ => false end = true) by (vm_compute; reflexivity).
    destruct (positions64 spike 1 Cont) as [ps|] eqn:EP; [|discriminate A]. apply andb_true_iff in A as [A AL]. apply Nat.leb_le in AL. exists (nth 3 ps fnan). split.
    + unfold candidate64. split; [now left|]. exists ps. split; [exact EP|apply nth_In; lia].
    + intros x Hx. rewrite forallb_forall in A. now apply Nat.leb_le, A.
Qed.

Print Assumptions C118_heter. Print Assumptions C118_positions. Print Assumptions C118_few. Print Assumptions C118_flat. Print Assumptions C118_limits. Print Assumptions C118_search. Print Assumptions C118_min_points. Print Assumptions C118_important. Print Assumptions C118_proviso_needed.
