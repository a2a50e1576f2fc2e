(** FloatRegionPDPProofs: supporting lemmas for C118. *)
From Coq Require Import Reals Permutation.
From Flocq Require Import Core.
From Flocq Require Import IEEE754.BinarySingleNaN.
From Verif Require Import Base Numpy NumpyFacts Utils FloatModel FloatFacts FloatGrid FloatBins FloatProofs FloatMean FloatAcc FloatVar FloatDer FloatPDP FloatPDPSpec FloatPDPMean FloatPDPStd FloatPDPProofs FloatRegion FloatRegionProofs FloatRegionSum FloatRegionTop FloatRegionMain FloatRegionGuard FloatRegionAll Prop_FloatRegion FloatRegionIdeal FloatRegionPDP.
From Coq Require Import Lra.
Open Scope R_scope.

Notation u53 := (bpow radix2 (-53)). Notation eta := (bpow radix2 (-1075)).
Lemma bigm_ok : val BIGM64 = 100000000 /\ fin BIGM64. Proof. apply fofZ_val. lia. Qed.
Lemma ok_inj {A} (a b : A) : Ok a = Ok b -> a = b. Proof. congruence. Qed.
(** ** signs *)
Lemma fin_nan x : fin x -> is_nan x = false. Proof. now destruct x. Qed.
Lemma square_plus x : fin x -> fin (fmul x x) -> plus64 (fmul x x).
Proof.
  intros Fx F. split; [exact F|]. pose proof (Bmult_correct 53 1024 _ _ mode_NE x x) as P. cbn [round_mode] in P. destruct (Rlt_bool _ _).
  - destruct P as (_ & _ & P3). unfold fmul. rewrite P3 by (apply fin_nan, F). now destruct (Bsign x).
  - exfalso. unfold fin, fmul in F. destruct (Bmult mode_NE x x); try discriminate F; destruct (Bsign x); discriminate P.
Qed.
Lemma fdiv_plus x n : plus64 x -> plus64 n -> val n <> 0 -> fin (fdiv x n) -> plus64 (fdiv x n).
Proof.
  intros [Fx Sx] [Fn Sn] V F. split; [exact F|]. pose proof (Bdiv_correct 53 1024 _ _ mode_NE x n V) as P. cbn [round_mode] in P. destruct (Rlt_bool _ _).
  - destruct P as (_ & _ & P3). unfold fdiv. rewrite P3 by (apply fin_nan, F). now rewrite Sx, Sn.
  - exfalso. unfold fin, fdiv in F. rewrite Sx, Sn in P. cbn in P. destruct (Bdiv mode_NE x n); try discriminate F; discriminate P.
Qed.
Lemma fsqrt_plus x : plus64 x -> plus64 (fsqrt x).
Proof.
  intros P0. pose proof (plus_val x P0) as V. destruct P0 as [F S]. destruct (fsqrt_val x F V) as [_ FS]. split; [exact FS|]. destruct (Bsqrt_correct 53 1024 _ _ mode_NE x) as (_ & _ & K). unfold fsqrt. rewrite K; [exact S|apply fin_nan, FS].
Qed.
Lemma fofn_plus n : (1 <= n)%nat -> (Z.of_nat n <= 2 ^ 40)%Z -> plus64 (fofn n) /\ val (fofn n) = INR n.
Proof.
  intros N L. destruct (fofZ_val (Z.of_nat n) ltac:(lia)) as [V F]. unfold fofn. rewrite INR_IZR_INZ. split; [|exact V]. split; [exact F|]. apply val_plus; [exact F|]. rewrite V. apply IZR_lt. lia.
Qed.
Lemma mean_plus o l A : complete o -> small_len l -> (forall x, In x l -> plus64 x) -> 0 <= A <= bpow radix2 900 -> (forall x, In x l -> Rabs (val x) <= A) -> plus64 (mean64 o l).
Proof.
  intros C SL P HA B. assert (F : fins l) by (intros x Hx; apply P, Hx). destruct (mean64_close o l A C SL F HA B) as (FT & FM & _). pose proof (small_len_pos l SL) as L1. pose proof SL as [N L2].
  destruct (fofn_plus (length l) L1 L2) as [PN VN]. apply fdiv_plus; [|exact PN| |exact FM].
  - assert (IN : forall x, In x (leaves (laid (o (length l)) l)) -> plus64 x) by (intros x Hx; apply P; eapply Permutation_in; [apply (laid_perm o l C N)|exact Hx]).
    apply tsum_fin; [exact FT|intros x Hx; now apply IN|exact IN].
  - rewrite VN. apply Rgt_not_eq, lt_0_INR. lia.
Qed.
Lemma std_plus o l A : complete o -> small_len l -> fins l -> 0 <= A <= bpow radix2 400 -> (forall x, In x l -> Rabs (val x) <= A) -> plus64 (std64 o l).
Proof.
  intros C SL F HA B. destruct (std64_close o l A C SL F HA B) as (FS & _). unfold std64 in *.
  assert (A9 : 0 <= A <= bpow radix2 900) by (split; [apply HA|apply Rle_trans with (bpow radix2 400); [apply HA|apply bpow_le; lia]]).
  destruct (mean64_close o l A C SL F A9 B) as (_ & FM & VM & AM & AA). set (m := mean64 o l) in *.
  assert (GB : gam (S (steps (o (length l)))) <= / 4). { apply gam_1. pose proof (complete_steps o (length l) C (small_len_pos l SL)). destruct SL as [_ L]. lia. }
  assert (RA : Rabs (Ravg (map val l)) <= A) by (apply Ravg_bound; [apply SL|exact B]).
  assert (MB : Rabs (val m) <= 2 * A + 1).
  { apply Rabs_le_inv in AM, RA. assert (gam (S (steps (o (length l)))) * (asum l / INR (length l)) <= / 4 * A). { apply Rmult_le_compat; try lra; [apply gam_pos|]. apply Rle_mult_inv_pos; [apply asum_pos|]. apply lt_0_INR. apply (small_len_pos l SL). }
    assert (eta <= 1) by (change 1 with (bpow radix2 0); apply bpow_le; lia). apply Rabs_le. lra. }
  assert (BG : 4 * bpow radix2 400 + 4 <= bpow radix2 403). { assert (1 <= bpow radix2 400) by (change 1 with (bpow radix2 0); apply bpow_le; lia). replace (bpow radix2 403) with (8 * bpow radix2 400) by (change 8 with (bpow radix2 3); rewrite <- bpow_plus; reflexivity). lra. }
  assert (SQ : forall e, In e l -> fin (fsub e m) /\ Rabs (val (fsub e m)) <= bpow radix2 403).
  { intros e He. specialize (B e He). apply Rabs_le_inv in B, MB. assert (X : Rabs (val e - val m) <= bpow radix2 403) by (apply Rabs_le; lra). destruct (fsub_val e m (F e He) FM) as [V FD]; [apply Rle_trans with (1 := X), bpow_le; lia|].
    split; [exact FD|]. rewrite V. apply rnd_abs_le; [lia|exact X]. }
  assert (SB : forall e, In e l -> fin (sqdev m e) /\ Rabs (val (sqdev m e)) <= bpow radix2 806).
  { intros e He. destruct (SQ e He) as [FD BD]. unfold sqdev. assert (X : Rabs (val (fsub e m) * val (fsub e m)) <= bpow radix2 806). { rewrite Rabs_mult. change 806%Z with (403 + 403)%Z. rewrite bpow_plus. apply Rmult_le_compat; auto using Rabs_pos. }
    destruct (fmul_val _ _ FD FD) as [V FV]; [apply Rle_trans with (1 := X), bpow_le; lia|]. split; [exact FV|]. rewrite V. apply rnd_abs_le; [lia|exact X]. }
  apply fsqrt_plus. apply mean_plus with (A := bpow radix2 806); [exact C| | | |].
  - destruct SL as [N L]. split; [destruct l; [congruence|discriminate]|now rewrite map_length].
  - intros x Hx. apply in_map_iff in Hx as (e & <- & He). destruct (SQ e He) as [FD _]. destruct (SB e He) as [FV _]. now apply square_plus.
  - split; [apply bpow_ge_0|apply bpow_le; lia].
  - intros x Hx. apply in_map_iff in Hx as (e & <- & He). now apply SB.
Qed.

(** ** the heterogeneity of one region *)
Lemma points_length mn mx : length (linspace64 mn mx 10) = 10%nat.
Proof. reflexivity. Qed.
Lemma kept_all c data : within_limits c data -> kept64 (region_pdp64 c data) = map fst data.
Proof.
  intros W. unfold kept64, region_pdp64. cbn [p64_lo p64_hi p64_feature p64_rows]. induction data as [|r data IH]; [reflexivity|]. cbn [map filter]. destruct (W r ltac:(now left)) as [W1 W2]. unfold in_range64, feat64 in *. rewrite W1, W2. cbn [andb]. f_equal. apply IH. intros q Hq. apply W. now right.
Qed.
Lemma eval_region c data xs : within_limits c data -> Bltb (h64_lo c) (h64_hi c) = true ->
  pdp_eval64 (region_pdp64 c data) NoCentering xs =
  Ok (map (fun x => mean64 (h64_axis1 c) (map (fun r => ice64 (h64_target c) (h64_feature c) (fst r) x) data)) xs,
      map (fun x => std64 (h64_axis1 c) (map (fun r => ice64 (h64_target c) (h64_feature c) (fst r) x) data)) xs).
Proof.
  intros W L. unfold pdp_eval64. cbn [region_pdp64 p64_lo p64_hi p64_axis1]. rewrite L. cbn [assert_ bind]. cbv zeta. rewrite centered_entries, kept_all by exact W. rewrite !map_map. cbn [entry64 region_pdp64 p64_target p64_feature].
  f_equal. f_equal; apply map_ext; intros x; now rewrite map_map.
Qed.
Lemma gam10 n : (n <= 10)%nat -> gam n <= 20 * u53.
Proof. intros H. pose proof (gam_le n 10 H). pose proof (gam_small 10 ltac:(cbn; lia)) as G. change (IZR (Z.of_nat 10)) with 10 in G. lra. Qed.

Definition heter_error (D : nat) (M : R) : R := IZR (5 * Z.of_nat D + 31) * bpow radix2 (-53) * M + bpow radix2 (-533).
Lemma region_close c data M : complete (h64_axis1 c) -> complete (h64_mean c) -> (1 <= h64_min_points c)%nat -> Bltb (h64_lo c) (h64_hi c) = true ->
  (Z.of_nat (length data) <= 2 ^ 40)%Z -> within_limits c data -> tame_region c M data -> 0 <= M <= bpow radix2 380 ->
  exists v, pdp_heter64 c data = Ok v /\ plus64 v /\ Rabs (val v - exact_heter c data) <= heter_error (S (steps (h64_axis1 c (length data)))) M /\ val v <= 100000000 + 2 * M.
Proof.
  intros C1 C2 MP LO LD W T HM. destruct bigm_ok as [BV BF]. pose proof u53_pos as U0. pose proof (bpow_gt_0 radix2 (-533)) as E5.
  assert (HE0 : forall D, 0 <= heter_error D M). { intros D. unfold heter_error. assert (0 <= IZR (5 * Z.of_nat D + 31) * u53 * M); [|lra]. apply Rmult_le_pos; [|lra]. apply Rmult_le_pos; [apply IZR_le; lia|lra]. }
  unfold pdp_heter64, exact_heter. destruct (Nat.ltb (length data) (h64_min_points c)) eqn:Q.
  - exists BIGM64. split; [reflexivity|]. split; [split; [exact BF|apply val_plus; [exact BF|rewrite BV; lra]]|]. rewrite BV, Rminus_diag_eq by reflexivity. rewrite Rabs_R0. split; [apply HE0|lra].
  - apply Nat.ltb_ge in Q. assert (ND : data <> []) by (intros ->; cbn in Q; lia).
    assert (NC : map (feat64 (h64_feature c)) data <> []) by (destruct data; [congruence|discriminate]).
    destruct (region_points64 c data) as [xs|e] eqn:EX; cycle 1.
    { exfalso. unfold region_points64 in EX. destruct (map (feat64 (h64_feature c)) data) as [|a l]; [congruence|]. cbn [np_min64 np_max64 bind] in EX. discriminate EX. }
    assert (LX : length xs = 10%nat). { unfold region_points64 in EX. apply bind_ok in EX as (mn & _ & EX). apply bind_ok in EX as (mx & _ & EX). apply ok_inj in EX. rewrite <- EX. apply points_length. }
    cbn [bind]. rewrite eval_region by assumption. eexists. split; [reflexivity|].
    set (ices := fun x => map (fun r => ice64 (h64_target c) (h64_feature c) (fst r) x) data). set (D := S (steps (h64_axis1 c (length data)))).
    assert (LI : forall x, length (ices x) = length data) by (intros x; unfold ices; apply map_length).
    assert (SI : forall x, small_len (ices x)). { intros x. split; [unfold ices; destruct data; [congruence|discriminate]|now rewrite LI]. }
    assert (FI : forall x, In x xs -> fins (ices x)) by (intros x Hx y Hy; unfold ices in Hy; apply in_map_iff in Hy as (r & <- & Hr); now apply (T xs x r)).
    assert (BI : forall x, In x xs -> forall y, In y (ices x) -> Rabs (val y) <= M) by (intros x Hx y Hy; unfold ices in Hy; apply in_map_iff in Hy as (r & <- & Hr); now apply (T xs x r)).
    assert (HM4 : 0 <= M <= bpow radix2 400) by (split; [lra|apply Rle_trans with (bpow radix2 380); [lra|apply bpow_le; lia]]).
    set (e1 := IZR (5 * Z.of_nat D + 9) * u53 * M + bpow radix2 (-534)).
    assert (SD : forall x, In x xs -> plus64 (std64 (h64_axis1 c) (ices x)) /\ Rabs (val (std64 (h64_axis1 c) (ices x)) - ice_sd c data x) <= e1 /\ 0 <= ice_sd c data x <= M).
    { intros x Hx. split; [now apply (std_plus _ _ M C1 (SI x) (FI x Hx) HM4), BI|]. destruct (std64_close (h64_axis1 c) (ices x) M C1 (SI x) (FI x Hx) HM4 (BI x Hx)) as (_ & _ & CL). rewrite LI in CL. fold D in CL. unfold ices in CL at 2. rewrite map_map in CL. split; [exact CL|].
      split; [apply sqrt_pos|]. unfold ice_sd. eapply Rle_trans; [apply (sd_rms _ data ND)|]. apply rms_bound; [exact ND|lra|]. intros r Hr. now apply (T xs x r). }
    assert (DW : IZR (5 * Z.of_nat D + 9) * u53 <= / 1000).
    { assert (DD : (Z.of_nat D <= 2 ^ 40)%Z). { unfold D. pose proof (complete_steps (h64_axis1 c) (length data) C1 ltac:(lia)). lia. } pose proof (step_small D DD) as X. rewrite plus_IZR, mult_IZR. pose proof u53_small. lra. }
    assert (E1B : e1 <= / 1000 * M + bpow radix2 (-534)). { unfold e1. assert (IZR (5 * Z.of_nat D + 9) * u53 * M <= / 1000 * M) by (apply Rmult_le_compat_r; lra). lra. }
    assert (E1P : 0 <= e1). { unfold e1. assert (0 <= IZR (5 * Z.of_nat D + 9) * u53 * M) by (apply Rmult_le_pos; [apply Rmult_le_pos; [apply IZR_le; lia|lra]|lra]). pose proof (bpow_gt_0 radix2 (-534)). lra. }
    set (z := map (fun x => std64 (h64_axis1 c) (ices x)) xs). assert (LZ : length z = 10%nat) by (unfold z; now rewrite map_length).
    assert (SZ : small_len z) by (split; [intros N; rewrite N in LZ; discriminate|rewrite LZ; cbn; lia]).
    assert (PZ : forall v, In v z -> plus64 v) by (intros v Hv; apply in_map_iff in Hv as (x & <- & Hx); now apply SD).
    set (A := M + e1). assert (E34 : bpow radix2 (-534) <= / 1000). { apply Rle_trans with (bpow radix2 (-10)); [apply bpow_le; lia|]. change (bpow radix2 (-10)) with (/ 1024). lra. }
    assert (HA : 0 <= A <= bpow radix2 900). { unfold A. split; [lra|]. apply Rle_trans with (2 * bpow radix2 380 + 1); [lra|]. assert (1 <= bpow radix2 380) by (change 1 with (bpow radix2 0); apply bpow_le; lia). apply Rle_trans with (bpow radix2 2 * bpow radix2 380); [change (bpow radix2 2) with 4; lra|]. rewrite <- bpow_plus. apply bpow_le. lia. }
    assert (BZ : forall v, In v z -> Rabs (val v) <= A). { intros v Hv. apply in_map_iff in Hv as (x & <- & Hx). destruct (SD x Hx) as (_ & S1 & S2). apply Rabs_le_inv in S1. apply Rabs_le. unfold A. lra. }
    assert (FZ : fins z) by (intros v Hv; apply PZ, Hv).
    destruct (mean64_close (h64_mean c) z A C2 SZ FZ HA BZ) as (_ & _ & _ & CM & AA). assert (G10 : gam (S (steps (h64_mean c (length z)))) <= 20 * u53). { apply gam10. pose proof (complete_steps (h64_mean c) (length z) C2 ltac:(lia)). lia. }
    assert (AV : Rabs (Ravg (map val z) - Ravg (map (ice_sd c data) xs)) <= e1). { unfold z. rewrite map_map. apply Ravg_close; [intros N; rewrite N in LX; discriminate|]. intros x Hx. now apply SD. }
    assert (AX : 0 <= Ravg (map (ice_sd c data) xs) <= M). { split; [apply Ravg_nonneg; intros x Hx; now apply SD|]. apply Rle_trans with (Rabs (Ravg (map (ice_sd c data) xs))); [apply Rle_abs|]. apply Ravg_bound; [intros N; rewrite N in LX; discriminate|]. intros x Hx. destruct (SD x Hx) as (_ & _ & S2). apply Rabs_le. lra. }
    assert (GA : gam (S (steps (h64_mean c (length z)))) * (asum z / INR (length z)) <= 20 * u53 * A). { apply Rmult_le_compat; try assumption; [apply gam_pos|]. apply Rle_mult_inv_pos; [apply asum_pos|]. apply lt_0_INR. lia. }
    assert (UA : 20 * u53 * A <= 21 * u53 * M + u53 * 20 * bpow radix2 (-534)). { unfold A. assert (u53 * e1 <= u53 * (/ 1000 * M + bpow radix2 (-534))) by (apply Rmult_le_compat_l; lra). assert (0 <= u53 * M) by (apply Rmult_le_pos; lra). lra. }
    assert (US : u53 * 20 * bpow radix2 (-534) <= / 4 * bpow radix2 (-534)). { apply Rmult_le_compat_r; [apply bpow_ge_0|]. pose proof u53_small. lra. }
    assert (ES : eta <= / 4 * bpow radix2 (-534)). { change (/ 4) with (bpow radix2 (-2)). rewrite <- bpow_plus. apply bpow_le. lia. }
    assert (TW : bpow radix2 (-533) = 2 * bpow radix2 (-534)) by (change 2 with (bpow radix2 1); rewrite <- bpow_plus; reflexivity).
    assert (FIN : Rabs (val (mean64 (h64_mean c) z) - Ravg (map (ice_sd c data) xs)) <= IZR (5 * Z.of_nat D + 31) * u53 * M + bpow radix2 (-533)).
    { apply Rabs_le_inv in CM, AV. replace (IZR (5 * Z.of_nat D + 31) * u53 * M) with (IZR (5 * Z.of_nat D + 9) * u53 * M + 22 * (u53 * M)) by (rewrite !plus_IZR; ring). assert (0 <= u53 * M) by (apply Rmult_le_pos; lra). unfold e1 in AV. apply Rabs_le. lra. }
    split; [|split; [exact FIN|]].
    + apply mean_plus with (A := A); assumption.
    + change (val (mean64 (h64_mean c) z) <= 100000000 + 2 * M). apply Rabs_le_inv in CM, AV. assert (X : u53 * M <= / 1000 * M) by (apply Rmult_le_compat_r; [lra|]; pose proof u53_small; lra). assert (bpow radix2 (-534) <= 1) by lra. lra.
Qed.

(** ** sizes of the regions that are cut *)
Lemma levels_large g : forall n xs before ss, search_levels64 g n xs before = Ok ss -> forall pre s post, ss = pre ++ s :: post ->
  forall x, In x (fold_left (fun xs s => split_all64 xs (s64_feature s) (s64_pos s) (s64_type s)) pre xs) -> (g64_min_points g <= length x)%nat.
Proof.
  induction n as [|n IH]; intros xs before ss H pre s post E x Hx.
  { apply ok_inj in H. subst ss. destruct pre; discriminate E. }
  cbn [search_levels64] in H. destruct (existsb _ xs) eqn:X.
  { apply ok_inj in H. subst ss. destruct pre; discriminate E. }
  apply bind_ok in H as (s0 & S & H). apply bind_ok in H as (rest & R & H). apply ok_inj in H. subst ss. destruct pre as [|p pre].
  - cbn [fold_left] in Hx. destruct (Nat.ltb (length x) (g64_min_points g)) eqn:Q; [|now apply Nat.ltb_ge in Q]. exfalso. assert (Y : existsb (fun x => Nat.ltb (length x) (g64_min_points g)) xs = true) by (apply existsb_exists; eauto). congruence.
  - cbn [app] in E. injection E as -> E. cbn [fold_left] in Hx. exact (IH _ _ _ R pre s post E x Hx).
Qed.
Lemma search_large g h0 ss pre s post x : search64 g = Ok (Some (h0, ss)) -> ss = pre ++ s :: post -> In x (regions_after g pre) -> (g64_min_points g <= length x)%nat.
Proof.
  unfold search64. intros H E.
  assert (G : (passert (Nat.leb (g64_max_levels g) (length (g64_foc g))) ;; h0 <- g64_heter g (g64_rows g) ;; ss <- search_levels64 g (g64_max_levels g) [g64_rows g] [h0] ;; Ok (match ss with [] => None | _ => Some (h0, ss) end)) = Ok (Some (h0, ss))) by (destruct (g64_type g), (g64_split_cat g); try discriminate H; exact H).
  clear H. apply bind_ok in G as (u & _ & G). apply bind_ok in G as (h & Hh & G). apply bind_ok in G as (l & L & G). destruct l as [|y l]; [discriminate G|]. apply ok_inj in G. assert (l' : y :: l = ss) by congruence. rewrite l' in L.
  exact (levels_large g _ _ _ _ L pre s post E x).
Qed.

(** ** bounds of the ideal drop *)
Section Drop.
Variables (h : list row64 -> R) (before after : list (list row64)) (M : R).
Hypothesis NE : after <> [].
Let ns := map (@length row64) after.
Lemma drop_rk : ideal_drop h before after = rk (length after) (fun k => weight ns k * (h (nth (k / 2) before []) - h (nth k after []))).
Proof. unfold ideal_drop. rewrite <- rk_fold. apply rk_ext. intros k Hk. now rewrite ideal_weight_ok. Qed.
Lemma ns_len : length ns = length after. Proof. apply map_length. Qed.
Lemma ns_ne : ns <> []. Proof. intros E. apply NE. unfold ns in E. now apply map_eq_nil in E. Qed.
Lemma w_pos k : 0 <= weight ns k.
Proof. unfold weight. pose proof (total_pos ns ns_ne). apply Rmult_le_pos; [apply IZR_le; lia|]. left. apply Rinv_0_lt_compat, IZR_lt. lia. Qed.
Lemma w_sum : rk (length after) (weight ns) = 1. Proof. rewrite <- ns_len. apply weight_sum, ns_ne. Qed.
Lemma drop_below : (forall k, (k < length after)%nat -> - M <= h (nth (k / 2) before []) - h (nth k after [])) -> - M <= ideal_drop h before after.
Proof.
  intros H. rewrite drop_rk. replace (- M) with (rk (length after) (fun k => - M * weight ns k + 0)) by (rewrite rk_lin, w_sum; ring). apply rk_le. intros k Hk. pose proof (Rmult_le_compat_l _ _ _ (w_pos k) (H k Hk)). lra.
Qed.
Lemma drop_above P k0 : (k0 < length after)%nat -> 0 <= P -> (forall k, (k < length after)%nat -> h (nth (k / 2) before []) - h (nth k after []) <= M) ->
  h (nth (k0 / 2) before []) - h (nth k0 after []) <= M - P -> ideal_drop h before after <= M - P / INR (total ns).
Proof.
  intros K0 P0 H H0. rewrite drop_rk. assert (T : 1 <= INR (total ns)) by (rewrite INR_IZR_INZ; apply IZR_le; pose proof (total_pos ns ns_ne); lia).
  assert (W0 : / INR (total ns) <= weight ns k0). { unfold weight. rewrite INR_IZR_INZ in *. unfold Rdiv. rewrite <- (Rmult_1_l (/ _)) at 1. apply Rmult_le_compat_r; [left; apply Rinv_0_lt_compat; lra|apply IZR_le; lia]. }
  assert (G : forall n, rk n (fun k => weight ns k * (if Nat.eqb k k0 then M - P else M)) = M * rk n (weight ns) - (if Nat.ltb k0 n then weight ns k0 * P else 0)).
  { induction n as [|n IH]; [unfold rk; cbn; ring|]. rewrite !rk_S, IH. destruct (Nat.eqb_spec n k0) as [->|Q].
    - rewrite Nat.ltb_irrefl, (proj2 (Nat.ltb_lt k0 (S k0))) by lia. ring.
    - destruct (Nat.ltb_spec k0 n); destruct (Nat.ltb_spec k0 (S n)); try lia; ring. }
  apply Rle_trans with (rk (length after) (fun k => weight ns k * (if Nat.eqb k k0 then M - P else M))).
  - apply rk_le. intros k Hk. apply Rmult_le_compat_l; [apply w_pos|]. destruct (Nat.eqb_spec k k0) as [->|_]; [exact H0|now apply H].
  - rewrite G, w_sum, (proj2 (Nat.ltb_lt _ _) K0). pose proof (Rmult_le_compat_r P _ _ P0 W0) as X. unfold Rdiv. lra.
Qed.
End Drop.
