(** FloatRegionPos: the candidate positions of a numerical conditioning feature in binary64. *)
From Coq Require Import Reals.
From Flocq Require Import Core.
From Flocq Require Import IEEE754.BinarySingleNaN.
From Verif Require Import Base Numpy NumpyFacts Utils FloatModel FloatFacts FloatGrid FloatBins FloatProofs FloatMean FloatAcc FloatNan FloatRegion FloatRegionProofs FloatRegionSum Prop_FloatMid.
From Coq Require Import Lra SpecFloat.
Open Scope R_scope.

Lemma half_step i : (Z.of_nat i <= 2 ^ 51)%Z -> val (fadd (fofn i) half64) = IZR (Z.of_nat i) + / 2 /\ fin (fadd (fofn i) half64).
Proof.
  intros H. destruct half_val as [Vh Fh]. destruct (fofZ_val (Z.of_nat i) ltac:(lia)) as [Vi Fi]. assert (I0 : 0 <= IZR (Z.of_nat i)) by (apply IZR_le; lia). assert (I1 : IZR (Z.of_nat i) <= bpow radix2 51) by (change (bpow radix2 51) with (IZR (2 ^ 51)); now apply IZR_le).
  destruct (fadd_val (fofn i) half64 Fi Fh) as [V F].
  { unfold fofn. rewrite Vi, Vh, Rabs_pos_eq by lra. apply Rle_trans with (bpow radix2 52); [|apply bpow_le; lia]. replace (bpow radix2 52) with (2 * bpow radix2 51) by (change 2 with (bpow radix2 1); rewrite <- bpow_plus; reflexivity). assert (1 <= bpow radix2 51) by (change 1 with (bpow radix2 0); apply bpow_le; lia). lra. }
  split; [|exact F]. rewrite V. unfold fofn. rewrite Vi, Vh. apply round_generic; [typeclasses eauto|]. change fexp64 with (FLT_exp (-1074) 53).
  apply generic_format_FLT. exists (Float radix2 (2 * Z.of_nat i + 1) (-1)); cbn [Fnum Fexp]; [|rewrite Z.abs_eq by lia; change (radix2 ^ 53)%Z with (2 ^ 53)%Z; lia|lia].
  unfold F2R. cbn [Fnum Fexp]. rewrite plus_IZR, mult_IZR. replace (bpow radix2 (-1)) with (/ 2) by (cbn; lra). field.
Qed.

Section Positions.
Variables (lo hi : b64) (K : nat) (M : R).
Hypothesis Fl : fin lo.
Hypothesis Fh : fin hi.
Hypothesis Ml : Rabs (val lo) <= M.
Hypothesis Mh : Rabs (val hi) <= M.
Hypothesis HM : M <= bpow radix2 1000.
Hypothesis K1 : (1 <= K)%nat.
Hypothesis K2 : (Z.of_nat K <= 2 ^ 48)%Z.
Hypothesis D1 : bpow radix2 (-900) <= val hi - val lo.
Let D := val hi - val lo.
Let k := IZR (Z.of_nat K).
Let step := fdiv (fsub hi lo) (fofn K).
Definition cand (i : nat) : b64 := fadd lo (fmul (fadd (fofn i) half64) step).

Lemma K_range : 1 <= k <= bpow radix2 48. Proof. unfold k. split; [apply IZR_le; lia|]. change (bpow radix2 48) with (IZR (2 ^ 48)). now apply IZR_le. Qed.
Lemma D_range : 0 < D <= bpow radix2 1002.
Proof. unfold D. pose proof (bpow_gt_0 radix2 (-900)). apply Rabs_le_inv in Ml, Mh. replace (bpow radix2 1002) with (4 * bpow radix2 1000) by (change 4 with (bpow radix2 2); rewrite <- bpow_plus; reflexivity). split; lra. Qed.
Lemma u_small : u53 <= / 1024. Proof. replace (/ 1024) with (bpow radix2 (-10)) by (cbn; lra). apply bpow_le. lia. Qed.

Lemma step_ok : fin step /\ exists e, Rabs e <= gam 2 /\ val step = D / k * (1 + e).
Proof.
  pose proof K_range as KR. pose proof D_range as DR. pose proof u_small as US. pose proof u53_pos as UP.
  destruct (fsub_val hi lo Fh Fl) as [V F]. { fold D. rewrite Rabs_pos_eq by lra. apply Rle_trans with (bpow radix2 1002); [lra|apply bpow_le; lia]. }
  destruct (rnd_minus_rel hi lo) as (e1 & H1 & E1). fold D in V, E1. rewrite E1 in V. apply Rabs_le_inv in H1. destruct (fofZ_val (Z.of_nat K) ltac:(lia)) as [Vk Fk]. change (fofZ (Z.of_nat K)) with (fofn K) in Vk, Fk. fold k in Vk.
  assert (Q0 : 0 < D * (1 + e1)) by (apply Rmult_lt_0_compat; lra). assert (KI : 0 < / k) by (apply Rinv_0_lt_compat; lra). assert (KI1 : / k <= 1) by (rewrite <- Rinv_1; apply Rinv_le; lra).
  assert (Q : 0 < D * (1 + e1) / k) by (apply Rdiv_lt_0_compat; lra).
  assert (QU : D * (1 + e1) / k <= 2 * D). { unfold Rdiv. apply Rle_trans with (D * (1 + e1) * 1); [apply Rmult_le_compat_l; lra|]. rewrite Rmult_1_r. assert (D * (1 + e1) <= D * 2) by (apply Rmult_le_compat_l; lra). lra. }
  assert (QL : bpow radix2 (-1022) <= D * (1 + e1) / k).
  { unfold Rdiv. apply Rle_trans with (bpow radix2 (-901) * bpow radix2 (-48)); [rewrite <- bpow_plus; apply bpow_le; lia|]. apply Rmult_le_compat; try apply bpow_ge_0.
    - apply Rle_trans with (D * / 2); [|apply Rmult_le_compat_l; lra]. replace (bpow radix2 (-901)) with (bpow radix2 (-900) * / 2) by (change (/ 2) with (bpow radix2 (-1)); rewrite <- bpow_plus; reflexivity). apply Rmult_le_compat_r; [lra|exact D1].
    - change (-48)%Z with (- (48))%Z. rewrite bpow_opp. apply Rinv_le; lra. }
  destruct (fdiv_val (fsub hi lo) (fofn K) F Fk) as [Vd Fd]; [rewrite Vk; apply Rgt_not_eq; lra| |].
  { rewrite V, Vk, Rabs_pos_eq by lra. apply Rle_trans with (2 * bpow radix2 1002); [lra|]. change 2 with (bpow radix2 1). rewrite <- bpow_plus. apply bpow_le. lia. }
  fold step in Vd, Fd. rewrite V, Vk in Vd. split; [exact Fd|]. destruct (rnd_rel (D * (1 + e1) / k)) as (e2 & H2 & E2); [rewrite Rabs_pos_eq by lra; exact QL|]. rewrite E2 in Vd.
  exists ((1 + e1) * (1 + e2) - 1). split; [|rewrite Vd; field; lra].
  replace ((1 + e1) * (1 + e2) - 1) with (e1 + (e2 + e1 * e2)) by ring. apply Rabs_le in H1. eapply Rle_trans; [apply Rabs_triang|]. eapply Rle_trans; [apply Rplus_le_compat_l, Rabs_triang|]. rewrite Rabs_mult. pose proof (Rmult_le_compat _ _ _ _ (Rabs_pos e1) (Rabs_pos e2) H1 H2). unfold gam. cbn [pow]. lra.
Qed.
Lemma gam3_small : gam 3 <= 7 * u53.
Proof. pose proof (gam_small 3 ltac:(cbn; lia)) as G. change (IZR (Z.of_nat 3)) with 3 in G. pose proof u53_pos. lra. Qed.

(** the distance of the i-th candidate from the minimum, before the last rounding *)
Lemma offset_ok i : (i < K)%nat -> let v := fmul (fadd (fofn i) half64) step in fin v /\ exists e, Rabs e <= gam 3 /\ val v = (IZR (Z.of_nat i) + / 2) / k * D * (1 + e).
Proof.
  intros Hi v. pose proof K_range as KR. pose proof D_range as DR. pose proof u_small as US. pose proof u53_pos as UP. destruct step_ok as (Fs & e & He & Vs). destruct (half_step i ltac:(lia)) as [Vh Fhh].
  set (h := IZR (Z.of_nat i) + / 2) in *. assert (H0 : / 2 <= h <= k). { unfold h, k. assert (0 <= IZR (Z.of_nat i)) by (apply IZR_le; lia). assert (IZR (Z.of_nat i) <= IZR (Z.of_nat K - 1)) by (apply IZR_le; lia). rewrite minus_IZR in H0. lra. }
  assert (G2 : gam 2 <= / 2). { pose proof (gam_le 2 3 ltac:(lia)). pose proof gam3_small. lra. } apply Rabs_le_inv in He.
  assert (KI : 0 < / k) by (apply Rinv_0_lt_compat; lra).
  assert (P : h * val step = h / k * D * (1 + e)) by (rewrite Vs; unfold Rdiv; ring).
  assert (HK : 0 < h / k <= 1). { unfold Rdiv. split; [apply Rmult_lt_0_compat; lra|]. apply Rmult_le_reg_r with k; [lra|]. rewrite Rmult_assoc, Rinv_l by lra. lra. }
  assert (HK2 : bpow radix2 (-49) <= h / k). { unfold Rdiv. apply Rle_trans with (/ 2 * bpow radix2 (-48)); [change (/ 2) with (bpow radix2 (-1)); rewrite <- bpow_plus; apply Rle_refl|]. apply Rmult_le_compat; try lra; [apply bpow_ge_0|]. change (-48)%Z with (- (48))%Z. rewrite bpow_opp. apply Rinv_le; lra. }
  assert (HD : 0 < h / k * D) by (apply Rmult_lt_0_compat; lra). assert (HDE : 0 < h / k * D * (1 + e)) by (apply Rmult_lt_0_compat; lra).
  assert (HU : h / k * D * (1 + e) <= 2 * D). { apply Rle_trans with (1 * D * 2); [|lra]. apply Rmult_le_compat; try lra. apply Rmult_le_compat_r; lra. }
  destruct (fmul_val (fadd (fofn i) half64) step Fhh Fs) as [V F].
  { rewrite Vh, P, Rabs_pos_eq by lra. apply Rle_trans with (2 * bpow radix2 1002); [lra|]. change 2 with (bpow radix2 1). rewrite <- bpow_plus. apply bpow_le. lia. }
  fold v in V, F. rewrite Vh, P in V. split; [exact F|]. destruct (rnd_rel (h / k * D * (1 + e))) as (e3 & H3 & E3).
  { rewrite Rabs_pos_eq by lra. apply Rle_trans with (bpow radix2 (-49) * bpow radix2 (-900) * bpow radix2 (-1)); [rewrite <- !bpow_plus; apply bpow_le; lia|]. apply Rmult_le_compat; [apply Rmult_le_pos; apply bpow_ge_0|apply bpow_ge_0| |change (bpow radix2 (-1)) with (/ 2); lra]. apply Rmult_le_compat; try apply bpow_ge_0; assumption. }
  rewrite E3 in V. exists ((1 + e) * (1 + e3) - 1). split; [|rewrite V; ring]. apply Rabs_le in He. replace ((1 + e) * (1 + e3) - 1) with (e + (e3 + e * e3)) by ring.
  eapply Rle_trans; [apply Rabs_triang|]. eapply Rle_trans; [apply Rplus_le_compat_l, Rabs_triang|]. rewrite Rabs_mult. pose proof (Rmult_le_compat _ _ _ _ (Rabs_pos e) (Rabs_pos e3) He H3). rewrite (gam_S 2). lra.
Qed.

(** every candidate lies between the smallest and the largest value, up to there included *)
Theorem cand_range i : (i < K)%nat -> fin (cand i) /\ val lo <= val (cand i) <= val hi /\
  (IZR (Z.of_nat K) * M <= bpow radix2 49 * (val hi - val lo) -> val lo < val (cand i)).
Proof.
  intros Hi. pose proof K_range as KR. pose proof D_range as DR. pose proof u_small as US. pose proof u53_pos as UP. destruct (offset_ok i Hi) as (Fv & e & He & Vv). set (v := fmul (fadd (fofn i) half64) step) in *.
  set (h := IZR (Z.of_nat i) + / 2) in *. assert (H0 : / 2 <= h <= k - / 2). { unfold h, k. assert (0 <= IZR (Z.of_nat i)) by (apply IZR_le; lia). assert (IZR (Z.of_nat i) <= IZR (Z.of_nat K - 1)) by (apply IZR_le; lia). rewrite minus_IZR in H0. lra. }
  pose proof gam3_small as G3. apply Rabs_le_inv in He. assert (KI : 0 < / k) by (apply Rinv_0_lt_compat; lra).
  assert (UK : 7 * u53 * k <= / 4). { apply Rle_trans with (7 * u53 * bpow radix2 48); [apply Rmult_le_compat_l; lra|]. replace (7 * u53 * bpow radix2 48) with (7 * (u53 * bpow radix2 48)) by ring. rewrite <- bpow_plus. change (-53 + 48)%Z with (-5)%Z. replace (bpow radix2 (-5)) with (/ 32) by (cbn; lra). lra. }
  assert (V0 : 0 < val v). { rewrite Vv. apply Rmult_lt_0_compat; [apply Rmult_lt_0_compat; [apply Rdiv_lt_0_compat; lra|lra]|lra]. }
  assert (VD : val v <= D).
  { rewrite Vv. replace D with (1 * D) at 2 by ring. replace (h / k * D * (1 + e)) with (h * (1 + e) / k * D) by (field; lra). apply Rmult_le_compat_r; [lra|]. apply Rmult_le_reg_r with k; [lra|]. unfold Rdiv. rewrite Rmult_assoc, Rinv_l, Rmult_1_r, Rmult_1_l by lra.
    apply Rle_trans with ((k - / 2) * (1 + 7 * u53)); [apply Rmult_le_compat; lra|]. lra. }
  assert (B : Rabs (val lo + val v) <= M). { apply Rabs_le_inv in Ml, Mh. apply Rabs_le. unfold D in VD. lra. }
  destruct (fadd_val lo v Fl Fv) as [V F]. { eapply Rle_trans; [exact B|]. apply Rle_trans with (bpow radix2 1000); [exact HM|apply bpow_le; lia]. }
  change (fadd lo v) with (cand i) in V, F. split; [exact F|]. split.
  - rewrite V. split; [apply Rle_trans with (rnd (val lo)); [rewrite rnd_val; apply Rle_refl|]|apply Rle_trans with (rnd (val hi)); [|rewrite rnd_val; apply Rle_refl]]; apply rnd_le; unfold D in VD; lra.
  - intros W. fold D k in W. rewrite V. destruct (rnd_plus_rel lo v) as (e4 & H4 & E4). rewrite E4.
    assert (ER : Rabs ((val lo + val v) * e4) <= M * u53) by (rewrite Rabs_mult; apply Rmult_le_compat; try apply Rabs_pos; assumption).
    apply Rabs_le_inv in ER. replace ((val lo + val v) * (1 + e4)) with (val lo + val v + (val lo + val v) * e4) by ring.
    assert (M0 : 0 <= M) by (pose proof (Rabs_pos (val lo)); lra).
    assert (VL : / 4 * (D / k) <= val v).
    { rewrite Vv. apply Rle_trans with (/ 2 / k * D * (1 - / 2)); [apply Req_le; field; lra|]. assert (0 < D / k) by (apply Rdiv_lt_0_compat; lra). apply Rmult_le_compat; [| lra| |lra]; [apply Rmult_le_pos; [apply Rmult_le_pos|]; lra|]. apply Rmult_le_compat_r; [lra|]. apply Rmult_le_compat_r; lra. }
    assert (MK : M * u53 < / 4 * (D / k)); [|lra].
    assert (W2 : M * u53 <= bpow radix2 (-4) * (D / k)).
    { apply Rmult_le_reg_r with k; [lra|]. replace (bpow radix2 (-4) * (D / k) * k) with (bpow radix2 (-4) * D) by (field; lra). replace (M * u53 * k) with (u53 * (k * M)) by ring.
      apply Rle_trans with (u53 * (bpow radix2 49 * D)); [apply Rmult_le_compat_l; lra|]. rewrite <- Rmult_assoc, <- bpow_plus. apply Rle_refl. }
    replace (bpow radix2 (-4)) with (/ 16) in W2 by (cbn; lra). assert (0 < D / k) by (apply Rdiv_lt_0_compat; lra). lra.
Qed.
End Positions.

Lemma positions_cont_cand c K ps lo hi : np_max64 c = Ok hi -> np_min64 c = Ok lo -> find_positions_cont64 c K = Ok ps -> ps = map (cand lo hi K) (seq 0 K).
Proof. intros H1 H2 H. unfold find_positions_cont64 in H. rewrite H1, H2 in H. cbn [bind] in H. injection H as <-. reflexivity. Qed.
