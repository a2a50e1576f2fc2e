(** FloatLine3: the instance effects ALE computes for a model that is linear in the feature up to an error delta. *)
From Coq Require Import Reals.
From Flocq Require Import Core.
From Flocq Require Import IEEE754.BinarySingleNaN.
From Verif Require Import Base Numpy NumpyFacts FloatModel FloatFacts FloatGrid FloatBins FloatProofs FloatMean FloatAcc FloatFill FloatLine FloatLine2 Prop_Float.
From Coq Require Import Lra.
Open Scope R_scope.

(** how far the bin widths of the float64 grid (last limit widened by EPS) are from (hi - lo) / K *)
Definition width_err (M : R) : R := M * bpow radix2 (-47) + bpow radix2 (-26).

Lemma EPS_07 : val EPS64 <= 7 / 10 * bpow radix2 (-26). Proof. rewrite EPS64_val. unfold bpow. cbn. lra. Qed.

Lemma powers : bpow radix2 (-49) = 16 * u53 /\ bpow radix2 (-48) = 32 * u53 /\ bpow radix2 (-47) = 64 * u53.
Proof. repeat split; unfold bpow; cbn; lra. Qed.

Section Grid.
  Variables (lo hi : b64) (K : nat) (M : R).
  Hypothesis (Flo : fin lo) (Fhi : fin hi) (Blo : Rabs (val lo) <= M) (Bhi : Rabs (val hi) <= M) (HM : M <= bpow radix2 26).
  Hypothesis (HK : (1 <= K)%nat) (HK2 : (Z.of_nat K <= 2 ^ 48)%Z).
  Let kR := IZR (Z.of_nat K).
  Let s := (val hi - val lo) / kR.
  Hypothesis (HS : 16 * width_err M <= s).
  Let l := linspace64 lo hi (K + 1).
  Let l' := widen64 l.

  Lemma K1 : 1 <= kR. Proof. apply IZR_le. lia. Qed.
  Lemma Mpos : 0 <= M. Proof. eapply Rle_trans; [apply Rabs_pos|exact Blo]. Qed.
  Lemma D2M : val hi - val lo <= 2 * M. Proof. apply Rabs_le_inv in Blo. apply Rabs_le_inv in Bhi. lra. Qed.
  Lemma we_pos : 0 < width_err M. Proof. unfold width_err. pose proof (bpow_gt_0 radix2 (-26)). pose proof (bpow_ge_0 radix2 (-47)). pose proof Mpos. assert (0 <= M * bpow radix2 (-47)) by (apply Rmult_le_pos; lra). lra. Qed.
  Lemma spos : 0 < s. Proof. pose proof we_pos. lra. Qed.
  Lemma sD : s <= val hi - val lo. Proof. pose proof K1. pose proof spos as P. unfold s in *. assert (0 < val hi - val lo). { apply Rnot_le_lt. intros N. assert ((val hi - val lo) / kR <= 0); [|lra]. apply Rle_div_l; lra. } apply Rle_div_l; [lra|]. assert ((val hi - val lo) * 1 <= (val hi - val lo) * kR) by (apply Rmult_le_compat_l; lra). lra. Qed.
  Lemma HD : bpow radix2 (-900) <= val hi - val lo.
  Proof. pose proof sD. pose proof HS. assert (bpow radix2 (-900) <= bpow radix2 (-26)) by (apply bpow_le; lia). unfold width_err in *. pose proof (bpow_ge_0 radix2 (-26)). pose proof (bpow_ge_0 radix2 (-47)). pose proof Mpos. assert (0 <= M * bpow radix2 (-47)) by (apply Rmult_le_pos; lra). lra. Qed.
  Lemma M1021 : M <= bpow radix2 1021. Proof. eapply Rle_trans; [exact HM|]. apply bpow_le. lia. Qed.

  Lemma grid_facts : length l = (K + 1)%nat /\ fins l /\ sorted64 l /\ val (first64 l) = val lo /\ last64 l = hi.
  Proof. pose proof M1021. apply linspace64_facts; auto; try lra. apply HD. Qed.
  Lemma hi_range : - bpow radix2 27 <= val hi < bpow radix2 27.
  Proof. apply Rabs_le_inv in Bhi. assert (bpow radix2 26 < bpow radix2 27) by (apply bpow_lt; lia). lra. Qed.

  Lemma hi_wide : val hi < val (fadd hi EPS64) /\ fin (fadd hi EPS64) /\ Rabs (val (fadd hi EPS64) - val hi) <= bpow radix2 (-26) + M * u53.
  Proof.
    destruct (widen_small hi Fhi hi_range) as [W1 W2]. split; [exact W1|]. split; [exact W2|].
    destruct (fadd_val hi EPS64 Fhi EPS64_fin) as [V _]. { apply EPS_bound; auto. eapply Rle_trans; [exact Bhi|]. eapply Rle_trans; [exact HM|]. apply bpow_le. lia. }
    destruct (rnd_plus_rel hi EPS64) as (e & E1 & E2). rewrite V, E2. pose proof EPS64_bounds as [B1 B2]. pose proof EPS_07 as E7. pose proof u53_pos. pose proof u53_small. pose proof (bpow_gt_0 radix2 (-27)).
    replace ((val hi + val EPS64) * (1 + e) - val hi) with (val EPS64 + (val hi + val EPS64) * e) by ring. eapply Rle_trans; [apply Rabs_triang|]. rewrite Rabs_mult, (Rabs_pos_eq (val EPS64)) by lra.
    assert (A : Rabs (val hi + val EPS64) <= M + val EPS64). { eapply Rle_trans; [apply Rabs_triang|]. rewrite (Rabs_pos_eq (val EPS64)); lra. }
    assert (Rabs (val hi + val EPS64) * Rabs e <= (M + val EPS64) * u53) by (apply Rmult_le_compat; auto using Rabs_pos).
    assert (val EPS64 * u53 <= val EPS64 * / 1000000) by (apply Rmult_le_compat_l; lra). lra.
  Qed.

  (** widths *)
  Lemma gap i : (i < K)%nat -> Rabs (val (nth (S i) l' fnan) - val (nth i l' fnan) - s) <= M * (33 * u53) + bpow radix2 (-26).
  Proof.
    intros Hi. destruct (C100_limits lo hi K M Flo Fhi Blo Bhi M1021 HD HK HK2) as (L & F & E0 & EK & _ & Cl & _). fold l in L, F, E0, EK, Cl.
    pose proof (Cl i ltac:(lia)) as C1. pose proof (Cl (S i) ltac:(lia)) as C2. pose proof K1 as KP. destruct powers as (P1 & _ & _). rewrite P1 in C1, C2.
    assert (St : val lo + IZR (Z.of_nat (S i)) / IZR (Z.of_nat K) * (val hi - val lo) - (val lo + IZR (Z.of_nat i) / IZR (Z.of_nat K) * (val hi - val lo)) = s).
    { rewrite Nat2Z.inj_succ, succ_IZR. unfold s. fold kR. field. lra. }
    unfold l'. rewrite !widen64_nth by lia. destruct (Nat.eqb_spec i (length l - 1)) as [|_]; [lia|]. pose proof Mpos as M0. pose proof u53_pos as U. pose proof (bpow_gt_0 radix2 (-26)) as B26.
    assert (0 <= M * u53) by (apply Rmult_le_pos; lra).
    apply Rabs_le_inv in C1. apply Rabs_le_inv in C2.
    destruct (Nat.eqb_spec (S i) (length l - 1)) as [E|_].
    - assert (EH : nth (length l - 1) l fnan = hi) by (rewrite <- EK; f_equal; lia). rewrite E, EH in *. destruct hi_wide as (_ & _ & W). apply Rabs_le_inv in W. apply Rabs_le. lra.
    - apply Rabs_le. lra.
  Qed.

  Lemma first_width : let dx := fsub (nth 1 l' fnan) (nth 0 l' fnan) in fin dx /\ Rabs (val dx - s) <= width_err M.
  Proof.
    intros dx. destruct grid_facts as (L & F & So & E0 & EK). destruct (widen64_sorted l ltac:(lia) F So) as (F' & So' & _). { rewrite EK. apply hi_range. }
    pose proof (gap 0 ltac:(lia)) as G. fold l' in F', So'. assert (L' : length l' = (K + 1)%nat) by (unfold l'; rewrite widen64_length; exact L).
    assert (F0 : fin (nth 0 l' fnan)) by (apply fins_nth; auto; lia). assert (F1 : fin (nth 1 l' fnan)) by (apply fins_nth; auto; lia).
    pose proof Mpos as M0. pose proof u53_pos as U. pose proof u53_small as US. pose proof spos as SP. pose proof sD as SD. pose proof D2M as DM. destruct powers as (_ & _ & P47).
    assert (MU : 0 <= M * u53) by (apply Rmult_le_pos; lra). pose proof HS as HS'. unfold width_err in *. rewrite P47 in *. pose proof (bpow_gt_0 radix2 (-26)) as B26.
    set (g := val (nth 1 l' fnan) - val (nth 0 l' fnan)) in *. assert (GB : Rabs g <= 4 * M). { apply Rabs_le. apply Rabs_le_inv in G. lra. }
    assert (Mb : 4 * M <= bpow radix2 1023). { pose proof M1021. change (bpow radix2 1023) with (bpow radix2 (2 + 1021)). rewrite bpow_plus. change (bpow radix2 2) with 4. lra. }
    destruct (fsub_val _ _ F1 F0) as [V Fd]; [fold g; lra|]. split; [exact Fd|]. unfold dx. rewrite V. destruct (rnd_minus_rel (nth 1 l' fnan) (nth 0 l' fnan)) as (e & E1 & E2). rewrite E2. fold g.
    replace (g * (1 + e) - s) with ((g - s) + g * e) by ring. eapply Rle_trans; [apply Rabs_triang|]. rewrite Rabs_mult.
    assert (Rabs g * Rabs e <= 4 * M * u53) by (apply Rmult_le_compat; auto using Rabs_pos). lra.
  Qed.

  (** the effect of an instance *)
  Definition effect_err (a delta : R) : R := 5 * (Rabs a * width_err M + delta) / s + bpow radix2 (-1075).
  Lemma effect_near a b delta i gR gL : (i < K)%nat -> fin gR -> fin gL -> 0 <= delta ->
    Rabs (val gR - (a * val (nth (S i) l' fnan) + b)) <= delta -> Rabs (val gL - (a * val (nth i l' fnan) + b)) <= delta ->
    Rabs a <= bpow radix2 800 -> delta <= bpow radix2 800 ->
    near a (effect_err a delta) (fdiv (fsub gR gL) (fsub (nth 1 l' fnan) (nth 0 l' fnan))).
  Proof.
    intros Hi FR FL D0 HR HL BA BD. pose proof (gap i Hi) as G. destruct first_width as [Fd Wd]. set (dx := fsub (nth 1 l' fnan) (nth 0 l' fnan)) in *.
    pose proof Mpos as M0. pose proof u53_pos as U. pose proof u53_small as US. pose proof spos as SP. pose proof sD as SD. pose proof D2M as DM. destruct powers as (_ & _ & P47). pose proof we_pos as WP.
    assert (MU : 0 <= M * u53) by (apply Rmult_le_pos; lra). pose proof (bpow_gt_0 radix2 (-26)) as B26. pose proof (Rabs_pos a) as A0.
    assert (WE : width_err M = 64 * (M * u53) + bpow radix2 (-26)) by (unfold width_err; rewrite P47; ring).
    set (w := width_err M) in *. set (h := val (nth (S i) l' fnan) - val (nth i l' fnan)) in *.
    assert (US1 : u53 * s <= w / 16). { assert (u53 * s <= u53 * (2 * M)) by (apply Rmult_le_compat_l; lra). lra. }
    assert (Hh : Rabs (h - s) <= w) by lra. assert (Hh2 : Rabs h <= 2 * s). { apply Rabs_le. apply Rabs_le_inv in Hh. lra. }
    set (d := val gR - val gL). assert (Dd : Rabs (d - a * h) <= 2 * delta).
    { replace (d - a * h) with ((val gR - (a * val (nth (S i) l' fnan) + b)) - (val gL - (a * val (nth i l' fnan) + b))) by (unfold d, h; ring). unfold Rminus at 1. eapply Rle_trans; [apply Rabs_triang|]. rewrite Rabs_Ropp. lra. }
    assert (As : Rabs (a * h) <= 2 * (Rabs a * s)). { rewrite Rabs_mult. apply Rle_trans with (Rabs a * (2 * s)); [apply Rmult_le_compat_l; lra|]. lra. }
    assert (Dabs : Rabs d <= 2 * (Rabs a * s) + 2 * delta). { replace d with ((d - a * h) + a * h) by ring. eapply Rle_trans; [apply Rabs_triang|]. lra. }
    assert (B827 : Rabs a * s <= bpow radix2 827). { apply Rle_trans with (bpow radix2 800 * bpow radix2 27); [apply Rmult_le_compat; try lra; change (bpow radix2 27) with (bpow radix2 (1 + 26)); rewrite bpow_plus; change (bpow radix2 1) with 2; lra|]. rewrite <- bpow_plus. apply bpow_le. lia. }
    assert (Dabs2 : Rabs d <= bpow radix2 830). { eapply Rle_trans; [exact Dabs|]. assert (bpow radix2 800 <= bpow radix2 827) by (apply bpow_le; lia). change (bpow radix2 830) with (bpow radix2 (3 + 827)). rewrite bpow_plus. change (bpow radix2 3) with 8. pose proof (bpow_ge_0 radix2 827). lra. }
    destruct (fsub_val gR gL FR FL) as [VD FD]. { fold d. eapply Rle_trans; [exact Dabs2|]. apply bpow_le. lia. }
    destruct (rnd_minus_rel gR gL) as (e & E1 & E2). rewrite E2 in VD. fold d in VD. set (q := fsub gR gL) in *.
    assert (aw : 0 <= Rabs a * w) by (apply Rmult_le_pos; lra).
    assert (aus : Rabs a * (u53 * s) <= Rabs a * w / 16). { apply Rle_trans with (Rabs a * (w / 16)); [apply Rmult_le_compat_l; lra|]. lra. }
    assert (du : delta * u53 <= delta / 1000000). { unfold Rdiv. apply Rmult_le_compat_l; lra. }
    assert (Qe : Rabs (val q - d) <= Rabs a * w / 8 + delta / 1000). { rewrite VD. replace (d * (1 + e) - d) with (d * e) by ring. rewrite Rabs_mult. apply Rle_trans with ((2 * (Rabs a * s) + 2 * delta) * u53); [apply Rmult_le_compat; auto using Rabs_pos|]. lra. }
    assert (Qs : Rabs (val q - a * val dx) <= 2.2 * (Rabs a * w) + 2.1 * delta).
    { replace (val q - a * val dx) with ((val q - d) + ((d - a * h) + (a * (h - s) - a * (val dx - s)))) by ring.
      eapply Rle_trans; [apply Rabs_triang|]. assert (Rabs ((d - a * h) + (a * (h - s) - a * (val dx - s))) <= 2 * delta + (Rabs a * w + Rabs a * w)); [|lra].
      eapply Rle_trans; [apply Rabs_triang|]. apply Rplus_le_compat; [lra|]. unfold Rminus at 1. eapply Rle_trans; [apply Rabs_triang|]. rewrite Rabs_Ropp, !Rabs_mult.
      apply Rplus_le_compat; apply Rmult_le_compat_l; lra. }
    assert (Dx : 15 / 16 * s <= val dx). { apply Rabs_le_inv in Wd. lra. }
    set (R0 := 2.2 * (Rabs a * w) + 2.1 * delta) in *.
    assert (R0s : 0 <= R0) by (unfold R0; lra).
    assert (Qd : Rabs (val q / val dx - a) <= 16 / 15 * R0 / s).
    { replace (val q / val dx - a) with ((val q - a * val dx) * / val dx) by (field; lra). rewrite Rabs_mult. assert (ID : 0 < / val dx) by (apply Rinv_0_lt_compat; lra). rewrite (Rabs_pos_eq (/ val dx)) by lra.
      apply Rmult_le_reg_r with (val dx); [lra|]. rewrite Rmult_assoc, Rinv_l, Rmult_1_r by lra. eapply Rle_trans; [exact Qs|].
      assert (16 / 15 * R0 / s * (15 / 16 * s) <= 16 / 15 * R0 / s * val dx). { apply Rmult_le_compat_l; [|lra]. unfold Rdiv. repeat apply Rmult_le_pos; try lra. apply Rlt_le, Rinv_0_lt_compat. lra. }
      replace (16 / 15 * R0 / s * (15 / 16 * s)) with R0 in H by (field; lra). lra. }
    set (E := 16 / 15 * R0 / s) in *.
    assert (E0 : 0 <= E). { eapply Rle_trans; [apply Rabs_pos|exact Qd]. }
    assert (IS : 0 < / s) by (apply Rinv_0_lt_compat; lra).
    assert (is26 : / s <= bpow radix2 26). { replace (bpow radix2 26) with (/ bpow radix2 (-26)) by (rewrite <- bpow_opp; reflexivity). apply Rinv_le; [apply bpow_gt_0|]. lra. }
    assert (EB : E <= bpow radix2 860).
    { unfold E, R0. apply Rle_trans with (bpow radix2 832 * bpow radix2 26); [|rewrite <- bpow_plus; apply bpow_le; lia]. unfold Rdiv.
      assert (Rabs a * w <= bpow radix2 827). { eapply Rle_trans; [|exact B827]. apply Rmult_le_compat_l; lra. }
      assert (bpow radix2 800 <= bpow radix2 827) by (apply bpow_le; lia). change (bpow radix2 832) with (bpow radix2 (5 + 827)). rewrite bpow_plus. change (bpow radix2 5) with 32. pose proof (bpow_ge_0 radix2 827).
      apply Rmult_le_compat; try lra. }
    assert (QA : Rabs (val q / val dx) <= Rabs a + E). { replace (val q / val dx) with (a + (val q / val dx - a)) by ring. eapply Rle_trans; [apply Rabs_triang|]. lra. }
    destruct (fdiv_val q dx FD Fd) as [VE FE]; [lra| |].
    { eapply Rle_trans; [exact QA|]. apply Rle_trans with (2 * bpow radix2 860). { assert (bpow radix2 800 <= bpow radix2 860) by (apply bpow_le; lia). lra. } change 2 with (bpow radix2 1). rewrite <- bpow_plus. apply bpow_le. lia. }
    split; [exact FE|]. rewrite VE. pose proof (rnd_err (val q / val dx)) as RE.
    replace (rnd (val q / val dx) - a) with ((rnd (val q / val dx) - val q / val dx) + (val q / val dx - a)) by ring. eapply Rle_trans; [apply Rabs_triang|].
    assert (u53 * Rabs (val q / val dx) <= u53 * (Rabs a + E)) by (apply Rmult_le_compat_l; lra).
    assert (UA : u53 * Rabs a <= (Rabs a * w / 16) / s). { apply Rle_div_r; [exact SP|]. replace (u53 * Rabs a * s) with (Rabs a * (u53 * s)) by ring. lra. }
    assert (UE : u53 * E <= / 1000000 * E) by (apply Rmult_le_compat_r; lra).
    unfold effect_err. assert (FIN : (Rabs a * w / 16) / s + / 1000000 * E + E <= 5 * (Rabs a * w + delta) / s).
    { unfold E. replace ((Rabs a * w / 16) / s + / 1000000 * (16 / 15 * R0 / s) + 16 / 15 * R0 / s) with ((Rabs a * w / 16 + 16 / 15 * (1 + / 1000000) * R0) * / s) by (field; lra). replace (5 * (Rabs a * w + delta) / s) with (5 * (Rabs a * w + delta) * / s) by reflexivity. apply Rmult_le_compat_r; [lra|]. unfold R0. lra. }
    fold w. lra.
  Qed.
End Grid.
