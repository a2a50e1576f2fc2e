(** FloatDPGrid: the grid of the dynamic-programming binning in binary64 (its last point is computed, not set to hi) and its costs. *)
From Coq Require Import Reals.
From Flocq Require Import Core.
From Flocq Require Import IEEE754.BinarySingleNaN.
From Verif Require Import Base Numpy NumpyFacts FloatModel FloatFacts FloatGrid FloatBins FloatAcc FloatProofs FloatAdapt FloatDP.
From Coq Require Import Lra.
Open Scope R_scope.

Lemma rnd_1 : rnd 1 = 1.
Proof. apply round_generic; [typeclasses eauto|]. change fexp64 with (FLT_exp (-1074) 53). apply generic_format_FLT. exists (Float radix2 1 0); cbn [Fnum Fexp]; [unfold F2R; cbn; lra|reflexivity|lia]. Qed.
Lemma unit_rnd x : 0 <= x <= 1 -> 0 <= rnd x <= 1.
Proof. intros [H1 H2]. split; [now apply rnd_nonneg|]. rewrite <- rnd_1. now apply rnd_le. Qed.
Lemma pow_rnd x e : (0 <= e <= 1000)%Z -> 0 <= x <= bpow radix2 e -> 0 <= rnd x <= bpow radix2 e.
Proof.
  intros He [H1 H2]. split; [now apply rnd_nonneg|]. apply round_le_generic; try typeclasses eauto; [|exact H2]. change fexp64 with (FLT_exp (-1074) 53). apply generic_format_FLT. exists (Float radix2 1 e); cbn [Fnum Fexp]; [unfold F2R; cbn [Fnum Fexp]; lra|reflexivity|lia].
Qed.
Lemma one_1023 : 1 <= bpow radix2 1023. Proof. change 1 with (bpow radix2 0). apply bpow_le. lia. Qed.
Lemma filter_le {A} (f : A -> bool) l : (length (filter f l) <= length l)%nat.
Proof. induction l as [|a l IH]; cbn; [lia|]. destruct (f a); cbn; lia. Qed.
Lemma bigm_fits : fits 1 BIGM64 /\ val BIGM64 = 100000000.
Proof.
  destruct (fofZ_val 100000000 ltac:(lia)) as [V F]. split; [|exact V]. split; [exact F|]. unfold BIGM64. rewrite V. change (IZR (Z.of_nat 1)) with 1. unfold cap. split; [lra|]. rewrite Rmult_1_l.
  apply Rle_trans with (bpow radix2 30); [unfold bpow; cbn; lra|]. apply bpow_le. lia.
Qed.

Section Grid.
Variables lo hi : b64.
Variable K : nat.
Variable M : R.
Hypothesis Flo : fin lo.
Hypothesis Fhi : fin hi.
Hypothesis HM1 : Rabs (val lo) <= M.
Hypothesis HM2 : Rabs (val hi) <= M.
Hypothesis HM : M <= bpow radix2 1020.
Hypothesis HD : bpow radix2 (-900) <= val hi - val lo.
Hypothesis HK : (1 <= K)%nat.
Hypothesis HK2 : (Z.of_nat K <= 2 ^ 48)%Z.

Let D := val hi - val lo.
Let kR := IZR (Z.of_nat K).
Let step := fdiv (fsub hi lo) (fofn K).
Let HM' : M <= bpow radix2 1021. Proof. eapply Rle_trans; [exact HM|]. apply bpow_le. lia. Qed.
Let kRb : 1 <= kR <= bpow radix2 48. Proof. exact (kR_bounds K HK HK2). Qed.
Let Dp : 0 < D. Proof. exact (D_pos lo hi HD). Qed.
Let Dl : D <= 2 * M. Proof. exact (D_le lo hi M HM1 HM2). Qed.
Let Mp : 0 < M. Proof. lra. Qed.
Let Sb : bpow radix2 (-960) <= val step /\ val step * kR <= D * (1 + u53) * (1 + u53).
Proof. exact (step_bounds lo hi K M Flo Fhi HM1 HM2 HM' HD HK HK2). Qed.

Lemma prod_le i : (i <= K)%nat -> exists e, Rabs e <= u53 /\ val (fmul (fofn i) step) = IZR (Z.of_nat i) * val step * (1 + e)
  /\ fin (fmul (fofn i) step) /\ val (fmul (fofn i) step) = rnd (IZR (Z.of_nat i) * val step) /\ 0 <= val (fmul (fofn i) step) <= 2 * D.
Proof.
  intros Hi. destruct (fofn_val K HK HK2 i Hi) as [Ei Fi]. destruct (step_val lo hi K M Flo Fhi HM1 HM2 HM' HD HK HK2) as (_ & _ & _ & Fs). fold step in Fs.
  destruct Sb as [S1 S2]. destruct kRb as [K1 K2]. pose proof u53_small as US. pose proof u53_pos as UP.
  pose proof (bpow_gt_0 radix2 (-960)) as BP.
  assert (I : 0 <= IZR (Z.of_nat i) <= kR) by (split; apply IZR_le; lia).
  assert (B1 : 0 <= IZR (Z.of_nat i) * val step) by nra.
  assert (B2 : IZR (Z.of_nat i) * val step * (1 + u53) <= 2 * D).
  { apply Rle_trans with (D * (1 + u53) * (1 + u53) * (1 + u53)); [apply Rmult_le_compat_r; [lra|]; apply Rle_trans with (kR * val step); [apply Rmult_le_compat_r; lra|lra]|].
    assert (T2 : (1 + u53) * (1 + u53) * (1 + u53) <= 2) by nra. replace (D * (1 + u53) * (1 + u53) * (1 + u53)) with (D * ((1 + u53) * (1 + u53) * (1 + u53))) by ring. nra. }
  assert (G : exists e, Rabs e <= u53 /\ rnd (IZR (Z.of_nat i) * val step) = IZR (Z.of_nat i) * val step * (1 + e)).
  { destruct (Nat.eq_dec i 0) as [->|N].
    - exists 0. rewrite Rabs_R0. split; [lra|]. cbn [Z.of_nat]. rewrite !Rmult_0_l, round_0; [reflexivity|typeclasses eauto].
    - apply rnd_rel. rewrite Rabs_pos_eq by exact B1.
      assert (1 <= IZR (Z.of_nat i)) by (apply IZR_le; lia).
      apply Rle_trans with (bpow radix2 (-960)); [apply bpow_le; lia|]. nra. }
  destruct G as (e & E1 & E2). assert (B3 : IZR (Z.of_nat i) * val step <= IZR (Z.of_nat i) * val step * (1 + u53)) by nra.
  destruct (fmul_val (fofn i) step Fi Fs) as [E F].
  - rewrite Ei, Rabs_pos_eq by exact B1. rewrite bpow23. lra.
  - rewrite Ei in E. exists e. split; [exact E1|]. split; [rewrite E; exact E2|]. split; [exact F|]. split; [exact E|]. rewrite E. split; [now apply rnd_nonneg|].
    rewrite E2. apply Rabs_le_inv in E1. apply Rle_trans with (2 := B2). apply Rmult_le_compat_l; lra.
Qed.

Lemma pos_val i : (i <= K)%nat -> val (position64 lo hi K i) = rnd (val lo + val (fmul (fofn i) step)) /\ fin (position64 lo hi K i).
Proof.
  intros Hi. destruct (prod_le i Hi) as (e & E1 & E2 & F & ER & B). unfold position64. fold step. apply fadd_val; [exact Flo|exact F|].
  eapply Rle_trans; [apply Rabs_triang|]. rewrite (Rabs_pos_eq (val (fmul _ _))) by lra. apply Rle_trans with (8 * bpow radix2 1020); [lra|]. change 8 with (bpow radix2 3). rewrite <- bpow_plus. apply bpow_le. lia.
Qed.
Lemma pos_le i j : (i <= j)%nat -> (j <= K)%nat -> val (position64 lo hi K i) <= val (position64 lo hi K j).
Proof.
  intros H Hj. rewrite (proj1 (pos_val i ltac:(lia))), (proj1 (pos_val j Hj)). apply rnd_le, Rplus_le_compat_l.
  destruct (prod_le i ltac:(lia)) as (_ & _ & _ & _ & -> & _). destruct (prod_le j Hj) as (_ & _ & _ & _ & -> & _).
  apply rnd_le. apply Rmult_le_compat_r; [|apply IZR_le; lia]. destruct Sb as [S1 _]. pose proof (bpow_gt_0 radix2 (-960)). lra.
Qed.
Lemma pos_0 : val (position64 lo hi K 0) = val lo.
Proof.
  rewrite (proj1 (pos_val 0 ltac:(lia))). destruct (prod_le 0 ltac:(lia)) as (_ & _ & _ & _ & -> & _).
  cbn [Z.of_nat]. rewrite Rmult_0_l, round_0 by typeclasses eauto. rewrite Rplus_0_r. apply rnd_val.
Qed.
(** distance to the exact grid *)
Lemma pos_close i : (i <= K)%nat ->
  Rabs (val (position64 lo hi K i) - (val lo + IZR (Z.of_nat i) / kR * D)) <= M * bpow radix2 (-49).
Proof.
  intros Hi. destruct (prod_le i Hi) as (e3 & A3 & E3 & F & ER & B).
  destruct (step_val lo hi K M Flo Fhi HM1 HM2 HM' HD HK HK2) as (e2 & A2 & E2 & _). destruct (delta_val lo hi M Flo Fhi HM1 HM2 HM' HD) as (e1 & A1 & E1 & _).
  destruct (rnd_plus_rel lo (fmul (fofn i) step)) as (e4 & A4 & E4).
  rewrite (proj1 (pos_val i Hi)), E4. rewrite E3. unfold step. rewrite E2, E1. fold D kR.
  destruct kRb as [K1 K2]. pose proof u53_small as US. pose proof u53_pos as UP.
  set (q := IZR (Z.of_nat i) / kR).
  assert (Q : 0 <= q <= 1).
  { unfold q. split; [apply Rmult_le_pos; [apply IZR_le; lia|left; apply Rinv_0_lt_compat; lra]|].
    apply Rle_div_l; [lra|]. rewrite Rmult_1_l. apply IZR_le. lia. }
  replace (IZR (Z.of_nat i) * (D * (1 + e1) / kR * (1 + e2)) * (1 + e3)) with (q * D * ((1 + e1) * (1 + e2) * (1 + e3))) by (unfold q; field; lra).
  apply Rabs_le_inv in A1, A2, A3, A4.
  set (t := (1 + e1) * (1 + e2) * (1 + e3) - 1).
  assert (T : - (4 * u53) <= t <= 4 * u53).
  { assert (W : - (5 / 2 * u53) <= (1 + e1) * (1 + e2) - 1 <= 5 / 2 * u53) by (clear - A1 A2 US UP; nra). set (w := (1 + e1) * (1 + e2) - 1) in *.
    replace t with (w + e3 + w * e3) by (unfold t, w; ring). clear - W A3 US UP. nra. }
  replace ((1 + e1) * (1 + e2) * (1 + e3)) with (1 + t) by (unfold t; ring).
  set (g := val lo + q * D).
  assert (G : - M <= g <= M).
  { clear - HM1 HM2 Q Dp. apply Rabs_le_inv in HM1, HM2. unfold g. unfold D in *. nra. }
  replace ((val lo + q * D * (1 + t)) * (1 + e4) - g) with (q * D * t * (1 + e4) + g * e4) by (unfold g; ring).
  assert (QD : 0 <= q * D <= 2 * M). { clear - Q Dp Dl. split; [apply Rmult_le_pos; lra|]. apply Rle_trans with (1 * D); [apply Rmult_le_compat_r; lra|lra]. }
  assert (X1 : Rabs (q * D * t) <= 2 * M * (4 * u53)).
  { rewrite Rabs_mult. apply Rmult_le_compat; try apply Rabs_pos; [rewrite Rabs_pos_eq; lra|]. apply Rabs_le. lra. }
  assert (X2 : Rabs (g * e4) <= M * u53).
  { rewrite Rabs_mult. apply Rmult_le_compat; try apply Rabs_pos; apply Rabs_le; lra. }
  assert (X3 : Rabs (1 + e4) <= 1 + u53) by (apply Rabs_le; lra).
  eapply Rle_trans; [apply Rabs_triang|]. rewrite (Rabs_mult (q * D * t)).
  assert (X4 : Rabs (q * D * t) * Rabs (1 + e4) <= 2 * M * (4 * u53) * (1 + u53)).
  { apply Rmult_le_compat; try apply Rabs_pos; assumption. }
  assert (B49 : bpow radix2 (-49) = 16 * u53). { change (-49)%Z with (4 + -53)%Z. rewrite bpow_plus. reflexivity. }
  assert (MU : 0 < M * u53) by (apply Rmult_lt_0_compat; lra). rewrite B49.
  assert (MUU : M * u53 * u53 <= M * u53 * / 1000000) by (apply Rmult_le_compat_l; lra).
  lra.
Qed.
Lemma pos_last : Rabs (val (position64 lo hi K K) - val hi) <= M * bpow radix2 (-49).
Proof.
  pose proof (pos_close K (le_n _)) as P. fold kR in P. destruct kRb as [K1 _]. replace (val lo + kR / kR * D) with (val hi) in P by (unfold D; field; lra). exact P.
Qed.
(** the widened last limit is above hi *)
Lemma pos_wide : M <= bpow radix2 22 -> val hi < val (fadd (position64 lo hi K K) EPS64).
Proof.
  intros H22. pose proof pos_last as P. destruct (pos_val K (le_n _)) as [_ F]. set (p := position64 lo hi K K) in *.
  assert (T : M * bpow radix2 (-49) <= bpow radix2 (-27)). { apply Rle_trans with (bpow radix2 22 * bpow radix2 (-49)); [apply Rmult_le_compat_r; [apply bpow_ge_0|exact H22]|]. rewrite <- bpow_plus. apply bpow_le. lia. }
  assert (E1 : 13 / 10 * bpow radix2 (-27) <= val EPS64) by (rewrite EPS64_val; unfold bpow; cbn; lra).
  assert (E2 : val EPS64 <= 14 / 10 * bpow radix2 (-27)) by (rewrite EPS64_val; unfold bpow; cbn; lra).
  assert (E3 : bpow radix2 (-27) <= 1) by (change 1 with (bpow radix2 0); apply bpow_le; lia). assert (E4 : 4 <= bpow radix2 22) by (change 4 with (bpow radix2 2); apply bpow_le; lia).
  apply Rabs_le_inv in P. pose proof HM2 as H2. apply Rabs_le_inv in H2.
  assert (Hp : Rabs (val p) <= bpow radix2 22 + 1) by (apply Rabs_le; lra).
  destruct (fadd_val p EPS64 F EPS64_fin) as [V _]. { apply EPS_bound; auto. eapply Rle_trans; [exact Hp|]. apply Rle_trans with (2 * bpow radix2 22); [lra|]. change 2 with (bpow radix2 1). rewrite <- bpow_plus. apply bpow_le. lia. }
  destruct (rnd_plus_rel p EPS64) as (e & A & E). rewrite V, E. apply Rabs_le_inv in A. apply Rabs_le_inv in Hp.
  assert (U : u53 * (2 * bpow radix2 22) <= / 5 * bpow radix2 (-27)) by (unfold u53, bpow; cbn; lra). pose proof u53_pos.
  replace ((val p + val EPS64) * (1 + e)) with (val p + val EPS64 + (val p + val EPS64) * e) by ring.
  assert (Z : Rabs ((val p + val EPS64) * e) <= 2 * bpow radix2 22 * u53). { rewrite Rabs_mult. apply Rmult_le_compat; try apply Rabs_pos; apply Rabs_le; lra. }
  apply Rabs_le_inv in Z. pose proof (bpow_gt_0 radix2 (-27)). lra.
Qed.

(** ** costs *)
Variables (var : list b64 -> b64) (xs es : list b64) (m : nat) (d : b64).
Hypotheses (LE : length es = length xs) (LX : (Z.of_nat (length xs) <= 2 ^ 48)%Z) (m1 : (1 <= m)%nat) (HM3 : M <= bpow radix2 90).
Hypothesis Hd : fin d /\ 0 <= val d <= 1.
Hypothesis Hv : forall s, s <> [] -> (length s <= length es)%nat -> (forall e, In e s -> In e es) -> fin (var s) /\ 0 <= val (var s) <= bpow radix2 500.


Lemma selected_sub start stop : forall e, In e (selected64 xs es start stop) -> In e es.
Proof. intros e He. apply in_map_iff in He as ((x, e') & <- & He). apply filter_In in He as [He _]. apply in_combine_r in He. exact He. Qed.
Lemma selected_len start stop : (length (selected64 xs es start stop) <= length xs)%nat.
Proof. unfold selected64. rewrite map_length. eapply Nat.le_trans; [apply filter_le|]. rewrite combine_length. lia. Qed.

Lemma cost_fits i j : (i <= j)%nat -> (j <= K)%nat -> fits 1 (bin_cost64 var xs es m d (position64 lo hi K i) (position64 lo hi K j)).
Proof.
  intros Hij Hj. destruct (pos_val i ltac:(lia)) as [_ Fa]. destruct (pos_val j Hj) as [_ Fb]. pose proof (pos_le i j Hij Hj) as Hab. pose proof (pos_close i ltac:(lia)) as Ca. pose proof (pos_close j Hj) as Cb. clear Ca Cb.
  pose proof (pos_le 0 i ltac:(lia) ltac:(lia)) as Ha. rewrite pos_0 in Ha. pose proof (pos_le j K Hj (le_n _)) as Hb. pose proof pos_last as PL. apply Rabs_le_inv in PL. pose proof HM1 as H1. pose proof HM2 as H2. apply Rabs_le_inv in H1, H2.
  assert (T : M * bpow radix2 (-49) <= M). { rewrite <- (Rmult_1_r M) at 2. apply Rmult_le_compat_l; [lra|]. change 1 with (bpow radix2 0). apply bpow_le. lia. }
  set (a := position64 lo hi K i) in *. set (b := position64 lo hi K j) in *.
  unfold bin_cost64. set (sel := selected64 xs es a b). destruct (Nat.ltb_spec (length sel) m); [apply bigm_fits|].
  assert (Sn : sel <> []) by (intros E; rewrite E in *; cbn in *; lia). pose proof (selected_len a b) as SL. fold sel in SL. destruct (Hv sel Sn ltac:(lia) (selected_sub a b)) as [Fv Bv].
  (* the width *)
  assert (B92 : val b - val a <= bpow radix2 92). { apply Rle_trans with (4 * bpow radix2 90); [lra|]. change 4 with (bpow radix2 2). rewrite <- bpow_plus. apply bpow_le. lia. }
  destruct (fsub_val b a Fb Fa) as [Vw Fw]. { rewrite Rabs_pos_eq by lra. eapply Rle_trans; [exact B92|]. apply bpow_le. lia. }
  pose proof (pow_rnd (val b - val a) 92 ltac:(lia) ltac:(lra)) as Bw. rewrite <- Vw in Bw.
  (* variance times width *)
  assert (Bp : 0 <= val (var sel) * val (fsub b a) <= bpow radix2 592). { split; [apply Rmult_le_pos; lra|]. change 592%Z with (500 + 92)%Z. rewrite bpow_plus. apply Rmult_le_compat; lra. }
  destruct (fmul_val (var sel) (fsub b a) Fv Fw) as [Vp Fp]. { rewrite Rabs_pos_eq by lra. eapply Rle_trans; [apply Bp|]. apply bpow_le. lia. }
  pose proof (pow_rnd _ 592 ltac:(lia) Bp) as Bp'. rewrite <- Vp in Bp'.
  (* the discount *)
  destruct (fofZ_val (Z.of_nat (length sel)) ltac:(lia)) as [Vn Fn]. destruct (fofZ_val (Z.of_nat (length xs)) ltac:(lia)) as [VN FN]. fold (fofn (length sel)) in Vn, Fn. fold (fofn (length xs)) in VN, FN.
  assert (N1 : 1 <= IZR (Z.of_nat (length xs))) by (apply IZR_le; lia). assert (N2 : 0 <= IZR (Z.of_nat (length sel)) <= IZR (Z.of_nat (length xs))) by (split; apply IZR_le; lia).
  assert (Bq : 0 <= val (fofn (length sel)) / val (fofn (length xs)) <= 1). { rewrite Vn, VN. split; [apply Rmult_le_pos; [lra|left; apply Rinv_0_lt_compat; lra]|apply Rle_div_l; lra]. }
  pose proof one_1023. destruct (fdiv_val (fofn (length sel)) (fofn (length xs)) Fn FN) as [Vq Fq]; [rewrite VN; lra|rewrite Rabs_pos_eq; lra|].
  pose proof (unit_rnd _ Bq) as Bq'. rewrite <- Vq in Bq'. destruct Hd as [Fd Bd].
  assert (Br : 0 <= val d * val (fdiv (fofn (length sel)) (fofn (length xs))) <= 1). { split; [apply Rmult_le_pos; lra|]. rewrite <- (Rmult_1_l 1). apply Rmult_le_compat; lra. }
  destruct (fmul_val d _ Fd Fq) as [Vr Fr]; [rewrite Rabs_pos_eq; lra|]. pose proof (unit_rnd _ Br) as Br'. rewrite <- Vr in Br'.
  destruct (fofZ_val 1 ltac:(lia)) as [V1 F1]. fold fone in V1, F1.
  destruct (fsub_val fone _ F1 Fr) as [Vs Fs]; [rewrite V1, Rabs_pos_eq; lra|]. rewrite V1 in Vs. pose proof (unit_rnd (1 - val (fmul d (fdiv (fofn (length sel)) (fofn (length xs))))) ltac:(lra)) as Bs'. rewrite <- Vs in Bs'.
  match goal with |- fits 1 (fmul ?u ?v) => set (U := u) in *; set (W := v) in * end.
  assert (Bc : 0 <= val U * val W <= bpow radix2 592). { split; [apply Rmult_le_pos; lra|]. rewrite <- (Rmult_1_r (bpow radix2 592)). apply Rmult_le_compat; lra. }
  destruct (fmul_val U W Fp Fs) as [Vc Fc]. { rewrite Rabs_pos_eq by lra. eapply Rle_trans; [apply Bc|]. apply bpow_le. lia. }
  pose proof (pow_rnd _ 592 ltac:(lia) Bc) as Bc'. rewrite <- Vc in Bc'. split; [exact Fc|]. change (IZR (Z.of_nat 1)) with 1. rewrite Rmult_1_l. split; [lra|]. apply Rle_trans with (bpow radix2 592); [lra|]. apply bpow_le. lia.
Qed.
Lemma move_fits i j : (i <= K)%nat -> (j <= K)%nat -> fits 1 (cost64 var xs es lo hi m d K i j).
Proof. intros Hi Hj. unfold cost64. destruct (Nat.ltb_spec j i); [apply bigm_fits|]. destruct (Nat.eqb_spec i j); [apply fits_0|]. apply cost_fits; lia. Qed.
Lemma stay_free i : cost64 var xs es lo hi m d K i i = fzero.
Proof. unfold cost64. rewrite Nat.ltb_irrefl, Nat.eqb_refl. reflexivity. Qed.
End Grid.
