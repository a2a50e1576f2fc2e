(** FloatGrid: np.linspace in binary64 is monotone, and close to the exact grid. *)
From Coq Require Import Reals.
From Flocq Require Import Core.
From Flocq Require Import IEEE754.BinarySingleNaN Relative Plus_error.
From Verif Require Import Base Numpy FloatModel FloatFacts.
From Coq Require Import Lra.
Open Scope R_scope.

Notation u53 := (bpow radix2 (-53)).
Lemma u53_pos : 0 < u53. Proof. apply bpow_gt_0. Qed.
Lemma u53_small : u53 <= / 1000000. Proof. unfold bpow. cbn. lra. Qed.

Lemma Rle_div_l a b c : 0 < c -> a <= b * c -> a / c <= b.
Proof. intros H L. apply Rmult_le_reg_r with c; [exact H|]. replace (a / c * c) with a by (field; lra). exact L. Qed.
Lemma Rle_div_r a b c : 0 < c -> a * c <= b -> a <= b / c.
Proof. intros H L. apply Rmult_le_reg_r with c; [exact H|]. replace (b / c * c) with b by (field; lra). exact L. Qed.

Lemma rnd_rel x : bpow radix2 (-1022) <= Rabs x -> exists e, Rabs e <= u53 /\ rnd x = x * (1 + e).
Proof.
  intros H. destruct (relative_error_N_FLT_ex radix2 (-1074) 53 ltac:(reflexivity) (fun x => negb (Z.even x)) x) as (e & E1 & E2).
  - exact H.
  - exists e. split; [|exact E2]. replace u53 with (/ 2 * bpow radix2 (- (53) + 1)); [exact E1|].
    rewrite bpow_plus. change (bpow radix2 1) with 2. change (- (53))%Z with (-53)%Z. lra.
Qed.
Lemma rnd_plus_rel (x y : b64) : exists e, Rabs e <= u53 /\ rnd (val x + val y) = (val x + val y) * (1 + e).
Proof.
  assert (Fx : generic_format radix2 (FLT_exp (-1074) 53) (val x)) by apply (val_fmt x).
  assert (Fy : generic_format radix2 (FLT_exp (-1074) 53) (val y)) by apply (val_fmt y).
  destruct (FLT_plus_error_N_ex radix2 (-1074) 53 (fun x => negb (Z.even x)) (val x) (val y) Fx Fy) as (e & E1 & E2).
  exists e. split; [|exact E2]. eapply Rle_trans; [exact E1|]. apply Rle_trans with (u_ro radix2 53).
  - apply u_rod1pu_ro_le_u_ro.
  - unfold u_ro. rewrite bpow_plus. change (bpow radix2 1) with 2. change (- (53))%Z with (-53)%Z. lra.
Qed.
Lemma rnd_minus_rel (x y : b64) : exists e, Rabs e <= u53 /\ rnd (val x - val y) = (val x - val y) * (1 + e).
Proof.
  destruct (rnd_plus_rel x (Bopp y)) as (e & E1 & E2). rewrite B2R_Bopp in E2. exists e. split; [exact E1|exact E2].
Qed.

Section Grid.
Variables lo hi : b64.
Variable K : nat.
Variable M : R.
Hypothesis Flo : fin lo.
Hypothesis Fhi : fin hi.
Hypothesis HM1 : Rabs (val lo) <= M.
Hypothesis HM2 : Rabs (val hi) <= M.
Hypothesis HM : M <= bpow radix2 1021.
Hypothesis HD : bpow radix2 (-900) <= val hi - val lo.
Hypothesis HK : (1 <= K)%nat.
Hypothesis HK2 : (Z.of_nat K <= 2 ^ 48)%Z.

Let D := val hi - val lo.
Let kR := IZR (Z.of_nat K).
Let delta := fsub hi lo.
Let step := fdiv delta (fofn K).

Lemma kR_bounds : 1 <= kR <= bpow radix2 48.
Proof. split; [apply IZR_le; lia|]. change (bpow radix2 48) with (IZR (2 ^ 48)). now apply IZR_le. Qed.
Lemma D_pos : 0 < D. Proof. pose proof (bpow_gt_0 radix2 (-900)). unfold D. lra. Qed.
Lemma D_le : D <= 2 * M. Proof. unfold D. revert HM1 HM2. unfold Rabs. do 2 destruct Rcase_abs; lra. Qed.
Lemma M_pos : 0 < M. Proof. pose proof D_pos. pose proof D_le. lra. Qed.
Lemma fofn_val i : (i <= K)%nat -> val (fofn i) = IZR (Z.of_nat i) /\ fin (fofn i).
Proof. intros H. apply fofZ_val. lia. Qed.
Lemma bpow23 : bpow radix2 1023 = 4 * bpow radix2 1021.
Proof. change 1023%Z with (2 + 1021)%Z. rewrite bpow_plus. reflexivity. Qed.

Lemma delta_val : exists e, Rabs e <= u53 /\ val delta = D * (1 + e) /\ fin delta.
Proof.
  destruct (rnd_minus_rel hi lo) as (e & E1 & E2). exists e. split; [exact E1|].
  destruct (fsub_val hi lo Fhi Flo) as [E F].
  - rewrite Rabs_pos_eq by (pose proof D_pos; unfold D in *; lra). pose proof D_le. pose proof (bpow_gt_0 radix2 1021). rewrite bpow23. unfold D in *. lra.
  - split; [|exact F]. unfold delta. now rewrite E, E2.
Qed.

Lemma delta_bounds : D / 2 <= val delta <= 2 * D.
Proof.
  destruct delta_val as (e & E1 & E2 & _). rewrite E2. pose proof D_pos. pose proof u53_small. apply Rabs_le_inv in E1. split; nra.
Qed.

Lemma step_val : exists e, Rabs e <= u53 /\ val step = val delta / kR * (1 + e) /\ fin step.
Proof.
  destruct (fofn_val K (le_n _)) as [EK FK]. fold kR in EK. destruct delta_val as (_ & _ & _ & Fd).
  pose proof kR_bounds as [K1 K2]. pose proof delta_bounds as [D1 D2]. pose proof D_pos as DP.
  assert (Q : 0 < val delta / kR <= val delta).
  { split; [apply Rdiv_lt_0_compat; lra|]. apply Rle_div_l; [lra|]. nra. }
  assert (Lo : bpow radix2 (-1022) <= val delta / kR).
  { apply Rle_div_r; [lra|]. apply Rle_trans with (bpow radix2 (-1022) * bpow radix2 48).
    - apply Rmult_le_compat_l; [apply bpow_ge_0|exact K2].
    - rewrite <- bpow_plus. apply Rle_trans with (bpow radix2 (-901)); [apply bpow_le; lia|].
      assert (bpow radix2 (-900) = 2 * bpow radix2 (-901)). { change (-900)%Z with (1 + -901)%Z. rewrite bpow_plus. reflexivity. }
      unfold D in *. lra. }
  destruct (rnd_rel (val delta / kR)) as (e & E1 & E2); [rewrite Rabs_pos_eq by lra; exact Lo|].
  exists e. split; [exact E1|].
  destruct (fdiv_val delta (fofn K) Fd FK) as [E F].
  - rewrite EK. lra.
  - rewrite EK, Rabs_pos_eq by lra. pose proof D_le. rewrite bpow23. lra.
  - rewrite EK, E2 in E. split; [exact E|exact F].
Qed.

Lemma step_bounds : bpow radix2 (-960) <= val step /\ val step * kR <= D * (1 + u53) * (1 + u53).
Proof.
  destruct step_val as (e & E1 & E2 & _). destruct delta_val as (d & D1 & D2 & _).
  pose proof kR_bounds as [K1 K2]. pose proof D_pos as DP. pose proof u53_small as US. pose proof u53_pos as UP.
  apply Rabs_le_inv in E1. apply Rabs_le_inv in D1. split.
  - rewrite E2, D2. assert (T : bpow radix2 (-960) * 4 <= D / kR).
    { apply Rle_div_r; [lra|]. change 4 with (bpow radix2 2). rewrite <- bpow_plus.
      apply Rle_trans with (bpow radix2 (-960 + 2) * bpow radix2 48); [apply Rmult_le_compat_l; [apply bpow_ge_0|exact K2]|].
      rewrite <- bpow_plus. apply Rle_trans with (bpow radix2 (-900)); [apply bpow_le; lia|exact HD]. }
    replace (D * (1 + d) / kR * (1 + e)) with (D / kR * ((1 + d) * (1 + e))) by (unfold Rdiv; ring).
    pose proof (bpow_gt_0 radix2 (-960)). assert (/ 2 <= (1 + d) * (1 + e)) by nra. nra.
  - rewrite E2, D2. replace (D * (1 + d) / kR * (1 + e) * kR) with (D * (1 + d) * (1 + e)) by (field; lra).
    apply Rmult_le_compat; try lra; nra.
Qed.

Lemma step_nz : Beqb step fzero = false.
Proof.
  destruct step_val as (_ & _ & _ & F). rewrite Beqb_correct by (exact F || reflexivity).
  apply Req_bool_false. cbn [B2R fzero]. destruct step_bounds as [S1 _]. pose proof (bpow_gt_0 radix2 (-960)). unfold fzero. cbn [B2R]. lra.
Qed.

(** i * step *)
Lemma prod_val i : (i < K)%nat -> exists e, Rabs e <= u53 /\ val (fmul (fofn i) step) = IZR (Z.of_nat i) * val step * (1 + e)
  /\ fin (fmul (fofn i) step) /\ val (fmul (fofn i) step) = rnd (IZR (Z.of_nat i) * val step) /\ val (fmul (fofn i) step) <= D.
Proof.
  intros Hi. destruct (fofn_val i ltac:(lia)) as [Ei Fi]. destruct step_val as (_ & _ & _ & Fs).
  pose proof step_bounds as [S1 S2]. pose proof kR_bounds as [K1 K2]. pose proof D_pos as DP. pose proof u53_small as US. pose proof u53_pos as UP.
  pose proof (bpow_gt_0 radix2 (-960)) as BP.
  assert (I : 0 <= IZR (Z.of_nat i) <= kR - 1).
  { split; [apply IZR_le; lia|]. unfold kR. rewrite <- minus_IZR. apply IZR_le. lia. }
  assert (B1 : 0 <= IZR (Z.of_nat i) * val step) by nra.
  (* (K-1)/K * (1+u)^2 leaves room for one more (1+u) *)
  assert (B2 : IZR (Z.of_nat i) * val step * (1 + u53) <= D).
  { assert (KU : kR * (4 * u53) <= 1).
    { apply Rle_trans with (bpow radix2 48 * (4 * u53)); [nra|]. change 4 with (bpow radix2 2). rewrite <- !bpow_plus. change 1 with (bpow radix2 0). apply bpow_le. lia. }
    apply Rmult_le_reg_r with kR; [lra|].
    assert (T1 : IZR (Z.of_nat i) * val step * (1 + u53) * kR <= (kR - 1) * (D * (1 + u53) * (1 + u53)) * (1 + u53)).
    { replace (IZR (Z.of_nat i) * val step * (1 + u53) * kR) with (IZR (Z.of_nat i) * (val step * kR) * (1 + u53)) by ring.
      apply Rmult_le_compat_r; [lra|]. apply Rmult_le_compat; [lra|nra|lra|lra]. }
    assert (T2 : (1 + u53) * (1 + u53) * (1 + u53) <= 1 + 4 * u53) by nra.
    assert (T3 : (kR - 1) * (1 + 4 * u53) <= kR) by nra.
    apply Rle_trans with (1 := T1). replace ((kR - 1) * (D * (1 + u53) * (1 + u53)) * (1 + u53)) with (D * ((kR - 1) * ((1 + u53) * (1 + u53) * (1 + u53)))) by ring.
    apply Rmult_le_compat_l; [lra|]. apply Rle_trans with ((kR - 1) * (1 + 4 * u53)); [|exact T3]. apply Rmult_le_compat_l; lra. }
  assert (G : exists e, Rabs e <= u53 /\ rnd (IZR (Z.of_nat i) * val step) = IZR (Z.of_nat i) * val step * (1 + e)).
  { destruct (Nat.eq_dec i 0) as [->|N].
    - exists 0. rewrite Rabs_R0. split; [lra|]. cbn [Z.of_nat]. rewrite !Rmult_0_l, round_0; [reflexivity|typeclasses eauto].
    - apply rnd_rel. rewrite Rabs_pos_eq by exact B1.
      assert (1 <= IZR (Z.of_nat i)) by (apply IZR_le; lia).
      apply Rle_trans with (bpow radix2 (-960)); [apply bpow_le; lia|]. nra. }
  destruct G as (e & E1 & E2).
  destruct (fmul_val (fofn i) step Fi Fs) as [E F].
  - rewrite Ei, Rabs_pos_eq by exact B1. pose proof D_le. rewrite bpow23. nra.
  - rewrite Ei in E. exists e. repeat split; [exact E1|rewrite E; exact E2|exact F|exact E|].
    rewrite E, E2. apply Rabs_le_inv in E1. apply Rle_trans with (2 := B2). apply Rmult_le_compat_l; lra.
Qed.

Definition point (i : nat) : b64 := fadd (fmul (fofn i) step) lo.

Lemma point_val i : (i < K)%nat -> val (point i) = rnd (val (fmul (fofn i) step) + val lo) /\ fin (point i).
Proof.
  intros Hi. destruct (prod_val i Hi) as (e & E1 & E2 & F & ER & B). apply fadd_val; [exact F|exact Flo|].
  assert (0 <= val (fmul (fofn i) step)).
  { rewrite ER. apply round_ge_generic; try typeclasses eauto; [apply generic_format_0|]. pose proof step_bounds as [S1 _].
    pose proof (bpow_gt_0 radix2 (-960)). assert (0 <= IZR (Z.of_nat i)) by (apply IZR_le; lia). nra. }
  eapply Rle_trans; [apply Rabs_triang|]. rewrite (Rabs_pos_eq (val (fmul _ _))) by lra. pose proof D_le. pose proof M_pos. rewrite bpow23. lra.
Qed.

Lemma point_le i j : (i <= j)%nat -> (j < K)%nat -> val (point i) <= val (point j).
Proof.
  intros H Hj. rewrite (proj1 (point_val i ltac:(lia))), (proj1 (point_val j Hj)). apply rnd_le, Rplus_le_compat_r.
  destruct (prod_val i ltac:(lia)) as (_ & _ & _ & _ & -> & _). destruct (prod_val j Hj) as (_ & _ & _ & _ & -> & _).
  apply rnd_le. apply Rmult_le_compat_r; [|apply IZR_le; lia]. pose proof step_bounds as [S1 _]. pose proof (bpow_gt_0 radix2 (-960)). lra.
Qed.

Lemma point_le_hi i : (i < K)%nat -> val (point i) <= val hi.
Proof.
  intros Hi. rewrite (proj1 (point_val i Hi)). destruct (prod_val i Hi) as (_ & _ & _ & _ & _ & B).
  apply round_le_generic; [typeclasses eauto|typeclasses eauto|apply val_fmt|]. unfold D in B. lra.
Qed.

Lemma point_0 : val (point 0) = val lo.
Proof.
  rewrite (proj1 (point_val 0 HK)). destruct (prod_val 0 HK) as (_ & _ & _ & _ & -> & _).
  cbn [Z.of_nat]. rewrite Rmult_0_l, round_0 by typeclasses eauto. rewrite Rplus_0_l. apply rnd_val.
Qed.

(** distance to the exact grid *)
Lemma point_close i : (i < K)%nat ->
  Rabs (val (point i) - (val lo + IZR (Z.of_nat i) / kR * D)) <= M * bpow radix2 (-49).
Proof.
  intros Hi. destruct (prod_val i Hi) as (e3 & A3 & E3 & F & ER & B).
  destruct step_val as (e2 & A2 & E2 & _). destruct delta_val as (e1 & A1 & E1 & _).
  destruct (rnd_plus_rel (fmul (fofn i) step) lo) as (e4 & A4 & E4).
  rewrite (proj1 (point_val i Hi)), E4. rewrite E3, E2, E1.
  pose proof kR_bounds as [K1 K2]. pose proof D_pos as DP. pose proof D_le as DL. pose proof M_pos as MP. pose proof u53_small as US. pose proof u53_pos as UP.
  set (q := IZR (Z.of_nat i) / kR).
  assert (Q : 0 <= q <= 1).
  { unfold q. split; [apply Rmult_le_pos; [apply IZR_le; lia|left; apply Rinv_0_lt_compat; lra]|].
    apply Rle_div_l; [lra|]. rewrite Rmult_1_l. apply IZR_le. lia. }
  replace (IZR (Z.of_nat i) * (D * (1 + e1) / kR * (1 + e2)) * (1 + e3)) with (q * D * ((1 + e1) * (1 + e2) * (1 + e3))) by (unfold q; field; lra).
  apply Rabs_le_inv in A1, A2, A3, A4.
  set (t := (1 + e1) * (1 + e2) * (1 + e3) - 1).
  assert (T : - (4 * u53) <= t <= 4 * u53).
  { assert (W : - (5 / 2 * u53) <= (1 + e1) * (1 + e2) - 1 <= 5 / 2 * u53) by (clear - A1 A2 US UP; nra). set (w := (1 + e1) * (1 + e2) - 1) in *.
    replace t with (w + e3 + w * e3) by (unfold t, w; ring). clear - W A3 US UP. nra. }
  replace ((1 + e1) * (1 + e2) * (1 + e3)) with (1 + t) by (unfold t; ring).
  set (g := val lo + q * D).
  assert (G : - M <= g <= M).
  { apply Rabs_le_inv in HM1, HM2. unfold g. unfold D in *. nra. }
  replace ((q * D * (1 + t) + val lo) * (1 + e4) - g) with (q * D * t * (1 + e4) + g * e4) by (unfold g; ring).
  assert (QD : 0 <= q * D <= 2 * M). { clear - Q DP DL. split; [apply Rmult_le_pos; lra|]. apply Rle_trans with (1 * D); [apply Rmult_le_compat_r; lra|lra]. }
  assert (X1 : Rabs (q * D * t) <= 2 * M * (4 * u53)).
  { rewrite Rabs_mult. apply Rmult_le_compat; try apply Rabs_pos; [rewrite Rabs_pos_eq; lra|]. apply Rabs_le. lra. }
  assert (X2 : Rabs (g * e4) <= M * u53).
  { rewrite Rabs_mult. apply Rmult_le_compat; try apply Rabs_pos; apply Rabs_le; lra. }
  assert (X3 : Rabs (1 + e4) <= 1 + u53) by (apply Rabs_le; lra).
  eapply Rle_trans; [apply Rabs_triang|]. rewrite (Rabs_mult (q * D * t)).
  assert (X4 : Rabs (q * D * t) * Rabs (1 + e4) <= 2 * M * (4 * u53) * (1 + u53)).
  { apply Rmult_le_compat; try apply Rabs_pos; assumption. }
  assert (B49 : bpow radix2 (-49) = 16 * u53). { change (-49)%Z with (4 + -53)%Z. rewrite bpow_plus. reflexivity. }
  assert (MU : 0 < M * u53) by (apply Rmult_lt_0_compat; lra). rewrite B49.
  assert (MUU : M * u53 * u53 <= M * u53 * / 1000000) by (apply Rmult_le_compat_l; lra).
  lra.
Qed.

(** the list *)
Lemma linspace_len : length (linspace64 lo hi (K + 1)) = (K + 1)%nat.
Proof.
  unfold linspace64. destruct (K + 1)%nat as [|[|n]] eqn:E; [lia|lia|]. now rewrite map_length, seq_length.
Qed.
Lemma linspace_at i : (i < K)%nat -> nth i (linspace64 lo hi (K + 1)) fnan = point i.
Proof.
  intros Hi. unfold linspace64. destruct (K + 1)%nat as [|[|n]] eqn:E; [lia|lia|].
  match goal with |- nth i (map ?g ?s) _ = _ => rewrite (nth_indep _ _ (g 0%nat)) by (rewrite map_length, seq_length; lia); rewrite (map_nth g), seq_nth by lia end.
  destruct (Nat.eqb_spec (S (0 + i)) (S (S n))); [lia|]. replace (S (S n) - 1)%nat with K by lia.
  fold delta step. rewrite step_nz. reflexivity.
Qed.
Lemma linspace_end : nth K (linspace64 lo hi (K + 1)) fnan = hi.
Proof.
  unfold linspace64. destruct (K + 1)%nat as [|[|n]] eqn:E; [lia|lia|].
  match goal with |- nth K (map ?g ?s) _ = _ => rewrite (nth_indep _ _ (g 0%nat)) by (rewrite map_length, seq_length; lia); rewrite (map_nth g), seq_nth by lia end.
  destruct (Nat.eqb_spec (S (0 + K)) (S (S n))); [reflexivity|lia].
Qed.
End Grid.
