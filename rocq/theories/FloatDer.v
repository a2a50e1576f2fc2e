(** FloatDer: the numerical derivative of the d-PDP (step 1e-6, central difference) in binary64. *)
From Coq Require Import Reals Permutation.
From Flocq Require Import Core.
From Flocq Require Import IEEE754.BinarySingleNaN Relative.
From Verif Require Import Base Numpy FloatModel FloatFacts FloatGrid FloatBins FloatProofs FloatMean FloatAcc.
From Coq Require Import Lra.
Open Scope R_scope.

(** global_effect_pdp.py:467, 469, 547, 553  the literal 1e-6: 0x1.0c6f7a0b5ed8dp-20 (see [H64_nearest]) *)
Definition H64 : b64 := @B754_finite 53 1024 false 4722366482869645 (-72) eq_refl.
(** global_effect_pdp.py:471, 560  2 * 1e-6 *)
Definition HH64 : b64 := fmul (fofZ 2) H64.
(** global_effect_pdp.py:463-472 (one row at one position), 545-561: the ICE derivatives at position x of a row-wise model *)
Definition ice_derivatives64 (g : list b64 -> b64) (X : list (list b64)) (f : nat) (x : b64) : list b64 :=
  map (fun r => fdiv (fsub (g (list_set r f (fadd x H64))) (g (list_set r f (fsub x H64)))) HH64) X.

Lemma H64_fin : fin H64. Proof. reflexivity. Qed.
Lemma H64_val : val H64 = 4722366482869645 * bpow radix2 (-72). Proof. unfold val, H64, F2R. cbn -[bpow]. lra. Qed.
Lemma H64_bounds : bpow radix2 (-20) < val H64 < bpow radix2 (-19). Proof. rewrite H64_val. unfold bpow. cbn. split; lra. Qed.
Lemma H64_nearest : val H64 = rnd (1 / 1000000).
Proof.
  assert (B : bpow radix2 (-20) <= 1 / 1000000 < bpow radix2 (-19)) by (unfold bpow; cbn; split; lra).
  assert (M : mag_val radix2 _ (mag radix2 (1 / 1000000)) = (-19)%Z).
  { apply mag_unique. rewrite Rabs_pos_eq by lra. exact B. }
  unfold round, scaled_mantissa, cexp. rewrite M. change (fexp64 (-19)) with (-72)%Z.
  replace (ZnearestE (1 / 1000000 * bpow radix2 (- (-72)))) with 4722366482869645%Z.
  - unfold F2R. cbn [Fnum Fexp]. now rewrite H64_val.
  - symmetry. apply Znearest_imp. change (- (-72))%Z with 72%Z. unfold bpow. cbn. split_Rabs; lra.
Qed.
Lemma HH64_val : val HH64 = 2 * val H64 /\ fin HH64.
Proof.
  assert (E : B2SF HH64 = SpecFloat.S754_finite false 4722366482869645 (-71)) by (vm_compute; reflexivity).
  split.
  - rewrite <- SF2R_B2SF, E, H64_val. unfold SF2R, F2R. cbn -[bpow]. change (-71)%Z with (1 + -72)%Z. rewrite bpow_plus. change (bpow radix2 1) with 2. lra.
  - unfold fin. rewrite <- is_finite_SF_B2SF, E. reflexivity.
Qed.

(** a step below half the spacing is lost *)
Lemma lost_pos x h k : fmt x -> bpow radix2 k < x -> (-1000 <= k)%Z -> 0 <= h < bpow radix2 (k - 53) -> rnd (x + h) = x /\ rnd (x - h) = x.
Proof.
  intros Fx H Hk Hh. pose proof (bpow_gt_0 radix2 k) as P.
  assert (D : bpow radix2 (k - 52) = 2 * bpow radix2 (k - 53)). { replace (k - 52)%Z with (1 + (k - 53))%Z by lia. rewrite bpow_plus. reflexivity. }
  split; apply Rle_antisym.
  - apply round_N_le_midp; [typeclasses eauto|exact Fx|]. rewrite succ_eq_pos by lra. pose proof (ulp_ge x k ltac:(lra) ltac:(lia)) as U. lra.
  - apply round_ge_generic; [typeclasses eauto|typeclasses eauto|exact Fx|lra].
  - apply round_le_generic; [typeclasses eauto|typeclasses eauto|exact Fx|lra].
  - apply round_N_ge_midp; [typeclasses eauto|exact Fx|].
    assert (B : fmt (bpow radix2 k)) by (apply generic_format_bpow; rewrite fexp64_eq; lia).
    assert (Pr : bpow radix2 k <= pred radix2 fexp64 x) by (apply pred_ge_gt; [typeclasses eauto|exact B|exact Fx|exact H]).
    pose proof (pred_plus_ulp radix2 fexp64 x ltac:(lra) Fx) as E. pose proof (ulp_ge _ k Pr ltac:(lia)) as U. lra.
Qed.
Lemma lost x h k : fmt x -> bpow radix2 k < Rabs x -> (-1000 <= k)%Z -> 0 <= h < bpow radix2 (k - 53) -> rnd (x + h) = x /\ rnd (x - h) = x.
Proof.
  intros Fx H Hk Hh. destruct (Rle_dec 0 x) as [P|P]; [rewrite Rabs_pos_eq in H by exact P; now apply lost_pos with k|].
  rewrite Rabs_left in H by lra. destruct (lost_pos (- x) h k ltac:(now apply generic_format_opp) H Hk Hh) as [A B].
  split; [replace (x + h) with (- (- x - h)) by ring|replace (x - h) with (- (- x + h)) by ring]; rewrite round_NE_opp; lra.
Qed.

Lemma abscissae_big x : fin x -> bpow radix2 34 < Rabs (val x) -> fadd x H64 = x /\ fsub x H64 = x.
Proof.
  intros Fx H. pose proof H64_bounds as [H1 H2]. pose proof (bpow_gt_0 radix2 (-20)) as P20.
  destruct (lost (val x) (val H64) 34 (val_fmt x) H ltac:(lia) ltac:(change (34 - 53)%Z with (-19)%Z; lra)) as [L1 L2].
  pose proof (bpow_gt_0 radix2 34) as P34.
  assert (NZ : val x <> 0) by (intros Z; rewrite Z, Rabs_R0 in H; lra).
  assert (Q : forall y : b64, fin y -> val y = val x -> y = x).
  { intros y Fy E. apply B2R_inj; [..|exact E].
    - destruct y as [s|s| |s m ex W]; try discriminate Fy; cbn in E; [congruence|reflexivity].
    - destruct x as [s|s| |s m ex W]; try discriminate Fx; cbn in NZ; [congruence|reflexivity]. }
  split; apply Q.
  - pose proof (Bplus_correct 53 1024 _ _ mode_NE x H64 Fx H64_fin) as P. cbn [round_mode] in P. rewrite L1, Rlt_bool_true in P by apply abs_B2R_lt_emax. apply P.
  - pose proof (Bplus_correct 53 1024 _ _ mode_NE x H64 Fx H64_fin) as P. cbn [round_mode] in P. rewrite L1, Rlt_bool_true in P by apply abs_B2R_lt_emax. apply P.
  - pose proof (Bminus_correct 53 1024 _ _ mode_NE x H64 Fx H64_fin) as P. cbn [round_mode] in P. rewrite L2, Rlt_bool_true in P by apply abs_B2R_lt_emax. apply P.
  - pose proof (Bminus_correct 53 1024 _ _ mode_NE x H64 Fx H64_fin) as P. cbn [round_mode] in P. rewrite L2, Rlt_bool_true in P by apply abs_B2R_lt_emax. apply P.
Qed.

Lemma zero_quotient a : fin a -> val (fdiv (fsub a a) HH64) = 0 /\ fin (fdiv (fsub a a) HH64).
Proof.
  intros Fa. destruct HH64_val as [VH FH]. pose proof H64_bounds as [H1 H2]. pose proof (bpow_gt_0 radix2 (-20)) as P20.
  destruct (fsub_val a a Fa Fa) as [V F]. { rewrite Rminus_diag_eq, Rabs_R0 by reflexivity. apply bpow_ge_0. }
  rewrite Rminus_diag_eq, rnd_0 in V by reflexivity.
  destruct (fdiv_val (fsub a a) HH64 F FH) as [V' F']; [rewrite VH; lra|rewrite V; unfold Rdiv; rewrite Rmult_0_l, Rabs_R0; apply bpow_ge_0|].
  split; [|exact F']. rewrite V', V. unfold Rdiv. rewrite Rmult_0_l. apply rnd_0.
Qed.

(** a sum of zeros, in any order *)
Lemma tsum_zero t : (forall x, In x (leaves t) -> val x = 0 /\ fin x) -> val (tsum t) = 0 /\ fin (tsum t).
Proof.
  induction t as [x|a IHa b IHb]; intros H; cbn [tsum leaves] in *; [apply H; now left|].
  destruct (IHa ltac:(intros; apply H, in_or_app; now left)) as [Va Fa]. destruct (IHb ltac:(intros; apply H, in_or_app; now right)) as [Vb Fb].
  destruct (fadd_val _ _ Fa Fb) as [V F]. { rewrite Va, Vb, Rplus_0_r, Rabs_R0. apply bpow_ge_0. }
  split; [|exact F]. rewrite V, Va, Vb, Rplus_0_r. apply rnd_0.
Qed.

(** the derivative of x -> x *)
Lemma abscissa_err x h e : fmt x -> (0 <= e)%Z -> Rabs x <= bpow radix2 e -> Rabs h < bpow radix2 (-19) -> Rabs (rnd (x + h) - (x + h)) <= bpow radix2 (e - 53).
Proof.
  intros Fx He H Hh. eapply Rle_trans; [apply error_le_half_ulp; typeclasses eauto|].
  assert (T : Rabs (x + h) < bpow radix2 (e + 1)).
  { eapply Rle_lt_trans; [apply Rabs_triang|]. rewrite bpow_plus. change (bpow radix2 1) with 2. assert (bpow radix2 (-19) < bpow radix2 e) by (apply bpow_lt; lia). lra. }
  assert (U : ulp radix2 fexp64 (x + h) <= bpow radix2 (e + 1 - 53)).
  { destruct (Req_dec (x + h) 0) as [Z|NZ].
    - rewrite Z. change fexp64 with (FLT_exp (-1074) 53). rewrite (ulp_FLT_0 radix2 (-1074) 53). apply bpow_le. lia.
    - rewrite ulp_neq_0 by exact NZ. apply bpow_le. unfold cexp. rewrite fexp64_eq. pose proof (mag_le_bpow radix2 (x + h) (e + 1) NZ T). lia. }
  replace (e + 1 - 53)%Z with (1 + (e - 53))%Z in U by lia. rewrite bpow_plus in U. change (bpow radix2 1) with 2 in U. lra.
Qed.

Lemma derivative_of_identity x e : fin x -> (0 <= e <= 32)%Z -> Rabs (val x) <= bpow radix2 e ->
  fin (fdiv (fsub (fadd x H64) (fsub x H64)) HH64) /\
  Rabs (val (fdiv (fsub (fadd x H64) (fsub x H64)) HH64) - 1) <= bpow radix2 (e - 32).
Proof.
  intros Fx He H. destruct HH64_val as [VH FH]. pose proof H64_bounds as [H1 H2]. pose proof (bpow_gt_0 radix2 (-20)) as P20.
  set (h := val H64) in *. assert (Hh : Rabs h < bpow radix2 (-19)) by (rewrite Rabs_pos_eq; lra).
  assert (Big : forall k, (k <= 1021)%Z -> bpow radix2 k <= bpow radix2 1021) by (intros; now apply bpow_le).
  pose proof (Big e ltac:(lia)) as Be. pose proof (Big (-19)%Z ltac:(lia)) as B19. pose proof bpow1023 as B23. pose proof bpow1021_big as B8.
  destruct (fadd_val x H64 Fx H64_fin) as [E1 F1]. { fold h. eapply Rle_trans; [apply Rabs_triang|]. lra. }
  destruct (fsub_val x H64 Fx H64_fin) as [E2 F2]. { fold h. unfold Rminus. eapply Rle_trans; [apply Rabs_triang|]. rewrite Rabs_Ropp. lra. }
  fold h in E1, E2.
  pose proof (abscissa_err (val x) h e (val_fmt x) ltac:(lia) H Hh) as A1. rewrite <- E1 in A1.
  pose proof (abscissa_err (val x) (- h) e (val_fmt x) ltac:(lia) H ltac:(rewrite Rabs_Ropp; exact Hh)) as A2. change (val x + - h) with (val x - h) in A2. rewrite <- E2 in A2.
  set (a := val (fadd x H64)) in *. set (b := val (fsub x H64)) in *.
  set (d := (a - b) - 2 * h). assert (Ed : a - b = 2 * h + d) by (unfold d; ring).
  assert (D : Rabs d <= bpow radix2 (e - 52)).
  { replace d with ((a - (val x + h)) - (b - (val x - h))) by (unfold d; ring). unfold Rminus at 1. eapply Rle_trans; [apply Rabs_triang|]. rewrite Rabs_Ropp.
    replace (e - 52)%Z with (1 + (e - 53))%Z by lia. rewrite bpow_plus. change (bpow radix2 1) with 2. lra. }
  assert (W : Rabs (d / (2 * h)) <= bpow radix2 (e - 33)).
  { unfold Rdiv. rewrite Rabs_mult, (Rabs_pos_eq (/ (2 * h))) by (left; apply Rinv_0_lt_compat; lra).
    apply Rle_div_l; [lra|]. eapply Rle_trans; [exact D|]. replace (e - 52)%Z with (e - 33 + -19)%Z by lia. rewrite bpow_plus.
    apply Rmult_le_compat_l; [apply bpow_ge_0|]. change (-19)%Z with (1 + -20)%Z. rewrite bpow_plus. change (bpow radix2 1) with 2. lra. }
  set (w := d / (2 * h)) in *.
  assert (WB : bpow radix2 (e - 33) <= / 2). { change (/ 2) with (bpow radix2 (-1)). apply bpow_le. lia. }
  pose proof (Rabs_le_inv _ _ W) as Wi.
  assert (B52 : bpow radix2 (e - 52) <= bpow radix2 1021) by (apply Big; lia).
  destruct (fsub_val (fadd x H64) (fsub x H64) F1 F2) as [E3 F3].
  { fold a b. rewrite Ed. eapply Rle_trans; [apply Rabs_triang|]. rewrite (Rabs_pos_eq (2 * h)) by lra. lra. }
  destruct (rnd_minus_rel (fadd x H64) (fsub x H64)) as (e1 & R1 & R2). fold a b in E3, R2. rewrite R2, Ed in E3.
  pose proof u53_small as US. pose proof u53_pos as UP. apply Rabs_le_inv in R1.
  assert (HS : (2 * h + d) * (1 + e1) / (2 * h) = (1 + w) * (1 + e1)) by (unfold w; field; lra).
  assert (LB : / 4 <= (1 + w) * (1 + e1)) by nra. assert (UB : (1 + w) * (1 + e1) <= 2) by nra.
  destruct (fdiv_val _ HH64 F3 FH) as [E4 F4]; [rewrite VH; fold h; lra|rewrite VH; fold h; rewrite E3, HS, Rabs_pos_eq by lra; lra|].
  split; [exact F4|]. rewrite VH in E4. fold h in E4. rewrite E3, HS in E4. rewrite E4.
  destruct (rnd_rel ((1 + w) * (1 + e1))) as (e2 & Q1 & Q2).
  { rewrite Rabs_pos_eq by lra. apply Rle_trans with (/ 4); [|exact LB]. change (/ 4) with (bpow radix2 (-2)). apply bpow_le. lia. }
  rewrite Q2. apply Rabs_le_inv in Q1.
  replace ((1 + w) * (1 + e1) * (1 + e2) - 1) with (w + (1 + w) * (e1 + e2 + e1 * e2)) by ring.
  assert (T : - (3 * u53) <= e1 + e2 + e1 * e2 <= 3 * u53) by (clear - R1 Q1 US UP; split; nra).
  assert (T2 : Rabs ((1 + w) * (e1 + e2 + e1 * e2)) <= 2 * (3 * u53)).
  { rewrite Rabs_mult. apply Rmult_le_compat; try apply Rabs_pos; [rewrite Rabs_pos_eq; lra|apply Rabs_le; lra]. }
  eapply Rle_trans; [apply Rabs_triang|].
  assert (T4 : 6 * u53 <= bpow radix2 (e - 33)). { apply Rle_trans with (bpow radix2 (-33)); [|apply bpow_le; lia]. unfold bpow. cbn. lra. }
  replace (e - 32)%Z with (1 + (e - 33))%Z by lia. rewrite bpow_plus. change (bpow radix2 1) with 2. lra.
Qed.
