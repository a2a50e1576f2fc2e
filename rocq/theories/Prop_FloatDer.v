(** Prop_FloatDer: C104, the d-PDP without a Jacobian in binary64. *)
From Coq Require Import Reals Permutation.
From Flocq Require Import Core.
From Flocq Require Import IEEE754.BinarySingleNaN.
From Verif Require Import Base Numpy FloatModel FloatFacts FloatGrid FloatBins FloatProofs FloatMean FloatAcc FloatDer Prop_FloatMean.
From Coq Require Import Lra.
Open Scope R_scope.

(** REFUTED: at every position above 2^34 (1.7e10) in absolute value the ICE derivatives and the d-PDP are exactly 0, whatever
    the model and the data: x + 1e-6 and x - 1e-6 are both x. *)
Theorem C104_zero_refuted g X f x t :
  X <> [] -> (Z.of_nat (length X) <= 2 ^ 50)%Z -> fin x -> bpow radix2 34 < Rabs (val x) ->
  (forall r, In r X -> fin (g (list_set r f x))) ->
  Permutation (leaves t) (ice_derivatives64 g X f x) ->
  (forall d, In d (ice_derivatives64 g X f x) -> val d = 0 /\ fin d) /\ val (np_mean64 t (length X)) = 0.
Proof.
  intros NX HN Fx H FG P. destruct (abscissae_big x Fx H) as [E1 E2].
  assert (Z : forall d, In d (ice_derivatives64 g X f x) -> val d = 0 /\ fin d).
  { intros d Hd. unfold ice_derivatives64 in Hd. apply in_map_iff in Hd as (r & <- & Hr). rewrite E1, E2. now apply zero_quotient, FG. }
  split; [exact Z|]. assert (L : (1 <= length X)%nat) by (destruct X; [congruence|cbn; lia]).
  destruct (tsum_zero t) as [V F]; [intros d Hd; apply Z; eapply Permutation_in; eauto|].
  destruct (fofZ_val (Z.of_nat (length X)) ltac:(lia)) as [Vn Fn]. unfold np_mean64, fofn.
  assert (N : 1 <= IZR (Z.of_nat (length X))) by (apply IZR_le; lia).
  destruct (fdiv_val (tsum t) (fofZ (Z.of_nat (length X))) F Fn) as [V' _]; [rewrite Vn; lra|rewrite V; unfold Rdiv; rewrite Rmult_0_l, Rabs_R0; apply bpow_ge_0|].
  rewrite V', V. unfold Rdiv. rewrite Rmult_0_l. apply rnd_0.
Qed.

(** For the model that returns the feature itself (derivative 1) and a position with |x| <= 2^e, 0 <= e <= 32: every ICE
    derivative is within 2^(e-32) of 1, and the d-PDP within 2^(e-32) + 4 (N+1) 2^-53. *)
Lemma mean_near_one ys n dl : (1 <= n)%nat -> length ys = n -> 0 <= dl <= 1 -> (forall y, In y ys -> Rabs (val y - 1) <= dl) ->
  Rabs (rsum ys / IZR (Z.of_nat n) - 1) <= dl /\ asum ys / IZR (Z.of_nat n) <= 2 /\ asum ys <= 2 * IZR (Z.of_nat n).
Proof.
  intros N1 L D H.
  assert (G : Rabs (rsum ys - IZR (Z.of_nat (length ys))) <= IZR (Z.of_nat (length ys)) * dl /\ asum ys <= IZR (Z.of_nat (length ys)) * 2).
  { clear L N1. unfold rsum, asum. induction ys as [|y ys IH]; cbn [fold_right length]; [change (Z.of_nat 0) with 0%Z; rewrite Rminus_0_r, Rabs_R0; lra|].
    destruct IH as [I1 I2]; [intros; apply H; now right|]. rewrite Nat2Z.inj_succ, succ_IZR. pose proof (H y (or_introl eq_refl)) as Hy. split.
    - match goal with |- Rabs (val y + ?r - (?n + 1)) <= _ => replace (val y + r - (n + 1)) with ((val y - 1) + (r - n)) by ring end. eapply Rle_trans; [apply Rabs_triang|]. lra.
    - assert (Rabs (val y) <= 2). { replace (val y) with ((val y - 1) + 1) by ring. eapply Rle_trans; [apply Rabs_triang|]. rewrite Rabs_R1. lra. } lra. }
  rewrite L in G. destruct G as [G1 G2]. assert (N : 1 <= IZR (Z.of_nat n)) by (apply IZR_le; lia). set (k := IZR (Z.of_nat n)) in *.
  split; [|split; [apply Rle_div_l; lra|lra]].
  replace (rsum ys / k - 1) with ((rsum ys - k) / k) by (field; lra). unfold Rdiv. rewrite Rabs_mult, (Rabs_pos_eq (/ k)) by (left; apply Rinv_0_lt_compat; lra).
  apply Rle_div_l; lra.
Qed.

Theorem C104_identity_partial X f x e t :
  X <> [] -> (Z.of_nat (length X) <= 2 ^ 50 - 1)%Z -> (forall r, In r X -> (f < length r)%nat) ->
  (0 <= e <= 32)%Z -> fin x -> Rabs (val x) <= bpow radix2 e ->
  let ds := ice_derivatives64 (fun r => nth f r fnan) X f x in
  Permutation (leaves t) ds ->
  (forall d, In d ds -> fin d /\ Rabs (val d - 1) <= bpow radix2 (e - 32)) /\
  Rabs (val (np_mean64 t (length X)) - 1) <= bpow radix2 (e - 32) + 4 * IZR (Z.of_nat (length X + 1)) * bpow radix2 (-53).
Proof.
  intros NX HN HF He Fx Bx ds P. destruct (derivative_of_identity x e Fx He Bx) as [FD ED].
  assert (Q : forall d, In d ds -> d = fdiv (fsub (fadd x H64) (fsub x H64)) HH64).
  { intros d Hd. unfold ds, ice_derivatives64 in Hd. apply in_map_iff in Hd as (r & <- & Hr).
    assert (S : forall v, nth f (list_set r f v) fnan = v) by (intros v; apply list_set_nth_same; now apply HF). now rewrite !S. }
  split; [intros d Hd; rewrite (Q d Hd); auto|].
  assert (L : (1 <= length X)%nat) by (destruct X; [congruence|cbn; lia]).
  assert (Ld : length ds = length X) by apply map_length.
  assert (B1 : bpow radix2 (e - 32) <= 1) by (change 1 with (bpow radix2 0); apply bpow_le; lia).
  destruct (mean_near_one ds (length X) (bpow radix2 (e - 32)) L Ld) as (M1 & M2 & M3).
  { split; [apply bpow_ge_0|exact B1]. } { intros d Hd. rewrite (Q d Hd). exact ED. }
  destruct (rsum_perm _ _ P) as [R1 R2]. pose proof (depth_leaves t) as DL. rewrite (Permutation_length P), Ld in DL.
  pose proof (gam_1 (depth t) ltac:(lia)) as G1. pose proof (gam_pos (depth t)) as G0. pose proof (asum_pos ds) as AP.
  assert (N50 : IZR (Z.of_nat (length X)) <= bpow radix2 50) by (change (bpow radix2 50) with (IZR (2 ^ 50)); apply IZR_le; lia).
  assert (B50 : bpow radix2 50 <= bpow radix2 1021) by (apply bpow_le; lia).
  destruct (mean_error t (length X)) as [_ ME]; [intros d Hd; rewrite (Q d ltac:(eapply Permutation_in; eauto)); exact FD|exact L|lia| |].
  { rewrite R2, bpow1023. assert (gam (depth t) * asum ds <= / 4 * asum ds) by (apply Rmult_le_compat_r; lra). lra. }
  rewrite R1, R2 in ME. fold (np_mean64 t (length X)) in ME. set (m := val (np_mean64 t (length X))) in *. set (k := IZR (Z.of_nat (length X))) in *.
  replace (m - 1) with ((m - rsum ds / k) + (rsum ds / k - 1)) by ring. eapply Rle_trans; [apply Rabs_triang|].
  pose proof (gam_small (S (depth t)) ltac:(lia)) as GS. pose proof (gam_pos (S (depth t))) as GP.
  assert (D1 : IZR (Z.of_nat (S (depth t))) <= k) by (apply IZR_le; lia).
  assert (K1 : IZR (Z.of_nat (length X + 1)) = k + 1) by (unfold k; rewrite Nat2Z.inj_add, plus_IZR; reflexivity). rewrite K1.
  pose proof u53_pos as UP.
  assert (A2 : 0 <= asum ds / k). { unfold Rdiv. apply Rmult_le_pos; [exact AP|]. left. apply Rinv_0_lt_compat. apply Rlt_le_trans with 1; [lra|apply IZR_le; lia]. }
  assert (T1 : gam (S (depth t)) * (asum ds / k) <= gam (S (depth t)) * 2) by (apply Rmult_le_compat_l; lra).
  assert (T2 : 2 * IZR (Z.of_nat (S (depth t))) * u53 <= 2 * k * u53) by (apply Rmult_le_compat_r; lra).
  assert (T3 : bpow radix2 (-1075) <= u53) by (apply bpow_le; lia). lra.
Qed.

Print Assumptions C104_zero_refuted. Print Assumptions C104_identity_partial.

(** concrete cases, the model x -> x_0: at 5, at 2^33 + 2^32 (off by 90 %), at 2^34 + 2^20 (zero) *)
Definition slope_at (z : Z) : b64 := nth 0 (ice_derivatives64 (fun r => nth 0 r fnan) [[fzero]] 0 (fofZ z)) fnan.
Example C104_instance :
  Bltb (fdiv (fofZ 999999) (fofZ 1000000)) (slope_at 5) && Bltb (slope_at 5) (fdiv (fofZ 1000001) (fofZ 1000000))
  && Bltb (fdiv (fofZ 19) (fofZ 10)) (slope_at (2 ^ 33 + 2 ^ 32)) && Beqb (slope_at (2 ^ 34 + 2 ^ 20)) fzero = true.
Proof. vm_compute. reflexivity. Qed.
