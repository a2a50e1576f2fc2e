(** FloatAcc: the accumulated effect (utils.py:279-364) in binary64: its rounding error, and its monotonicity. *)
From Coq Require Import Reals.
From Flocq Require Import Core.
From Flocq Require Import IEEE754.BinarySingleNaN Relative.
From Verif Require Import Base Numpy NumpyFacts FloatModel FloatFacts FloatGrid FloatBins FloatProofs FloatMean.
From Coq Require Import Lra.
Open Scope R_scope.

Notation eta := (bpow radix2 (-1075)).
Fixpoint sumR (n : nat) (f : nat -> R) : R := match n with O => 0 | S m => sumR m f + f m end.
Lemma sumR_ext n f g : (forall i, (i < n)%nat -> f i = g i) -> sumR n f = sumR n g.
Proof. induction n as [|n IH]; intros H; [reflexivity|]. cbn [sumR]. rewrite IH, H; auto. Qed.
Lemma sumR_pos n f : (forall i, (i < n)%nat -> 0 <= f i) -> 0 <= sumR n f.
Proof. induction n as [|n IH]; intros H; cbn [sumR]; [lra|]. pose proof (H n ltac:(lia)). assert (0 <= sumR n f) by (apply IH; auto). lra. Qed.
Lemma sumR_mono n m f : (forall i, (i < m)%nat -> 0 <= f i) -> (n <= m)%nat -> sumR n f <= sumR m f.
Proof. intros H. induction 1 as [|m L IH]; [lra|]. cbn [sumR]. pose proof (H m ltac:(lia)). assert (sumR n f <= sumR m f) by (apply IH; auto). lra. Qed.
Lemma sumR_abs n f g : (forall i, (i < n)%nat -> Rabs (f i) <= g i) -> Rabs (sumR n f) <= sumR n g.
Proof.
  induction n as [|n IH]; intros H; cbn [sumR]; [rewrite Rabs_R0; lra|]. eapply Rle_trans; [apply Rabs_triang|].
  pose proof (H n ltac:(lia)). assert (Rabs (sumR n f) <= sumR n g) by (apply IH; auto). lra.
Qed.

(** the noise of k roundings in the subnormal range *)
Definition noise (k : nat) : R := (1 + gam k) * (IZR (Z.of_nat k) * eta).
Lemma noise_0 : noise 0 = 0. Proof. unfold noise. cbn [Z.of_nat]. ring. Qed.
Lemma noise_pos k : 0 <= noise k.
Proof. unfold noise. pose proof (gam_pos k). apply Rmult_le_pos; [lra|]. apply Rmult_le_pos; [apply IZR_le; lia|apply bpow_ge_0]. Qed.
Lemma noise_S k : (1 + u53) * (noise k + eta) <= noise (S k).
Proof.
  unfold noise. rewrite gam_S, Nat2Z.inj_succ, succ_IZR. pose proof (gam_pos k) as G. pose proof u53_pos as U. pose proof (bpow_gt_0 radix2 (-1075)) as E.
  set (t := IZR (Z.of_nat k)). set (g := gam k) in *.
  replace ((1 + u53) * ((1 + g) * (t * eta) + eta)) with ((1 + u53) * ((1 + g) * (t * eta)) + (1 + u53) * eta) by ring.
  replace ((1 + (g + u53 * (1 + g))) * ((t + 1) * eta)) with ((1 + u53) * ((1 + g) * (t * eta)) + (1 + u53) * ((1 + g) * eta)) by ring.
  apply Rplus_le_compat_l, Rmult_le_compat_l; [lra|]. nra.
Qed.
Lemma noise_mono k m : (k <= m)%nat -> noise k <= noise m.
Proof.
  induction 1 as [|m L IH]; [lra|]. eapply Rle_trans; [exact IH|]. eapply Rle_trans; [|apply noise_S].
  pose proof (noise_pos m). pose proof u53_pos. pose proof (bpow_gt_0 radix2 (-1075)). nra.
Qed.
Lemma gam_1 k : (Z.of_nat k <= 2 ^ 50)%Z -> gam k <= / 4.
Proof.
  intros H. pose proof (gam_small k H) as GS. assert (IZR (Z.of_nat k) <= bpow radix2 50). { change (bpow radix2 50) with (IZR (2 ^ 50)). apply IZR_le. lia. }
  assert (IZR (Z.of_nat k) * u53 <= bpow radix2 50 * u53) by (apply Rmult_le_compat_r; [apply bpow_ge_0|assumption]).
  rewrite <- bpow_plus in H1. change (50 + -53)%Z with (-3)%Z in H1. assert (bpow radix2 (-3) = / 8) by (unfold bpow; cbn; lra). lra.
Qed.
Lemma noise_bound k : (Z.of_nat k <= 2 ^ 50)%Z -> noise k <= IZR (Z.of_nat k) * bpow radix2 (-1074).
Proof.
  intros H. unfold noise. pose proof (gam_1 k H). assert (E : bpow radix2 (-1074) = 2 * eta). { change (-1074)%Z with (1 + -1075)%Z. rewrite bpow_plus. reflexivity. }
  rewrite E. assert (0 <= IZR (Z.of_nat k) * eta) by (apply Rmult_le_pos; [apply IZR_le; lia|apply bpow_ge_0]). nra.
Qed.
Lemma noise_1 k : (Z.of_nat k <= 2 ^ 50)%Z -> noise k <= 1.
Proof.
  intros H. eapply Rle_trans; [apply noise_bound, H|].
  assert (IZR (Z.of_nat k) <= bpow radix2 50). { change (bpow radix2 50) with (IZR (2 ^ 50)). apply IZR_le. lia. }
  apply Rle_trans with (bpow radix2 50 * bpow radix2 (-1074)); [apply Rmult_le_compat_r; [apply bpow_ge_0|assumption]|].
  rewrite <- bpow_plus. change 1 with (bpow radix2 0). apply bpow_le. lia.
Qed.

Lemma rnd_nonneg x : 0 <= x -> 0 <= rnd x.
Proof. intros H. rewrite <- (round_0 radix2 fexp64 ZnearestE). apply rnd_le, H. Qed.
Lemma rnd_0 : rnd 0 = 0. Proof. apply round_0. typeclasses eauto. Qed.

Lemma bpow1023 : bpow radix2 1023 = 4 * bpow radix2 1021.
Proof. change 1023%Z with (2 + 1021)%Z. rewrite bpow_plus. reflexivity. Qed.
Lemma bpow1021_big : 8 <= bpow radix2 1021.
Proof. change 8 with (bpow radix2 3). apply bpow_le. lia. Qed.

(** a product e * (x - y) of floats: three exact values, two roundings *)
Lemma prod_err (e x y : b64) : 0 <= val x - val y ->
  Rabs (rnd (val e * rnd (val x - val y)) - val e * (val x - val y)) <= gam 2 * (Rabs (val e) * (val x - val y)) + eta.
Proof.
  intros P. destruct (rnd_minus_rel x y) as (d & D1 & D2). rewrite D2. set (w := val x - val y) in *. set (v := val e).
  pose proof (rnd_err (v * (w * (1 + d)))) as R. pose proof u53_pos as U. pose proof (Rabs_pos v) as V.
  assert (VW : 0 <= Rabs v * w) by (apply Rmult_le_pos; auto).
  assert (D3 : Rabs (1 + d) <= 1 + u53) by (eapply Rle_trans; [apply Rabs_triang|]; rewrite Rabs_R1; lra).
  rewrite Rabs_mult, (Rabs_mult w), (Rabs_pos_eq w P) in R.
  replace (rnd (v * (w * (1 + d))) - v * w) with ((rnd (v * (w * (1 + d))) - v * (w * (1 + d))) + v * w * d) by ring.
  eapply Rle_trans; [apply Rabs_triang|]. rewrite (Rabs_mult (v * w)), (Rabs_mult v), (Rabs_pos_eq w P).
  assert (G2 : gam 2 = 2 * u53 + u53 * u53) by (unfold gam; cbn [pow]; ring). rewrite G2.
  assert (Rabs v * w * Rabs d <= Rabs v * w * u53) by (apply Rmult_le_compat_l; auto).
  assert (u53 * (Rabs v * (w * Rabs (1 + d))) <= u53 * (Rabs v * w * (1 + u53))).
  { apply Rmult_le_compat_l; [lra|]. rewrite <- Rmult_assoc. apply Rmult_le_compat_l; auto. }
  lra.
Qed.

(** one more bin (or part of a bin) *)
Lemma step_err (c p e x y : b64) (k : nat) (s A : R) :
  fin c -> fin p -> val p = rnd (val e * rnd (val x - val y)) -> 0 <= val x - val y -> (Z.of_nat (k + 3) <= 2 ^ 50)%Z ->
  Rabs s <= A -> Rabs (val c - s) <= gam (k + 2) * A + noise k ->
  A + Rabs (val e) * (val x - val y) <= bpow radix2 1021 ->
  let s' := s + val e * (val x - val y) in let A' := A + Rabs (val e) * (val x - val y) in
  fin (fadd c p) /\ val (fadd c p) = rnd (val c + val p) /\ Rabs s' <= A' /\ Rabs (val (fadd c p) - s') <= gam (S k + 2) * A' + noise (S k).
Proof.
  intros Fc Fp Vp P Hk HA HE HB s' A'.
  pose proof (prod_err e x y P) as PE. rewrite <- Vp in PE. set (w := val x - val y) in *. set (a := Rabs (val e) * w) in *.
  assert (a0 : 0 <= a) by (apply Rmult_le_pos; auto using Rabs_pos).
  assert (A0 : 0 <= A) by (pose proof (Rabs_pos s); lra).
  assert (EW : Rabs (val e * w) = a) by (rewrite Rabs_mult, (Rabs_pos_eq w P); reflexivity).
  pose proof (gam_le 2 (k + 2) ltac:(lia)) as G2. pose proof (gam_pos (k + 2)) as G0. pose proof (noise_pos k) as N0. pose proof (bpow_gt_0 radix2 (-1075)) as E0.
  pose proof (gam_1 (k + 2) ltac:(lia)) as G1. pose proof (noise_1 (S k) ltac:(lia)) as N1. pose proof (noise_S k) as NS. pose proof u53_pos as U0. pose proof u53_small as US.
  set (g := gam (k + 2)) in *.
  assert (E1 : Rabs (val c + val p - s') <= g * A' + (noise k + eta)).
  { unfold s', A'. replace (val c + val p - (s + val e * w)) with ((val c - s) + (val p - val e * w)) by ring.
    eapply Rle_trans; [apply Rabs_triang|]. assert (gam 2 * a <= g * a) by (apply Rmult_le_compat_r; auto). lra. }
  assert (SA : Rabs s' <= A') by (unfold s', A'; eapply Rle_trans; [apply Rabs_triang|]; lra).
  assert (E2 : Rabs (val c + val p) <= (1 + g) * A' + (noise k + eta)).
  { replace (val c + val p) with ((val c + val p - s') + s') by ring. eapply Rle_trans; [apply Rabs_triang|]. lra. }
  assert (A'0 : 0 <= A') by (unfold A'; lra).
  assert (NE : noise k + eta <= 1) by nra.
  pose proof bpow1021_big as B8.
  destruct (fadd_val c p Fc Fp) as [V F].
  { eapply Rle_trans; [exact E2|]. rewrite bpow1023. assert ((1 + g) * A' <= 2 * A') by (apply Rmult_le_compat_r; lra). assert (A' <= bpow radix2 1021) by exact HB. lra. }
  split; [exact F|]. split; [exact V|]. split; [exact SA|]. rewrite V.
  destruct (rnd_plus_rel c p) as (d & D1 & ->). 
  replace ((val c + val p) * (1 + d) - s') with ((val c + val p - s') + (val c + val p) * d) by ring.
  eapply Rle_trans; [apply Rabs_triang|]. rewrite Rabs_mult.
  assert (Rabs (val c + val p) * Rabs d <= ((1 + g) * A' + (noise k + eta)) * u53) by (apply Rmult_le_compat; auto using Rabs_pos).
  replace (S k + 2)%nat with (S (k + 2)) by lia. rewrite gam_S. fold g.
  eapply Rle_trans; [apply Rplus_le_compat; [exact E1|exact H]|]. lra.
Qed.

Definition diffs64 (l : list b64) : list b64 := map (fun p => fsub (snd p) (fst p)) (combine l (tl l)).
Lemma diffs64_length l : length (diffs64 l) = (length l - 1)%nat.
Proof. unfold diffs64. rewrite map_length, combine_length. destruct l as [|a l]; cbn [length tl]; lia. Qed.
Lemma diffs64_nth l k : (S k < length l)%nat -> nth k (diffs64 l) fnan = fsub (nth (S k) l fnan) (nth k l fnan).
Proof.
  revert k. induction l as [|a l IH]; intros k H; [cbn in H; lia|]. destruct l as [|b l]; [cbn in H; lia|].
  destruct k as [|k]; [reflexivity|]. change (diffs64 (a :: b :: l)) with (fsub b a :: diffs64 (b :: l)). cbn [nth]. rewrite IH by (cbn in *; lia). reflexivity.
Qed.

Lemma cumsum_from_nth l : forall acc k, (k < length l)%nat ->
  nth k (cumsum_from64 acc l) fnan = fadd (match k with O => acc | S m => nth m (cumsum_from64 acc l) fnan end) (nth k l fnan).
Proof.
  induction l as [|a l IH]; intros acc k H; [cbn in H; lia|]. cbn [cumsum_from64]. destruct k as [|k]; [reflexivity|].
  cbn [nth]. rewrite IH by (cbn in H; lia). destruct k as [|k]; [reflexivity|]. reflexivity.
Qed.
Lemma cumsum_from_length l : forall acc, length (cumsum_from64 acc l) = length l.
Proof. induction l; intros; cbn; auto. Qed.
Lemma cumsum_length l : length (cumsum64 l) = length l.
Proof. destruct l; cbn; [reflexivity|]. now rewrite cumsum_from_length. Qed.
Lemma cumsum_nth_S l k : (S k < length l)%nat -> nth (S k) (cumsum64 l) fnan = fadd (nth k (cumsum64 l) fnan) (nth (S k) l fnan).
Proof.
  intros H. destruct l as [|a l]; [cbn in H; lia|]. cbn [cumsum64]. change (nth (S k) (a :: cumsum_from64 a l) fnan) with (nth k (cumsum_from64 a l) fnan).
  rewrite cumsum_from_nth by (cbn in H; lia). destruct k; reflexivity.
Qed.

Lemma nth_app_b (a b : list b64) k : nth (length a + k) (a ++ b) fnan = nth k b fnan.
Proof. rewrite app_nth2 by lia. f_equal. lia. Qed.
Lemma removelast_nth (l : list b64) k : (S k < length l)%nat -> nth k (removelast l) fnan = nth k l fnan.
Proof.
  revert k. induction l as [|a l IH]; intros k H; [cbn in H; lia|]. destruct l as [|b l]; [cbn in H; lia|].
  change (removelast (a :: b :: l)) with (a :: removelast (b :: l)). destruct k as [|k]; [reflexivity|]. cbn [nth]. rewrite IH by (cbn in *; lia). reflexivity.
Qed.
Lemma removelast_len (l : list b64) : length (removelast l) = (length l - 1)%nat.
Proof. induction l as [|a l IH]; [reflexivity|]. destruct l as [|b l]; [reflexivity|]. change (removelast (a :: b :: l)) with (a :: removelast (b :: l)). cbn [length] in *. lia. Qed.
Lemma getz_last (l : list b64) : (1 <= length l)%nat -> getz l (-1) = Ok (nth (length l - 1) l fnan).
Proof.
  intros H. unfold getz. cbn [Z.ltb Z.compare]. destruct (Z.ltb_spec (-1 + Z.of_nat (length l)) 0); [lia|].
  replace (Z.to_nat (-1 + Z.of_nat (length l))) with (length l - 1)%nat by lia.
  rewrite (nth_error_nth' l fnan) by lia. reflexivity.
Qed.

Section Acc.
  Context (l e : list b64).
  Context (Fl : fins l) (So : sorted64 l) (Fe : fins e) (L2 : (2 <= length l)%nat) (Le : length e = (length l - 1)%nat).
  Notation K := (length e).
  Notation lv i := (val (nth i l fnan)).
  Notation ev i := (val (nth i e fnan)).
  Context (HK : (Z.of_nat K + 3 <= 2 ^ 50)%Z).
  Context (Bl : forall i, (i < length l)%nat -> Rabs (lv i) <= bpow radix2 1021).
  Context (Be : sumR K (fun i => Rabs (ev i) * (lv (S i) - lv i)) <= bpow radix2 1021).

  Notation prod := (map (fun p => fmul (fst p) (snd p)) (combine e (diffs64 l))).
  Definition cs (k : nat) : b64 := nth k (fzero :: cumsum64 prod) fnan.
  Lemma prod_length : length prod = K.
  Proof. rewrite map_length, combine_length, diffs64_length. lia. Qed.
  Lemma prod_nth k : (k < K)%nat -> nth k prod fnan = fmul (nth k e fnan) (fsub (nth (S k) l fnan) (nth k l fnan)).
  Proof.
    intros H. rewrite (nth_indep _ fnan (fmul fnan fnan)) by (rewrite prod_length; exact H).
    rewrite (map_nth (fun p => fmul (fst p) (snd p)) _ (fnan, fnan)). rewrite combine_nth by (rewrite diffs64_length; lia). cbn [fst snd].
    rewrite diffs64_nth by lia. reflexivity.
  Qed.
  Lemma width_pos i : (i < K)%nat -> 0 <= lv (S i) - lv i.
  Proof. intros H. pose proof (So i ltac:(lia)). lra. Qed.
  Lemma fin_l i : (i <= K)%nat -> fin (nth i l fnan). Proof. intros H. apply fins_nth; [exact Fl|lia]. Qed.
  Lemma fin_e i : (i < K)%nat -> fin (nth i e fnan). Proof. intros H. apply fins_nth; auto. Qed.

  (** a difference x - l_k inside bin k, and the product with its effect *)
  Lemma delta_ok k x : (k < K)%nat -> fin x -> lv k <= val x <= lv (S k) ->
    val (fsub x (nth k l fnan)) = rnd (val x - lv k) /\ fin (fsub x (nth k l fnan)).
  Proof.
    intros Hk Fx Hx. apply fsub_val; [exact Fx|apply fin_l; lia|]. pose proof (Bl k ltac:(lia)) as B1. pose proof (Bl (S k) ltac:(lia)) as B2.
    apply Rabs_le_inv in B1. apply Rabs_le_inv in B2. rewrite bpow1023. apply Rabs_le. pose proof bpow1021_big. lra.
  Qed.
  Lemma abs_part k : (k < K)%nat -> sumR k (fun i => Rabs (ev i) * (lv (S i) - lv i)) + Rabs (ev k) * (lv (S k) - lv k) <= bpow radix2 1021.
  Proof.
    intros Hk. eapply Rle_trans; [|exact Be]. apply (sumR_mono (S k) K); [|lia]. intros i Hi. apply Rmult_le_pos; [apply Rabs_pos|now apply width_pos].
  Qed.
  Lemma part_ok k x : (k < K)%nat -> fin x -> lv k <= val x <= lv (S k) ->
    Rabs (ev k * rnd (val x - lv k)) <= bpow radix2 1023 /\
    sumR k (fun i => Rabs (ev i) * (lv (S i) - lv i)) + Rabs (ev k) * (val x - lv k) <= bpow radix2 1021.
  Proof.
    intros Hk Fx Hx. pose proof (abs_part k Hk) as AP. pose proof (Rabs_pos (ev k)) as V.
    assert (S0 : 0 <= sumR k (fun i => Rabs (ev i) * (lv (S i) - lv i))).
    { apply sumR_pos. intros i Hi. apply Rmult_le_pos; [apply Rabs_pos|apply width_pos; lia]. }
    assert (M : Rabs (ev k) * (val x - lv k) <= Rabs (ev k) * (lv (S k) - lv k)) by (apply Rmult_le_compat_l; lra).
    split; [|lra]. rewrite Rabs_mult. destruct (rnd_minus_rel x (nth k l fnan)) as (d & D1 & D2). rewrite D2, Rabs_mult, (Rabs_pos_eq (val x - lv k)) by lra.
    assert (D3 : Rabs (1 + d) <= 2). { pose proof u53_small. eapply Rle_trans; [apply Rabs_triang|]. rewrite Rabs_R1. lra. }
    rewrite <- Rmult_assoc, bpow1023. pose proof bpow1021_big.
    apply Rle_trans with (bpow radix2 1021 * 2); [|lra]. apply Rmult_le_compat; auto using Rabs_pos; [|lra]. apply Rmult_le_pos; lra.
  Qed.

  Lemma prod_ok k : (k < K)%nat -> fin (nth k prod fnan) /\ val (nth k prod fnan) = rnd (ev k * rnd (lv (S k) - lv k)).
  Proof.
    intros Hk. rewrite prod_nth by exact Hk. pose proof (width_pos k Hk).
    destruct (delta_ok k (nth (S k) l fnan) Hk ltac:(apply fin_l; lia) ltac:(lra)) as [D1 D2].
    destruct (part_ok k (nth (S k) l fnan) Hk ltac:(apply fin_l; lia) ltac:(lra)) as [P1 _].
    destruct (fmul_val (nth k e fnan) (fsub (nth (S k) l fnan) (nth k l fnan)) (fin_e k Hk) D2) as [V F]; rewrite ?D1; auto.
    rewrite V, D1. auto.
  Qed.

  Notation Sr k := (sumR k (fun i => ev i * (lv (S i) - lv i))).
  Notation Ar k := (sumR k (fun i => Rabs (ev i) * (lv (S i) - lv i))).

  Lemma cs_0 : cs 0 = fzero. Proof. reflexivity. Qed.
  Lemma cs_step k : (k < K)%nat -> fin (cs k) -> val (cs (S k)) = rnd (val (cs k) + val (nth k prod fnan)) /\
     (fin (fadd (cs k) (nth k prod fnan)) -> val (fadd (cs k) (nth k prod fnan)) = rnd (val (cs k) + val (nth k prod fnan)) ->
        fin (cs (S k)) /\ val (cs (S k)) = val (fadd (cs k) (nth k prod fnan))) \/ (1 <= k)%nat /\ cs (S k) = fadd (cs k) (nth k prod fnan).
  Proof.
    intros Hk Fc. destruct k as [|k].
    - left. assert (E : cs 1 = nth 0 prod fnan).
      { unfold cs. cbn [nth]. pose proof prod_length as PL. destruct prod as [|p ps]; [cbn in PL; lia|reflexivity]. }
      assert (Z : val (cs 0) + val (nth 0 prod fnan) = val (nth 0 prod fnan)) by (rewrite cs_0; unfold fzero; cbn [B2R]; ring).
      rewrite Z, E, rnd_val. split; [reflexivity|]. intros _ V. split; [|lra]. apply prod_ok. exact Hk.
    - right. split; [lia|]. unfold cs. cbn [nth]. apply cumsum_nth_S. rewrite prod_length. exact Hk.
  Qed.

  Lemma cs_ok k : (k <= K)%nat -> fin (cs k) /\ Rabs (Sr k) <= Ar k /\ Rabs (val (cs k) - Sr k) <= gam (k + 2) * Ar k + noise k.
  Proof.
    induction k as [|k IH]; intros Hk.
    - rewrite cs_0. cbn [sumR]. rewrite noise_0. split; [reflexivity|]. unfold fzero. cbn [B2R]. rewrite Rminus_0_r, Rabs_R0. split; lra.
    - destruct (IH ltac:(lia)) as (Fc & SA & E). destruct (prod_ok k ltac:(lia)) as [Fp Vp].
      destruct (step_err (cs k) (nth k prod fnan) (nth k e fnan) (nth (S k) l fnan) (nth k l fnan) k (Sr k) (Ar k) Fc Fp Vp (width_pos k ltac:(lia)) ltac:(lia) SA E (abs_part k ltac:(lia))) as (F' & V' & SA' & E').
      cbn [sumR]. destruct (cs_step k ltac:(lia) Fc) as [[_ H]|[_ H]].
      + destruct (H F' V') as [F1 V1]. rewrite V1. auto.
      + rewrite H. auto.
  Qed.
  Lemma cs_val k : (k < K)%nat -> val (cs (S k)) = rnd (val (cs k) + rnd (ev k * rnd (lv (S k) - lv k))).
  Proof.
    intros Hk. destruct (cs_ok k ltac:(lia)) as (Fc & SA & E). destruct (prod_ok k Hk) as [Fp Vp].
    destruct (step_err (cs k) (nth k prod fnan) (nth k e fnan) (nth (S k) l fnan) (nth k l fnan) k (Sr k) (Ar k) Fc Fp Vp (width_pos k Hk) ltac:(lia) SA E (abs_part k Hk)) as (F' & V' & _).
    rewrite <- Vp. destruct (cs_step k Hk Fc) as [[H _]|[_ H]]; [exact H|]. now rewrite H.
  Qed.

  (** ** the function evaluated at a position *)
  Definition clip0 (d : b64) : b64 := if Bltb d fzero then fzero else d.
  Definition acc1 (x : b64) : b64 :=
    let j := digitize64_1 l x in
    fadd (nth j (fzero :: fzero :: cumsum64 prod) fnan)
         (fmul (clip0 (fsub x (nth j (nth 0 l fnan :: init_ l ++ [BIGM64]) fnan)))
               (nth j (fzero :: e ++ [nth (K - 1) e fnan]) fnan)).

  Lemma acc_eq xs : compute_accumulated_effect64 xs l e (diffs64 l) false = Ok (map acc1 xs).
  Proof.
    unfold compute_accumulated_effect64, digitize64. rewrite mono_incr64_sorted by assumption. cbn [bind].
    unfold vzip. rewrite diffs64_length, Le, Nat.eqb_refl. cbn [bind].
    assert (J : forall j, In j (map (digitize64_1 l) xs) -> (j <= length l)%nat).
    { intros j H. apply in_map_iff in H as (x & <- & _). apply digitize64_le. }
    rewrite take_nth. 2:{ intros j H. apply J in H. cbn [length]. rewrite cumsum_length, prod_length. lia. }
    cbn [bind]. assert (L0 : getn l 0 = Ok (nth 0 l fnan)) by (unfold getn; rewrite (nth_error_nth' l fnan) by lia; reflexivity).
    rewrite L0. cbn [bind]. rewrite take_nth. 2:{ intros j H. apply J in H. unfold init_. cbn [length]. rewrite app_length, removelast_len. cbn [length]. lia. }
    cbn [bind]. rewrite getz_last by lia. cbn [bind]. rewrite take_nth. 2:{ intros j H. apply J in H. cbn [length]. rewrite app_length. cbn [length]. lia. }
    cbn [bind]. f_equal. clear J. induction xs as [|x xs IH]; [reflexivity|]. cbn [map combine fst snd]. f_equal. exact IH.
  Qed.

  (** the three cases *)
  Lemma acc1_below x : fin x -> Rabs (val x) <= bpow radix2 1021 -> val x < lv 0 -> val (acc1 x) = 0 /\ fin (acc1 x).
  Proof.
    intros Fx Bx H. assert (J : digitize64_1 l x = 0%nat).
    { pose proof (digitize64_iff l x Fl So Fx 0 ltac:(lia)) as I. destruct (digitize64_1 l x); [reflexivity|]. exfalso. assert (0 < S n)%nat as H0 by lia. apply I in H0. lra. }
    unfold acc1. rewrite J. cbn [nth]. set (d := clip0 _).
    assert (D : fin d).
    { unfold d, clip0. destruct (Bltb _ fzero); [reflexivity|]. apply fsub_val; [exact Fx|apply fin_l; lia|]. pose proof (Bl 0 ltac:(lia)) as B0.
      apply Rabs_le_inv in B0. apply Rabs_le_inv in Bx. rewrite bpow1023. apply Rabs_le. pose proof bpow1021_big. lra. }
    destruct (fmul_val d fzero D eq_refl) as [V F]. { unfold fzero. cbn [B2R]. rewrite Rmult_0_r, Rabs_R0. apply bpow_ge_0. }
    assert (Z : val (fmul d fzero) = 0) by (rewrite V; unfold fzero; cbn [B2R]; rewrite Rmult_0_r; apply rnd_0).
    destruct (fadd_val fzero (fmul d fzero) eq_refl F) as [V' F']. { rewrite Z. unfold fzero. cbn [B2R]. rewrite Rplus_0_r, Rabs_R0. apply bpow_ge_0. }
    split; [|exact F']. rewrite V', Z. unfold fzero. cbn [B2R]. rewrite Rplus_0_r. apply rnd_0.
  Qed.

  Lemma acc1_inside x k : fin x -> (k < K)%nat -> lv k <= val x < lv (S k) ->
    fin (acc1 x) /\ val (acc1 x) = rnd (val (cs k) + rnd (ev k * rnd (val x - lv k))) /\
    Rabs (val (acc1 x) - (Sr k + ev k * (val x - lv k))) <= gam (k + 3) * (Ar k + Rabs (ev k) * (val x - lv k)) + noise (S k).
  Proof.
    intros Fx Hk H. assert (J : digitize64_1 l x = S k).
    { pose proof (digitize64_iff l x Fl So Fx k ltac:(lia)) as I1. pose proof (digitize64_iff l x Fl So Fx (S k) ltac:(lia)) as I2.
      assert (k < digitize64_1 l x)%nat by (apply I1; lra). assert (~ (S k < digitize64_1 l x)%nat) by (rewrite I2; lra). lia. }
    unfold acc1. rewrite J. change (nth (S k) (fzero :: fzero :: cumsum64 prod) fnan) with (cs k).
    assert (E1 : nth (S k) (nth 0 l fnan :: init_ l ++ [BIGM64]) fnan = nth k l fnan).
    { cbn [nth]. rewrite app_nth1 by (unfold init_; rewrite removelast_len; lia). apply removelast_nth. lia. }
    assert (E2 : nth (S k) (fzero :: e ++ [nth (K - 1) e fnan]) fnan = nth k e fnan) by (cbn [nth]; apply app_nth1; exact Hk).
    rewrite E1, E2. destruct (delta_ok k x Hk Fx ltac:(lra)) as [D1 D2]. destruct (part_ok k x Hk Fx ltac:(lra)) as [P1 P2].
    assert (C : clip0 (fsub x (nth k l fnan)) = fsub x (nth k l fnan)).
    { unfold clip0. destruct (Bltb _ fzero) eqn:E; [|reflexivity]. apply flt_val in E; [|exact D2|reflexivity]. rewrite D1 in E. unfold fzero in E. cbn [B2R] in E. pose proof (rnd_nonneg (val x - lv k) ltac:(lra)). lra. }
    rewrite C. destruct (fmul_val (fsub x (nth k l fnan)) (nth k e fnan) D2 (fin_e k Hk)) as [V F]. { rewrite D1, Rmult_comm. exact P1. }
    rewrite D1, Rmult_comm in V. destruct (cs_ok k ltac:(lia)) as (Fc & SA & E).
    destruct (step_err (cs k) _ (nth k e fnan) x (nth k l fnan) k (Sr k) (Ar k) Fc F V ltac:(lra) ltac:(lia) SA E P2) as (F' & V' & _ & E').
    split; [exact F'|]. split; [rewrite V', V; reflexivity|]. replace (k + 3)%nat with (S k + 2)%nat by lia. exact E'.
  Qed.

  Lemma BIGM_val : val BIGM64 = 100000000 /\ fin BIGM64.
  Proof. apply fofZ_val. lia. Qed.

  Lemma acc1_above x : fin x -> Rabs (val x) <= bpow radix2 1021 -> lv K <= val x -> val x <= 100000000 -> val (acc1 x) = val (cs K) /\ fin (acc1 x).
  Proof.
    intros Fx Bx H HB. assert (J : digitize64_1 l x = S K).
    { rewrite (digitize64_top l x Fl So Fx); [lia|lia|]. replace (length l - 1)%nat with K by lia. exact H. }
    unfold acc1. rewrite J. change (nth (S K) (fzero :: fzero :: cumsum64 prod) fnan) with (cs K).
    assert (E1 : nth (S K) (nth 0 l fnan :: init_ l ++ [BIGM64]) fnan = BIGM64).
    { cbn [nth]. replace K with (length (init_ l) + 0)%nat by (unfold init_; rewrite removelast_len; lia). rewrite nth_app_b. reflexivity. }
    assert (E2 : nth (S K) (fzero :: e ++ [nth (K - 1) e fnan]) fnan = nth (K - 1) e fnan).
    { cbn [nth]. replace K with (K + 0)%nat at 1 by lia. now rewrite nth_app_b. }
    rewrite E1, E2. destruct BIGM_val as [BV BF].
    destruct (fsub_val x BIGM64 Fx BF) as [DV DF].
    { rewrite BV. apply Rabs_le_inv in Bx. rewrite bpow1023. assert (100000000 <= bpow radix2 1021). { apply Rle_trans with (bpow radix2 27); [unfold bpow; cbn; lra|]. apply bpow_le. lia. } apply Rabs_le. lra. }
    assert (C : val (clip0 (fsub x BIGM64)) = 0 /\ fin (clip0 (fsub x BIGM64))).
    { unfold clip0. destruct (Bltb _ fzero) eqn:E; [split; reflexivity|]. split; [|exact DF].
      assert (N : ~ val (fsub x BIGM64) < 0). { intros N. assert (Bltb (fsub x BIGM64) fzero = true) by (apply flt_val; [exact DF|reflexivity|exact N]). congruence. }
      apply Rle_antisym; [|lra]. rewrite DV, BV. rewrite <- rnd_0. apply rnd_le. lra. }
    destruct C as [CV CF]. destruct (fmul_val (clip0 (fsub x BIGM64)) (nth (K - 1) e fnan) CF (fin_e (K - 1) ltac:(lia))) as [V F]. { rewrite CV, Rmult_0_l, Rabs_R0. apply bpow_ge_0. }
    rewrite CV, Rmult_0_l, rnd_0 in V. destruct (cs_ok K ltac:(lia)) as (Fc & SA & E).
    destruct (fadd_val (cs K) _ Fc F) as [V' F'].
    { rewrite V, Rplus_0_r. pose proof (gam_1 (K + 2) ltac:(lia)) as G1. pose proof (noise_1 K ltac:(lia)). pose proof (gam_pos (K + 2)). pose proof bpow1021_big.
      replace (val (cs K)) with ((val (cs K) - Sr K) + Sr K) by ring. eapply Rle_trans; [apply Rabs_triang|]. rewrite bpow1023.
      assert (0 <= Ar K) by (pose proof (Rabs_pos (Sr K)); lra).
      assert (gam (K + 2) * Ar K <= 1 * Ar K) by (apply Rmult_le_compat_r; lra). lra. }
    split; [|exact F']. rewrite V', V, Rplus_0_r. apply rnd_val.
  Qed.

  (** ** the specification: the integral of the step function *)
  Definition covered (x : R) (i : nat) : R := Rmax 0 (Rmin x (lv (S i)) - lv i).
  Lemma covered_full x i : (i < K)%nat -> lv (S i) <= x -> covered x i = lv (S i) - lv i.
  Proof. intros Hi H. pose proof (width_pos i Hi). unfold covered. rewrite Rmin_right by lra. apply Rmax_right. lra. Qed.
  Lemma covered_none x i : (i < K)%nat -> x <= lv i -> covered x i = 0.
  Proof. intros Hi H. unfold covered. apply Rmax_left. pose proof (Rmin_l x (lv (S i))). lra. Qed.
  Lemma covered_part x i : (i < K)%nat -> lv i <= x <= lv (S i) -> covered x i = x - lv i.
  Proof. intros Hi H. unfold covered. rewrite Rmin_left by lra. apply Rmax_right. lra. Qed.
  Lemma covered_sum (g : nat -> R) x k : (k < K)%nat -> lv k <= x <= lv (S k) ->
    sumR K (fun i => g i * covered x i) = sumR k (fun i => g i * (lv (S i) - lv i)) + g k * (x - lv k).
  Proof.
    intros Hk H.
    assert (T : forall m, (k < m)%nat -> (m <= K)%nat -> sumR m (fun i => g i * covered x i) = sumR k (fun i => g i * (lv (S i) - lv i)) + g k * (x - lv k)).
    { induction m as [|m IH]; intros H1 H2; [lia|]. cbn [sumR]. destruct (Nat.eq_dec m k) as [->|N].
      - f_equal; [|rewrite covered_part by (auto; lra); reflexivity]. apply sumR_ext. intros i Hi. rewrite covered_full; [reflexivity|lia|].
        pose proof (sorted_le l (S i) k So ltac:(lia) ltac:(lia)). lra.
      - rewrite IH by lia. rewrite covered_none; [ring|lia|]. pose proof (sorted_le l (S k) m So ltac:(lia) ltac:(lia)). lra. }
    apply T; [exact Hk|lia].
  Qed.

  Lemma inside_bin x : fin x -> lv 0 <= val x < lv K -> exists k, (k < K)%nat /\ lv k <= val x < lv (S k).
  Proof.
    intros Fx H. destruct (digitize64_inside l x Fl So Fx L2) as (k & _ & Hk & B). { replace (length l - 1)%nat with K by lia. exact H. }
    exists k. split; [lia|exact B].
  Qed.

  Lemma acc1_error x : fin x -> Rabs (val x) <= bpow radix2 1021 -> val x < lv K \/ val x <= 100000000 ->
    fin (acc1 x) /\ Rabs (val (acc1 x) - sumR K (fun i => ev i * covered (val x) i))
      <= gam (K + 2) * sumR K (fun i => Rabs (ev i) * covered (val x) i) + IZR (Z.of_nat K) * bpow radix2 (-1074).
  Proof.
    intros Fx Bx HX. pose proof (noise_bound K ltac:(lia)) as NB. pose proof (noise_pos K) as NP.
    destruct (Rlt_dec (val x) (lv 0)) as [H0|H0].
    - destruct (acc1_below x Fx Bx H0) as [V F]. split; [exact F|]. rewrite V.
      assert (Z : forall g : nat -> R, sumR K (fun i => g i * covered (val x) i) = 0).
      { intros g. rewrite (sumR_ext K _ (fun _ => 0)). { clear. induction K as [|n IH]; cbn [sumR]; lra. }
        intros i Hi. rewrite covered_none; [ring|exact Hi|]. pose proof (sorted_le l 0 i So ltac:(lia) ltac:(lia)). lra. }
      rewrite (Z (fun i => ev i)), (Z (fun i => Rabs (ev i))). rewrite Rminus_0_r, Rabs_R0. lra.
    - destruct (Rlt_dec (val x) (lv K)) as [HK1|HK1].
      + destruct (inside_bin x Fx ltac:(lra)) as (k & Hk & B). destruct (acc1_inside x k Fx Hk B) as (F & _ & E). split; [exact F|].
        rewrite (covered_sum (fun i => ev i) (val x) k Hk ltac:(lra)), (covered_sum (fun i => Rabs (ev i)) (val x) k Hk ltac:(lra)).
        pose proof (gam_le (k + 3) (K + 2) ltac:(lia)) as GL. pose proof (noise_mono (S k) K ltac:(lia)) as NM.
        eapply Rle_trans; [exact E|]. apply Rplus_le_compat; [|lra]. apply Rmult_le_compat_r; [|exact GL].
        apply Rplus_le_le_0_compat; [apply sumR_pos; intros i Hi; apply Rmult_le_pos; [apply Rabs_pos|apply width_pos; lia]|apply Rmult_le_pos; [apply Rabs_pos|lra]].
      + destruct (acc1_above x Fx Bx ltac:(lra) ltac:(lra)) as [V F]. split; [exact F|]. rewrite V.
        assert (Z : forall g : nat -> R, sumR K (fun i => g i * covered (val x) i) = sumR K (fun i => g i * (lv (S i) - lv i))).
        { intros g. apply sumR_ext. intros i Hi. rewrite covered_full; [reflexivity|exact Hi|]. pose proof (sorted_le l (S i) K So ltac:(lia) ltac:(lia)). lra. }
        rewrite (Z (fun i => ev i)), (Z (fun i => Rabs (ev i))). destruct (cs_ok K ltac:(lia)) as (_ & _ & E). lra.
  Qed.

  (** ** monotonicity *)
  Context (Pe : forall i, (i < K)%nat -> 0 <= ev i).
  Lemma cs_mono k : (k < K)%nat -> val (cs k) <= val (cs (S k)).
  Proof.
    intros Hk. rewrite cs_val by exact Hk. rewrite <- (rnd_val (cs k)) at 1. apply rnd_le.
    pose proof (rnd_nonneg (ev k * rnd (lv (S k) - lv k))) as P. assert (0 <= ev k * rnd (lv (S k) - lv k)). { apply Rmult_le_pos; [now apply Pe|apply rnd_nonneg, width_pos, Hk]. }
    specialize (P H). lra.
  Qed.
  Lemma cs_le k m : (k <= m)%nat -> (m <= K)%nat -> val (cs k) <= val (cs m).
  Proof. induction 1 as [|m L IH]; intros H; [lra|]. eapply Rle_trans; [apply IH; lia|]. apply cs_mono. lia. Qed.
  Lemma inside_between x k : fin x -> (k < K)%nat -> lv k <= val x < lv (S k) -> val (cs k) <= val (acc1 x) <= val (cs (S k)).
  Proof.
    intros Fx Hk H. destruct (acc1_inside x k Fx Hk H) as (_ & V & _). rewrite V, cs_val by exact Hk. split.
    - rewrite <- (rnd_val (cs k)) at 1. apply rnd_le. assert (0 <= rnd (ev k * rnd (val x - lv k))). { apply rnd_nonneg, Rmult_le_pos; [now apply Pe|apply rnd_nonneg; lra]. } lra.
    - apply rnd_le, Rplus_le_compat_l, rnd_le, Rmult_le_compat_l; [now apply Pe|]. apply rnd_le. lra.
  Qed.
  Lemma acc1_mono x y : fin x -> fin y -> Rabs (val x) <= bpow radix2 1021 -> Rabs (val y) <= bpow radix2 1021 ->
    val x <= val y -> val y < lv K \/ val y <= 100000000 -> val (acc1 x) <= val (acc1 y).
  Proof.
    intros Fx Fy Bx By Hxy HY.
    assert (C0 : val (cs 0) = 0) by reflexivity.
    destruct (Rlt_dec (val x) (lv 0)) as [X0|X0].
    - rewrite (proj1 (acc1_below x Fx Bx X0)). destruct (Rlt_dec (val y) (lv 0)) as [Y0|Y0]; [rewrite (proj1 (acc1_below y Fy By Y0)); lra|].
      rewrite <- C0. destruct (Rlt_dec (val y) (lv K)) as [YK|YK].
      + destruct (inside_bin y Fy ltac:(lra)) as (k & Hk & B). pose proof (inside_between y k Fy Hk B). pose proof (cs_le 0 k ltac:(lia) ltac:(lia)). lra.
      + rewrite (proj1 (acc1_above y Fy By ltac:(lra) ltac:(lra))). apply cs_le; lia.
    - destruct (Rlt_dec (val x) (lv K)) as [XK|XK].
      + destruct (inside_bin x Fx ltac:(lra)) as (k & Hk & B). pose proof (inside_between x k Fx Hk B) as IX. destruct (Rlt_dec (val y) (lv K)) as [YK|YK].
        * destruct (inside_bin y Fy ltac:(lra)) as (m & Hm & Bm). pose proof (inside_between y m Fy Hm Bm) as IY.
          destruct (Nat.lt_trichotomy k m) as [H|[->|H]].
          -- pose proof (cs_le (S k) m ltac:(lia) ltac:(lia)). lra.
          -- rewrite (proj1 (proj2 (acc1_inside x m Fx Hm B))), (proj1 (proj2 (acc1_inside y m Fy Hm Bm))).
             apply rnd_le, Rplus_le_compat_l, rnd_le, Rmult_le_compat_l; [now apply Pe|]. apply rnd_le. lra.
          -- pose proof (sorted_le l (S m) k So ltac:(lia) ltac:(lia)). lra.
        * rewrite (proj1 (acc1_above y Fy By ltac:(lra) ltac:(lra))). pose proof (cs_le (S k) K ltac:(lia) ltac:(lia)). lra.
      + rewrite (proj1 (acc1_above x Fx Bx ltac:(lra) ltac:(lra))), (proj1 (acc1_above y Fy By ltac:(lra) ltac:(lra))). lra.
  Qed.
End Acc.
