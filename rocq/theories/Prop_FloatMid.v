(** Prop_FloatMid: the positions over which "zero_integral" averages, in binary64 (C103). *)
From Coq Require Import Reals.
From Flocq Require Import Core.
From Flocq Require Import IEEE754.BinarySingleNaN.
From Verif Require Import Base Numpy NumpyFacts FloatModel FloatFacts FloatGrid FloatBins FloatProofs FloatMean FloatAcc Prop_Float.
From Coq Require Import Lra.
Open Scope R_scope.

Lemma half_val : val half64 = / 2 /\ fin half64.
Proof.
  assert (E : Beqb half64 (@B754_finite 53 1024 false 4503599627370496 (-53) eq_refl) = true) by (vm_compute; reflexivity).
  assert (F : fin half64) by (unfold fin; vm_compute; reflexivity). split; [|exact F].
  rewrite Beqb_correct in E by (exact F || reflexivity). match type of E with Req_bool ?u ?v = true => destruct (Req_bool_spec u v) as [H|]; [transitivity v; [exact H|]|discriminate E] end.
  cbn [B2R]. unfold F2R. cbn. lra.
Qed.
Lemma dbl_fmt (x : b64) : Rabs (val x) <= bpow radix2 1021 -> rnd (2 * val x) = 2 * val x.
Proof.
  intros _. apply round_generic; [typeclasses eauto|]. replace (2 * val x) with (val x * bpow radix2 1) by (change (bpow radix2 1) with 2; ring).
  change fexp64 with (FLT_exp (-1074) 53). pose proof (val_fmt x) as G. change fexp64 with (FLT_exp (-1074) 53) in G. apply FLT_format_generic in G; [|reflexivity]. destruct G as [[m e] E1 E2 E3]. cbn [Fnum Fexp] in *.
  apply generic_format_FLT. exists (Float radix2 m (e + 1)); cbn [Fnum Fexp]; [|exact E2|lia]. rewrite E1. unfold F2R. cbn [Fnum Fexp]. rewrite bpow_plus. ring.
Qed.

(** The K = n - 1 positions mean_1d_linspace uses for n = K + 1 grid points: each lies between its two grid points and within M 2^-48 of
    lo + (i + 1/2) (hi - lo) / K, so they are where the definition of the mean over [lo, hi] wants them. *)
Theorem C103_midpoints lo hi K M :
  fin lo -> fin hi -> Rabs (val lo) <= M -> Rabs (val hi) <= M -> M <= bpow radix2 1020 ->
  bpow radix2 (-900) <= val hi - val lo -> (1 <= K)%nat -> (Z.of_nat K <= 2 ^ 48)%Z ->
  let ms := midpoints64 lo hi (K + 1) in
  length ms = K /\ forall i, (i < K)%nat -> fin (nth i ms fnan) /\ val lo <= val (nth i ms fnan) <= val hi /\
    Rabs (val (nth i ms fnan) - (val lo + (IZR (Z.of_nat i) + / 2) / IZR (Z.of_nat K) * (val hi - val lo))) <= M * bpow radix2 (-48).
Proof.
  intros Flo Fhi B1 B2 HM HD HK HK2 ms. assert (HM' : M <= bpow radix2 1021) by (eapply Rle_trans; [exact HM|apply bpow_le; lia]).
  destruct (C100_limits lo hi K M Flo Fhi B1 B2 HM' HD HK HK2) as (L & F & E0 & EK & So & Cl & _). set (l := linspace64 lo hi (K + 1)) in *.
  assert (Hms : forall i, (i < K)%nat -> nth i ms fnan = fmul half64 (fadd (nth i l fnan) (nth (S i) l fnan))).
  { intros i Hi. unfold ms, midpoints64. fold l. set (h := fun p : b64 * b64 => fmul half64 (fadd (fst p) (snd p))). destruct l as [|a t] eqn:El; [cbn in L; lia|].
    assert (Li : length (init_ (a :: t)) = K). { unfold init_. rewrite removelast_firstn_len, firstn_length. cbn [length] in *. lia. }
    rewrite (nth_indep _ fnan (h (fnan, fnan))) by (rewrite map_length, combine_length, Li; cbn [tl length] in *; lia).
    rewrite (map_nth h), combine_nth by (rewrite Li; cbn [tl length] in *; lia). unfold h. cbn [fst snd tl nth]. f_equal. f_equal.
    unfold init_. rewrite removelast_firstn_len. rewrite nth_firstn_ by (cbn [length] in *; lia). reflexivity. }
  split. { unfold ms, midpoints64. fold l. rewrite map_length, combine_length. destruct l as [|a t]; [cbn in L; lia|]. unfold init_. rewrite removelast_firstn_len, firstn_length. cbn [tl length] in *. lia. }
  assert (Sl : sorted64 l) by (intros i Hi; apply So; lia).
  intros i Hi. rewrite (Hms i Hi). pose proof (Cl i ltac:(lia)) as Ca. pose proof (Cl (S i) ltac:(lia)) as Cb. pose proof (So i Hi) as Hab.
  assert (Fa : fin (nth i l fnan)) by (apply fins_nth; auto; lia). assert (Fb : fin (nth (S i) l fnan)) by (apply fins_nth; auto; lia).
  assert (La : val lo <= val (nth i l fnan)) by (rewrite <- E0; apply sorted_le; auto; lia). assert (Lb : val (nth (S i) l fnan) <= val hi) by (rewrite <- EK; apply sorted_le; auto; lia).
  set (a := nth i l fnan) in *. set (b := nth (S i) l fnan) in *. destruct half_val as [Vh Fh].
  assert (Ma : Rabs (val a) <= M) by (apply Rabs_le; apply Rabs_le_inv in B1, B2; lra). assert (Mb : Rabs (val b) <= M) by (apply Rabs_le; apply Rabs_le_inv in B1, B2; lra).
  assert (P21 : bpow radix2 1021 = 2 * bpow radix2 1020) by (change 1021%Z with (1 + 1020)%Z; rewrite bpow_plus; reflexivity).
  assert (P23 : bpow radix2 1021 <= bpow radix2 1023) by (apply bpow_le; lia).
  destruct (fadd_val a b Fa Fb) as [Vs Fs]. { eapply Rle_trans; [apply Rabs_triang|]. lra. }
  assert (S1 : 2 * val a <= val (fadd a b) <= 2 * val b).
  { rewrite Vs, <- (dbl_fmt a), <- (dbl_fmt b) by lra. split; apply rnd_le; lra. }
  destruct (fmul_val half64 (fadd a b) Fh Fs) as [Vm Fm]. { rewrite Vh. apply Rabs_le_inv in Ma, Mb. apply Rabs_le. pose proof (bpow_gt_0 radix2 1020). lra. }
  assert (S2 : val a <= val (fmul half64 (fadd a b)) <= val b). { rewrite Vm, Vh. split; [apply Rle_trans with (rnd (val a)); [rewrite rnd_val; apply Rle_refl|]|apply Rle_trans with (rnd (val b)); [|rewrite rnd_val; apply Rle_refl]]; apply rnd_le; lra. }
  split; [exact Fm|]. split; [lra|].
  destruct (rnd_plus_rel a b) as (e & Ae & Ee). pose proof (rnd_err (val half64 * val (fadd a b))) as Er. rewrite <- Vm in Er. set (v := val (fmul half64 (fadd a b))) in *. set (s := val (fadd a b)) in *.
  rewrite Vh in Er. rewrite Ee in Vs. set (w := (val a + val b) / 2). assert (Wm : Rabs w <= M) by (unfold w; apply Rabs_le; apply Rabs_le_inv in Ma, Mb; lra).
  assert (Sw : / 2 * s = w + w * e) by (rewrite Vs; unfold w; field). rewrite Sw in Er.
  assert (We : Rabs (w * e) <= M * u53) by (rewrite Rabs_mult; apply Rmult_le_compat; try apply Rabs_pos; assumption). pose proof u53_pos. pose proof u53_small.
  assert (M0 : bpow radix2 (-901) <= M). { assert (bpow radix2 (-900) = 2 * bpow radix2 (-901)) by (change (-900)%Z with (1 + -901)%Z; rewrite bpow_plus; reflexivity). apply Rabs_le_inv in B1, B2. lra. }
  pose proof (bpow_gt_0 radix2 (-901)).
  assert (Et : bpow radix2 (-1075) <= M * u53). { apply Rle_trans with (bpow radix2 (-901) * u53); [change u53 with (bpow radix2 (-53)); rewrite <- (bpow_plus radix2 (-901) (-53)); apply bpow_le; lia|]. apply Rmult_le_compat_r; lra. }
  assert (Mu : 0 < M * u53) by (apply Rmult_lt_0_compat; lra). assert (Muu : M * u53 <= M) by (rewrite <- (Rmult_1_r M) at 2; apply Rmult_le_compat_l; lra).
  assert (Ww : Rabs (w + w * e) <= 2 * M) by (eapply Rle_trans; [apply Rabs_triang|]; lra).
  assert (Er' : Rabs (v - w) <= 4 * (M * u53)).
  { replace (v - w) with ((v - (w + w * e)) + w * e) by ring. eapply Rle_trans; [apply Rabs_triang|]. assert (u53 * Rabs (w + w * e) <= u53 * (2 * M)) by (apply Rmult_le_compat_l; lra). lra. }
  assert (P48 : bpow radix2 (-48) = 32 * u53) by (change (-48)%Z with (5 + -53)%Z; rewrite bpow_plus; reflexivity). assert (P49 : bpow radix2 (-49) = 16 * u53) by (change (-49)%Z with (4 + -53)%Z; rewrite bpow_plus; reflexivity).
  assert (KR : 1 <= IZR (Z.of_nat K)) by (apply IZR_le; lia). rewrite Nat2Z.inj_succ, succ_IZR in Cb. set (x := IZR (Z.of_nat i)) in *. set (kR := IZR (Z.of_nat K)) in *. set (D := val hi - val lo) in *.
  replace ((x + / 2) / kR * D) with ((x / kR * D + (x + 1) / kR * D) / 2) by (field; lra). rewrite P49 in Ca, Cb. rewrite P48. apply Rabs_le_inv in Ca, Cb, Er'. apply Rabs_le. unfold w in *. split; lra.
Qed.
Print Assumptions C103_midpoints.

(** midpoints of [0, 16] with five grid points *)
Example midpoints_16 : forallb (fun p => Beqb (fst p) (snd p)) (combine (midpoints64 (fofZ 0) (fofZ 16) 5) (map fofZ [2; 6; 10; 14]%Z)) = true /\ length (midpoints64 (fofZ 0) (fofZ 16) 5) = 4%nat.
Proof. split; vm_compute; reflexivity. Qed.
