(** FloatPDPStd: the standard deviation in binary64; zero, order and sign of means and standard deviations. *)
From Coq Require Import Reals Permutation.
From Flocq Require Import Core.
From Flocq Require Import IEEE754.BinarySingleNaN Relative.
From Verif Require Import Base Numpy NumpyFacts FloatModel FloatFacts FloatGrid FloatBins FloatProofs FloatMean FloatAcc FloatVar FloatPDP FloatPDPSpec FloatPDPMean.
From Coq Require Import Lra.
Open Scope R_scope.

Lemma dev2_Ravg m l : dev2 m l / INR (length l) = Ravg (map (fun v => (v - m) * (v - m)) (map val l)).
Proof.
  unfold Ravg. rewrite !map_length, map_map. f_equal. unfold dev2, Rsum. induction l as [|e l IH]; cbn [fold_right map]; [reflexivity|]. now rewrite IH.
Qed.

Lemma fsqrt_val x : fin x -> 0 <= val x -> val (fsqrt x) = rnd (sqrt (val x)) /\ fin (fsqrt x).
Proof.
  intros F P. destruct (Bsqrt_correct 53 1024 _ _ mode_NE x) as (V & K & _). split; [exact V|]. unfold fin, fsqrt. rewrite K.
  destruct x as [s|s| |s m e W]; try reflexivity; try discriminate F. destruct s; [|reflexivity]. exfalso. cbn in P. unfold F2R in P. cbn in P.
  pose proof (bpow_gt_0 radix2 e). assert (IZR (Z.neg m) < 0) by (apply IZR_lt; lia). assert (IZR (Z.neg m) * bpow radix2 e < 0 * bpow radix2 e) by (apply Rmult_lt_compat_r; lra). lra.
Qed.

Definition tiny : R := bpow radix2 (-536).
Lemma tiny_sq : tiny * tiny = 8 * eta.
Proof. unfold tiny. rewrite <- bpow_plus. change (-536 + -536)%Z with (3 + -1075)%Z. rewrite bpow_plus. change (bpow radix2 3) with 8. reflexivity. Qed.

(** sqrt of a number close to r, where r is S^2 plus at most delta^2 *)
Lemma sqrt_near v r S g delta : 0 <= S -> 0 <= delta -> 0 <= g <= / 2 -> 0 <= v -> S * S <= r <= S * S + delta * delta -> Rabs (v - r) <= g * r + 3 * eta ->
  (1 - g) * S - tiny <= sqrt v <= (1 + g) * (S + delta) + tiny.
Proof.
  intros S0 D0 G V0 [R1 R2] E. apply Rabs_le_inv in E. pose proof (bpow_gt_0 radix2 (-1075)) as E0. pose proof (bpow_gt_0 radix2 (-536)) as T0. fold tiny in T0. pose proof tiny_sq as TS.
  assert (R0 : 0 <= r) by (pose proof (Rle_0_sqr S) as Q; unfold Rsqr in Q; lra). split.
  - destruct (Rle_or_lt ((1 - g) * S - tiny) 0) as [L|L]; [pose proof (sqrt_pos v); lra|].
    rewrite <- (sqrt_square ((1 - g) * S - tiny)) by lra. apply sqrt_le_1_alt.
    assert (X : (1 - g) * (1 - g) * (S * S) <= (1 - g) * (S * S)). { apply Rmult_le_compat_r; [pose proof (Rle_0_sqr S) as Q; unfold Rsqr in Q; exact Q|]. nra. }
    assert (Y : tiny * tiny <= tiny * ((1 - g) * S)) by (apply Rmult_le_compat_l; lra).
    assert (Z : (1 - g) * (S * S) <= (1 - g) * r) by (apply Rmult_le_compat_l; lra). nra.
  - rewrite <- (sqrt_square ((1 + g) * (S + delta) + tiny)).
    2:{ assert (0 <= (1 + g) * (S + delta)) by (apply Rmult_le_pos; lra). lra. }
    apply sqrt_le_1_alt. apply Rle_trans with ((1 + g) * r + 3 * eta); [lra|].
    assert (A : (1 + g) * r <= (1 + g) * ((S + delta) * (S + delta))). { apply Rmult_le_compat_l; [lra|]. assert (0 <= S * delta) by (apply Rmult_le_pos; lra). lra. }
    assert (Q0 : 0 <= (S + delta) * (S + delta)) by (pose proof (Rle_0_sqr (S + delta)) as Q; exact Q).
    assert (B : (1 + g) * ((S + delta) * (S + delta)) <= ((1 + g) * (1 + g)) * ((S + delta) * (S + delta))) by (apply Rmult_le_compat_r; [exact Q0|nra]).
    assert (C : 0 <= (1 + g) * (S + delta) * tiny) by (repeat apply Rmult_le_pos; lra). nra.
Qed.

Lemma gam_add a b : gam (a + b) = gam a * (1 + gam b) + gam b. Proof. unfold gam. rewrite pow_add. ring. Qed.

Lemma std64_close o l A : complete o -> small_len l -> fins l -> 0 <= A <= bpow radix2 400 -> (forall x, In x l -> Rabs (val x) <= A) ->
  let d := S (steps (o (length l))) in
  fin (std64 o l) /\ 0 <= val (std64 o l) /\
  Rabs (val (std64 o l) - Rsd (map val l)) <= IZR (5 * Z.of_nat d + 9) * u53 * A + bpow radix2 (-534).
Proof.
  intros C SL F HA B d. pose proof (small_len_pos l SL) as L1. destruct SL as [N L2]. pose proof (complete_steps o (length l) C L1) as ST.
  assert (HA' : 0 <= A <= bpow radix2 900) by (split; [lra|]; eapply Rle_trans; [apply HA|apply bpow_le; lia]).
  destruct (mean64_close o l A C (conj N L2) F HA' B) as (_ & Fm & _ & Em & EA). fold d in Em.
  set (m := mean64 o l) in *. set (mu := Ravg (map val l)) in *.
  pose proof u53_pos as U0. pose proof u53_small as U1. pose proof (bpow_gt_0 radix2 (-1075)) as E0.
  assert (Dz : (Z.of_nat d <= 2 ^ 40)%Z) by (unfold d; lia). assert (D1 : 1 <= IZR (Z.of_nat d)) by (apply IZR_le; unfold d; lia).
  pose proof (gam_small d ltac:(lia)) as GD. pose proof (gam_pos d) as GD0. pose proof (gam_1 d ltac:(lia)) as GD1.
  assert (DU : IZR (Z.of_nat d) * u53 <= bpow radix2 (-13)).
  { apply Rle_trans with (bpow radix2 40 * u53); [apply Rmult_le_compat_r; [lra|]; change (bpow radix2 40) with (IZR (2 ^ 40)); now apply IZR_le|]. rewrite <- bpow_plus. apply Rle_refl. }
  assert (B13 : bpow radix2 (-13) <= / 8000) by (unfold bpow; cbn; lra).
  set (w := IZR (Z.of_nat d) * u53) in *. assert (W0 : u53 <= w) by (unfold w; rewrite <- (Rmult_1_l u53) at 1; apply Rmult_le_compat_r; lra).
  set (delta := 2 * w * A + eta). assert (WA : 0 <= w * A) by (apply Rmult_le_pos; lra).
  assert (Dm : Rabs (val m - mu) <= delta).
  { eapply Rle_trans; [exact Em|]. unfold delta. apply Rplus_le_compat_r. apply Rle_trans with (gam d * A); [apply Rmult_le_compat_l; lra|]. apply Rmult_le_compat_r; [lra|]. unfold w. lra. }
  assert (MU : Rabs mu <= A) by (unfold mu; apply Ravg_bound; auto).
  assert (E1 : eta <= 1) by (change 1 with (bpow radix2 0); apply bpow_le; lia).
  assert (wA8 : w * A <= / 8000 * A) by (apply Rmult_le_compat_r; lra).
  assert (MB : Rabs (val m) <= 2 * A + 1). { replace (val m) with ((val m - mu) + mu) by ring. eapply Rle_trans; [apply Rabs_triang|]. unfold delta in Dm. lra. }
  assert (B400 : 1 <= bpow radix2 400) by (change 1 with (bpow radix2 0); apply bpow_le; lia).
  assert (DV : forall e, In e l -> Rabs (val e - val m) <= bpow radix2 403).
  { intros e He. unfold Rminus. eapply Rle_trans; [apply Rabs_triang|]. rewrite Rabs_Ropp. pose proof (B e He). change 403%Z with (3 + 400)%Z. rewrite bpow_plus. change (bpow radix2 3) with 8. lra. }
  assert (D2 : dev2 (val m) l <= bpow radix2 900).
  { apply Rle_trans with (INR (length l) * bpow radix2 806).
    - clear - DV. clearbody m. unfold dev2. induction l as [|e l IH]; cbn [fold_right length]; [cbn; lra|]. rewrite S_INR. pose proof (IH (fun v Hv => DV v (or_intror Hv))).
      assert ((val e - val m) * (val e - val m) <= bpow radix2 806). { pose proof (DV e (or_introl eq_refl)). change 806%Z with (403 + 403)%Z. rewrite bpow_plus. apply Rle_trans with (Rabs (val e - val m) * Rabs (val e - val m)); [rewrite <- Rabs_mult; apply Rle_abs|]. apply Rmult_le_compat; auto using Rabs_pos. } lra.
    - apply Rle_trans with (bpow radix2 40 * bpow radix2 806); [apply Rmult_le_compat_r; [apply bpow_ge_0|rewrite INR_Z; change (bpow radix2 40) with (IZR (2 ^ 40)); now apply IZR_le]|]. rewrite <- bpow_plus. apply bpow_le. lia. }
  destruct (sqdev_sum m l Fm F) as (Fq & Pq & Aq & Eq); [eapply Rle_trans; [exact D2|apply bpow_le; lia]|intros e He; eapply Rle_trans; [apply DV, He|apply bpow_le; lia]|].
  set (qs := map (sqdev m) l) in *. assert (Lq : length qs = length l) by (unfold qs; apply map_length).
  assert (Nq : qs <> []) by (unfold qs; destruct l; [congruence|discriminate]).
  assert (SLq : small_len qs) by (split; [exact Nq|now rewrite Lq]).
  pose proof (dev2_pos (val m) l) as DP. pose proof (len_pos l N) as NP. rewrite <- INR_Z in Eq.
  pose proof (gam_1 3 ltac:(lia)) as G31. pose proof (gam_pos 3) as G30.
  assert (NE : INR (length l) * eta <= 1).
  { apply Rle_trans with (bpow radix2 40 * eta); [apply Rmult_le_compat_r; [lra|rewrite INR_Z; change (bpow radix2 40) with (IZR (2 ^ 40)); now apply IZR_le]|]. rewrite <- bpow_plus. change 1 with (bpow radix2 0). apply bpow_le. lia. }
  assert (RQ : rsum qs <= 2 * bpow radix2 900).
  { apply Rabs_le_inv in Eq. assert (gam 3 * dev2 (val m) l <= / 4 * dev2 (val m) l) by (apply Rmult_le_compat_r; lra). assert (1 <= bpow radix2 899) by (change 1 with (bpow radix2 0); apply bpow_le; lia). replace (bpow radix2 900) with (2 * bpow radix2 899) in * by (change 2 with (bpow radix2 1); rewrite <- bpow_plus; reflexivity). lra. }
  assert (QB : forall x, In x qs -> Rabs (val x) <= bpow radix2 900).
  { intros x Hx. apply in_map_iff in Hx as (e & <- & He). destruct (sqdev_ok m e Fm (F e He)) as (_ & P1 & P2).
    - pose proof (dev2_in (val m) l e He). eapply Rle_trans; [eassumption|]. eapply Rle_trans; [exact D2|apply bpow_le; lia].
    - eapply Rle_trans; [apply DV, He|apply bpow_le; lia].
    - rewrite Rabs_pos_eq by exact P1. apply Rabs_le_inv in P2. assert (S1 : (val e - val m) * (val e - val m) <= bpow radix2 806).
      { change 806%Z with (403 + 403)%Z. rewrite bpow_plus. apply Rle_trans with (Rabs (val e - val m) * Rabs (val e - val m)); [rewrite <- Rabs_mult; apply Rle_abs|]. apply Rmult_le_compat; auto using Rabs_pos. }
      assert (S0 : 0 <= (val e - val m) * (val e - val m)) by apply Rle_0_sqr.
      assert (gam 3 * ((val e - val m) * (val e - val m)) <= / 4 * ((val e - val m) * (val e - val m))) by (apply Rmult_le_compat_r; lra).
      assert (1 <= bpow radix2 806) by (change 1 with (bpow radix2 0); apply bpow_le; lia). apply Rle_trans with (4 * bpow radix2 806); [lra|]. change 4 with (bpow radix2 2). rewrite <- bpow_plus. apply bpow_le. lia. }
  destruct (mean64_close o qs (bpow radix2 900) C SLq Fq ltac:(split; [apply bpow_ge_0|lra]) QB) as (Ft & Fv & Ev & Evv & _). rewrite Lq in Ev, Evv, Ft. fold d in Evv.
  set (v := mean64 o qs) in *. rewrite Aq in Evv. unfold Ravg in Evv. rewrite map_length, Lq, <- rsum_Rsum in Evv.
  set (r := dev2 (val m) l / INR (length l)). assert (R0 : 0 <= r) by (unfold r, Rdiv; apply Rmult_le_pos; [exact DP|left; now apply Rinv_0_lt_compat]).
  assert (Er : Rabs (rsum qs / INR (length l) - r) <= gam 3 * r + eta).
  { unfold r. replace (rsum qs / INR (length l) - dev2 (val m) l / INR (length l)) with ((rsum qs - dev2 (val m) l) / INR (length l)) by (field; lra). unfold Rdiv at 1. rewrite Rabs_mult, (Rabs_pos_eq (/ _)) by (left; now apply Rinv_0_lt_compat).
    apply Rle_div_l; [lra|]. replace ((gam 3 * (dev2 (val m) l / INR (length l)) + eta) * INR (length l)) with (gam 3 * dev2 (val m) l + INR (length l) * eta) by (field; lra). exact Eq. }
  set (g := gam (d + 3)). assert (G : 0 <= g) by apply gam_pos. pose proof (gam_small (d + 3) ltac:(lia)) as GS. fold g in GS. rewrite Nat2Z.inj_add, plus_IZR in GS. change (IZR (Z.of_nat 3)) with 3 in GS.
  assert (GW : g <= 2 * w + 6 * u53) by (unfold w; lra).
  assert (Ev2 : Rabs (val v - r) <= g * r + 3 * eta).
  { replace (val v - r) with ((val v - rsum qs / INR (length l)) + (rsum qs / INR (length l) - r)) by ring. eapply Rle_trans; [apply Rabs_triang|].
    unfold g. rewrite gam_add. assert (Q : rsum qs / INR (length l) <= (1 + gam 3) * r + eta) by (apply Rabs_le_inv in Er; lra).
    assert (gam d * (rsum qs / INR (length l)) <= gam d * ((1 + gam 3) * r + eta)) by (apply Rmult_le_compat_l; auto). assert (gam d * eta <= / 4 * eta) by (apply Rmult_le_compat_r; lra). lra. }
  set (sd := Rsd (map val l)). assert (S0 : 0 <= sd) by apply sqrt_pos.
  assert (N' : map val l <> []) by (destruct l; [congruence|discriminate]).
  assert (SS : sd * sd = Ravg (map (fun v => (v - mu) * (v - mu)) (map val l))).
  { unfold sd, Rsd. fold mu. apply sqrt_sqrt. apply Ravg_nonneg. intros v0 _. apply Rle_0_sqr. }
  assert (RR : r = sd * sd + (val m - mu) * (val m - mu)). { unfold r. rewrite dev2_Ravg, (var_shift (map val l) (val m) N'), SS. reflexivity. }
  assert (SA : sd <= A). { unfold sd. eapply Rle_trans; [apply (sd_rms val l N)|]. apply rms_bound; auto; lra. }
  assert (MM : 0 <= (val m - mu) * (val m - mu) <= delta * delta).
  { split; [apply Rle_0_sqr|]. apply Rle_trans with (Rabs (val m - mu) * Rabs (val m - mu)); [rewrite <- Rabs_mult; apply Rle_abs|]. apply Rmult_le_compat; auto using Rabs_pos. }
  assert (DL0 : 0 <= delta) by (unfold delta; lra).
  assert (V0 : 0 <= val v).
  { rewrite Ev. apply rnd_nonneg. unfold Rdiv. apply Rmult_le_pos; [|left; now apply Rinv_0_lt_compat].
    assert (TP : forall t, fin (tsum t) -> (forall x, In x (leaves t) -> 0 <= val x) -> 0 <= val (tsum t)).
    { clear. induction t as [x|a IHa b IHb]; cbn [tsum leaves]; intros Ft H; [apply H; now left|]. apply fadd_inv in Ft as (Fa & Fb & ->). apply rnd_nonneg.
      specialize (IHa Fa (fun x Hx => H x (in_or_app _ _ _ (or_introl Hx)))). specialize (IHb Fb (fun x Hx => H x (in_or_app _ _ _ (or_intror Hx)))). lra. }
    apply TP; [exact Ft|]. intros x Hx. apply Pq. pose proof (laid_perm o qs C Nq) as PP. rewrite Lq in PP. eapply Permutation_in; [exact PP|exact Hx]. }
  destruct (sqrt_near (val v) r sd g delta S0 DL0) as [LO UP]; [lra|exact V0|split; lra|exact Ev2|].
  destruct (fsqrt_val v Fv V0) as [VS FS]. change (fsqrt v) with (std64 o l) in VS, FS. split; [exact FS|]. split; [rewrite VS; apply rnd_nonneg, sqrt_pos|].
  rewrite VS. pose proof (rnd_err (sqrt (val v))) as RE. pose proof (sqrt_pos (val v)) as SQ0. rewrite (Rabs_pos_eq (sqrt (val v))) in RE by exact SQ0.
  set (q := sqrt (val v)) in *. change (bpow radix2 (-1075)) with eta in RE.
  pose proof (bpow_gt_0 radix2 (-536)) as T0. fold tiny in T0.
  assert (ET : eta <= tiny) by (unfold tiny; apply bpow_le; lia).
  assert (T4 : bpow radix2 (-534) = 4 * tiny). { unfold tiny. change (-534)%Z with (2 + -536)%Z. rewrite bpow_plus. reflexivity. } rewrite T4.
  replace (IZR (5 * Z.of_nat d + 9) * u53 * A) with (5 * (w * A) + 9 * (u53 * A)) by (rewrite plus_IZR, mult_IZR; unfold w; ring).
  assert (gS : g * sd <= (2 * w + 6 * u53) * A) by (apply Rmult_le_compat; lra).
  assert (gd : g * delta <= / 1000 * delta) by (apply Rmult_le_compat_r; lra).
  assert (uq : u53 * q <= u53 * ((1 + g) * (sd + delta) + tiny)) by (apply Rmult_le_compat_l; lra).
  assert (ub : u53 * ((1 + g) * (sd + delta) + tiny) <= u53 * (2 * (A + delta) + tiny)).
  { apply Rmult_le_compat_l; [lra|]. apply Rplus_le_compat_r. apply Rmult_le_compat; lra. }
  assert (ud : u53 * delta <= / 1000000 * delta) by (apply Rmult_le_compat_r; lra).
  assert (ut : u53 * tiny <= / 1000000 * tiny) by (apply Rmult_le_compat_r; lra).
  assert (uA : 0 <= u53 * A) by (apply Rmult_le_pos; lra).
  replace ((1 + g) * (sd + delta) + tiny) with (sd + delta + g * sd + g * delta + tiny) in UP by ring. replace ((1 - g) * sd - tiny) with (sd - g * sd - tiny) in LO by ring.
  replace (u53 * (2 * (A + delta) + tiny)) with (2 * (u53 * A) + 2 * (u53 * delta) + u53 * tiny) in ub by ring.
  apply Rabs_le_inv in RE. apply Rabs_le. unfold delta in *. split; lra.
Qed.
