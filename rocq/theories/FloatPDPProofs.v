(** FloatPDPProofs: the PDP object in binary64. *)
From Coq Require Import Reals Permutation.
From Flocq Require Import Core.
From Flocq Require Import IEEE754.BinarySingleNaN Relative.
From Verif Require Import Base Numpy NumpyFacts FloatModel FloatFacts FloatGrid FloatBins FloatProofs FloatMean FloatAcc FloatVar FloatPDP FloatPDPSpec FloatPDPMean FloatPDPStd.
From Coq Require Import Lra.
Open Scope R_scope.

(** ** zero, order, sign *)
Lemma fadd_zero x y : fin x -> fin y -> val x = 0 -> val y = 0 -> val (fadd x y) = 0 /\ fin (fadd x y).
Proof. intros F1 F2 E1 E2. destruct (fadd_val x y F1 F2) as [V F]; [rewrite E1, E2, Rplus_0_l, Rabs_R0; apply bpow_ge_0|]. rewrite V, E1, E2, Rplus_0_l, rnd_0. auto. Qed.
Lemma tsum_zero t : (forall x, In x (leaves t) -> fin x /\ val x = 0) -> fin (tsum t) /\ val (tsum t) = 0.
Proof.
  induction t as [x|a IHa b IHb]; cbn [tsum leaves]; intros H; [apply H; now left|].
  destruct IHa as [F1 E1]; [intros x Hx; apply H, in_or_app; now left|]. destruct IHb as [F2 E2]; [intros x Hx; apply H, in_or_app; now right|]. apply and_comm. now apply fadd_zero.
Qed.
Definition zeros (l : list b64) : Prop := forall x, In x l -> fin x /\ val x = 0.
Lemma mean_zero o l : complete o -> small_len l -> zeros l -> fin (mean64 o l) /\ val (mean64 o l) = 0.
Proof.
  intros C SL Z. pose proof (small_len_pos l SL) as L1. destruct SL as [N L2]. pose proof (laid_perm o l C N) as P.
  destruct (tsum_zero (laid (o (length l)) l)) as [F E]; [intros x Hx; apply Z; eapply Permutation_in; eassumption|].
  destruct (fofZ_val (Z.of_nat (length l)) ltac:(lia)) as [Vn Fn]. assert (1 <= IZR (Z.of_nat (length l))) by (apply IZR_le; lia).
  destruct (fdiv_val _ _ F Fn) as [V FV]; [rewrite Vn; lra|rewrite E; unfold Rdiv; rewrite Rmult_0_l, Rabs_R0; apply bpow_ge_0|].
  split; [exact FV|]. unfold mean64, fofn. rewrite V, E. unfold Rdiv. rewrite Rmult_0_l. apply rnd_0.
Qed.
Lemma fsub_same x y : fin x -> fin y -> val x = val y -> fin (fsub x y) /\ val (fsub x y) = 0.
Proof. intros F1 F2 E. destruct (fsub_val x y F1 F2) as [V F]; [rewrite E, Rminus_diag_eq by reflexivity; rewrite Rabs_R0; apply bpow_ge_0|]. rewrite V, E, Rminus_diag_eq by reflexivity. rewrite rnd_0. auto. Qed.
Lemma sqdev_zero m e : fin m -> fin e -> val m = 0 -> val e = 0 -> fin (sqdev m e) /\ val (sqdev m e) = 0.
Proof.
  intros F1 F2 E1 E2. destruct (fsub_same e m F2 F1) as [F E]; [congruence|]. unfold sqdev. destruct (fmul_val _ _ F F) as [V FV]; [rewrite E, Rmult_0_l, Rabs_R0; apply bpow_ge_0|].
  split; [exact FV|]. rewrite V, E, Rmult_0_l. apply rnd_0.
Qed.
Lemma std_zero o l : complete o -> small_len l -> zeros l -> fin (std64 o l) /\ val (std64 o l) = 0.
Proof.
  intros C SL Z. destruct (mean_zero o l C SL Z) as [Fm Em]. destruct (mean_zero o (map (sqdev (mean64 o l)) l) C) as [Fv Ev].
  - destruct SL as [N L]. split; [destruct l; [congruence|discriminate]|now rewrite map_length].
  - intros x Hx. apply in_map_iff in Hx as (e & <- & He). destruct (Z e He). now apply sqdev_zero.
  - unfold std64. destruct (fsqrt_val _ Fv ltac:(rewrite Ev; lra)) as [V F]. split; [exact F|]. rewrite V, Ev, sqrt_0. apply rnd_0.
Qed.

Lemma laid_mono o l l' : (forall i, val (nth i l fzero) <= val (nth i l' fzero)) -> fin (tsum (laid o l)) -> fin (tsum (laid o l')) -> val (tsum (laid o l)) <= val (tsum (laid o l')).
Proof.
  intros H. induction o as [i|a IHa b IHb]; cbn [laid tsum]; intros F1 F2; [apply H|].
  apply fadd_inv in F1 as (Fa & Fb & ->). apply fadd_inv in F2 as (Fa' & Fb' & ->). apply rnd_le. specialize (IHa Fa Fa'). specialize (IHb Fb Fb'). lra.
Qed.
Lemma laid_opp o l l' : (forall i, val (nth i l' fzero) = - val (nth i l fzero)) -> fin (tsum (laid o l)) -> fin (tsum (laid o l')) -> val (tsum (laid o l')) = - val (tsum (laid o l)).
Proof.
  intros H. induction o as [i|a IHa b IHb]; cbn [laid tsum]; intros F1 F2; [apply H|].
  apply fadd_inv in F1 as (Fa & Fb & ->). apply fadd_inv in F2 as (Fa' & Fb' & ->). rewrite (IHa Fa Fa'), (IHb Fb Fb'), <- round_NE_opp. f_equal. ring.
Qed.
Lemma rnd_opp x : rnd (- x) = - rnd x. Proof. apply round_NE_opp. Qed.

(** ** the entries of the matrix of ICE curves *)
Section Object.
Variable p : pdp64.
Notation ice r x := (ice64 (p64_target p) (p64_feature p) r x).
Notation grid := (grid64 p).
Notation level := (FloatPDPSpec.level p). Notation exact_ice := (FloatPDPSpec.exact_ice p). Notation exact_mean := (FloatPDPSpec.exact_mean p). Notation exact_sd := (FloatPDPSpec.exact_sd p).
Notation base_points := (FloatPDPSpec.base_points p). Notation tame_at := (FloatPDPSpec.tame_at p). Notation d0 := (FloatPDPSpec.d0 p). Notation d1 := (FloatPDPSpec.d1 p).
Notation mean_bound := (FloatPDPSpec.mean_bound p). Notation sd_bound := (FloatPDPSpec.sd_bound p).

Definition entry64 (c : centering64) (r : list b64) (x : b64) : b64 :=
  match c with
  | NoCentering => ice r x
  | ZeroStart => fsub (ice r x) (ice r (p64_lo p))
  | ZeroIntegral => fsub (ice r x) (mean64 (p64_axis0 p) (map (fun t => ice r t) grid))
  end.
Lemma combine_map2 {A B C} (f : A -> B) (g : A -> C) l : combine (map f l) (map g l) = map (fun a => (f a, g a)) l.
Proof. induction l as [|a l IH]; cbn [map combine]; [reflexivity|]. now rewrite IH. Qed.
Lemma norm_integral : norm_const64 p ZeroIntegral = Some (map (fun r => mean64 (p64_axis0 p) (map (fun t => ice r t) grid)) (kept64 p)).
Proof.
  cbn [norm_const64]. f_equal. apply nth_ext with (d := fnan) (d' := fnan); rewrite !map_length, seq_length; [reflexivity|]. intros i Hi.
  rewrite (nth_indep _ fnan (mean64 (p64_axis0 p) (column64 (predict64 p grid) 0))) by (rewrite map_length, seq_length; exact Hi).
  rewrite (map_nth (fun i => mean64 (p64_axis0 p) (column64 (predict64 p grid) i))), seq_nth by exact Hi. cbn [Nat.add].
  rewrite (nth_indep _ fnan (mean64 (p64_axis0 p) (map (fun t => ice [] t) grid))) by (rewrite map_length; exact Hi).
  rewrite (map_nth (fun r => mean64 (p64_axis0 p) (map (fun t => ice r t) grid))). f_equal. unfold column64, predict64. rewrite map_map. apply map_ext. intros x.
  rewrite (nth_indep _ fnan (ice [] x)) by (rewrite map_length; exact Hi). now rewrite (map_nth (fun r => ice r x)).
Qed.
Lemma centered_entries c xs : centered64 p c xs = map (fun x => map (fun r => entry64 c r x) (kept64 p)) xs.
Proof.
  unfold centered64. destruct c.
  - reflexivity.
  - rewrite norm_integral. unfold predict64. rewrite map_map. apply map_ext. intros x. rewrite combine_map2, map_map. reflexivity.
  - cbn [norm_const64 predict64 map nth]. unfold predict64. rewrite map_map. apply map_ext. intros x. rewrite combine_map2, map_map. reflexivity.
Qed.
Lemma eval_entries c xs ys ss : pdp_eval64 p c xs = Ok (ys, ss) ->
  Bltb (p64_lo p) (p64_hi p) = true /\ length ys = length xs /\ length ss = length xs /\
  forall t, (t < length xs)%nat -> let l := map (fun r => entry64 c r (nth t xs fnan)) (kept64 p) in nth t ys fnan = mean64 (p64_axis1 p) l /\ nth t ss fnan = std64 (p64_axis1 p) l.
Proof.
  unfold pdp_eval64. destruct (Bltb (p64_lo p) (p64_hi p)) eqn:E; cbn [assert_ bind]; [|discriminate]. cbv zeta. intros H. rewrite centered_entries, !map_map in H.
  assert (Ey : ys = map (fun x => mean64 (p64_axis1 p) (map (fun r => entry64 c r x) (kept64 p))) xs) by congruence.
  assert (Es : ss = map (fun x => std64 (p64_axis1 p) (map (fun r => entry64 c r x) (kept64 p))) xs) by congruence.
  subst ys ss. rewrite !map_length. repeat split; intros.
  - rewrite (nth_indep _ fnan (mean64 (p64_axis1 p) (map (fun r => entry64 c r fnan) (kept64 p)))) by (rewrite map_length; assumption). now rewrite (map_nth (fun x => mean64 (p64_axis1 p) (map (fun r => entry64 c r x) (kept64 p)))).
  - rewrite (nth_indep _ fnan (std64 (p64_axis1 p) (map (fun r => entry64 c r fnan) (kept64 p)))) by (rewrite map_length; assumption). now rewrite (map_nth (fun x => std64 (p64_axis1 p) (map (fun r => entry64 c r x) (kept64 p)))).
Qed.

Hypothesis C0 : complete (p64_axis0 p).
Hypothesis C1 : complete (p64_axis1 p).
Hypothesis KL : small_len (kept64 p).
Hypothesis PL : (1 <= Z.of_nat (p64_points p) <= 2 ^ 40)%Z.

Lemma grid_len : length grid = p64_points p.
Proof. unfold grid64, linspace64. destruct (p64_points p) as [|[|n]]; [reflexivity|reflexivity|]. cbv zeta. now rewrite map_length, seq_length. Qed.
Lemma grid_small : small_len grid.
Proof. split; [|rewrite grid_len; lia]. intros E. pose proof grid_len as L. rewrite E in L. cbn in L. lia. Qed.

Lemma step_small n : (Z.of_nat n <= 2 ^ 40)%Z -> IZR (Z.of_nat n) * u53 <= / 8000.
Proof.
  intros H. apply Rle_trans with (bpow radix2 40 * u53); [apply Rmult_le_compat_r; [apply bpow_ge_0|]; change (bpow radix2 40) with (IZR (2 ^ 40)); now apply IZR_le|]. rewrite <- bpow_plus. unfold bpow. cbn. lra.
Qed.
Lemma d0_small : (Z.of_nat d0 <= 2 ^ 40)%Z. Proof. pose proof (complete_steps _ (p64_points p) C0 ltac:(lia)). unfold FloatPDPSpec.d0. lia. Qed.
Lemma d1_small : (Z.of_nat d1 <= 2 ^ 40)%Z. Proof. pose proof (complete_steps _ (length (kept64 p)) C1 (small_len_pos _ KL)). destruct KL as [_ L]. unfold FloatPDPSpec.d1. lia. Qed.

Definition entry_bound (M : R) : R := IZR (2 * Z.of_nat d0 + 3) * u53 * M + 2 * eta.

Lemma entry_close c M x r : 0 <= M <= bpow radix2 380 -> tame_at M x -> (forall b, In b (base_points c) -> tame_at M b) -> In r (kept64 p) ->
  fin (entry64 c r x) /\ Rabs (val (entry64 c r x) - exact_ice c x r) <= entry_bound M /\ Rabs (val (entry64 c r x)) <= 3 * M + 2 * eta.
Proof.
  intros HM HX HB Hr. destruct (HX r Hr) as [F1 B1]. pose proof u53_pos as U0. pose proof u53_small as U1. pose proof (bpow_gt_0 radix2 (-1075)) as E0.
  pose proof (step_small d0 d0_small) as DW. assert (D1 : 1 <= IZR (Z.of_nat d0)) by (apply IZR_le; unfold FloatPDPSpec.d0; lia). set (w := IZR (Z.of_nat d0) * u53) in *.
  assert (W0 : u53 <= w) by (unfold w; rewrite <- (Rmult_1_l u53) at 1; apply Rmult_le_compat_r; lra).
  assert (WM : 0 <= w * M) by (apply Rmult_le_pos; lra). assert (WM8 : w * M <= / 8000 * M) by (apply Rmult_le_compat_r; lra). assert (UM : 0 <= u53 * M <= / 1000000 * M) by (split; [apply Rmult_le_pos; lra|apply Rmult_le_compat_r; lra]).
  assert (EB : entry_bound M = 2 * (w * M) + 3 * (u53 * M) + 2 * eta) by (unfold entry_bound, w; rewrite plus_IZR, mult_IZR; ring).
  assert (E1 : eta <= 1) by (change 1 with (bpow radix2 0); apply bpow_le; lia).
  assert (UE : u53 * eta <= / 1000000 * eta) by (apply Rmult_le_compat_r; lra).
  assert (BIG : 8 * bpow radix2 380 + 8 <= bpow radix2 1023).
  { assert (1 <= bpow radix2 380) by (change 1 with (bpow radix2 0); apply bpow_le; lia). apply Rle_trans with (bpow radix2 4 * bpow radix2 380); [change (bpow radix2 4) with 16; lra|]. rewrite <- bpow_plus. apply bpow_le. lia. }
  assert (GEN : forall y lv, fin y -> Rabs lv <= M -> Rabs (val y - lv) <= 2 * (w * M) + eta -> fin (fsub (ice r x) y) /\ Rabs (val (fsub (ice r x) y) - (val (ice r x) - lv)) <= entry_bound M /\ Rabs (val (fsub (ice r x) y)) <= 3 * M + 2 * eta).
  { intros y lv Fy BL By. apply Rabs_le_inv in B1. apply Rabs_le_inv in BL. apply Rabs_le_inv in By.
    destruct (fsub_val (ice r x) y F1 Fy) as [V F]; [apply Rabs_le; lra|]. destruct (rnd_minus_rel (ice r x) y) as (e & He & Ee). rewrite Ee in V. split; [exact F|].
    assert (DE : Rabs ((val (ice r x) - val y) * e) <= 3 * (u53 * M) + eta).
    { rewrite Rabs_mult. apply Rle_trans with ((2 * M + (2 * (w * M) + eta)) * u53); [apply Rmult_le_compat; auto using Rabs_pos; apply Rabs_le; lra|]. rewrite Rmult_comm. replace (u53 * (2 * M + (2 * (w * M) + eta))) with (2 * (u53 * M) + 2 * (w * (u53 * M)) + u53 * eta) by ring.
      assert (w * (u53 * M) <= / 8000 * (u53 * M)) by (apply Rmult_le_compat_r; lra). lra. }
    apply Rabs_le_inv in DE. rewrite V, EB. replace ((val (ice r x) - val y) * (1 + e)) with ((val (ice r x) - val y) + (val (ice r x) - val y) * e) by ring.
    split; apply Rabs_le; lra. }
  destruct c; cbn [entry64 FloatPDPSpec.base_points] in *; unfold FloatPDPSpec.exact_ice; cbn [FloatPDPSpec.level].
  - split; [exact F1|]. rewrite Rminus_0_r, Rminus_diag_eq by reflexivity. rewrite Rabs_R0, EB. split; lra.
  - assert (F2 : forall t, In t grid -> fin (ice r t) /\ Rabs (val (ice r t)) <= M) by (intros t Ht; now apply (HB t Ht)).
    destruct (mean64_close (p64_axis0 p) (map (fun t => ice r t) grid) M C0) as (_ & Fm & _ & Em & EA).
    + destruct grid_small as [N L]. split; [destruct grid; [congruence|discriminate]|now rewrite map_length].
    + intros y Hy. apply in_map_iff in Hy as (t & <- & Ht). now apply F2.
    + split; [lra|]. eapply Rle_trans; [apply HM|apply bpow_le; lia].
    + intros y Hy. apply in_map_iff in Hy as (t & <- & Ht). now apply F2.
    + rewrite map_length, grid_len in Em, EA. fold d0 in Em. rewrite map_map in Em. apply GEN; [exact Fm| |].
      * apply Ravg_bound; [apply grid_small|]. intros t Ht. now apply F2.
      * eapply Rle_trans; [exact Em|]. apply Rplus_le_compat_r. pose proof (gam_small d0 ltac:(pose proof d0_small; lia)) as GS. apply Rle_trans with (gam d0 * M); [apply Rmult_le_compat_l; [apply gam_pos|exact EA]|]. replace (2 * (w * M)) with (2 * IZR (Z.of_nat d0) * u53 * M) by (unfold w; ring). apply Rmult_le_compat_r; lra.
  - destruct (HB (p64_lo p) (or_introl eq_refl) r Hr) as [F2 B2]. apply GEN; [exact F2|exact B2|]. rewrite Rminus_diag_eq by reflexivity. rewrite Rabs_R0. lra.
Qed.

Lemma eval_close c M x : 0 <= M <= bpow radix2 380 -> tame_at M x -> (forall b, In b (base_points c) -> tame_at M b) ->
  let l := map (fun r => entry64 c r x) (kept64 p) in
  fin (mean64 (p64_axis1 p) l) /\ Rabs (val (mean64 (p64_axis1 p) l) - exact_mean c x) <= mean_bound M /\
  fin (std64 (p64_axis1 p) l) /\ 0 <= val (std64 (p64_axis1 p) l) /\ Rabs (val (std64 (p64_axis1 p) l) - exact_sd c x) <= sd_bound M.
Proof.
  intros HM HX HB l. pose proof u53_pos as U0. pose proof u53_small as U1. pose proof (bpow_gt_0 radix2 (-1075)) as E0.
  pose proof (step_small d1 d1_small) as DW. assert (D1 : 1 <= IZR (Z.of_nat d1)) by (apply IZR_le; unfold FloatPDPSpec.d1; lia). set (w := IZR (Z.of_nat d1) * u53) in *.
  assert (E1 : eta <= 1) by (change 1 with (bpow radix2 0); apply bpow_le; lia).
  assert (EC : forall r, In r (kept64 p) -> fin (entry64 c r x) /\ Rabs (val (entry64 c r x) - exact_ice c x r) <= entry_bound M /\ Rabs (val (entry64 c r x)) <= 3 * M + 2 * eta) by (intros; now apply entry_close).
  set (A := 3 * M + 2 * eta) in *.
  assert (LL : length l = length (kept64 p)) by (unfold l; apply map_length).
  assert (SL : small_len l) by (destruct KL as [N L]; split; [unfold l; destruct (kept64 p); [congruence|discriminate]|now rewrite LL]).
  assert (Fl : fins l) by (intros y Hy; apply in_map_iff in Hy as (r & <- & Hr); now apply EC).
  assert (Bl : forall y, In y l -> Rabs (val y) <= A) by (intros y Hy; apply in_map_iff in Hy as (r & <- & Hr); now apply EC).
  assert (HA : 0 <= A <= bpow radix2 400).
  { unfold A. split; [lra|]. assert (1 <= bpow radix2 380) by (change 1 with (bpow radix2 0); apply bpow_le; lia). apply Rle_trans with (bpow radix2 4 * bpow radix2 380); [change (bpow radix2 4) with 16; lra|]. rewrite <- bpow_plus. apply bpow_le. lia. }
  assert (NK : kept64 p <> []) by apply KL.
  assert (EB0 : 0 <= entry_bound M). { unfold entry_bound. assert (0 <= IZR (2 * Z.of_nat d0 + 3) * u53 * M) by (repeat apply Rmult_le_pos; [apply IZR_le; lia|lra|lra]). lra. }
  destruct (mean64_close (p64_axis1 p) l A C1 SL Fl ltac:(split; [apply HA|eapply Rle_trans; [apply HA|apply bpow_le; lia]]) Bl) as (_ & Fm & _ & Em & EA).
  destruct (std64_close (p64_axis1 p) l A C1 SL Fl HA Bl) as (Fs & S0 & Es).
  assert (UE : u53 * eta <= / 1000000 * eta) by (apply Rmult_le_compat_r; lra).
  assert (WE : w * eta <= / 8000 * eta) by (apply Rmult_le_compat_r; lra).
  rewrite LL in Em, EA. fold d1 in Em. cbv zeta in Es. rewrite LL in Es. fold d1 in Es.
  unfold l in Em at 2. unfold l in Es at 2. rewrite map_map in Em, Es.
  split; [exact Fm|]. split; [|split; [exact Fs|split; [exact S0|]]].
  - pose proof (Ravg_close (fun r => val (entry64 c r x)) (exact_ice c x) (kept64 p) (entry_bound M) NK ltac:(intros r Hr; now apply EC)) as AC. fold (exact_mean c x) in AC.
    assert (G : gam d1 * (asum l / INR (length (kept64 p))) <= 6 * (w * M) + eta).
    { pose proof (gam_small d1 ltac:(pose proof d1_small; lia)) as GS. apply Rle_trans with (gam d1 * A); [apply Rmult_le_compat_l; [apply gam_pos|exact EA]|]. apply Rle_trans with (2 * IZR (Z.of_nat d1) * u53 * A); [apply Rmult_le_compat_r; [lra|lra]|].
      replace (2 * IZR (Z.of_nat d1) * u53 * A) with (6 * (w * M) + 4 * (w * eta)) by (unfold w, A; ring). lra. }
    replace (mean_bound M) with (6 * (w * M) + entry_bound M + 2 * eta) by (unfold FloatPDPSpec.mean_bound, entry_bound, w; rewrite !plus_IZR, !mult_IZR; ring).
    apply Rabs_le_inv in AC. apply Rabs_le_inv in Em. apply Rabs_le. lra.
  - pose proof (sd_close (fun r => val (entry64 c r x)) (exact_ice c x) (kept64 p) (entry_bound M) NK EB0 ltac:(intros r Hr; now apply EC)) as AC. fold (exact_sd c x) in AC.
    assert (UM : 0 <= u53 * M) by (apply Rmult_le_pos; lra).
    replace (IZR (5 * Z.of_nat d1 + 9) * u53 * A) with (15 * (w * M) + 27 * (u53 * M) + (10 * (w * eta) + 18 * (u53 * eta))) in Es by (unfold w, A; rewrite plus_IZR, mult_IZR; ring).
    replace (sd_bound M) with (15 * (w * M) + 27 * (u53 * M) + (entry_bound M - 2 * eta) + bpow radix2 (-533)) by (unfold FloatPDPSpec.sd_bound, entry_bound, w; rewrite !plus_IZR, !mult_IZR; ring).
    assert (B33 : bpow radix2 (-533) = 2 * bpow radix2 (-534)) by (change (-533)%Z with (1 + -534)%Z; rewrite bpow_plus; reflexivity).
    assert (E34 : 4 * eta <= bpow radix2 (-534)) by (change 4 with (bpow radix2 2); rewrite <- bpow_plus; apply bpow_le; lia).
    apply Rabs_le_inv in AC. apply Rabs_le_inv in Es. apply Rabs_le. lra.
Qed.

(** the exact centered curve averages to zero on the centering grid *)
Lemma integral_zero : Rsum (map (exact_mean ZeroIntegral) grid) = 0.
Proof.
  assert (N1 : kept64 p <> []) by apply KL. assert (N2 : grid <> []) by apply grid_small. pose proof (len_pos _ N1) as P1. pose proof (len_pos _ N2) as P2.
  unfold FloatPDPSpec.exact_mean, Ravg. rewrite (Rsum_ext _ (fun x => / INR (length (kept64 p)) * Rsum (map (exact_ice ZeroIntegral x) (kept64 p)))) by (intros x _; rewrite map_length; unfold Rdiv; ring).
  rewrite Rsum_scal, (Rsum_swap (fun x r => exact_ice ZeroIntegral x r)). rewrite (Rsum_ext _ (fun _ => 0)); [rewrite Rsum_const; ring|].
  intros r _. unfold FloatPDPSpec.exact_ice. cbn [FloatPDPSpec.level]. rewrite (Rsum_ext _ (fun x => val (ice r x) + -1 * Ravg (map (fun t => val (ice r t)) grid))) by (intros; ring).
  rewrite Rsum_plus, Rsum_const. unfold Ravg. rewrite map_length. field. lra.
Qed.
End Object.
