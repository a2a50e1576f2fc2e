(** FloatRegionMain: signs and sizes of the weighted heterogeneities; NaN in the split search. *)
From Coq Require Import Reals Permutation.
From Flocq Require Import Core.
From Flocq Require Import IEEE754.BinarySingleNaN.
From Verif Require Import Base Numpy NumpyFacts Utils FloatModel FloatFacts FloatGrid FloatBins FloatMean FloatAcc FloatNan FloatDP FloatDPGrid FloatRegion FloatRegionProofs FloatRegionSum FloatRegionTop.
From Coq Require Import Lra SpecFloat.
Open Scope R_scope.

(** a finite number without a minus sign (so not -0.0 either) *)
Definition plus64 (x : b64) : Prop := fin x /\ Bsign x = false.
Lemma plus_val x : plus64 x -> 0 <= val x.
Proof. intros [F S]. destruct x as [| | |s m e B]; try discriminate F; [cbn; lra|]. cbn in S. subst s. cbn [B2R]. apply Rlt_le, F2R_gt_0. reflexivity. Qed.
Lemma val_plus x : fin x -> 0 < val x -> Bsign x = false.
Proof. intros F V. destruct x as [| | |s m e B]; try discriminate F; [cbn in V; lra|]. destruct s; [exfalso|reflexivity]. cbn [B2R] in V. assert (F2R (Float radix2 (cond_Zopp true (Z.pos m)) e) < 0) by (apply F2R_lt_0; reflexivity). lra. Qed.
Lemma fmul_plus x y : plus64 x -> plus64 y -> Rabs (val x * val y) <= bpow radix2 1023 -> plus64 (fmul x y).
Proof.
  intros [Fx Sx] [Fy Sy] H. pose proof (Bmult_correct 53 1024 _ _ mode_NE x y) as P. cbn [round_mode] in P. rewrite small_big in P by exact H. destruct P as (_ & P2 & P3).
  split; [unfold fin, fmul; now rewrite P2, Fx, Fy|]. unfold fmul. rewrite P3, Sx, Sy; [reflexivity|]. rewrite Fx, Fy in P2. destruct (Bmult mode_NE x y); try reflexivity; discriminate P2.
Qed.
Lemma fadd_plus x y : plus64 x -> plus64 y -> fin (fadd x y) -> plus64 (fadd x y).
Proof.
  intros [Fx Sx] [Fy Sy] F. split; [exact F|]. pose proof (plus_val x (conj Fx Sx)) as Px. pose proof (plus_val y (conj Fy Sy)) as Py.
  pose proof (Bplus_correct 53 1024 _ _ mode_NE x y Fx Fy) as P. cbn [round_mode] in P. destruct (Rlt_bool _ _).
  - destruct P as (_ & _ & P3). unfold fadd. rewrite P3. destruct (Rcompare_spec (val x + val y) 0); [lra| |reflexivity]. now rewrite Sx, Sy.
  - destruct P as (P1 & P2). rewrite Sx in P1. cbn in P1. unfold fadd. destruct (Bplus mode_NE x y); try discriminate P1. cbn in P1. now injection P1.
Qed.
Lemma fadd_fin x y : fin (fadd x y) -> fin x /\ fin y.
Proof. destruct x as [s|s| |s m e B], y as [s'|s'| |s' m' e' B']; intros F; try discriminate F; try (split; reflexivity); destruct s, s'; discriminate F. Qed.
Lemma tsum_fin t : fin (tsum t) -> fins (leaves t) -> (forall x, In x (leaves t) -> plus64 x) -> plus64 (tsum t).
Proof.
  induction t as [x|a IHa b IHb]; intros F FL P; cbn [tsum leaves] in *; [apply P; now left|].
  assert (A : fin (tsum a) /\ fin (tsum b)).
  { now apply fadd_fin. }
  destruct A as [Fa Fb]. apply fadd_plus; [apply IHa|apply IHb|]; auto; intros x Hx; first [apply FL|apply P]; apply in_or_app; auto.
Qed.

(** ** one level, with finite non-negative heterogeneities *)
Section Level.
Variables (g : regions64) (h0 : b64) (ss pre post : list split64) (s : split64) (H : R).
Hypothesis SUM : sums (g64_sum g).
Hypothesis ROOM : roomy g.
Hypothesis SEARCH : search64 g = Ok (Some (h0, ss)).
Hypothesis AT : ss = pre ++ s :: post.
Hypothesis HH : H <= bpow radix2 900.

Lemma level_at : g64_heter g (g64_rows g) = Ok h0 /\ (length pre < g64_max_levels g)%nat /\ single_level64 g (regions_after g pre) (heter_after h0 pre) = Ok s.
Proof. exact (search_at g h0 ss pre s post SEARCH AT). Qed.
Lemma before_length : length (heter_after h0 pre) = length (regions_after g pre).
Proof. exact (heter_after_length g h0 ss pre s post SEARCH AT). Qed.

(** the cells of any evaluated candidate of this level *)
Lemma candidate_cells f pos t sub d w : (forall x, In x (heter_after h0 pre) -> tame H x) -> (forall x, In x sub -> tame H x) ->
  evaluate64 g (regions_after g pre) (heter_after h0 pre) f pos t = Ok (sub, (d, w)) ->
  let ns := map (@length row64) (split_all64 (regions_after g pre) f pos t) in
  length sub = (2 ^ S (length pre))%nat /\ fin d /\ fin w /\
  Rabs (val d - exact_drop (heter_after h0 pre) sub ns) <= IZR (2 ^ Z.of_nat (S (length pre)) + 4) * (bpow radix2 (-50) * H + bpow radix2 (-1074)) /\
  Rabs (val w - exact_wheter sub ns) <= IZR (2 ^ Z.of_nat (S (length pre)) + 4) * (bpow radix2 (-51) * H + bpow radix2 (-1074)).
Proof.
  intros TB TS E ns. destruct level_at as (_ & L & _). pose proof before_length as BL. destruct (evaluate_parts _ _ _ _ _ _ _ _ _ E) as (_ & LS & SC). fold ns in SC.
  destruct (level_sizes g pre f pos t ROOM L) as (S1 & S2 & S3 & S4). fold ns in S1, S3, S4.
  assert (L2 : length sub = (2 ^ S (length pre))%nat). { rewrite LS, (proj1 (regions_after_size g pre)). cbn [Nat.pow]. lia. }
  split; [exact L2|]. replace (2 ^ Z.of_nat (S (length pre)))%Z with (Z.of_nat (length sub)) by (rewrite L2, Nat2Z.inj_pow; reflexivity).
  apply (score_close (g64_sum g)); auto; try lia.
Qed.
Lemma candidate_nan f pos t sub d w v : evaluate64 g (regions_after g pre) (heter_after h0 pre) f pos t = Ok (sub, (d, w)) -> In v sub -> is_nan v = true ->
  is_nan d = true /\ is_nan w = true.
Proof.
  intros E Hv N. destruct level_at as (_ & L & _). pose proof before_length as BL. destruct (evaluate_parts _ _ _ _ _ _ _ _ _ E) as (_ & LS & SC).
  destruct (level_sizes g pre f pos t ROOM L) as (S1 & S2 & S3 & S4).
  apply (score_nan (g64_sum g) (heter_after h0 pre) sub _ d w SUM SC); try lia; eauto.
Qed.
End Level.

Lemma wheter_plus g h0 ss pre post s : sums (g64_sum g) -> roomy g -> search64 g = Ok (Some (h0, ss)) -> ss = pre ++ s :: post ->
  (forall x v, g64_heter g x = Ok v -> plus64 v /\ val v <= bpow radix2 900) ->
  plus64 (s64_wheter s) /\ val (s64_wheter s) <= bpow radix2 950.
Proof.
  intros SUM ROOM SEARCH AT HV. destruct (level_at g h0 ss pre post s SEARCH AT) as (_ & L & S). apply single_level_spec in S as (_ & E & _ & _).
  assert (TV : forall x v, g64_heter g x = Ok v -> tame (bpow radix2 900) v). { intros x v Hx. destruct (HV x v Hx) as [P B]. split; [apply P|]. rewrite Rabs_pos_eq by now apply plus_val. exact B. }
  destruct (evaluate_parts _ _ _ _ _ _ _ _ _ E) as (M & LS & SC).
  assert (FS : forall x, In x (s64_heter s) -> exists y, g64_heter g y = Ok x). { intros x Hx. apply (In_nth _ _ fnan) in Hx as (k & Hk & <-). eexists. eapply (mapM_nth _ _ _ k [] fnan); [exact M|]. rewrite <- (mapM_length _ _ _ M). exact Hk. }
  assert (TB : forall x, In x (heter_after h0 pre) -> tame (bpow radix2 900) x).
  { intros x Hx. destruct (heter_after_from g h0 ss pre s post x SEARCH AT Hx) as (y & Hy). eapply TV; exact Hy. }
  assert (TS : forall x, In x (s64_heter s) -> tame (bpow radix2 900) x).
  { intros x Hx. destruct (FS x Hx) as (y & Hy). eapply TV; exact Hy. }
  destruct (candidate_cells g h0 ss pre post s (bpow radix2 900) SUM ROOM SEARCH AT (Rle_refl _) _ _ _ _ _ _ TB TS E) as (L2 & Fd & Fw & _ & W).
  set (ns := map (@length row64) (split_all64 (regions_after g pre) (s64_feature s) (s64_pos s) (s64_type s))) in *.
  destruct (level_sizes g pre (s64_feature s) (s64_pos s) (s64_type s) ROOM L) as (S1 & S2 & S3 & S4). fold ns in S1, S3, S4. pose proof (before_length g h0 ss pre post s SEARCH AT) as BL.
  split.
  - destruct (score_parts (g64_sum g) (heter_after h0 pre) (s64_heter s) ns _ _ SC ltac:(lia) ltac:(lia) ltac:(lia)) as (wd & wh & _ & EW & _ & Lh & _ & Eh). rewrite EW in Fw |- *.
    assert (PH : forall x, In x wh -> plus64 x).
    { intros x Hx. apply (In_nth _ _ fnan) in Hx as (k & Hk & <-). rewrite Eh by lia. destruct (weights64_val ns k ltac:(lia) S4) as (Fk & W0 & W01 & e & He & Vk).
      assert (Hk2 : (k < length (s64_heter s))%nat) by lia. destruct (FS _ (nth_In (s64_heter s) fnan Hk2)) as (y & Hy). destruct (HV _ _ Hy) as [PV BV]. apply fmul_plus; [|exact PV|].
      - split; [exact Fk|]. apply val_plus; [exact Fk|]. rewrite Vk. apply Rmult_lt_0_compat; [lra|]. apply Rabs_le_inv in He. pose proof (bpow_lt radix2 (-53) 0 ltac:(lia)) as B. change (bpow radix2 0) with 1 in B. lra.
      - pose proof (plus_val _ PV) as PV0. rewrite Rabs_pos_eq by (apply Rmult_le_pos; lra). apply Rle_trans with (1 * bpow radix2 900); [apply Rmult_le_compat; lra|]. rewrite Rmult_1_l. apply bpow_le. lia. }
    destruct (SUM wh) as (t & Lt & Et); [intros E0; rewrite E0 in Lh; cbn in Lh; lia|]. rewrite Et in Fw |- *.
    apply tsum_fin; [exact Fw|intros x Hx; apply PH; eapply Permutation_in; [exact Lt|exact Hx]|intros x Hx; apply PH; eapply Permutation_in; [exact Lt|exact Hx]].
  - assert (X : Rabs (exact_wheter (s64_heter s) ns) <= bpow radix2 900).
    { unfold exact_wheter. eapply Rle_trans; [apply rk_abs|]. eapply Rle_trans; [apply (rk_le _ _ (fun k => bpow radix2 900 * weight ns k + 0))|].
      - intros k Hk. destruct (weights64_val ns k ltac:(lia) S4) as (_ & W0 & _). destruct (TS _ (nth_In (s64_heter s) fnan Hk)) as [_ T]. rewrite Rabs_mult, (Rabs_pos_eq (weight ns k)) by lra. rewrite Rplus_0_r, Rmult_comm. apply Rmult_le_compat_r; lra.
      - rewrite rk_lin. replace (length (s64_heter s)) with (length ns) by lia. rewrite weight_sum by (intros E0; rewrite E0 in S1; cbn in S1; lia). lra. }
    assert (N : IZR (2 ^ Z.of_nat (S (length pre)) + 4) <= bpow radix2 41).
    { change (bpow radix2 41) with (IZR (2 ^ 41)). apply IZR_le. replace (2 ^ Z.of_nat (S (length pre)))%Z with (Z.of_nat (length ns)) by (rewrite S1, (proj1 (regions_after_size g pre)), Nat2Z.inj_mul, Nat2Z.inj_pow; change (Z.of_nat 2) with 2%Z; rewrite Nat2Z.inj_succ, Z.pow_succ_r by lia; reflexivity). lia. }
    assert (E1 : bpow radix2 (-51) * bpow radix2 900 + bpow radix2 (-1074) <= bpow radix2 850).
    { rewrite <- bpow_plus. assert (bpow radix2 (-1074) <= bpow radix2 849) by (apply bpow_le; lia). change (-51 + 900)%Z with 849%Z. replace (bpow radix2 850) with (2 * bpow radix2 849) by (change 2 with (bpow radix2 1); rewrite <- bpow_plus; reflexivity). lra. }
    assert (E2 : IZR (2 ^ Z.of_nat (S (length pre)) + 4) * (bpow radix2 (-51) * bpow radix2 900 + bpow radix2 (-1074)) <= bpow radix2 900).
    { apply Rle_trans with (bpow radix2 41 * bpow radix2 850); [|rewrite <- bpow_plus; apply bpow_le; lia]. apply Rmult_le_compat; try assumption; [apply IZR_le; lia|]. pose proof (bpow_gt_0 radix2 (-1074)). assert (0 <= bpow radix2 (-51) * bpow radix2 900) by (apply Rmult_le_pos; apply bpow_ge_0). lra. }
    apply Rabs_le_inv in W, X. assert (2 * bpow radix2 900 <= bpow radix2 950) by (change 2 with (bpow radix2 1); rewrite <- bpow_plus; apply bpow_le; lia). lra.
Qed.
