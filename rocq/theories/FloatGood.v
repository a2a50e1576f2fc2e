(** FloatGood: bins whose effects are 0 or at least 2^-240 and at most T have standard deviations with sign + of at most 6 T. *)
From Coq Require Import Reals.
From Flocq Require Import Core.
From Flocq Require Import IEEE754.BinarySingleNaN.
From Verif Require Import Base Numpy NumpyFacts Utils FloatModel FloatFacts FloatGrid FloatBins FloatProofs FloatMean FloatAcc FloatVar FloatFill FloatLine FloatLine2 FloatFit FloatCat FloatAdapt FloatPDP FloatPDPStd FloatRegion FloatRegionMain FloatRegionPDPProofs FloatRegionALE FloatRegionALEProofs FloatGrain Prop_FloatMean Prop_FloatVar Prop_FloatCat Prop_FloatGreedy.
From Coq Require Import Lra.
Open Scope R_scope.

(** ** fill_nans keeps the sign + *)
Lemma fadd_result_plus x y : plus64 y -> fin (fadd x y) -> 0 <= val (fadd x y) -> plus64 (fadd x y).
Proof.
  intros [Fy Sy] F P. destruct (fadd_fin _ _ F) as [Fx _]. split; [exact F|]. pose proof (plus_val y (conj Fy Sy)) as Py. destruct (fadd_inv _ _ F) as (_ & _ & V).
  destruct (rnd_plus_rel x y) as (e & E1 & E2). rewrite E2 in V. pose proof u53_small. apply Rabs_le_inv in E1.
  pose proof (Bplus_correct 53 1024 _ _ mode_NE x y Fx Fy) as Q. cbn [round_mode] in Q. destruct (Rlt_bool _ _).
  - destruct Q as (_ & _ & Q3). unfold fadd. rewrite Q3. destruct (Rcompare_spec (val x + val y) 0) as [L|L|L]; [|rewrite Sy; apply andb_false_r|reflexivity].
    assert (0 < (- (val x + val y)) * (1 + e)) by (apply Rmult_lt_0_compat; lra). lra.
  - exfalso. exact (ovf_fin _ _ (proj1 Q) F).
Qed.
Lemma step_plus x0 f0 x1 f1 x : plus64 f0 -> plus64 f1 -> fin (interp_step64 x0 f0 x1 f1 x) -> 0 <= val (interp_step64 x0 f0 x1 f1 x) -> plus64 (interp_step64 x0 f0 x1 f1 x).
Proof.
  intros P0 P1. unfold interp_step64. destruct (Beqb x0 x); [auto|]. cbv zeta. set (r := fadd (fmul _ (fsub x x0)) f0). set (q := fadd (fmul _ (fsub x x1)) f1).
  destruct (is_nan r); [destruct (_ && _); [auto|]|]; intros F P; unfold r, q in *; now apply fadd_result_plus.
Qed.
Lemma fill_plus x y t : 0 <= t <= bpow radix2 1000 -> idx64 (length x) -> (forall v, In v x -> is_nan v = true \/ (plus64 v /\ moderate v /\ val v <= t)) -> fill_nans64 x = Ok y ->
  length y = length x /\ forall v, In v y -> plus64 v /\ val v <= 2 * t + bpow radix2 (-1000).
Proof.
  intros Ht Hx H E.
  destruct (fill_inv (fun v => plus64 v /\ moderate v /\ val v <= t) (fun v => plus64 v /\ val v <= 2 * t + bpow radix2 (-1000))) with (x := x) (y := y) as [L Q]; auto.
  - intros v (P & _ & B). split; [exact P|]. pose proof (plus_val v P). pose proof (bpow_ge_0 radix2 (-1000)). lra.
  - intros a b i f0 f1 Ha Hb Hi (P0 & M0 & B0) (P1 & M1 & B1). destruct (step_nonneg a b i f0 f1 Ha Hb Hi M0 M1) as [F P]. split; [now apply step_plus|].
    pose proof (plus_val f0 P0) as V0. pose proof (plus_val f1 P1) as V1. destruct (step_close a b i f0 f1 0 t Ha Hb Hi) as [_ C].
    + split; [apply P0|]. rewrite Rminus_0_r, Rabs_pos_eq; lra.
    + split; [apply P1|]. rewrite Rminus_0_r, Rabs_pos_eq; lra.
    + rewrite Rabs_R0. lra.
    + rewrite Rabs_R0, Rminus_0_r in C. apply Rabs_le_inv in C. lra.
  - split; [exact L|]. intros v Hv. destruct (In_nth _ _ fnan Hv) as (i & Hi & <-). apply Q. lia.
Qed.

Lemma var_bound N T : (Z.of_nat N + 1 <= 2 ^ 50)%Z -> bpow radix2 (-400) <= T <= bpow radix2 390 ->
  0 <= var_err N 0 T <= bpow radix2 900 /\ 2 * var_err N 0 T + bpow radix2 (-1000) <= 5 * T * (5 * T).
Proof.
  intros HN [T0 T1]. pose proof (bpow_gt_0 radix2 (-400)) as P4. unfold var_err, mean_err. rewrite Rabs_R0, Rplus_0_l. pose proof (gam_1' (S N) ltac:(lia)) as G1. pose proof (gam_pos (S N)) as G0.
  assert (E0 : bpow radix2 (-1075) <= / 1000 * bpow radix2 (-400)). { apply Rle_trans with (bpow radix2 (-10) * bpow radix2 (-400)); [rewrite <- bpow_plus; apply bpow_le; lia|apply Rmult_le_compat_r; [lra|unfold bpow; cbn; lra]]. }
  pose proof (bpow_gt_0 radix2 (-1075)) as E1. assert (GT : 0 <= gam (S N) * T <= / 4 * T) by (split; [apply Rmult_le_pos; lra|apply Rmult_le_compat_r; lra]).
  set (q := T + (T + gam (S N) * T + bpow radix2 (-1075))). assert (Q : 0 <= q <= 226 / 100 * T) by (unfold q; lra).
  assert (QQ : 0 <= q * q <= 226 / 100 * T * (226 / 100 * T)) by (split; [apply Rmult_le_pos; lra|apply Rmult_le_compat; lra]).
  assert (TT : bpow radix2 (-800) <= T * T). { change (-800)%Z with (-400 + -400)%Z. rewrite bpow_plus. apply Rmult_le_compat; lra. }
  assert (T2 : T * T <= bpow radix2 780). { change 780%Z with (390 + 390)%Z. rewrite bpow_plus. apply Rmult_le_compat; lra. }
  assert (E2 : bpow radix2 (-1075) <= / 1000 * bpow radix2 (-800)). { apply Rle_trans with (bpow radix2 (-10) * bpow radix2 (-800)); [rewrite <- bpow_plus; apply bpow_le; lia|apply Rmult_le_compat_r; [apply bpow_ge_0|unfold bpow; cbn; lra]]. }
  assert (E3 : bpow radix2 (-1000) <= / 1000 * bpow radix2 (-800)). { apply Rle_trans with (bpow radix2 (-10) * bpow radix2 (-800)); [rewrite <- bpow_plus; apply bpow_le; lia|apply Rmult_le_compat_r; [apply bpow_ge_0|unfold bpow; cbn; lra]]. }
  assert (B9 : 16 * bpow radix2 780 <= bpow radix2 900). { change 16 with (bpow radix2 4). rewrite <- bpow_plus. apply bpow_le. lia. }
  assert (BB : bpow radix2 (-800) <= bpow radix2 780) by (apply bpow_le; lia). split; [split; lra|lra].
Qed.

Lemma sd_bound v T : plus64 v -> bpow radix2 (-400) <= T <= bpow radix2 390 -> val v <= 5 * T * (5 * T) -> plus64 (fsqrt v) /\ val (fsqrt v) <= 6 * T.
Proof.
  intros P [T0 T1] B. split; [now apply fsqrt_plus|]. pose proof (plus_val v P) as V0. destruct (fsqrt_val v (proj1 P) V0) as [-> _]. pose proof (bpow_gt_0 radix2 (-400)) as P4.
  assert (S : sqrt (val v) <= 5 * T). { rewrite <- (sqrt_square (5 * T)) by lra. apply sqrt_le_1_alt. lra. }
  eapply Rle_trans; [apply rnd_le, S|]. destruct (rnd_rel (5 * T)) as (e & E1 & ->).
  { rewrite Rabs_pos_eq by lra. assert (bpow radix2 (-1022) <= bpow radix2 (-400)) by (apply bpow_le; lia). lra. }
  pose proof u53_small. apply Rabs_le_inv in E1. assert (5 * T * (1 + e) <= 5 * T * (12 / 10)) by (apply Rmult_le_compat_l; lra). lra.
Qed.

Lemma params_good xs es l p T : fins xs -> fins l -> sorted64 l -> (2 <= length l)%nat -> length xs = length es -> (Z.of_nat (length xs) <= 2 ^ 40)%Z -> idx64 (length l) ->
  (forall x, In x xs -> val (first64 l) <= val x <= val (last64 l)) -> - bpow radix2 27 <= val (last64 l) < bpow radix2 27 ->
  (forall e, In e es -> coarse (-240) e /\ Rabs (val e) <= T) -> bpow radix2 (-400) <= T <= bpow radix2 390 ->
  compute_ale_params64 xs es l = Ok p ->
  p64_limits p = l /\ p64_dx p = diffs64 l /\ length (p64_effect p) = (length l - 1)%nat /\ length (p64_var p) = (length l - 1)%nat /\
  (forall v, In v (p64_var p) -> plus64 v) /\ (forall d, In d (map fsqrt (p64_var p)) -> plus64 d /\ val d <= 6 * T).
Proof.
  intros Fx F So L Le HN HI C B HE HT HP. destruct (params_small xs es l p Fx F So L C B HP) as (_ & LE & _).
  unfold compute_ale_params64 in HP. apply bind_ok in HP as ((be, ppb) & H1 & HP). apply bind_ok in HP as ((bv, bev) & H2 & HP). apply bind_ok in HP as (e & E1 & HP). apply bind_ok in HP as (v & E2 & HP). apply bind_ok in HP as (w & E3 & HP).
  assert (EP : p = mkP64 l (map (fun p => fsub (snd p) (fst p)) (combine l (tl l))) ppb e v w) by congruence. subst p. cbn [p64_limits p64_dx p64_effect p64_var] in *.
  destruct (bins_exist xs es l Fx F So L Le C B) as (be' & ppb' & bv' & bev' & H1' & H2' & Lb & Lv & _). assert (be' = be) by congruence. subst be'. assert (bv' = bv) by congruence. subst bv'.
  destruct (widen64_sorted l ltac:(lia) F So B) as (F' & So' & _). destruct (var_bound (length xs) T ltac:(lia) HT) as [VB VT].
  assert (T0 : 0 <= T) by (pose proof (bpow_ge_0 radix2 (-400)); lra).
  assert (NE : forall e0, In e0 es -> near 0 T e0). { intros e0 He. destruct (HE e0 He) as [[Fe _] Be]. split; [exact Fe|]. rewrite Rminus_0_r. exact Be. }
  assert (VN := fun k Hk => variance_near xs es l 0 T Fx F So L Le ltac:(lia) C B NE T0 ltac:(rewrite Rabs_R0, Rplus_0_l; eapply Rle_trans; [apply HT|apply bpow_le; lia]) be ppb bv bev H1 H2 Lb k Hk).
  destruct (fill_plus bv v (var_err (length xs) 0 T)) as [Ly N]; [split; [apply VB|eapply Rle_trans; [apply VB|apply bpow_le; lia]]|unfold idx64 in *; lia| |exact E2|].
  - intros u Hu. destruct (In_nth _ _ fnan Hu) as (k & Hk & <-). rewrite Lv in Hk. destruct (VN k Hk) as [V1 V2]. set (ms := bin_members (widen64 l) k xs es) in *.
    destruct (Nat.lt_ge_cases (length ms) 2) as [Q|Q]; [left; now apply V1|right]. destruct (V2 Q) as [[V3 V4] _].
    destruct (variance_moderate xs es l be bv bev ppb k Fx F' So' ltac:(lia) Le HN H1 ltac:(lia) H2) as [P M]; auto.
    + intros e0 He. now apply HE.
    + apply Rle_trans with (bpow radix2 900); [lra|apply bpow_le; lia].
    + split; [exact P|]. split; [exact M|]. lra.
  - split; [reflexivity|]. split; [reflexivity|]. split; [exact LE|]. split; [lia|]. split; [intros u Hu; now apply N|].
    intros d Hd. apply in_map_iff in Hd as (u & <- & Hu). destruct (N u Hu) as [P Q]. apply sd_bound; auto. lra.
Qed.

(** ** the limits of the bins of a feature of moderate size *)
(** finite, different values at least [gap] apart, of size at most M *)
Definition spaced (M gap : R) (xs : list b64) : Prop :=
  (forall x, In x xs -> fin x /\ Rabs (val x) <= M) /\ (forall x y, In x xs -> In y xs -> val x < val y -> gap <= val y - val x).
Definition scale (M gap : R) : Prop := M <= bpow radix2 25 /\ bpow radix2 (-900) <= gap /\ M <= bpow radix2 50 * gap.

Lemma cat_bins M gap xs : scale M gap -> spaced M gap xs -> (2 <= length (unique64 xs))%nat ->
  let l := cat_lims (unique64 xs) in
  fins l /\ sorted64 l /\ length l = S (length (unique64 xs)) /\ (forall x, In x xs -> val (first64 l) <= val x <= val (last64 l)) /\ Rabs (val (first64 l)) <= 4 * M /\ Rabs (val (last64 l)) <= 3 * M.
Proof.
  intros (HM & HG & HMG) (HB & HS) H2 l. assert (F : fins xs) by (intros x Hx; now apply HB). destruct (unique64_spec xs F) as (I & I1 & I2). set (u := unique64 xs) in *.
  assert (BM : forall x, In x u -> fin x /\ Rabs (val x) <= M) by (intros x Hx; apply HB, I1, Hx).
  assert (P1 : M <= bpow radix2 1000) by (eapply Rle_trans; [exact HM|apply bpow_le; lia]). assert (P2 : bpow radix2 (-1000) <= gap) by (eapply Rle_trans; [|exact HG]; apply bpow_le; lia).
  assert (T : forall x, In x u -> tame x) by (intros x Hx; destruct (BM x Hx); split; [assumption|lra]).
  assert (GP : forall i, (S i < length u)%nat -> gap <= val (nth (S i) u fnan) - val (nth i u fnan)) by (intros i Hi; apply HS; [apply I1, nth_In; lia|apply I1, nth_In; lia|apply incr_nth; auto]).
  assert (Sp : spread u). { intros i Hi. specialize (GP i Hi). destruct (BM _ (nth_In u fnan (n := i) ltac:(lia))) as [_ B1]. destruct (BM _ (nth_In u fnan (n := S i) ltac:(lia))) as [_ B2].
    assert (bpow radix2 50 * gap <= bpow radix2 50 * (val (nth (S i) u fnan) - val (nth i u fnan))) by (apply Rmult_le_compat_l; [apply bpow_ge_0|exact GP]). split; [lra|]. split; lra. }
  destruct (lims_spec u H2 T Sp) as (FL & ML & BL). pose proof (lims_length u H2) as LL. fold l in FL, ML, BL, LL.
  assert (So : sorted64 l). { intros i Hi. rewrite LL in Hi. specialize (ML i ltac:(lia)). lra. }
  split; [exact FL|]. split; [exact So|]. split; [exact LL|].
  assert (EL : last64 l = nth (length u) l fnan) by (unfold last64; rewrite LL; f_equal; lia). unfold first64. rewrite EL.
  assert (M0 : 0 <= M). { destruct (BM _ (nth_In u fnan (n := 0) ltac:(lia))) as [_ B1]. pose proof (Rabs_pos (val (nth 0 u fnan))). lra. }
  split; [|split].
  - intros x Hx. destruct (I2 x Hx) as (y & Hy & Ey). destruct (In_nth _ _ fnan Hy) as (i & Hi & <-). rewrite <- Ey. specialize (ML i Hi). pose proof (sorted_le l 0 i So ltac:(lia) ltac:(lia)). pose proof (sorted_le l (S i) (length u) So ltac:(lia) ltac:(lia)). lra.
  - destruct (BM _ (nth_In u fnan (n := 0) ltac:(lia))) as [F0 B0]. destruct (BM _ (nth_In u fnan (n := 1) ltac:(lia))) as [F1 B1]. pose proof (GP 0%nat ltac:(lia)) as G0. unfold l. rewrite lims_0 by exact H2.
    destruct (half_gap (nth 0 u fnan) (nth 1 u fnan)) as [Fh Vh]; auto; try lra. set (h := fdiv _ _) in *. pose proof u53_pos. pose proof u53_small.
    apply Rabs_le_inv in B0. apply Rabs_le_inv in B1. set (g := val (nth 1 u fnan) - val (nth 0 u fnan)) in *. assert (0 < gap) by (pose proof (bpow_gt_0 radix2 (-900)); lra).
    assert (HB2 : 0 <= val h <= 11 / 10 * M). { assert (g <= 2 * M) by (unfold g; lra). assert ((1 + bpow radix2 (-53)) * (g / 2) <= 11 / 10 * (g / 2)) by (apply Rmult_le_compat_r; lra). assert (0 <= (1 - bpow radix2 (-53)) * (g / 2)) by (apply Rmult_le_pos; lra). lra. }
    assert (AB : Rabs (val (nth 0 u fnan) - val h) <= 21 / 10 * M) by (apply Rabs_le; lra).
    destruct (fsub_val (nth 0 u fnan) h F0 Fh) as [V _]. { apply Rle_trans with (bpow radix2 2 * bpow radix2 25); [change (bpow radix2 2) with 4; lra|]. rewrite <- bpow_plus. apply bpow_le. lia. }
    rewrite V. destruct (rnd_minus_rel (nth 0 u fnan) h) as (e & E1 & ->). rewrite Rabs_mult. apply Rle_trans with (21 / 10 * M * (11 / 10)); [|lra]. apply Rmult_le_compat; auto using Rabs_pos. apply Rabs_le_inv in E1. apply Rabs_le. lra.
  - assert (exists k, length u = S (S k)) as [k Hk] by (exists (length u - 2)%nat; lia). pose proof (ML (S k) ltac:(lia)) as [_ L1]. destruct (BM _ (nth_In u fnan (n := S k) ltac:(lia))) as [F1 B1]. destruct (BM _ (nth_In u fnan (n := k) ltac:(lia))) as [F0 B0].
    destruct (add_half (nth k u fnan) (nth (S k) u fnan) (nth (S k) u fnan)) as (_ & VL & _); [apply T, nth_In; lia|apply T, nth_In; lia|apply T, nth_In; lia|apply Sp; lia|apply Sp; lia|].
    rewrite <- (lims_last u k Hk) in VL. fold l in VL. rewrite Hk. apply Rabs_le_inv in B1. apply Rabs_le_inv in B0. apply Rabs_le. lra.
Qed.

(** bins that contain the data *)
Definition encloses (M : R) (n : nat) (xs l : list b64) : Prop :=
  fins l /\ sorted64 l /\ (2 <= length l <= n + 1)%nat /\ (forall x, In x xs -> val (first64 l) <= val x <= val (last64 l)) /\ Rabs (val (first64 l)) <= 4 * M /\ Rabs (val (last64 l)) <= 3 * M.

Lemma fixed_encloses M gap xs lo hi n m cat l : scale M gap -> spaced M gap xs -> fin lo -> fin hi -> In lo xs -> In hi xs -> (forall x, In x xs -> val lo <= val x <= val hi) -> val lo < val hi ->
  (1 <= n)%nat -> (Z.of_nat n <= 2 ^ 48)%Z -> fixed_find64 xs lo hi n m cat = Ok (Some l) -> encloses M (Nat.max n cat) xs l.
Proof.
  intros SC SP Fl Fh Il Ih RG LT H1 H2 H. pose proof SC as (HM & HG & _). pose proof SP as [HB HS]. assert (F : fins xs) by (intros x Hx; now apply HB).
  assert (U2 : (2 <= length (unique64 xs))%nat). { destruct (unique64_spec xs F) as (_ & _ & U). destruct (U lo Il) as (a & Ia & Ea). destruct (U hi Ih) as (b & Ib & Eb). destruct (unique64 xs) as [|x [|y q]]; cbn; try lia; [destruct Ia|]. destruct Ia as [<-|[]]. destruct Ib as [<-|[]]. lra. }
  assert (M0 : 0 <= M) by (destruct (HB lo Il) as [_ B]; pose proof (Rabs_pos (val lo)); lra).
  unfold fixed_find64 in H. destruct (Nat.leb_spec (length (unique64 xs)) cat).
  - rewrite cat_limits_eq in H by exact U2. destruct (all_valid64 _ _ _); apply ok_inj in H; [|discriminate H]. assert (E : l = cat_lims (unique64 xs)) by congruence. rewrite E.
    destruct (cat_bins M gap xs SC SP U2) as (A1 & A2 & A3 & A4). repeat split; auto; try apply A4; auto; try lia.
  - cbv zeta in H. destruct (all_valid64 _ _ _); apply ok_inj in H; [|discriminate H]. assert (E : l = linspace64 lo hi (n + 1)) by congruence. rewrite E. destruct (HB lo Il) as [_ Bl]. destruct (HB hi Ih) as [_ Bh].
    assert (BB : M <= bpow radix2 1021) by (eapply Rle_trans; [exact HM|apply bpow_le; lia]). pose proof (HS lo hi Il Ih LT) as G.
    destruct (linspace64_facts lo hi n Fl Fh ltac:(lra) ltac:(lra) ltac:(lra) H1 H2) as (L & FF & So & E1 & E2). split; [exact FF|]. split; [exact So|]. split; [lia|]. rewrite E1, E2. split; [exact RG|]. split; lra.
Qed.
