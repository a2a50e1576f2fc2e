(** Prop_FloatLine: C108, the ALE / RHALE curve of a linear model in binary64 is the line, up to a stated error. *)
From Coq Require Import Reals.
From Flocq Require Import Core.
From Flocq Require Import IEEE754.BinarySingleNaN.
From Verif Require Import Base Numpy NumpyFacts FloatModel FloatFacts FloatGrid FloatBins FloatProofs FloatMean FloatAcc FloatFill FloatLine FloatLine2 FloatLine3 Prop_FloatMean Prop_FloatAcc Prop_Float.
From Coq Require Import Lra.
Open Scope R_scope.

(** [near a t e]: the float e is finite and within t of the real number a *)
Remark near_unfold a t e : near a t e <-> is_finite e = true /\ Rabs (val e - a) <= t. Proof. reflexivity. Qed.
(** the error of a bin effect when the N instance effects are within t of the slope a: 3 t, plus the rounding of the mean and
    of the interpolation of empty bins *)
Remark slope_err_unfold N a t : slope_err N a t = 3 * t + 2 * ((1 + bpow radix2 (-53)) ^ (N + 2) - 1) * Rabs a + bpow radix2 (-999). Proof. reflexivity. Qed.
(** the error of the curve at distance d from the first limit, T the error of the bin effects, K bins *)
Definition line_err (K : nat) (a T d : R) : R :=
  (T + ((1 + bpow radix2 (-53)) ^ (K + 2) - 1) * (Rabs a + T)) * d + IZR (Z.of_nat K) * bpow radix2 (-1074).

(** Whatever the bins: if every instance effect is within t of one slope a, then every bin effect - of empty bins too - is
    within [slope_err], and the curve is the line a (x - l_0) within [line_err]. RHALE passes the Jacobian column as effects. *)
Theorem C108_slopes xs es l p ps a t :
  fins xs -> fins l -> sorted64 l -> (2 <= length l)%nat -> length xs = length es -> (Z.of_nat (length xs) + 1 <= 2 ^ 50)%Z ->
  (Z.of_nat (length l) + 2 <= 2 ^ 50)%Z ->
  (forall x, In x xs -> val (first64 l) <= val x <= val (last64 l)) ->
  - bpow radix2 27 <= val (first64 l) -> val (last64 l) < bpow radix2 27 ->
  (forall e, In e es -> near a t e) -> 0 <= t -> Rabs a + t <= bpow radix2 900 ->
  compute_ale_params64 xs es l = Ok p ->
  let T := slope_err (length xs) a t in let K := (length l - 1)%nat in
  length (p64_effect p) = K /\ (forall e, In e (p64_effect p) -> near a T e) /\
  ((forall x, In x ps -> position l x /\ val (first64 l) <= val x <= val (last64 l)) ->
   exists ys, eval_unnorm64 p ps = Ok ys /\ length ys = length ps /\
     forall i, (i < length ps)%nat ->
       near (a * (val (nth i ps fnan) - val (first64 l))) (line_err K a T (val (nth i ps fnan) - val (first64 l))) (nth i ys fnan)).
Proof.
  intros Fx F So L Le HN HL C B1 B2 HE T0 BA H T K.
  assert (FL : val (first64 l) <= val (last64 l)) by (apply sorted_le; auto; lia).
  destruct (effects_near xs es l p a t Fx F So L Le HN ltac:(lia) C ltac:(lra) HE T0 BA H) as [L1 NE]. fold T in NE.
  assert (NE' : forall e, In e (p64_effect p) -> near a T e). { intros e He. destruct (In_nth _ _ fnan He) as (i & Hi & <-). apply NE. lia. }
  split; [exact L1|]. split; [exact NE'|]. intros HP.
  assert (Bl : forall i, (i < length l)%nat -> Rabs (val (nth i l fnan)) <= bpow radix2 27).
  { intros i Hi. apply Rabs_le. pose proof (sorted_le l 0 i So ltac:(lia) Hi). pose proof (sorted_le l i (length l - 1) So ltac:(lia) ltac:(lia)). unfold first64, last64 in *. lra. }
  assert (Bl' : forall i, (i < length l)%nat -> Rabs (val (nth i l fnan)) <= bpow radix2 1021) by (intros i Hi; eapply Rle_trans; [now apply Bl|]; apply bpow_le; lia).
  assert (HT : forall i, (i < length (p64_effect p))%nat -> Rabs (val (nth i (p64_effect p) fnan) - a) <= T) by (intros i Hi; apply NE; lia).
  pose proof (slope_err_pos (length xs) a t T0) as T1. fold T in T1. pose proof (Rabs_pos a) as A0.
  assert (TB : Rabs a + T <= bpow radix2 903).
  { unfold T, slope_err. assert (gam (length xs + 2) <= / 2).
    { replace (length xs + 2)%nat with (S (S (length xs))) by lia. rewrite gam_S. pose proof (gam_1' (S (length xs)) ltac:(lia)) as G. pose proof (gam_pos (S (length xs))). pose proof u53_pos. pose proof u53_small.
      assert (u53 * (1 + gam (S (length xs))) <= / 1000000 * 2) by (apply Rmult_le_compat; lra). lra. }
    assert (gam (length xs + 2) * Rabs a <= / 2 * Rabs a) by (apply Rmult_le_compat_r; lra).
    assert (bpow radix2 (-999) <= bpow radix2 900) by (apply bpow_le; lia). change (bpow radix2 903) with (bpow radix2 (3 + 900)). rewrite bpow_plus. change (bpow radix2 3) with 8. pose proof (bpow_ge_0 radix2 900). lra. }
  assert (TT : table l (p64_effect p)).
  { repeat split; auto; try lia; [intros e He; exact (proj1 (NE' e He))|]. replace (nth (length (p64_effect p)) l fnan) with (last64 l) by (unfold last64; f_equal; lia).
    destruct (curve_near l (p64_effect p) a T (val (last64 l)) F So L L1 Bl' HT ltac:(lra)) as [_ V]. eapply Rle_trans; [exact V|].
    apply Rle_trans with (bpow radix2 903 * bpow radix2 28); [|rewrite <- bpow_plus; apply bpow_le; lia].
    assert (val (last64 l) - val (first64 l) <= bpow radix2 28). { change (bpow radix2 28) with (bpow radix2 (1 + 27)). rewrite bpow_plus. change (bpow radix2 1) with 2. lra. }
    apply Rmult_le_compat; lra. }
  destruct (C102_curve xs es l p ps H TT (fun x Hx => proj1 (HP x Hx))) as (ys & E & Ly & Y). exists ys. split; [exact E|]. split; [exact Ly|].
  intros i Hi. destruct (Y i Hi) as [Fy Ey]. split; [exact Fy|]. destruct (HP _ (nth_In ps fnan Hi)) as [_ R]. set (x := val (nth i ps fnan)) in *.
  destruct (curve_near l (p64_effect p) a T x F So L L1 Bl' HT R) as [N V].
  replace (val (nth i ys fnan) - a * (x - val (first64 l))) with ((val (nth i ys fnan) - curve l (p64_effect p) x) + (curve l (p64_effect p) x - a * (x - val (first64 l)))) by ring.
  eapply Rle_trans; [apply Rabs_triang|]. rewrite L1 in Ey. fold K in Ey. unfold line_err.
  set (G := (1 + bpow radix2 (-53)) ^ (K + 2) - 1) in *. assert (G0 : 0 <= G) by apply (gam_pos (K + 2)).
  assert (G * variation l (p64_effect p) x <= G * ((Rabs a + T) * (x - val (first64 l)))) by (apply Rmult_le_compat_l; assumption). lra.
Qed.

(** The whole ALE pipeline with equal bins. The model's outputs, with the feature set to z, are within delta of
    a z + b_r (b_r may depend on the other features of the instance). Values below M <= 2^26, bins at least 16 times wider
    than [width_err M] = 2^-47 M + 2^-26 (2^-26 because the last limit is moved by 1e-8). Then the curve on [lo, hi] is the line
    a (x - lo), within [line_err] for T = slope_err N a t and t = 5 (|a| width_err + delta) / bin width + 2^-1075. *)
Remark width_err_unfold M : width_err M = M * bpow radix2 (-47) + bpow radix2 (-26). Proof. reflexivity. Qed.
Remark effect_err_unfold lo hi K M a delta :
  effect_err lo hi K M a delta = 5 * (Rabs a * width_err M + delta) / ((val hi - val lo) / IZR (Z.of_nat K)) + bpow radix2 (-1075). Proof. reflexivity. Qed.

Theorem C108_ale X g f lo hi K m cat M a b delta p ps :
  fins (col64 X f) -> axis_limits64 X f = Ok (lo, hi) -> (Z.of_nat (length X) + 1 <= 2 ^ 50)%Z ->
  Rabs (val lo) <= M -> Rabs (val hi) <= M -> M <= bpow radix2 26 ->
  (1 <= K)%nat -> (Z.of_nat K <= 2 ^ 48)%Z -> (cat < length (unique64 (col64 X f)))%nat ->
  16 * width_err M <= (val hi - val lo) / IZR (Z.of_nat K) ->
  0 <= delta <= bpow radix2 800 -> Rabs a <= bpow radix2 800 ->
  (forall r z, In r X -> fin z -> Rabs (val z) <= M + 1 -> near (a * val z + b r) delta (g (list_set r f z))) ->
  ale_fit_feature64 X (map g) lo hi f K m cat = Ok p ->
  (forall x, In x ps -> fin x /\ val lo <= val x <= val hi) ->
  exists ys, eval_unnorm64 p ps = Ok ys /\ length ys = length ps /\
    forall i, (i < length ps)%nat -> let x := val (nth i ps fnan) in
      near (a * (x - val lo)) (line_err K a (slope_err (length X) a (effect_err lo hi K M a delta)) (x - val lo)) (nth i ys fnan).
Proof.
  intros FX HA HN Blo Bhi HM HK HK2 HC HS [D0 D1] BA HG HF HP.
  destruct (axis_limits64_ok X f lo hi FX HA) as (NX & Flo & Fhi & _ & RX).
  unfold ale_fit_feature64 in HF. rewrite kept_all in HF by assumption.
  apply bind_ok in HF as (o & HO & HF). unfold fixed_find64 in HO. rewrite (proj2 (Nat.leb_gt _ _) HC) in HO.
  set (l := linspace64 lo hi (K + 1)) in *. destruct (all_valid64 (col64 X f) m l); [|assert (o = None) by congruence; subst o; discriminate].
  assert (o = Some l) by congruence. subst o. clear HO.
  destruct (grid_facts lo hi K M Flo Fhi Blo Bhi HM HK HK2 HS) as (Ll & Fl & Sl & E0 & EK). fold l in Ll, Fl, Sl, E0, EK.
  pose proof (hi_range hi K M Bhi HM HK) as HR.
  destruct (local_effects_small X g l f FX NX Fl Sl ltac:(lia)) as [LE LB]; [intros r Hr; rewrite E0, EK; now apply RX|now rewrite EK|].
  rewrite LE in HF. set (l' := widen64 l) in *. cbn [bind] in HF. set (es := map _ X) in HF.
  destruct (widen64_sorted l ltac:(lia) Fl Sl) as (Fl' & Sl' & LL); [now rewrite EK|]. fold l' in Fl', Sl', LL. rewrite EK in LL.
  assert (Ll' : length l' = (K + 1)%nat) by (unfold l'; now rewrite widen64_length).
  assert (E0' : val (first64 l') = val lo). { unfold first64, l'. rewrite widen64_nth by lia. destruct (Nat.eqb_spec 0 (length l - 1)); [lia|exact E0]. }
  assert (EK' : last64 l' = fadd hi EPS64). { unfold last64. rewrite Ll'. unfold l'. rewrite widen64_nth by lia. rewrite Ll. destruct (Nat.eqb_spec (K + 1 - 1) (K + 1 - 1)); [|lia]. unfold last64 in EK. rewrite Ll in EK. now rewrite EK. }
  destruct (hi_wide hi K M Fhi Bhi HM HK) as (_ & Fw & W). rewrite <- EK' in W, Fw.
  assert (M0 : 0 <= M) by (eapply Rle_trans; [apply Rabs_pos|exact Blo]). pose proof u53_pos as U. pose proof u53_small as US.
  assert (MU : M * u53 <= bpow radix2 (-27)). { apply Rle_trans with (bpow radix2 26 * u53); [apply Rmult_le_compat_r; lra|]. rewrite <- bpow_plus. apply bpow_le. lia. }
  assert (B27 : bpow radix2 (-26) + bpow radix2 (-27) <= / 100) by (unfold bpow; cbn; lra).
  assert (M27 : M + 1 < bpow radix2 27). { change (bpow radix2 27) with (bpow radix2 (1 + 26)). rewrite bpow_plus. change (bpow radix2 1) with 2. assert (bpow radix2 1 <= bpow radix2 26) by (apply bpow_le; lia). change (bpow radix2 1) with 2 in *. lra. }
  assert (Bz : forall i, (i < length l')%nat -> Rabs (val (nth i l' fnan)) <= M + 1).
  { intros i Hi. apply Rabs_le. pose proof (sorted_le l' 0 i Sl' ltac:(lia) Hi). pose proof (sorted_le l' i (length l' - 1) Sl' ltac:(lia) ltac:(lia)). fold (last64 l') in *. fold (first64 l') in *.
    apply Rabs_le_inv in W. apply Rabs_le_inv in Blo. apply Rabs_le_inv in Bhi. lra. }
  assert (HE : forall e, In e es -> near a (effect_err lo hi K M a delta) e).
  { intros e He. unfold es in He. apply in_map_iff in He as (r & <- & Hr). destruct (LB r Hr) as [I1 _]. set (k := bin_of l' (nth f r fnan)) in *.
    assert (N1 : near (a * val (nth (S k) l' fnan) + b r) delta (g (list_set r f (nth (S k) l' fnan)))) by (apply HG; auto; [apply fins_nth; auto|apply Bz]; lia).
    assert (N2 : near (a * val (nth k l' fnan) + b r) delta (g (list_set r f (nth k l' fnan)))) by (apply HG; auto; [apply fins_nth; auto|apply Bz]; lia).
    exact (effect_near lo hi K M Flo Fhi Blo Bhi HM HK HK2 HS a (b r) delta k _ _ ltac:(lia) (proj1 N1) (proj1 N2) D0 (proj2 N1) (proj2 N2) BA D1). }
  set (t := effect_err lo hi K M a delta) in *.
  assert (WP : 0 < width_err M) by (unfold width_err; pose proof (bpow_gt_0 radix2 (-26)); pose proof (bpow_ge_0 radix2 (-47)); assert (0 <= M * bpow radix2 (-47)) by (apply Rmult_le_pos; lra); lra).
  set (s := (val hi - val lo) / IZR (Z.of_nat K)) in *.
  assert (T0 : 0 <= t). { unfold t, effect_err. fold s. pose proof (bpow_ge_0 radix2 (-1075)). assert (0 <= 5 * (Rabs a * width_err M + delta) / s); [|lra]. unfold Rdiv. apply Rmult_le_pos; [|apply Rlt_le, Rinv_0_lt_compat; lra].
    assert (0 <= Rabs a * width_err M) by (apply Rmult_le_pos; [apply Rabs_pos|lra]). lra. }
  assert (TB : Rabs a + t <= bpow radix2 900).
  { unfold t, effect_err. fold s. assert (is1 : / s <= bpow radix2 26). { replace (bpow radix2 26) with (/ bpow radix2 (-26)) by (rewrite <- bpow_opp; reflexivity). apply Rinv_le; [apply bpow_gt_0|]. assert (bpow radix2 (-26) <= width_err M); [|lra]. unfold width_err. pose proof (bpow_ge_0 radix2 (-47)). assert (0 <= M * bpow radix2 (-47)) by (apply Rmult_le_pos; lra). lra. }
    assert (W1 : width_err M <= 1). { unfold width_err. destruct powers as (_ & _ & P47). rewrite P47. assert (bpow radix2 (-27) <= / 100000) by (unfold bpow; cbn; lra). assert (bpow radix2 (-26) <= / 100000) by (unfold bpow; cbn; lra). lra. }
    pose proof (Rabs_pos a) as A0. assert (Rabs a * width_err M <= Rabs a * 1) by (apply Rmult_le_compat_l; lra). assert (0 <= Rabs a * width_err M) by (apply Rmult_le_pos; lra).
    assert (Q : 5 * (Rabs a * width_err M + delta) / s <= 10 * bpow radix2 800 * bpow radix2 26). { unfold Rdiv. apply Rmult_le_compat; try lra. apply Rlt_le, Rinv_0_lt_compat; lra. }
    assert (bpow radix2 (-1075) <= bpow radix2 800) by (apply bpow_le; lia). assert (16 * bpow radix2 800 * bpow radix2 26 <= bpow radix2 900).
    { change 16 with (bpow radix2 4). rewrite <- !bpow_plus. apply bpow_le. lia. }
    assert (6 * bpow radix2 800 <= 6 * bpow radix2 800 * bpow radix2 26). { assert (1 <= bpow radix2 26) by (change 1 with (bpow radix2 0); apply bpow_le; lia). pose proof (bpow_ge_0 radix2 800). assert (6 * bpow radix2 800 * 1 <= 6 * bpow radix2 800 * bpow radix2 26) by (apply Rmult_le_compat_l; lra). lra. }
    pose proof (bpow_ge_0 radix2 800). lra. }
  assert (Lc : length (col64 X f) = length X) by apply map_length.
  assert (Lim : - bpow radix2 27 <= val (first64 l') /\ val (last64 l') < bpow radix2 27). { rewrite E0'. apply Rabs_le_inv in W. apply Rabs_le_inv in Blo. apply Rabs_le_inv in Bhi. lra. }
  destruct (C108_slopes (col64 X f) es l' p ps a t) as (_ & _ & Y); auto; try tauto; try lia.
  - unfold es. rewrite Lc, map_length. reflexivity.
  - intros x Hx. rewrite E0', EK'. rewrite EK' in LL. apply in_map_iff in Hx as (r & <- & Hr). destruct (RX r Hr). lra.
  - destruct Y as (ys & Y1 & Y2 & Y3).
    + intros x Hx. destruct (HP x Hx) as [Fx Rx]. rewrite E0'. repeat split; auto; try lra.
      * apply Rle_trans with M; [apply Rabs_le; apply Rabs_le_inv in Blo; apply Rabs_le_inv in Bhi; lra|]. eapply Rle_trans; [exact HM|]. apply bpow_le. lia.
      * left. fold (last64 l'). lra.
    + exists ys. split; [exact Y1|]. split; [exact Y2|]. intros i Hi x. specialize (Y3 i Hi). fold x in Y3. rewrite E0', Lc, Ll' in Y3. replace (K + 1 - 1)%nat with K in Y3 by lia. exact Y3.
Qed.

(** In particular for a linear model evaluated in float64, w * x_f + c(r) with c(r) any float function of the other features: delta is
    3 * 2^-53 (|w| (M + 1) + C) + 2^-1074 if C bounds |c(r)|. *)
Lemma linear_near w z c C Z : fin w -> fin z -> fin c -> Rabs (val z) <= Z -> Rabs (val c) <= C -> Rabs (val w) * Z + C <= bpow radix2 800 ->
  near (val w * val z + val c) (3 * bpow radix2 (-53) * (Rabs (val w) * Z + C) + bpow radix2 (-1074)) (fadd (fmul w z) c).
Proof.
  intros Fw Fz Fc Bz Bc B. pose proof (Rabs_pos (val w)) as W0. pose proof (Rabs_pos (val z)) as Z0. pose proof (Rabs_pos (val c)) as C0. pose proof u53_pos as U. pose proof u53_small as US.
  assert (WZ : Rabs (val w * val z) <= Rabs (val w) * Z) by (rewrite Rabs_mult; apply Rmult_le_compat_l; lra). set (q := Rabs (val w) * Z) in *. pose proof (Rabs_pos (val w * val z)) as Q0.
  assert (Big : 4 * bpow radix2 800 <= bpow radix2 1023) by (change 4 with (bpow radix2 2); rewrite <- bpow_plus; apply bpow_le; lia).
  destruct (fmul_val w z Fw Fz) as [VP FP]; [pose proof (bpow_ge_0 radix2 800); lra|]. pose proof (rnd_err (val w * val z)) as RP. rewrite <- VP in RP. set (p := fmul w z) in *.
  assert (E1 : bpow radix2 (-1074) = 2 * bpow radix2 (-1075)) by (change (-1074)%Z with (1 + -1075)%Z; rewrite bpow_plus; reflexivity).
  pose proof (bpow_gt_0 radix2 (-1075)) as E0. assert (Es : bpow radix2 (-1075) <= bpow radix2 800) by (apply bpow_le; lia).
  assert (UQ : u53 * Rabs (val w * val z) <= u53 * q) by (apply Rmult_le_compat_l; lra). assert (UQ1 : u53 * q <= / 1000000 * q) by (apply Rmult_le_compat_r; lra).
  assert (PB : Rabs (val p) <= 2 * q + bpow radix2 (-1075)). { replace (val p) with ((val p - val w * val z) + val w * val z) by ring. eapply Rle_trans; [apply Rabs_triang|]. lra. }
  assert (PB2 : Rabs (val p) <= (1 + / 1000000) * q + bpow radix2 (-1075)). { replace (val p) with ((val p - val w * val z) + val w * val z) by ring. eapply Rle_trans; [apply Rabs_triang|]. lra. }
  assert (PC : Rabs (val p + val c) <= (1 + / 1000000) * q + bpow radix2 (-1075) + C). { eapply Rle_trans; [apply Rabs_triang|]. lra. }
  destruct (fadd_val p c FP Fc) as [VR FR]; [lra|]. destruct (rnd_plus_rel p c) as (e & A1 & A2). split; [exact FR|]. rewrite VR, A2.
  replace ((val p + val c) * (1 + e) - (val w * val z + val c)) with ((val p - val w * val z) + (val p + val c) * e) by ring. eapply Rle_trans; [apply Rabs_triang|]. rewrite Rabs_mult.
  assert (Rabs (val p + val c) * Rabs e <= ((1 + / 1000000) * q + bpow radix2 (-1075) + C) * u53) by (apply Rmult_le_compat; auto using Rabs_pos).
  assert (bpow radix2 (-1075) * u53 <= bpow radix2 (-1075) * 1) by (apply Rmult_le_compat_l; lra). assert (0 <= u53 * q) by (apply Rmult_le_pos; lra). assert (0 <= u53 * C) by (apply Rmult_le_pos; lra). lra.
Qed.

Theorem C108_linear X c w C f lo hi K m cat M p ps :
  fins (col64 X f) -> axis_limits64 X f = Ok (lo, hi) -> (Z.of_nat (length X) + 1 <= 2 ^ 50)%Z ->
  (forall r, In r X -> (f < length r)%nat) ->
  Rabs (val lo) <= M -> Rabs (val hi) <= M -> M <= bpow radix2 26 ->
  (1 <= K)%nat -> (Z.of_nat K <= 2 ^ 48)%Z -> (cat < length (unique64 (col64 X f)))%nat ->
  16 * width_err M <= (val hi - val lo) / IZR (Z.of_nat K) ->
  fin w -> (forall r, In r X -> fin (c r) /\ Rabs (val (c r)) <= C) -> (forall r z, In r X -> c (list_set r f z) = c r) ->
  Rabs (val w) + C <= bpow radix2 700 ->
  ale_fit_feature64 X (map (fun r => fadd (fmul w (nth f r fnan)) (c r))) lo hi f K m cat = Ok p ->
  (forall x, In x ps -> fin x /\ val lo <= val x <= val hi) ->
  let delta := 3 * bpow radix2 (-53) * (Rabs (val w) * (M + 1) + C) + bpow radix2 (-1074) in
  exists ys, eval_unnorm64 p ps = Ok ys /\ length ys = length ps /\
    forall i, (i < length ps)%nat -> let x := val (nth i ps fnan) in
      near (val w * (x - val lo)) (line_err K (val w) (slope_err (length X) (val w) (effect_err lo hi K M (val w) delta)) (x - val lo)) (nth i ys fnan).
Proof.
  intros FX HA HN Hf Blo Bhi HM HK HK2 HC HS Fw Hc Hc2 BW HF HP delta.
  destruct (axis_limits64_ok X f lo hi FX HA) as (NX & _ & _ & _ & _). destruct X as [|r0 X0] eqn:EX; [congruence|]. rewrite <- EX in *.
  assert (C0 : 0 <= C). { destruct (Hc r0) as [_ B]; [rewrite EX; now left|]. eapply Rle_trans; [apply Rabs_pos|exact B]. }
  assert (M0 : 0 <= M) by (eapply Rle_trans; [apply Rabs_pos|exact Blo]). pose proof (Rabs_pos (val w)) as W0. pose proof u53_pos as U. pose proof u53_small as US.
  assert (M27 : M + 1 <= bpow radix2 27). { change (bpow radix2 27) with (bpow radix2 (1 + 26)). rewrite bpow_plus. change (bpow radix2 1) with 2. assert (bpow radix2 0 <= bpow radix2 26) by (apply bpow_le; lia). change (bpow radix2 0) with 1 in *. lra. }
  assert (WM : Rabs (val w) * (M + 1) + C <= bpow radix2 728).
  { assert (Rabs (val w) * (M + 1) <= bpow radix2 700 * bpow radix2 27) by (apply Rmult_le_compat; lra). rewrite <- bpow_plus in H. change (700 + 27)%Z with 727%Z in H. assert (bpow radix2 700 <= bpow radix2 727) by (apply bpow_le; lia). change (bpow radix2 728) with (bpow radix2 (1 + 727)). rewrite bpow_plus. change (bpow radix2 1) with 2. lra. }
  assert (W1 : 0 <= Rabs (val w) * (M + 1)) by (apply Rmult_le_pos; lra).
  assert (D0 : 0 <= delta <= bpow radix2 800).
  { unfold delta. pose proof (bpow_ge_0 radix2 (-1074)). assert (bpow radix2 (-1074) <= bpow radix2 728) by (apply bpow_le; lia). assert (2 * bpow radix2 728 <= bpow radix2 800) by (change 2 with (bpow radix2 1); rewrite <- bpow_plus; apply bpow_le; lia).
    assert (Q : 0 <= u53 * (Rabs (val w) * (M + 1) + C)) by (apply Rmult_le_pos; lra). assert (Q2 : 3 * u53 * (Rabs (val w) * (M + 1) + C) <= 1 * bpow radix2 728) by (apply Rmult_le_compat; lra). split; lra. }
  apply (C108_ale X (fun r => fadd (fmul w (nth f r fnan)) (c r)) f lo hi K m cat M (val w) (fun r => val (c r)) delta p ps); auto.
  - assert (bpow radix2 700 <= bpow radix2 800) by (apply bpow_le; lia). lra.
  - intros r z Hr Fz Bz. rewrite list_set_nth_same by now apply Hf. rewrite Hc2 by exact Hr. destruct (Hc r Hr) as [Fc Bc]. apply linear_near; auto.
    eapply Rle_trans; [exact WM|]. apply bpow_le. lia.
Qed.

Print Assumptions C108_slopes. Print Assumptions C108_ale. Print Assumptions C108_linear.

(** * Concrete cases *)

(** The model x_0 on the instances 0, 1, ..., 16 (twice each), default binning (20 bins): at every float position in [0, 16] the float64
    ALE curve is within 1e-6 x (and 20 subnormal units) of x. *)
Lemma axis17 : exists lo hi, axis_limits64 (values17 0) 0 = Ok (lo, hi) /\ val lo = 0 /\ val hi = 16.
Proof.
  assert (FC : fins (col64 (values17 0) 0)) by (apply fins_check; vm_compute; reflexivity).
  assert (T : match axis_limits64 (values17 0) 0 with Ok (lo, hi) => Beqb lo (fofZ 0) && Beqb hi (fofZ 16) | Raise _ => false end = true) by (vm_compute; reflexivity).
  destruct (axis_limits64 (values17 0) 0) as [[lo hi]|e] eqn:E; [|discriminate]. exists lo, hi. split; [reflexivity|].
  destruct (axis_limits64_ok _ _ _ _ FC E) as (_ & Fl & Fh & _). apply andb_true_iff in T as [T1 T2].
  destruct (fofZ_val 0 ltac:(cbn; lia)) as [V0 F0]. destruct (fofZ_val 16 ltac:(cbn; lia)) as [V1 F1].
  rewrite Beqb_correct in T1, T2 by assumption. rewrite V0 in T1. rewrite V1 in T2. destruct (Req_bool_spec (val lo) 0); [|discriminate]. destruct (Req_bool_spec (val hi) 16); [|discriminate]. now split.
Qed.

Lemma L34 : length (values17 0) = 34%nat. Proof. unfold values17. rewrite map_length, app_length, !seq_length. reflexivity. Qed.
Lemma identity_line X lo hi p x :
  length X = 34%nat -> fins (col64 X 0) -> (15 < length (unique64 (col64 X 0)))%nat -> (forall r, In r X -> length r = 1%nat) ->
  axis_limits64 X 0 = Ok (lo, hi) -> val lo = 0 -> val hi = 16 ->
  ale_fit_feature64 X (map (fun r => nth 0 r fnan)) lo hi 0 20 0 15 = Ok p -> fin x -> 0 <= val x <= 16 ->
  exists y, eval_unnorm64 p [x] = Ok [y] /\ near (val x) (1 / 1000000 * val x + 20 * bpow radix2 (-1074)) y.
Proof.
  intros LX FX UX RX A V0 V1 E Fx Rx.
  assert (P47 : bpow radix2 (-47) <= / 1000000000000) by (unfold bpow; cbn; lra). assert (P26 : bpow radix2 (-26) <= 15 / 1000000000) by (unfold bpow; cbn; lra).
  pose proof (bpow_ge_0 radix2 (-47)) as Q47. pose proof (bpow_ge_0 radix2 (-26)) as Q26.
  destruct (C108_ale X (fun r => nth 0 r fnan) 0 lo hi 20 0 15 16 1 (fun _ => 0) 0 p [x]) as (ys & Y1 & Y2 & Y3).
  - exact FX.
  - exact A.
  - rewrite LX. cbn. lia.
  - rewrite V0, Rabs_R0. lra.
  - rewrite V1, Rabs_pos_eq; lra.
  - change 16 with (bpow radix2 4). apply bpow_le. lia.
  - lia.
  - cbn. lia.
  - exact UX.
  - rewrite V0, V1. unfold width_err. change (IZR (Z.of_nat 20)) with 20. lra.
  - split; [lra|apply bpow_ge_0].
  - rewrite Rabs_R1. change 1 with (bpow radix2 0). apply bpow_le. lia.
  - intros r z Hr Fz _. pose proof (RX r Hr) as L. destruct r as [|v [|]]; try discriminate L. cbn [list_set nth]. split; [exact Fz|]. rewrite Rmult_1_l, Rplus_0_r, Rminus_diag_eq, Rabs_R0 by reflexivity. lra.
  - exact E.
  - intros z [<-|[]]. split; [exact Fx|]. rewrite V0, V1. exact Rx.
  - destruct ys as [|y [|]]; try discriminate Y2. exists y. split; [exact Y1|]. specialize (Y3 0%nat ltac:(cbn; lia)). cbn [nth] in Y3. rewrite V0, Rminus_0_r, Rmult_1_l, LX in Y3.
    apply (near_le _ _ _ _ Y3). unfold line_err. apply Rplus_le_compat; [|apply Rle_refl].
    set (T := slope_err 34 1 (effect_err lo hi 20 16 1 0)).
    assert (TB : 0 <= T <= 5 / 10000000).
    { unfold T. split.
      - apply slope_err_pos. unfold effect_err. rewrite V0, V1, Rabs_R1. change (IZR (Z.of_nat 20)) with 20. unfold width_err. pose proof (bpow_ge_0 radix2 (-1075)). lra.
      - unfold slope_err, effect_err. rewrite V0, V1, Rabs_R1. change (IZR (Z.of_nat 20)) with 20. unfold width_err.
        pose proof (gam_small (34 + 2) ltac:(cbn; lia)) as G. cbn [Nat.add] in G. change (IZR (Z.of_nat 36)) with 36 in G.
        assert (u53 <= / 1000000000000) by (unfold bpow; cbn; lra). assert (bpow radix2 (-1075) <= bpow radix2 (-47)) by (apply bpow_le; lia). assert (bpow radix2 (-999) <= bpow radix2 (-47)) by (apply bpow_le; lia).
        cbn [Nat.add] in *. lra. }
    apply Rmult_le_compat_r; [lra|]. rewrite Rabs_R1. pose proof (gam_small (20 + 2) ltac:(cbn; lia)) as G. fold (gam (20 + 2)). cbn [Nat.add] in G |- *. change (IZR (Z.of_nat 22)) with 22 in G.
    assert (u53 <= / 1000000000000) by (unfold bpow; cbn; lra). assert (0 <= gam 22) by apply gam_pos. assert (gam 22 * (1 + T) <= gam 22 * 2) by (apply Rmult_le_compat_l; lra). lra.
Qed.

Lemma default_fit_eq X lo hi : axis_limits64 X 0 = Ok (lo, hi) -> default_fit X = ale_fit_feature64 X (map (fun r => nth 0 r fnan)) lo hi 0 20 0 15.
Proof. intros A. unfold default_fit. now rewrite A. Qed.
Example identity_curve : exists p, default_fit (values17 0) = Ok p /\
  forall x, fin x -> 0 <= val x <= 16 -> exists y, eval_unnorm64 p [x] = Ok [y] /\ near (val x) (1 / 1000000 * val x + 20 * bpow radix2 (-1074)) y.
Proof.
  destruct small_fits as (p & E & _). exists p. split; [exact E|]. intros x Fx Rx.
  destruct axis17 as (lo & hi & A & V0 & V1). rewrite (default_fit_eq _ _ _ A) in E.
  apply (identity_line (values17 0) lo hi p x L34); auto.
  - apply fins_check. vm_compute. reflexivity.
  - apply Nat.ltb_lt. vm_compute. reflexivity.
  - intros r Hr. unfold values17 in Hr. apply in_map_iff in Hr as (i & Ei & _). rewrite <- Ei. clear. generalize (fofZ (0 + Z.of_nat i)). reflexivity.
Qed.
