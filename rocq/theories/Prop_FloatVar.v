(** Prop_FloatVar: C105, the heterogeneity of the bins in binary64. *)
From Coq Require Import Reals Permutation.
From Flocq Require Import Core.
From Flocq Require Import IEEE754.BinarySingleNaN.
From Verif Require Import Base Numpy NumpyFacts FloatModel FloatFacts FloatGrid FloatBins FloatProofs FloatMean FloatAcc FloatVar FloatFill Prop_FloatMean.
From Coq Require Import Lra.
Open Scope R_scope.

Lemma weights_of_bin be k (idx : list Z) : forall es mm, takez be idx = Ok mm -> length idx = length es -> (k < length be)%nat ->
  map snd (filter (fun p => Z.eqb (Z.of_nat k) (fst p)) (combine idx (map (fun p => fmul (fsub (fst p) (snd p)) (fsub (fst p) (snd p))) (combine es mm))))
  = map (sqdev (nth k be fnan)) (map snd (filter (fun p => Z.eqb (Z.of_nat k) (fst p)) (combine idx es))).
Proof.
  unfold takez. induction idx as [|z idx IH]; intros es mm H L Hk; [reflexivity|]. destruct es as [|e es]; [cbn in L; lia|].
  cbn [mapM] in H. apply bind_ok in H as (m & Hm & H). apply bind_ok in H as (mm' & Hmm & H). assert (E : mm = m :: mm') by congruence. subst mm.
  cbn [combine map filter fst snd]. destruct (Z.eqb_spec (Z.of_nat k) z) as [<-|N].
  - cbn [map snd]. rewrite (IH es mm') by (auto; cbn in L; lia). f_equal.
    unfold getz in Hm. destruct (Z.ltb_spec (Z.of_nat k) 0); [lia|]. destruct (Z.ltb_spec (Z.of_nat k) 0); [lia|]. rewrite Nat2Z.id, (nth_error_nth' be fnan Hk) in Hm.
    assert (Em : nth k be fnan = m) by congruence. rewrite Em. reflexivity.
  - apply IH; auto; cbn in L; lia.
Qed.

(** [dev2 m l] is the exact sum of the squared deviations from m *)
Remark dev2_unfold m l : dev2 m l = fold_right (fun e s => (val e - m) * (val e - m) + s) 0 l. Proof. reflexivity. Qed.

(** The variance of bin k, whose n instances have the effects ms and whose reported mean is m = bin_effect[k]: NaN (to be
    interpolated) when n < 2; otherwise finite, not negative, and within ((1+2^-53)^(n+4) - 1) r + 3 * 2^-1075 of
    r = (1/n) sum (e - m)^2, which is the exact variance plus the squared error of m. *)
Theorem C105_variance xs es l be bv bev k :
  fins xs -> fins (widen64 l) -> sorted64 (widen64 l) -> (S k < length l)%nat -> length xs = length es ->
  (Z.of_nat (length xs) + 1 <= 2 ^ 50)%Z -> (k < length be)%nat ->
  compute_bin_variance64 xs es l be = Ok (bv, bev) ->
  let ms := bin_members (widen64 l) k xs es in let m := nth k be fnan in
  let n := IZR (Z.of_nat (length ms)) in let mean := rsum ms / n in
  ((length ms < 2)%nat -> is_nan (nth k bv fnan) = true /\ is_nan (nth k bev fnan) = true) /\
  ((2 <= length ms)%nat -> fin m -> fins ms -> dev2 (val m) ms <= bpow radix2 1021 -> (forall e, In e ms -> Rabs (val e - val m) <= bpow radix2 1021) ->
     let r := dev2 (val m) ms / n in
     fin (nth k bv fnan) /\ 0 <= val (nth k bv fnan) /\
     r = dev2 mean ms / n + (val m - mean) * (val m - mean) /\
     Rabs (val (nth k bv fnan) - r) <= ((1 + bpow radix2 (-53)) ^ (length ms + 4) - 1) * r + 3 * bpow radix2 (-1075) /\
     nth k bev fnan = fdiv (nth k bv fnan) (fofn (length ms))).
Proof.
  intros Fx F So Hk Le HN Hb H ms m n mean. unfold compute_bin_variance64 in H.
  apply bind_ok in H as (idx & I & H). apply bind_ok in H as (mm & TM & H). apply bind_ok in H as (vpp & VP & H). apply bind_ok in H as (agg & A & H). apply bind_ok in H as (pp & P & H).
  rewrite bin_indices64_eq in I by (auto; lia).
  assert (EI : idx = map (fun x => (Z.of_nat (digitize64_1 (widen64 l) x) - 1)%Z) xs) by congruence.
  assert (Eb : bv = divide_where64 (fun n => Nat.ltb 1 n) agg pp) by congruence.
  assert (Ev : bev = divide_where64 (fun n => Nat.ltb 1 n) bv pp) by congruence.
  assert (Li : length idx = length es) by (rewrite EI, map_length; exact Le).
  assert (Lm : length mm = length idx). { clear - TM. unfold takez in TM. revert mm TM. induction idx as [|z idx IH]; intros mm H; cbn [mapM] in H; [inversion H; reflexivity|].
    apply bind_ok in H as (a & _ & H). apply bind_ok in H as (b & Hb & H). assert (mm = a :: b) by congruence. subst mm. cbn [length]. now rewrite (IH b). }
  unfold vzip in VP. rewrite Lm, Li, Nat.eqb_refl in VP.
  assert (Ep : vpp = map (fun p => fmul (fsub (fst p) (snd p)) (fsub (fst p) (snd p))) (combine es mm)) by congruence.
  unfold bincount_w64 in A. destruct (negb _); [discriminate|]. destruct (existsb _ _); [discriminate|].
  unfold bincount in P. destruct (existsb _ _); [discriminate|].
  set (W := bincount_len idx (length l - 1)) in *. assert (HW : (k < W)%nat) by (unfold W, bincount_len; lia).
  assert (Ha : agg = map (fun k => fsum (map snd (filter (fun p => Z.eqb (Z.of_nat k) (fst p)) (combine idx vpp)))) (seq 0 W)) by congruence.
  assert (Hp : pp = map (fun k => count (Z.eqb (Z.of_nat k)) idx) (seq 0 W)) by congruence.
  assert (Ms : map snd (filter (fun p => Z.eqb (Z.of_nat k) (fst p)) (combine idx es)) = ms).
  { rewrite EI. unfold ms, bin_members. apply filter_combine_map. intros x Hx. symmetry. apply in_bin_digitize; auto. rewrite widen64_length. exact Hk. }
  assert (Ak : nth k agg fnan = fsum (map (sqdev m) ms)).
  { rewrite Ha. match goal with |- nth k (map ?h _) _ = _ => rewrite (nth_indep _ fnan (h 0%nat)) by (rewrite map_length, seq_length; exact HW); rewrite (map_nth h), seq_nth by exact HW end.
    cbn [Nat.add]. rewrite Ep, (weights_of_bin be k idx es mm TM Li Hb), Ms. reflexivity. }
  assert (Pk : nth k pp 0%nat = length ms).
  { rewrite Hp. match goal with |- nth k (map ?h _) _ = _ => rewrite (nth_indep _ 0%nat (h 0%nat)) by (rewrite map_length, seq_length; exact HW); rewrite (map_nth h), seq_nth by exact HW end.
    cbn [Nat.add]. rewrite <- Ms. unfold count. rewrite map_length. rewrite EI.
    clear - Le. revert es Le. induction xs as [|x xs IH]; intros [|e es] L; cbn in L; try lia; [reflexivity|]. cbn [map combine filter fst].
    destruct (Z.eqb _ _); cbn [length]; rewrite (IH es) by lia; reflexivity. }
  assert (Lms : (length ms <= length xs)%nat).
  { unfold ms, bin_members. rewrite map_length. eapply Nat.le_trans; [apply filter_length_le|]. rewrite combine_length. lia. }
  assert (La : length agg = length pp) by (rewrite Ha, Hp, !map_length; reflexivity).
  assert (Lp : length pp = W) by (rewrite Hp, map_length, seq_length; reflexivity).
  assert (DW : forall a : list b64, length a = length pp -> nth k (divide_where64 (fun n => Nat.ltb 1 n) a pp) fnan = if Nat.ltb 1 (length ms) then fdiv (nth k a fnan) (fofn (length ms)) else fnan).
  { intros a L. unfold divide_where64.
    match goal with |- nth k (map ?h _) _ = _ => rewrite (nth_indep _ fnan (h (fnan, 0%nat))) by (rewrite map_length, combine_length; lia); rewrite (map_nth h) end.
    rewrite combine_nth by exact L. cbn [fst snd]. now rewrite Pk. }
  assert (Lb : length bv = length pp) by (rewrite Eb; unfold divide_where64; rewrite map_length, combine_length; lia).
  pose proof (DW agg La) as Bk. rewrite <- Eb, Ak in Bk. pose proof (DW bv Lb) as Ek. rewrite <- Ev in Ek.
  split.
  - intros S. destruct (Nat.ltb_spec 1 (length ms)); [lia|]. rewrite Bk, Ek. split; reflexivity.
  - intros S Fm Fms B1 B2 r. destruct (Nat.ltb_spec 1 (length ms)); [|lia].
    destruct (variance_error m ms (length ms) Fm Fms eq_refl ltac:(lia) ltac:(lia) B1 B2) as (V1 & V2 & V3). rewrite <- Bk in V1, V2, V3.
    split; [exact V1|]. split; [exact V2|]. split; [|split; [exact V3|exact Ek]].
    unfold r, mean, n. rewrite (dev2_shift (val m) ms (length ms) eq_refl ltac:(lia)).
    assert (1 <= IZR (Z.of_nat (length ms))) by (apply IZR_le; lia). field. lra.
Qed.

(** ** constant effects *)
Lemma rsum_const c (ms : list b64) : (forall e, In e ms -> val e = c) -> rsum ms = IZR (Z.of_nat (length ms)) * c /\ asum ms = IZR (Z.of_nat (length ms)) * Rabs c.
Proof.
  induction ms as [|e ms IH]; intros H; [cbn; lra|]. destruct (IH ltac:(intros; apply H; now right)) as [I1 I2].
  cbn [rsum asum fold_right length] in *. unfold rsum, asum in *. cbn [fold_right]. rewrite I1, I2, (H e) by now left. rewrite Nat2Z.inj_succ, succ_IZR. split; ring.
Qed.
Lemma dev2_const m c (ms : list b64) : (forall e, In e ms -> val e = c) -> dev2 m ms = IZR (Z.of_nat (length ms)) * ((c - m) * (c - m)).
Proof.
  induction ms as [|e ms IH]; intros H; [cbn; lra|]. rewrite dev2_unfold in *. cbn [fold_right length]. rewrite IH by (intros; apply H; now right).
  rewrite (H e) by now left. rewrite Nat2Z.inj_succ, succ_IZR. ring.
Qed.

(** All n >= 2 instances of a bin have the same effect c (a linear model): the heterogeneity of the bin is not exactly 0
    but at most 2 (((1+2^-53)^(n+1) - 1)|c| + 2^-1075)^2 + 3 * 2^-1075, about (1.6e-16 n |c|)^2. *)
Theorem C105_constant_partial xs es l be ppb bv bev k c :
  fins xs -> fins (widen64 l) -> sorted64 (widen64 l) -> (S k < length l)%nat -> length xs = length es ->
  (Z.of_nat (length xs) + 1 <= 2 ^ 40)%Z ->
  compute_bin_effect64 xs es l = Ok (be, ppb) -> compute_bin_variance64 xs es l be = Ok (bv, bev) ->
  let ms := bin_members (widen64 l) k xs es in let n := length ms in
  (2 <= n)%nat -> fins ms -> (forall e, In e ms -> val e = c) -> Rabs c <= bpow radix2 400 ->
  fin (nth k bv fnan) /\
  0 <= val (nth k bv fnan) <= 2 * (((1 + bpow radix2 (-53)) ^ (n + 1) - 1) * Rabs c + bpow radix2 (-1075)) ^ 2 + 3 * bpow radix2 (-1075).
Proof.
  intros Fx F So Hk Le HN HB HV ms n N2 Fm Hc Bc.
  destruct (C101_bins xs es l be ppb k Fx F So Hk Le ltac:(lia) HB) as (_ & _ & ME). fold ms in ME.
  destruct (rsum_const c ms Hc) as [R1 R2]. fold n in R1, R2. set (N := IZR (Z.of_nat n)) in *.
  assert (Ln : (n <= length xs)%nat). { unfold n, ms, bin_members. rewrite map_length. eapply Nat.le_trans; [apply filter_length_le|]. rewrite combine_length. lia. }
  assert (N1 : 2 <= N) by (apply IZR_le; lia).
  assert (NB : N <= bpow radix2 40) by (change (bpow radix2 40) with (IZR (2 ^ 40)); apply IZR_le; lia).
  pose proof (Rabs_pos c) as C0.
  assert (NC : N * Rabs c <= bpow radix2 440). { apply Rle_trans with (bpow radix2 40 * bpow radix2 400); [apply Rmult_le_compat; lra|]. rewrite <- bpow_plus. apply Rle_refl. }
  destruct ME as [Fme Eme]; [intros E; unfold n in N2; rewrite E in N2; cbn in N2; lia|exact Fm| |].
  { rewrite R2. eapply Rle_trans; [exact NC|]. apply bpow_le. lia. }
  fold n in Eme. fold N in Eme. rewrite R1, R2 in Eme.
  replace (N * c / N) with c in Eme by (field; lra). replace (N * Rabs c / N) with (Rabs c) in Eme by (field; lra).
  rewrite (Rabs_minus_sym _ c) in Eme. change (gam (S n)) with (gam (S n)) in Eme.
  assert (Hb : (k < length be)%nat). { destruct (Nat.ltb_spec k (length be)) as [L|L]; [exact L|]. rewrite (nth_overflow be fnan L) in Fme. discriminate. }
  destruct (C105_variance xs es l be bv bev k Fx F So Hk Le ltac:(lia) Hb HV) as [_ V]. fold ms in V. fold n in V. fold N in V.
  set (m := nth k be fnan) in *. pose proof (bpow_gt_0 radix2 (-1075)) as E0.
  assert (G1 : gam (S n) <= / 4) by (apply gam_1; lia). pose proof (gam_pos (S n)) as G0.
  assert (D1 : Rabs (c - val m) <= bpow radix2 401).
  { eapply Rle_trans; [exact Eme|]. change 401%Z with (1 + 400)%Z. rewrite bpow_plus. change (bpow radix2 1) with 2.
    assert (gam (S n) * Rabs c <= / 4 * Rabs c) by (apply Rmult_le_compat_r; lra).
    assert (bpow radix2 (-1075) <= 1) by (change 1 with (bpow radix2 0); apply bpow_le; lia).
    assert (1 <= bpow radix2 400) by (change 1 with (bpow radix2 0); apply bpow_le; lia). lra. }
  assert (D2 : (c - val m) * (c - val m) <= bpow radix2 802).
  { rewrite <- (Rabs_pos_eq ((c - val m) * (c - val m))) by apply Rle_0_sqr. rewrite Rabs_mult. change 802%Z with (401 + 401)%Z. rewrite bpow_plus. apply Rmult_le_compat; auto using Rabs_pos. }
  rewrite (dev2_const (val m) c ms Hc) in V. fold n in V. fold N in V.
  destruct V as (Fv & P & _ & Ev & _); auto.
  { apply Rle_trans with (bpow radix2 40 * bpow radix2 802); [apply Rmult_le_compat; try lra; apply Rle_0_sqr|]. rewrite <- bpow_plus. apply bpow_le. lia. }
  { intros e He. rewrite (Hc e He). eapply Rle_trans; [exact D1|]. apply bpow_le. lia. }
  split; [exact Fv|]. split; [exact P|].
  replace (N * ((c - val m) * (c - val m)) / N) with ((c - val m) * (c - val m)) in Ev by (field; lra).
  replace (n + 1)%nat with (S n) by lia. fold (gam (S n)). change ((1 + bpow radix2 (-53)) ^ S n - 1) with (gam (S n)).
  set (t := gam (S n) * Rabs c + bpow radix2 (-1075)) in *.
  assert (T0 : 0 <= t) by (eapply Rle_trans; [apply Rabs_pos|exact Eme]).
  assert (T2 : (c - val m) * (c - val m) <= t ^ 2).
  { replace (t ^ 2) with (t * t) by ring. rewrite <- (Rabs_pos_eq ((c - val m) * (c - val m))) by apply Rle_0_sqr. rewrite Rabs_mult. apply Rmult_le_compat; auto using Rabs_pos. }
  change ((1 + bpow radix2 (-53)) ^ (n + 4) - 1) with (gam (n + 4)) in Ev.
  pose proof (gam_1 (n + 4) ltac:(lia)) as G4. pose proof (gam_pos (n + 4)) as G40.
  apply Rabs_le_inv in Ev. set (d := (c - val m) * (c - val m)) in *. assert (D0 : 0 <= d) by apply Rle_0_sqr.
  assert (gam (n + 4) * d <= / 4 * d) by (apply Rmult_le_compat_r; lra). lra.
Qed.

Definition tenth : b64 := fdiv (fofZ 1) (fofZ 10).
(** three instances of one bin with the effect 0.1 each: their float64 mean is not 0.1 (numpy gives 0.10000000000000002)
    and the reported variance is positive, so "constant effect implies zero heterogeneity" is false in float64 *)
Theorem C105_zero_refuted :
  exists xs es l be ppb bv bev, es = repeat tenth 3 /\ length xs = 3%nat /\
  compute_bin_effect64 xs es l = Ok (be, ppb) /\ compute_bin_variance64 xs es l be = Ok (bv, bev) /\
  ppb = [3%nat] /\ Bltb tenth (nth 0 be fnan) = true /\ Bltb fzero (nth 0 bv fnan) = true.
Proof.
  pose (xs := map fofZ [0; 1; 2]%Z). pose (es := repeat tenth 3). pose (l := map fofZ [0; 3]%Z).
  assert (C : match compute_bin_effect64 xs es l with
              | Ok (be, ppb) => match compute_bin_variance64 xs es l be with
                                | Ok (bv, _) => ppb = [3%nat] /\ Bltb tenth (nth 0 be fnan) = true /\ Bltb fzero (nth 0 bv fnan) = true
                                | _ => False end
              | _ => False end) by (vm_compute; repeat split; reflexivity).
  destruct (compute_bin_effect64 xs es l) as [[be ppb]|] eqn:E1; [|destruct C].
  destruct (compute_bin_variance64 xs es l be) as [[bv bev]|] eqn:E2; [|destruct C].
  exists xs, es, l, be, ppb, bv, bev. repeat split; try reflexivity; try assumption; apply C.
Qed.

(** ** the interpolated bins *)

(** The variances after interpolation (what "heterogeneity" is computed from): if those of the populated bins are zero or in
    [2^-900, 2^1020], every bin's variance is finite and not negative - its square root is defined - and the populated
    bins keep theirs. *)
Theorem C105_defined bv v :
  (Z.of_nat (length bv) <= 2 ^ 50)%Z ->
  (forall x, In x bv -> is_nan x = true \/ fin x /\ (val x = 0 \/ bpow radix2 (-900) <= val x <= bpow radix2 1020)) ->
  fill_nans64 bv = Ok v ->
  length v = length bv /\
  forall i, (i < length bv)%nat -> fin (nth i v fnan) /\ 0 <= val (nth i v fnan) /\ (is_nan (nth i bv fnan) = false -> nth i v fnan = nth i bv fnan).
Proof. intros L H E. exact (fill_nonneg bv v L H E). Qed.

(** without the lower bound it is false: two instances with the effects +-1.6e-162 in the first bin, two with the effect 0 in
    the ninth and none in between: the interpolated variance of the eighth bin is negative *)
Definition tiny : b64 := fdiv (fofZ 5035245740373087) (fofZ (2 ^ 588)).
Definition tiny_xs : list b64 := map fofZ [0; 0; 8; 8]%Z.
Definition tiny_es : list b64 := [tiny; Bopp tiny; fzero; fzero].
Definition tiny_l : list b64 := map fofZ [0; 1; 2; 3; 4; 5; 6; 7; 8; 9]%Z.
Theorem C105_negative_refuted :
  exists p, compute_ale_params64 tiny_xs tiny_es tiny_l = Ok p /\ p64_points p = [2; 0; 0; 0; 0; 0; 0; 0; 2]%nat /\
  (exists be ppb bv bev, compute_bin_effect64 tiny_xs tiny_es tiny_l = Ok (be, ppb) /\ compute_bin_variance64 tiny_xs tiny_es tiny_l be = Ok (bv, bev) /\ fill_nans64 bv = Ok (p64_var p)) /\
  Bltb fzero (nth 0 (p64_var p) fnan) = true /\ Beqb (nth 8 (p64_var p) fnan) fzero = true /\ Bltb (nth 7 (p64_var p) fnan) fzero = true.
Proof.
  assert (C : match compute_ale_params64 tiny_xs tiny_es tiny_l with
              | Ok p => p64_points p = [2; 0; 0; 0; 0; 0; 0; 0; 2]%nat /\ Bltb fzero (nth 0 (p64_var p) fnan) = true /\ Beqb (nth 8 (p64_var p) fnan) fzero = true /\ Bltb (nth 7 (p64_var p) fnan) fzero = true
              | _ => False end) by (vm_compute; repeat split; reflexivity).
  destruct (compute_ale_params64 tiny_xs tiny_es tiny_l) as [p|] eqn:E; [|destruct C].
  exists p. split; [reflexivity|]. split; [apply C|]. split; [|apply C].
  unfold compute_ale_params64 in E. apply bind_ok in E as ([be ppb] & E1 & E). apply bind_ok in E as ([bv bev] & E2 & E). apply bind_ok in E as (e & _ & E). apply bind_ok in E as (v & E4 & E). apply bind_ok in E as (w & _ & E).
  exists be, ppb, bv, bev. split; [exact E1|]. split; [exact E2|]. replace (p64_var p) with v; [exact E4|]. now inversion E.
Qed.

Print Assumptions C105_variance. Print Assumptions C105_constant_partial. Print Assumptions C105_zero_refuted. Print Assumptions C105_defined. Print Assumptions C105_negative_refuted.

(** a non-trivial case: five instances in three bins of which the second has one instance, so its variance is interpolated
    between 1 and 9 *)
Definition var_xs : list b64 := map fofZ [0; 1; 3; 5; 7]%Z.
Definition var_es : list b64 := map fofZ [3; 5; 100; -1; -7]%Z.
Definition var_l : list b64 := map fofZ [0; 2; 4; 8]%Z.
Example C105_instance : (p <- compute_ale_params64 var_xs var_es var_l ;; Ok (map (fun x => B2SF x) (p64_effect p), map (fun x => B2SF x) (p64_var p)))
  = Ok (map (fun x => B2SF x) (map fofZ [4; 100; -4]%Z), map (fun x => B2SF x) (map fofZ [1; 5; 9]%Z)).
Proof. vm_compute. reflexivity. Qed.
Example C105_hypotheses : fins var_xs /\ fins (widen64 var_l) /\ sorted64 (widen64 var_l) /\ length var_xs = length var_es /\
  forall e, In e var_es -> fin e.
Proof.
  repeat split.
  - intros x Hx. apply in_map_iff in Hx as (z & <- & Hz). apply fofZ_val. cbn in Hz. lia.
  - assert (E : forallb is_finite (widen64 var_l) = true) by (vm_compute; reflexivity). intros x Hx. rewrite forallb_forall in E. apply E, Hx.
  - intros i Hi. change (length (widen64 var_l)) with 4%nat in Hi.
    assert (E : Bltb (nth 0 (widen64 var_l) fnan) (nth 1 (widen64 var_l) fnan) = true /\ Bltb (nth 1 (widen64 var_l) fnan) (nth 2 (widen64 var_l) fnan) = true /\ Bltb (nth 2 (widen64 var_l) fnan) (nth 3 (widen64 var_l) fnan) = true) by (vm_compute; auto).
    assert (F : fins (widen64 var_l)). { assert (E' : forallb is_finite (widen64 var_l) = true) by (vm_compute; reflexivity). intros x Hx. rewrite forallb_forall in E'. apply E', Hx. }
    destruct E as (E1 & E2 & E3). apply Rlt_le. destruct i as [|[|[|i]]]; [| | |lia]; (apply flt_val; [apply fins_nth; auto; cbn; lia|apply fins_nth; auto; cbn; lia|assumption]).
  - intros x Hx. apply in_map_iff in Hx as (z & <- & Hz). apply fofZ_val. cbn in Hz. lia.
Qed.
