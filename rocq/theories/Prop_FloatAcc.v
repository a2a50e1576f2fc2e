(** Prop_FloatAcc: C102 and C103, the ALE / RHALE curve evaluated in binary64. *)
From Coq Require Import Reals Permutation.
From Flocq Require Import Core.
From Flocq Require Import IEEE754.BinarySingleNaN.
From Verif Require Import Base Numpy NumpyFacts FloatModel FloatFacts FloatGrid FloatBins FloatProofs FloatMean FloatAcc Prop_FloatMean.
From Coq Require Import Lra.
Open Scope R_scope.

(** The specification, in real numbers: the curve is the integral of the step function with height e_i on
    [l_i, l_{i+1}]; [covered l x i] is the length of the part of bin i that lies below x. *)
Remark covered_unfold l x i : covered l x i = Rmax 0 (Rmin x (val (nth (S i) l fnan)) - val (nth i l fnan)). Proof. reflexivity. Qed.
Definition curve (l e : list b64) (x : R) : R := sumR (length e) (fun i => val (nth i e fnan) * covered l x i).
Definition variation (l e : list b64) (x : R) : R := sumR (length e) (fun i => Rabs (val (nth i e fnan)) * covered l x i).

(** A table of bins: finite sorted limits, one finite effect per bin, no overflow ([variation] up to the last limit and the
    limits themselves at most 2^1021), at most 2^50 - 3 bins. *)
Definition table (l e : list b64) : Prop :=
  fins l /\ sorted64 l /\ (2 <= length l)%nat /\ length e = (length l - 1)%nat /\ fins e /\ (Z.of_nat (length e) + 3 <= 2 ^ 50)%Z /\
  (forall i, (i < length l)%nat -> Rabs (val (nth i l fnan)) <= bpow radix2 1021) /\
  variation l e (val (nth (length e) l fnan)) <= bpow radix2 1021.
Definition position (l : list b64) (x : b64) : Prop :=
  fin x /\ Rabs (val x) <= bpow radix2 1021 /\ (val x < val (nth (length l - 1) l fnan) \/ val x <= 100000000).

(** the hypotheses of FloatAcc, from [table] *)
Lemma table_total l e : table l e ->
  sumR (length e) (fun i => Rabs (val (nth i e fnan)) * (val (nth (S i) l fnan) - val (nth i l fnan))) <= bpow radix2 1021.
Proof.
  intros (Fl & So & L2 & Le & Fe & HK & Bl & V). eapply Rle_trans; [|exact V]. apply Req_le. unfold variation. apply sumR_ext. intros i Hi.
  rewrite (covered_full l e); auto. apply (sorted_le l); auto; lia.
Qed.
Lemma params_dx xs es l p : compute_ale_params64 xs es l = Ok p -> p64_limits p = l /\ p64_dx p = diffs64 l.
Proof.
  intros H. unfold compute_ale_params64 in H. apply bind_ok in H as ((be, ppb) & H1 & H). apply bind_ok in H as ((bv, bev) & _ & H).
  apply bind_ok in H as (e & H3 & H). apply bind_ok in H as (v & _ & H). apply bind_ok in H as (w & _ & H).
  assert (E : p = mkP64 l (map (fun p => fsub (snd p) (fst p)) (combine l (tl l))) ppb e v w) by congruence. subst p. split; reflexivity.
Qed.
Lemma eval_acc1 xs es l p ps : compute_ale_params64 xs es l = Ok p -> table l (p64_effect p) -> eval_unnorm64 p ps = Ok (map (acc1 l (p64_effect p)) ps).
Proof.
  intros H (Fl & So & L2 & Le & Fe & HK & Bl & V). destruct (params_dx _ _ _ _ H) as [El Ed]. unfold eval_unnorm64. rewrite El, Ed. apply acc_eq; auto.
Qed.

(** C102: every value of the float64 curve is within ((1+2^-53)^(K+2) - 1) * variation + K * 2^-1074 of the exact integral
    of the float64 table, K the number of bins. *)
Theorem C102_curve xs es l p ps :
  compute_ale_params64 xs es l = Ok p -> table l (p64_effect p) -> (forall x, In x ps -> position l x) ->
  let e := p64_effect p in let K := length e in
  exists ys, eval_unnorm64 p ps = Ok ys /\ length ys = length ps /\
    forall i, (i < length ps)%nat -> let x := val (nth i ps fnan) in
      fin (nth i ys fnan) /\
      Rabs (val (nth i ys fnan) - curve l e x) <= ((1 + bpow radix2 (-53)) ^ (K + 2) - 1) * variation l e x + IZR (Z.of_nat K) * bpow radix2 (-1074).
Proof.
  intros H T P e K. exists (map (acc1 l e) ps). split; [eapply eval_acc1; eauto|]. split; [apply map_length|].
  intros i Hi x. pose proof T as T0. destruct T as (Fl & So & L2 & Le & Fe & HK & Bl & V).
  rewrite (nth_indep _ fnan (acc1 l e fnan)) by (now rewrite map_length). rewrite (map_nth (acc1 l e)).
  destruct (P _ (nth_In ps fnan Hi)) as (Fx & Bx & HX). replace (length l - 1)%nat with (length (p64_effect p)) in HX by lia.
  exact (acc1_error l e Fl So Fe L2 Le HK Bl (table_total l e T0) (nth i ps fnan) Fx Bx HX).
Qed.

(** C103: with non-negative bin effects the float64 curve is increasing, exactly: no rounding ever makes it go down, inside a
    bin or from one bin to the next. *)
Theorem C103_increasing xs es l p x y :
  compute_ale_params64 xs es l = Ok p -> table l (p64_effect p) -> position l x -> position l y ->
  (forall a, In a (p64_effect p) -> 0 <= val a) -> val x <= val y ->
  exists vx vy, eval_unnorm64 p [x; y] = Ok [vx; vy] /\ fin vx /\ fin vy /\ 0 <= val vx <= val vy.
Proof.
  intros H T (Fx & Bx & HX) (Fy & By & HY) Pe Hxy. exists (acc1 l (p64_effect p) x), (acc1 l (p64_effect p) y).
  split; [exact (eval_acc1 _ _ _ _ [x; y] H T)|]. pose proof T as T0. destruct T as (Fl & So & L2 & Le & Fe & HK & Bl & V).
  replace (length l - 1)%nat with (length (p64_effect p)) in HX, HY by lia.
  pose proof (table_total _ _ T0) as Be.
  assert (Pe' : forall i, (i < length (p64_effect p))%nat -> 0 <= val (nth i (p64_effect p) fnan)) by (intros; apply Pe, nth_In; assumption).
  split; [exact (proj1 (acc1_error l _ Fl So Fe L2 Le HK Bl Be x Fx Bx HX))|]. split; [exact (proj1 (acc1_error l _ Fl So Fe L2 Le HK Bl Be y Fy By HY))|].
  split.
  - pose proof (cs_le l (p64_effect p) Fl So Fe L2 Le HK Bl Be Pe') as CL.
    assert (C0 : val (cs l (p64_effect p) 0) = 0) by reflexivity. rewrite <- C0. destruct (Rlt_dec (val x) (val (nth 0 l fnan))) as [X0|X0].
    + rewrite (proj1 (acc1_below l _ Fl So L2 Le Bl x Fx Bx X0)), C0. lra.
    + destruct (Rlt_dec (val x) (val (nth (length (p64_effect p)) l fnan))) as [XK|XK].
      * destruct (inside_bin l _ Fl So L2 Le Bl x Fx ltac:(lra)) as (k & Hk & B).
        pose proof (inside_between l _ Fl So Fe L2 Le HK Bl Be Pe' x k Fx Hk B). pose proof (CL 0%nat k ltac:(lia) ltac:(lia)). lra.
      * rewrite (proj1 (acc1_above l _ Fl So Fe L2 Le HK Bl Be x Fx Bx ltac:(lra) ltac:(lra))). apply CL; lia.
  - exact (acc1_mono l _ Fl So Fe L2 Le HK Bl Be Pe' x y Fx Fy Bx By Hxy HY).
Qed.

(** Centering: with "zero_start" the float64 curve is exactly 0 at the start. *)
Theorem C103_zero_start xs es l p start :
  compute_ale_params64 xs es l = Ok p -> table l (p64_effect p) -> position l start ->
  exists c v, norm_start64 p start = Ok c /\ eval64 p (Some c) [start] = Ok [v] /\ fin v /\ val v = 0.
Proof.
  intros H T (Fx & Bx & HX). pose proof (eval_acc1 _ _ _ _ [start] H T) as E. cbn [map] in E.
  pose proof T as T0. destruct T as (Fl & So & L2 & Le & Fe & HK & Bl & V). replace (length l - 1)%nat with (length (p64_effect p)) in HX by lia.
  destruct (acc1_error l _ Fl So Fe L2 Le HK Bl (table_total _ _ T0) start Fx Bx HX) as [F _].
  exists (acc1 l (p64_effect p) start), (fsub (acc1 l (p64_effect p) start) (acc1 l (p64_effect p) start)).
  unfold norm_start64, eval64. rewrite E. cbn [bind map]. split; [reflexivity|]. split; [reflexivity|].
  destruct (fsub_val _ _ F F) as [W FW]. { rewrite Rminus_diag_eq by reflexivity. rewrite Rabs_R0. apply bpow_ge_0. }
  split; [exact FW|]. rewrite W, Rminus_diag_eq by reflexivity. apply rnd_0.
Qed.

(** With "zero_integral" the constant is np.mean of the curve at the midpoints of a grid of n positions (added in some order
    [t]); the centred values there have an exact mean within the rounding error of 0. *)
Lemma centred_sum c : fin c -> forall ys, fins ys -> (forall y, In y ys -> Rabs (val y - val c) <= bpow radix2 1023) ->
  fins (map (fun y => fsub y c) ys) /\
  Rabs (rsum (map (fun y => fsub y c) ys) - (rsum ys - IZR (Z.of_nat (length ys)) * val c)) <= bpow radix2 (-53) * (asum ys + IZR (Z.of_nat (length ys)) * Rabs (val c)).
Proof.
  intros Fc. induction ys as [|y ys IH]; intros F B.
  - split; [intros y []|]. unfold rsum, asum. cbn. rewrite Rmult_0_l, !Rminus_0_r, Rabs_R0. pose proof (bpow_gt_0 radix2 (-53)). cbn [bpow] in *. lra.
  - destruct IH as [I1 I2]; [intros z Hz; apply F; now right|intros z Hz; apply B; now right|].
    destruct (fsub_val y c (F y (or_introl eq_refl)) Fc (B y (or_introl eq_refl))) as [V Fv]. split.
    { intros z [<-|Hz]; [exact Fv|now apply I1]. }
    cbn [map length]. unfold rsum, asum in *. cbn [fold_right]. rewrite Nat2Z.inj_succ, succ_IZR. rewrite V.
    destruct (rnd_minus_rel y c) as (d & D1 & D2). rewrite D2. set (n := IZR (Z.of_nat (length ys))) in *.
    set (r := fold_right (fun x s => val x + s) 0 ys) in *. set (a := fold_right (fun x s => Rabs (val x) + s) 0 ys) in *. set (q := fold_right _ 0 (map _ ys)) in *.
    replace ((val y - val c) * (1 + d) + q - (val y + r - (n + 1) * val c)) with ((q - (r - n * val c)) + (val y - val c) * d) by ring.
    eapply Rle_trans; [apply Rabs_triang|]. rewrite Rabs_mult.
    assert (T : Rabs (val y - val c) <= Rabs (val y) + Rabs (val c)). { unfold Rminus. eapply Rle_trans; [apply Rabs_triang|]. rewrite Rabs_Ropp. lra. }
    assert (Rabs (val y - val c) * Rabs d <= (Rabs (val y) + Rabs (val c)) * bpow radix2 (-53)) by (apply Rmult_le_compat; auto using Rabs_pos). lra.
Qed.

Lemma asum_in ys y : In y ys -> Rabs (val y) <= asum ys.
Proof.
  unfold asum. induction ys as [|z ys IH]; intros H; [destruct H|]. cbn [fold_right]. pose proof (asum_pos ys) as P. unfold asum in P. pose proof (Rabs_pos (val z)).
  destruct H as [->|H]; [lra|]. specialize (IH H). lra.
Qed.

Theorem C103_zero_integral xs es l p lo hi n ys t :
  compute_ale_params64 xs es l = Ok p -> table l (p64_effect p) ->
  let ms := midpoints64 lo hi n in let N := IZR (Z.of_nat (length ms)) in
  ms <> [] -> (Z.of_nat (length ms) <= 2 ^ 49)%Z -> (forall x, In x ms -> position l x) ->
  eval_unnorm64 p ms = Ok ys -> Permutation (leaves t) ys -> asum ys <= bpow radix2 1021 ->
  exists zs, eval64 p (Some (np_mean64 t (length ms))) ms = Ok zs /\ fins zs /\
    Rabs (rsum zs / N) <= (gam (S (depth t)) + 3 * bpow radix2 (-53)) * (asum ys / N) + bpow radix2 (-1074).
Proof.
  intros H T ms N NE HN P E Pt B. pose proof (eval_acc1 _ _ _ _ ms H T) as E'. assert (Ey : ys = map (acc1 l (p64_effect p)) ms) by congruence.
  assert (Fy : fins ys).
  { intros y Hy. rewrite Ey in Hy. apply in_map_iff in Hy as (x & <- & Hx). destruct (P x Hx) as (Fx & Bx & HX).
    pose proof T as T0. destruct T as (Fl & So & L2 & Le & Fe & HK & Bl & V). replace (length l - 1)%nat with (length (p64_effect p)) in HX by lia.
    exact (proj1 (acc1_error l _ Fl So Fe L2 Le HK Bl (table_total _ _ T0) x Fx Bx HX)). }
  assert (Ly : length ys = length ms) by (rewrite Ey; apply map_length).
  assert (L1 : (1 <= length ms)%nat) by (destruct ms; [congruence|cbn; lia]).
  destruct (rsum_perm _ _ Pt) as [R1 R2]. pose proof (depth_leaves t) as DL. rewrite (Permutation_length Pt), Ly in DL.
  pose proof (gam_1 (S (depth t)) ltac:(lia)) as G1. pose proof (gam_pos (S (depth t))) as G0. pose proof (gam_le (depth t) (S (depth t)) ltac:(lia)) as GL.
  pose proof (asum_pos ys) as AP. pose proof bpow1021_big as B8.
  destruct (mean_error t (length ms)) as [Fm Em]; [intros y Hy; apply Fy; eapply Permutation_in; eauto|exact L1|lia| |].
  { rewrite R2. pose proof (gam_pos (depth t)). assert (gam (depth t) * asum ys <= 1 * asum ys) by (apply Rmult_le_compat_r; lra). rewrite bpow1023. lra. }
  rewrite R1, R2 in Em. fold (np_mean64 t (length ms)) in Em, Fm. set (c := np_mean64 t (length ms)) in *. fold N in Em.
  assert (N1 : 1 <= N) by (apply IZR_le; lia). assert (NI : 0 < / N) by (apply Rinv_0_lt_compat; lra).
  assert (NI1 : / N <= 1) by (rewrite <- Rinv_1; apply Rinv_le; lra).
  set (a := asum ys / N) in *. assert (A0 : 0 <= a) by (unfold a, Rdiv; apply Rmult_le_pos; lra).
  assert (AL : a <= asum ys) by (unfold a, Rdiv; rewrite <- (Rmult_1_r (asum ys)) at 2; apply Rmult_le_compat_l; lra).
  assert (RA : Rabs (rsum ys / N) <= a). { unfold a, Rdiv. rewrite Rabs_mult, (Rabs_pos_eq (/ N)) by lra. apply Rmult_le_compat_r; [lra|apply rsum_asum]. }
  set (g := gam (S (depth t))) in *. pose proof u53_pos as U. pose proof u53_small as US. pose proof (bpow_gt_0 radix2 (-1075)) as E0.
  assert (E1 : bpow radix2 (-1074) = 2 * eta) by (change (-1074)%Z with (1 + -1075)%Z; rewrite bpow_plus; reflexivity).
  assert (Es : eta <= 1) by (change 1 with (bpow radix2 0); apply bpow_le; lia).
  assert (C1 : Rabs (val c) <= (1 + g) * a + eta). { replace (val c) with ((val c - rsum ys / N) + rsum ys / N) by ring. eapply Rle_trans; [apply Rabs_triang|]. lra. }
  assert (C2 : (1 + g) * a <= 2 * a) by (apply Rmult_le_compat_r; lra).
  destruct (centred_sum c Fm ys Fy) as [Fz Ez].
  { intros y Hy. pose proof (asum_in ys y Hy). unfold Rminus. eapply Rle_trans; [apply Rabs_triang|]. rewrite Rabs_Ropp, bpow1023. lra. }
  exists (map (fun y => fsub y c) ys). unfold eval64. rewrite E. cbn [bind]. split; [reflexivity|]. split; [exact Fz|].
  rewrite Ly in Ez. fold N in Ez. set (z := rsum (map (fun y => fsub y c) ys)) in *.
  replace (z / N) with ((z - (rsum ys - N * val c)) / N + (rsum ys / N - val c)) by (field; lra).
  eapply Rle_trans; [apply Rabs_triang|]. rewrite (Rabs_minus_sym (rsum ys / N)).
  assert (F1 : Rabs ((z - (rsum ys - N * val c)) / N) <= u53 * (a + Rabs (val c))).
  { unfold Rdiv. rewrite Rabs_mult, (Rabs_pos_eq (/ N)) by lra. apply Rle_trans with (u53 * (asum ys + N * Rabs (val c)) * / N); [apply Rmult_le_compat_r; lra|].
    apply Req_le. unfold a. field. lra. }
  assert (F2 : u53 * (a + Rabs (val c)) <= u53 * (3 * a + eta)). { apply Rmult_le_compat_l; [lra|]. assert ((1 + g) * a + eta <= 2 * a + eta) by lra. lra. }
  assert (F3 : u53 * eta <= eta) by nra. lra.
Qed.

Print Assumptions C102_curve. Print Assumptions C103_increasing. Print Assumptions C103_zero_start. Print Assumptions C103_zero_integral.

(** a non-trivial case: four instances in three bins (the second one empty, so its effect is interpolated); the table meets
    the hypotheses, and the curve at five positions, below, inside and above the limits, is as expected *)
Definition ex_xs : list b64 := map fofZ [0; 1; 5; 7]%Z.
Definition ex_es : list b64 := map fofZ [3; 5; -1; -3]%Z.
Definition ex_l : list b64 := map fofZ [0; 2; 4; 8]%Z.
Definition ex_e : list b64 := map fofZ [4; 1; -2]%Z.
Definition ex_ps : list b64 := map fofZ [-1; 1; 3; 6; 9]%Z.
Definition sf (l : list b64) := map (fun x => B2SF x) l.
Example C102_instance : (p <- compute_ale_params64 ex_xs ex_es ex_l ;; ys <- eval_unnorm64 p ex_ps ;; Ok (sf (p64_limits p), sf (p64_effect p), sf ys))
  = Ok (sf ex_l, sf ex_e, sf (map fofZ [0; 4; 9; 6; 2]%Z)).
Proof. vm_compute. reflexivity. Qed.
Example C102_hypotheses : table ex_l ex_e /\ forall x, In x ex_ps -> position ex_l x.
Proof.
  assert (V : forall z, (Z.abs z <= 10)%Z -> val (fofZ z) = IZR z /\ fin (fofZ z)) by (intros; apply fofZ_val; lia).
  assert (B : 100 <= bpow radix2 1021). { apply Rle_trans with (bpow radix2 7); [unfold bpow; cbn; lra|]. apply bpow_le. lia. }
  assert (A : forall z, (Z.abs z <= 10)%Z -> Rabs (val (fofZ z)) <= bpow radix2 1021).
  { intros z Hz. rewrite (proj1 (V z Hz)), <- abs_IZR. apply Rle_trans with (IZR 10); [now apply IZR_le|lra]. }
  assert (Vn : forall l i, (forall z, In z l -> (Z.abs z <= 10)%Z) -> (i < length l)%nat -> exists z, (Z.abs z <= 10)%Z /\ nth i (map fofZ l) fnan = fofZ z).
  { intros l i Hl Hi. exists (nth i l 0%Z). split; [apply Hl, nth_In, Hi|]. rewrite (nth_indep _ fnan (fofZ 0)) by (now rewrite map_length). apply map_nth. }
  split.
  - unfold table. change (length ex_e) with 3%nat. change (length ex_l) with 4%nat. repeat split; try lia.
    + intros x Hx. apply in_map_iff in Hx as (z & <- & Hz). apply V. cbn in Hz. lia.
    + intros i Hi. change (length ex_l) with 4%nat in Hi. destruct i as [|[|[|i]]]; cbn [ex_l map nth]; try lia; rewrite !(fun z H => proj1 (V z H)) by lia; lra.
    + intros x Hx. apply in_map_iff in Hx as (z & <- & Hz). apply V. cbn in Hz. lia.
    + intros i Hi. destruct (Vn [0; 2; 4; 8]%Z i) as (z & Hz & E); [intros z Hz; cbn in Hz; lia|exact Hi|]. unfold ex_l. rewrite E. apply A. exact Hz.
    + unfold variation, covered. change (length ex_e) with 3%nat. cbn [sumR]. cbn [ex_l ex_e map nth]. rewrite !(fun z H => proj1 (V z H)) by lia.
      rewrite <- !abs_IZR. cbn [Z.abs]. unfold Rmin, Rmax. repeat destruct Rle_dec; lra.
  - intros x Hx. apply in_map_iff in Hx as (z & <- & Hz). assert (Hz' : (Z.abs z <= 10)%Z) by (cbn in Hz; lia). destruct (V z Hz') as [E F].
    split; [exact F|]. split; [now apply A|]. right. rewrite E. apply IZR_le. lia.
Qed.
