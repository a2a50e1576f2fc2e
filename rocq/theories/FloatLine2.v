(** FloatLine2: averages and curves when all effects are close to one slope. *)
From Coq Require Import Reals.
From Flocq Require Import Core.
From Flocq Require Import IEEE754.BinarySingleNaN.
From Verif Require Import Base Numpy NumpyFacts FloatModel FloatFacts FloatGrid FloatBins FloatProofs FloatMean FloatAcc FloatVar FloatFill FloatLine Prop_FloatMean Prop_FloatAcc.
From Coq Require Import Lra.
Open Scope R_scope.

Lemma near_sums A t ms : (forall e, In e ms -> near A t e) ->
  Rabs (rsum ms - IZR (Z.of_nat (length ms)) * A) <= IZR (Z.of_nat (length ms)) * t /\ asum ms <= IZR (Z.of_nat (length ms)) * (Rabs A + t).
Proof.
  unfold rsum, asum. induction ms as [|e ms IH]; intros H.
  - cbn. rewrite !Rmult_0_l, Rminus_0_r, Rabs_R0. lra.
  - destruct IH as [I1 I2]; [intros; apply H; now right|]. destruct (H e (or_introl eq_refl)) as [_ N]. cbn [fold_right length]. rewrite Nat2Z.inj_succ, succ_IZR.
    set (n := IZR (Z.of_nat (length ms))) in *. set (r := fold_right (fun x s => val x + s) 0 ms) in *. split.
    + replace (val e + r - (n + 1) * A) with ((val e - A) + (r - n * A)) by ring. eapply Rle_trans; [apply Rabs_triang|]. lra.
    + assert (Rabs (val e) <= Rabs A + t). { replace (val e) with (A + (val e - A)) by ring. eapply Rle_trans; [apply Rabs_triang|]. lra. } lra.
Qed.

Lemma gam_1' n : (Z.of_nat n <= 2 ^ 50)%Z -> gam n <= / 4.
Proof.
  intros H. pose proof (gam_small n H) as GS. assert (IZR (Z.of_nat n) <= bpow radix2 50). { change (bpow radix2 50) with (IZR (2 ^ 50)). apply IZR_le. lia. }
  assert (IZR (Z.of_nat n) * u53 <= bpow radix2 50 * u53) by (apply Rmult_le_compat_r; [apply bpow_ge_0|assumption]).
  rewrite <- bpow_plus in H1. change (50 + -53)%Z with (-3)%Z in H1. assert (bpow radix2 (-3) = / 8) by (unfold bpow; cbn; lra). lra.
Qed.

Definition slope_err (N : nat) (A t : R) : R := 3 * t + 2 * gam (N + 2) * Rabs A + bpow radix2 (-999).
Lemma slope_err_pos N A t : 0 <= t -> 0 <= slope_err N A t.
Proof. intros H. unfold slope_err. pose proof (gam_pos (N + 2)). pose proof (Rabs_pos A). pose proof (bpow_ge_0 radix2 (-999)). assert (0 <= gam (N + 2) * Rabs A) by (apply Rmult_le_pos; lra). lra. Qed.

(** bin effects *)
Lemma bins_near xs es l be ppb A t :
  fins xs -> fins l -> sorted64 l -> (2 <= length l)%nat -> length xs = length es -> (Z.of_nat (length xs) + 1 <= 2 ^ 50)%Z ->
  (forall x, In x xs -> val (first64 l) <= val x <= val (last64 l)) -> - bpow radix2 27 <= val (last64 l) < bpow radix2 27 ->
  (forall e, In e es -> near A t e) -> 0 <= t -> Rabs A + t <= bpow radix2 900 ->
  compute_bin_effect64 xs es l = Ok (be, ppb) -> length be = (length l - 1)%nat ->
  forall v, In v be -> is_nan v = true \/ near A (t + gam (S (length xs)) * (Rabs A + t) + bpow radix2 (-1075)) v.
Proof.
  intros Fx F So L Le HN C B HE T0 BA H Lb v Hv. destruct (In_nth _ _ fnan Hv) as (k & Hk & <-). rewrite Lb in Hk.
  destruct (widen64_sorted l ltac:(lia) F So B) as (F' & So' & _).
  destruct (C101_bins xs es l be ppb k Fx F' So' ltac:(lia) Le ltac:(lia) H) as (_ & E & NE).
  set (ms := bin_members (widen64 l) k xs es) in *.
  assert (Hm : forall e, In e ms -> near A t e). { intros e He. apply HE. unfold ms, bin_members in He. apply in_map_iff in He as ((x & e') & <- & He). apply filter_In in He as [He _]. now apply in_combine_r in He. }
  assert (Lm : (length ms <= length xs)%nat). { unfold ms, bin_members. rewrite map_length. eapply Nat.le_trans; [apply filter_length_le|]. rewrite combine_length. lia. }
  destruct ms as [|m0 ms'] eqn:EM; [left; now apply E|right]. rewrite <- EM in *. destruct (near_sums A t ms Hm) as [S1 S2].
  assert (N1 : 1 <= IZR (Z.of_nat (length ms))) by (apply IZR_le; rewrite EM; cbn [length]; lia).
  assert (NB : IZR (Z.of_nat (length ms)) <= bpow radix2 50) by (change (bpow radix2 50) with (IZR (2 ^ 50)); apply IZR_le; lia).
  destruct NE as [Fv V]; [rewrite EM; discriminate|intros e He; exact (proj1 (Hm e He))| |].
  { eapply Rle_trans; [exact S2|]. apply Rle_trans with (bpow radix2 50 * bpow radix2 900); [apply Rmult_le_compat; try lra; pose proof (Rabs_pos A); lra|]. rewrite <- bpow_plus. apply bpow_le. lia. }
  split; [exact Fv|]. set (n := IZR (Z.of_nat (length ms))) in *.
  assert (D1 : Rabs (rsum ms / n - A) <= t). { replace (rsum ms / n - A) with ((rsum ms - n * A) * / n) by (field; lra). assert (IP : 0 < / n) by (apply Rinv_0_lt_compat; lra). rewrite Rabs_mult, (Rabs_pos_eq (/ n)) by lra.
    apply Rmult_le_reg_r with n; [lra|]. rewrite Rmult_assoc, Rinv_l by lra. lra. }
  assert (D2 : asum ms / n <= Rabs A + t). { apply Rle_div_l; lra. }
  assert (D3 : 0 <= asum ms / n). { pose proof (asum_pos ms). unfold Rdiv. apply Rmult_le_pos; [lra|]. apply Rlt_le, Rinv_0_lt_compat. lra. }
  assert (D4 : gam (S (length ms)) * (asum ms / n) <= gam (S (length xs)) * (Rabs A + t)). { apply Rmult_le_compat; auto using gam_pos. apply gam_le. lia. }
  replace (val (nth k be fnan) - A) with ((val (nth k be fnan) - rsum ms / n) + (rsum ms / n - A)) by ring. eapply Rle_trans; [apply Rabs_triang|]. lra.
Qed.

Lemma effects_near xs es l p A t :
  fins xs -> fins l -> sorted64 l -> (2 <= length l)%nat -> length xs = length es -> (Z.of_nat (length xs) + 1 <= 2 ^ 50)%Z ->
  (Z.of_nat (length l) <= 2 ^ 50)%Z ->
  (forall x, In x xs -> val (first64 l) <= val x <= val (last64 l)) -> - bpow radix2 27 <= val (last64 l) < bpow radix2 27 ->
  (forall e, In e es -> near A t e) -> 0 <= t -> Rabs A + t <= bpow radix2 900 ->
  compute_ale_params64 xs es l = Ok p ->
  length (p64_effect p) = (length l - 1)%nat /\ forall i, (i < length l - 1)%nat -> near A (slope_err (length xs) A t) (nth i (p64_effect p) fnan).
Proof.
  intros Fx F So L Le HN HL C B HE T0 BA H. destruct (params_small xs es l p Fx F So L C B H) as (_ & L1 & _). split; [exact L1|].
  unfold compute_ale_params64 in H. apply bind_ok in H as ((be, ppb) & H1 & H). apply bind_ok in H as ((bv, bev) & _ & H).
  apply bind_ok in H as (e & H3 & H). apply bind_ok in H as (v & _ & H). apply bind_ok in H as (w & _ & H).
  assert (E : p64_effect p = e) by (assert (G : p = mkP64 l (map (fun p => fsub (snd p) (fst p)) (combine l (tl l))) ppb e v w) by congruence; now rewrite G).
  rewrite E in *. clear H E. pose proof (fill64_length _ _ H3) as L3.
  pose proof (bins_near xs es l be ppb A t Fx F So L Le HN C B HE T0 BA H1 ltac:(lia)) as NB.
  set (G := gam (S (length xs))) in *. assert (G4 : G <= / 4) by (apply gam_1'; lia). pose proof (gam_pos (S (length xs))) as G0. fold G in G0. pose proof (Rabs_pos A) as A0.
  assert (E0 : 0 < bpow radix2 (-1075)) by apply bpow_gt_0.
  assert (GA : G * (Rabs A + t) <= / 4 * (Rabs A + t)) by (apply Rmult_le_compat_r; lra).
  assert (E1 : bpow radix2 (-1075) <= 1) by (change 1 with (bpow radix2 0); apply bpow_le; lia).
  assert (BB : 4 * bpow radix2 900 + 4 <= bpow radix2 1000).
  { assert (1 <= bpow radix2 900) by (change 1 with (bpow radix2 0); apply bpow_le; lia). change (bpow radix2 1000) with (bpow radix2 (100 + 900)). rewrite bpow_plus. assert (8 <= bpow radix2 100) by (change 8 with (bpow radix2 3); apply bpow_le; lia).
    assert (8 * bpow radix2 900 <= bpow radix2 100 * bpow radix2 900) by (apply Rmult_le_compat_r; lra). lra. }
  destruct (fill_close A (t + G * (Rabs A + t) + bpow radix2 (-1075)) be e) as [_ K]; [lra|unfold idx64; lia|exact NB|exact H3|].
  intros i Hi. apply (near_le A _ _ _ (K i ltac:(lia))). unfold slope_err.
  assert (GS : G + u53 <= gam (length xs + 2)). { replace (length xs + 2)%nat with (S (S (length xs))) by lia. rewrite (gam_S (S (length xs))). fold G. pose proof u53_pos. assert (0 <= u53 * G) by (apply Rmult_le_pos; lra). lra. }
  assert ((G + u53) * Rabs A <= gam (length xs + 2) * Rabs A) by (apply Rmult_le_compat_r; lra).
  assert (G * t <= / 4 * t) by (apply Rmult_le_compat_r; lra).
  assert (E2 : 2 * bpow radix2 (-1075) + bpow radix2 (-1000) <= bpow radix2 (-999)).
  { change (bpow radix2 (-999)) with (bpow radix2 (1 + -1000)). rewrite bpow_plus. change (bpow radix2 1) with 2. assert (Q : bpow radix2 (1 + -1075) <= bpow radix2 (-1000)) by (apply bpow_le; lia). rewrite bpow_plus in Q. change (bpow radix2 1) with 2 in Q. lra. }
  lra.
Qed.

(** the curve *)
Lemma covered_pos l x i : 0 <= covered l x i. Proof. unfold covered. apply Rmax_l. Qed.
Lemma covered_total (l e : list b64) : fins l -> sorted64 l -> (2 <= length l)%nat -> length e = (length l - 1)%nat ->
  (forall i, (i < length l)%nat -> Rabs (val (nth i l fnan)) <= bpow radix2 1021) ->
  forall x, val (first64 l) <= x <= val (last64 l) -> sumR (length e) (covered l x) = x - val (first64 l).
Proof.
  intros Fl So L2 Le Bl x Hx. unfold first64, last64 in *.
  assert (TS : forall k, (k < length l)%nat -> sumR k (fun i => val (nth (S i) l fnan) - val (nth i l fnan)) = val (nth k l fnan) - val (nth 0 l fnan)).
  { induction k as [|k IH]; intros Hk; cbn [sumR]; [ring|]. rewrite IH by lia. ring. }
  assert (FK : exists k, (k < length e)%nat /\ val (nth k l fnan) <= x <= val (nth (S k) l fnan)).
  { assert (G : forall m, (m < length l)%nat -> (1 <= m)%nat -> x <= val (nth m l fnan) -> exists k, (k < m)%nat /\ val (nth k l fnan) <= x <= val (nth (S k) l fnan)).
    { induction m as [|m IH]; intros Hm H1 HX; [lia|]. destruct (Rle_dec (val (nth m l fnan)) x) as [Y|Y]; [exists m; split; [lia|lra]|].
      destruct m; [lra|]. destruct IH as (k & Hk & B); [lia|lia|lra|]. exists k. split; [lia|exact B]. }
    destruct (G (length l - 1)%nat ltac:(lia) ltac:(lia) (proj2 Hx)) as (k & Hk & B). exists k. split; [lia|exact B]. }
  destruct FK as (k & Hk & B). rewrite (sumR_ext _ _ (fun i => 1 * covered l x i)) by (intros; ring).
  rewrite (covered_sum l e So L2 Le Bl (fun _ => 1) x k Hk B). rewrite (sumR_ext _ _ (fun i => val (nth (S i) l fnan) - val (nth i l fnan))) by (intros; ring). rewrite TS by lia. ring.
Qed.

Lemma sumR_le n f g : (forall i, (i < n)%nat -> f i <= g i) -> sumR n f <= sumR n g.
Proof. induction n as [|n IH]; intros H; cbn [sumR]; [lra|]. specialize (IH ltac:(intros; apply H; lia)). pose proof (H n ltac:(lia)). lra. Qed.
Lemma sumR_scal n c f : sumR n (fun i => c * f i) = c * sumR n f.
Proof. induction n as [|n IH]; cbn [sumR]; [ring|]. rewrite IH. ring. Qed.
Lemma sumR_abs n f : Rabs (sumR n f) <= sumR n (fun i => Rabs (f i)).
Proof. induction n as [|n IH]; cbn [sumR]; [rewrite Rabs_R0; lra|]. eapply Rle_trans; [apply Rabs_triang|]. lra. Qed.
Lemma sumR_minus n f g : sumR n f - sumR n g = sumR n (fun i => f i - g i).
Proof. induction n as [|n IH]; cbn [sumR]; [ring|]. rewrite <- IH. ring. Qed.

Lemma curve_near (l e : list b64) A T x : fins l -> sorted64 l -> (2 <= length l)%nat -> length e = (length l - 1)%nat ->
  (forall i, (i < length l)%nat -> Rabs (val (nth i l fnan)) <= bpow radix2 1021) ->
  (forall i, (i < length e)%nat -> Rabs (val (nth i e fnan) - A) <= T) -> val (first64 l) <= x <= val (last64 l) ->
  Rabs (curve l e x - A * (x - val (first64 l))) <= T * (x - val (first64 l)) /\ variation l e x <= (Rabs A + T) * (x - val (first64 l)).
Proof.
  intros Fl So L2 Le Bl HE Hx. pose proof (covered_total l e Fl So L2 Le Bl x Hx) as CT. rewrite <- CT. unfold curve, variation. rewrite <- !sumR_scal. split.
  - rewrite sumR_minus. eapply Rle_trans; [apply sumR_abs|]. apply sumR_le. intros i Hi.
    replace (val (nth i e fnan) * covered l x i - A * covered l x i) with ((val (nth i e fnan) - A) * covered l x i) by ring. pose proof (covered_pos l x i). rewrite Rabs_mult, (Rabs_pos_eq (covered l x i)) by assumption. apply Rmult_le_compat_r; auto.
  - apply sumR_le. intros i Hi. apply Rmult_le_compat_r; [apply covered_pos|]. replace (val (nth i e fnan)) with (A + (val (nth i e fnan) - A)) by ring. eapply Rle_trans; [apply Rabs_triang|]. specialize (HE i Hi). lra.
Qed.
