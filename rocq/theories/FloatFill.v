(** FloatFill: fill_nans (utils.py:247-276) in binary64 keeps non-negative values non-negative. *)
From Coq Require Import Reals.
From Flocq Require Import Core.
From Flocq Require Import IEEE754.BinarySingleNaN Relative.
From Verif Require Import Base Numpy NumpyFacts FloatModel FloatFacts FloatGrid FloatBins FloatProofs FloatMean FloatAcc.
From Coq Require Import Lra.
Open Scope R_scope.

(** not so small that it is near the subnormal numbers, not so large that anything overflows *)
Definition moderate (v : b64) : Prop := fin v /\ (val v = 0 \/ bpow radix2 (-900) <= val v <= bpow radix2 1020).
Lemma moderate_pos v : moderate v -> 0 <= val v <= bpow radix2 1020.
Proof. intros [_ [->|H]]; [split; [lra|apply bpow_ge_0]|]. pose proof (bpow_gt_0 radix2 (-900)). lra. Qed.

Definition idx64 (i : nat) : Prop := (Z.of_nat i <= 2 ^ 50)%Z.
Lemma fofn_idx i : idx64 i -> val (fofn i) = IZR (Z.of_nat i) /\ fin (fofn i).
Proof. intros H. unfold idx64 in H. apply fofZ_val. lia. Qed.
Lemma fofn_sub i j : idx64 i -> (j <= i)%nat -> val (fsub (fofn i) (fofn j)) = IZR (Z.of_nat (i - j)) /\ fin (fsub (fofn i) (fofn j)).
Proof.
  intros Hi L. assert (Hj : idx64 j) by (unfold idx64 in *; lia). destruct (fofn_idx i Hi) as [Vi Fi]. destruct (fofn_idx j Hj) as [Vj Fj]. unfold idx64 in *.
  assert (E : IZR (Z.of_nat i) - IZR (Z.of_nat j) = IZR (Z.of_nat (i - j))) by (rewrite <- minus_IZR; f_equal; lia).
  assert (B : Rabs (IZR (Z.of_nat (i - j))) <= bpow radix2 1023).
  { rewrite Rabs_pos_eq by (apply IZR_le; lia). apply Rle_trans with (bpow radix2 50); [change (bpow radix2 50) with (IZR (2 ^ 50)); apply IZR_le; lia|apply bpow_le; lia]. }
  destruct (fsub_val _ _ Fi Fj) as [V F]. { rewrite Vi, Vj, E. exact B. }
  split; [|exact F]. rewrite V, Vi, Vj, E. rewrite <- (proj1 (fofn_idx (i - j) ltac:(unfold idx64; lia))). apply rnd_val.
Qed.

(** the difference of two moderate values is 0 or not too small *)
Lemma diff_moderate a b : moderate a -> moderate b -> val b < val a -> bpow radix2 (-960) <= val a - val b.
Proof.
  intros Ha Hb L. pose proof (moderate_pos a Ha) as Pa. pose proof (moderate_pos b Hb) as Pb.
  destruct Ha as [Fa [Za|[A1 A2]]]; [lra|].
  destruct (Rlt_dec (val b) (bpow radix2 (-901))) as [S|S].
  { assert (bpow radix2 (-900) = 2 * bpow radix2 (-901)) by (change (-900)%Z with (1 + -901)%Z; rewrite bpow_plus; reflexivity).
    assert (bpow radix2 (-960) <= bpow radix2 (-901)) by (apply bpow_le; lia). lra. }
  pose proof (succ_le_lt radix2 fexp64 (val b) (val a) (val_fmt b) (val_fmt a) L) as SL.
  rewrite succ_eq_pos in SL by lra. pose proof (ulp_ge (val b) (-901) ltac:(lra) ltac:(lia)) as U.
  assert (bpow radix2 (-960) <= bpow radix2 (-901 - 52)) by (apply bpow_le; lia). lra.
Qed.

Lemma gam3_small n : (2 <= n)%nat -> idx64 n -> forall t, (t < n)%nat -> IZR (Z.of_nat t) / IZR (Z.of_nat n) * (1 + gam 3) <= 1.
Proof.
  intros H2 Hn t Ht. unfold idx64 in Hn. assert (N : 1 <= IZR (Z.of_nat n)) by (apply IZR_le; lia).
  assert (T : IZR (Z.of_nat t) <= IZR (Z.of_nat n) - 1) by (rewrite <- minus_IZR; apply IZR_le; lia).
  assert (B : IZR (Z.of_nat n) <= bpow radix2 50) by (change (bpow radix2 50) with (IZR (2 ^ 50)); apply IZR_le; lia).
  set (k := IZR (Z.of_nat n)) in *. set (s := IZR (Z.of_nat t)) in *.
  replace (s / k * (1 + gam 3)) with ((s * (1 + gam 3)) / k) by (field; lra). apply Rle_div_l; [lra|].
  pose proof (gam_small 3 ltac:(lia)) as G. change (IZR (Z.of_nat 3)) with 3 in G. pose proof (gam_pos 3) as G0.
  assert (GU : gam 3 * bpow radix2 50 <= 1).
  { apply Rle_trans with (2 * 3 * u53 * bpow radix2 50); [apply Rmult_le_compat_r; [apply bpow_ge_0|exact G]|].
    rewrite Rmult_assoc, <- bpow_plus. change (-53 + 50)%Z with (-3)%Z. unfold bpow. cbn. lra. }
  assert (S0 : 0 <= s) by (apply IZR_le; lia).
  assert (gam 3 * s <= gam 3 * bpow radix2 50) by (apply Rmult_le_compat_l; lra). lra.
Qed.

Lemma step_nonneg a b i f0 f1 : (a < i)%nat -> (i < b)%nat -> idx64 b -> moderate f0 -> moderate f1 ->
  let r := interp_step64 (fofn a) f0 (fofn b) f1 (fofn i) in fin r /\ 0 <= val r.
Proof.
  intros Hai Hib Hb M0 M1 r. pose proof (moderate_pos f0 M0) as P0. pose proof (moderate_pos f1 M1) as P1.
  assert (F0 : fin f0) by apply M0. assert (F1 : fin f1) by apply M1. unfold idx64 in Hb.
  destruct (fofn_sub b a Hb ltac:(lia)) as [Vn Fn]. destruct (fofn_sub i a ltac:(unfold idx64; lia) ltac:(lia)) as [Vt Ft].
  destruct (fofn_idx a ltac:(unfold idx64; lia)) as [Va Fa]. destruct (fofn_idx i ltac:(unfold idx64; lia)) as [Vi Fi].
  assert (B20 : bpow radix2 1021 = 2 * bpow radix2 1020) by (change 1021%Z with (1 + 1020)%Z; rewrite bpow_plus; reflexivity).
  pose proof bpow1023 as B23. pose proof u53_pos as U. pose proof u53_small as US.
  unfold r, interp_step64. rewrite Beqb_correct by assumption. rewrite Va, Vi. rewrite Req_bool_false by (intros E; apply eq_IZR in E; lia).
  set (n := (b - a)%nat) in *. set (t := (i - a)%nat) in *. assert (Hn : (2 <= n)%nat) by (unfold n; lia). assert (Ht : (1 <= t < n)%nat) by (unfold n, t; lia).
  assert (N1 : 2 <= IZR (Z.of_nat n)) by (apply IZR_le; lia). assert (T1 : 1 <= IZR (Z.of_nat t)) by (apply IZR_le; lia).
  assert (NB : IZR (Z.of_nat n) <= bpow radix2 50) by (change (bpow radix2 50) with (IZR (2 ^ 50)); apply IZR_le; unfold n; lia).
  assert (TN : IZR (Z.of_nat t) <= IZR (Z.of_nat n)) by (apply IZR_le; lia).
  pose proof (gam3_small n Hn ltac:(unfold idx64, n; lia) t ltac:(lia)) as GG.
  set (k := IZR (Z.of_nat n)) in *. set (s := IZR (Z.of_nat t)) in *.
  destruct (fsub_val f1 f0 F1 F0) as [VD FD]. { apply Rabs_le. lra. }
  destruct (rnd_minus_rel f1 f0) as (e1 & A1 & R1). rewrite R1 in VD. set (D := fsub f1 f0) in *. apply Rabs_le_inv in A1.
  assert (DB : Rabs (val D) <= 2 * bpow radix2 1020). { rewrite VD, Rabs_mult. apply Rle_trans with (bpow radix2 1020 * 2); [|lra]. apply Rmult_le_compat; try apply Rabs_pos; apply Rabs_le; lra. }
  assert (KI : 0 < / k) by (apply Rinv_0_lt_compat; lra). assert (KI1 : / k <= 1) by (rewrite <- Rinv_1; apply Rinv_le; lra).
  destruct (fdiv_val D (fsub (fofn b) (fofn a)) FD Fn) as [VS FS].
  { rewrite Vn. lra. }
  { rewrite Vn. unfold Rdiv. rewrite Rabs_mult, (Rabs_pos_eq (/ k)) by lra. pose proof (Rabs_pos (val D)). assert (Rabs (val D) * / k <= Rabs (val D) * 1) by (apply Rmult_le_compat_l; lra). lra. }
  set (sl := fdiv D (fsub (fofn b) (fofn a))) in *. rewrite Vn in VS.
  (* size of the product *)
  assert (PB : Rabs (val sl * s) <= 2 * bpow radix2 1021).
  { assert (SB : Rabs (val sl) <= (Rabs (val D) / k) * (1 + u53) + eta).
    { pose proof (rnd_err (val D / k)) as RE. rewrite <- VS in RE. assert (Q : Rabs (val D / k) = Rabs (val D) / k) by (unfold Rdiv; rewrite Rabs_mult, (Rabs_pos_eq (/ k)); lra).
      rewrite Q in RE. replace (val sl) with ((val sl - val D / k) + val D / k) by ring. eapply Rle_trans; [apply Rabs_triang|]. rewrite Q. lra. }
    rewrite Rabs_mult, (Rabs_pos_eq s) by lra.
    apply Rle_trans with ((Rabs (val D) / k * (1 + u53) + eta) * k); [apply Rmult_le_compat; auto using Rabs_pos; lra|].
    replace ((Rabs (val D) / k * (1 + u53) + eta) * k) with (Rabs (val D) * (1 + u53) + eta * k) by (field; lra).
    assert (eta * k <= 1). { apply Rle_trans with (eta * bpow radix2 50); [apply Rmult_le_compat_l; [apply bpow_ge_0|exact NB]|]. rewrite <- bpow_plus. change 1 with (bpow radix2 0). apply bpow_le. lia. }
    assert (Rabs (val D) * (1 + u53) <= 2 * bpow radix2 1020 * (1 + u53)) by (apply Rmult_le_compat_r; lra).
    pose proof bpow1021_big. assert (u53 * bpow radix2 1020 <= bpow radix2 1020 * / 1000000) by (pose proof (bpow_ge_0 radix2 1020); nra). lra. }
  destruct (fmul_val sl (fsub (fofn i) (fofn a)) FS Ft) as [VP FP]. { rewrite Vt. lra. }
  set (p := fmul sl (fsub (fofn i) (fofn a))) in *. rewrite Vt in VP.
  assert (PB' : Rabs (val p) <= 2 * bpow radix2 1021).
  { rewrite VP. change 2 with (bpow radix2 1) in PB |- *. rewrite <- bpow_plus in PB |- *. apply rnd_abs_le; [lia|exact PB]. }
  destruct (fadd_val p f0 FP F0) as [VR FR]. { eapply Rle_trans; [apply Rabs_triang|]. rewrite (Rabs_pos_eq (val f0)) by lra. lra. }
  assert (NN : is_nan (fadd p f0) = false). { unfold fin in FR. destruct (fadd p f0); cbn in FR |- *; congruence. }
  rewrite NN. split; [exact FR|]. rewrite VR. apply rnd_nonneg.
  destruct (Rle_dec (val f0) (val f1)) as [LE|GT].
  - assert (0 <= val sl). { rewrite VS. apply rnd_nonneg. unfold Rdiv. apply Rmult_le_pos; [|lra]. rewrite VD. apply Rmult_le_pos; lra. }
    assert (0 <= val p). { rewrite VP. apply rnd_nonneg, Rmult_le_pos; lra. } lra.
  - pose proof (diff_moderate f0 f1 M0 M1 ltac:(lra)) as DM. set (d := val f0 - val f1) in *.
    assert (DV : val D = - (d * (1 + e1))) by (rewrite VD; unfold d; ring).
    pose proof (bpow_gt_0 radix2 (-960)) as P960.
    (* quotient and product are normal numbers *)
    assert (Q1 : bpow radix2 (-1012) <= d * (1 + e1) / k).
    { apply Rle_div_r; [lra|]. apply Rle_trans with (bpow radix2 (-1012) * bpow radix2 50); [apply Rmult_le_compat_l; [apply bpow_ge_0|exact NB]|]. rewrite <- bpow_plus.
      assert (bpow radix2 (-1012 + 50) <= bpow radix2 (-961)) by (apply bpow_le; lia).
      assert (bpow radix2 (-960) = 2 * bpow radix2 (-961)) by (change (-960)%Z with (1 + -961)%Z; rewrite bpow_plus; reflexivity). nra. }
    destruct (rnd_rel (val D / k)) as (e2 & A2 & R2).
    { rewrite DV. unfold Rdiv. rewrite <- Ropp_mult_distr_l, Rabs_Ropp. fold (d * (1 + e1) / k). pose proof (bpow_gt_0 radix2 (-1012)). rewrite Rabs_pos_eq by lra. apply Rle_trans with (bpow radix2 (-1012)); [apply bpow_le; lia|exact Q1]. }
    rewrite R2, DV in VS. apply Rabs_le_inv in A2.
    assert (SV : val sl = - (d * (1 + e1) / k * (1 + e2))) by (rewrite VS; field; lra).
    assert (SL : bpow radix2 (-1013) <= d * (1 + e1) / k * (1 + e2)).
    { assert (bpow radix2 (-1012) = 2 * bpow radix2 (-1013)) by (change (-1012)%Z with (1 + -1013)%Z; rewrite bpow_plus; reflexivity). pose proof (bpow_gt_0 radix2 (-1013)). nra. }
    destruct (rnd_rel (val sl * s)) as (e3 & A3 & R3).
    { rewrite SV, <- Ropp_mult_distr_l, Rabs_Ropp. pose proof (bpow_gt_0 radix2 (-1013)). rewrite Rabs_pos_eq by (apply Rmult_le_pos; lra).
      apply Rle_trans with (bpow radix2 (-1013) * 1); [rewrite Rmult_1_r; apply bpow_le; lia|]. apply Rmult_le_compat; lra. }
    rewrite R3, SV in VP. apply Rabs_le_inv in A3.
    assert (PV : val p = - (d * (s / k) * ((1 + e1) * (1 + e2) * (1 + e3)))) by (rewrite VP; field; lra).
    assert (E3 : 0 <= (1 + e1) * (1 + e2) * (1 + e3) <= 1 + gam 3).
    { assert (E12 : 0 <= (1 + e1) * (1 + e2) <= (1 + u53) * (1 + u53)) by (split; [apply Rmult_le_pos; lra|apply Rmult_le_compat; lra]).
      split; [apply Rmult_le_pos; lra|]. replace (1 + gam 3) with ((1 + u53) * (1 + u53) * (1 + u53)) by (unfold gam; cbn [pow]; ring). apply Rmult_le_compat; lra. }
    assert (SK : 0 <= s / k) by (unfold Rdiv; apply Rmult_le_pos; lra).
    assert (D1 : d * (s / k) * ((1 + e1) * (1 + e2) * (1 + e3)) <= d * (s / k) * (1 + gam 3)) by (apply Rmult_le_compat_l; [apply Rmult_le_pos; lra|lra]).
    assert (D2 : d * (s / k) * (1 + gam 3) <= d * 1) by (rewrite Rmult_assoc; apply Rmult_le_compat_l; lra).
    rewrite PV. unfold d in *. lra.
Qed.

(** ** the whole array *)
Definition entry_ok (v : b64) : Prop := is_nan v = true \/ moderate v.

Lemma interp_from_nonneg pts : forall a f0 i, moderate f0 -> (a < i)%nat -> idx64 i ->
  (forall x f, In (x, f) pts -> moderate f /\ exists j, x = fofn j /\ idx64 j /\ j <> i) ->
  let r := interp_from64 (fofn a) f0 pts (fofn i) in fin r /\ 0 <= val r.
Proof.
  induction pts as [|[x1 f1] pts IH]; intros a f0 i M0 Hai Hi H; cbn [interp_from64].
  - split; [apply M0|]. pose proof (moderate_pos f0 M0). lra.
  - destruct (H x1 f1 (or_introl eq_refl)) as (M1 & j & -> & Hj & Nj).
    destruct (fofn_idx i Hi) as [Vi Fi]. destruct (fofn_idx j Hj) as [Vj Fj].
    destruct (Bltb (fofn i) (fofn j)) eqn:E.
    + apply flt_val in E; auto. rewrite Vi, Vj in E. apply lt_IZR in E. apply step_nonneg; auto. lia.
    + apply IH; auto; [|intros x f Hx; apply H; now right].
      assert (~ (IZR (Z.of_nat i) < IZR (Z.of_nat j))). { rewrite <- Vi, <- Vj, <- flt_val by assumption. congruence. }
      apply Rnot_lt_le in H0. apply le_IZR in H0. lia.
Qed.

Lemma valid_points_spec x : forall s q f, In (q, f) (valid_points64 s x) -> exists j, (s <= j < s + length x)%nat /\ q = fofn j /\ f = nth (j - s) x fnan /\ is_nan f = false.
Proof.
  induction x as [|v x IH]; intros s q f H; [destruct H|]. cbn [valid_points64] in H. destruct (is_nan v) eqn:E.
  - destruct (IH (S s) q f H) as (j & Hj & -> & -> & N). exists j. cbn [length]. split; [lia|]. split; [reflexivity|]. replace (j - s)%nat with (S (j - S s)) in * by lia. split; [reflexivity|exact N].
  - destruct H as [H|H].
    + assert (q = fofn s /\ f = v) as [-> ->] by (split; congruence). exists s. cbn [length]. split; [lia|]. split; [reflexivity|]. rewrite Nat.sub_diag. split; [reflexivity|exact E].
    + destruct (IH (S s) q f H) as (j & Hj & -> & -> & N). exists j. cbn [length]. split; [lia|]. split; [reflexivity|]. replace (j - s)%nat with (S (j - S s)) in * by lia. split; [reflexivity|exact N].
Qed.

Lemma mapM_at {A B} (f : A -> res B) l l' i d d' : mapM f l = Ok l' -> (i < length l)%nat -> f (nth i l d) = Ok (nth i l' d').
Proof.
  revert l' i. induction l as [|a l IH]; intros l' i H Hi; cbn [mapM length] in *; [lia|].
  apply bind_ok in H as (b & Hb & H). apply bind_ok in H as (bs & H1 & H2). inversion H2; subst.
  destruct i as [|i]; [exact Hb|]. cbn [nth]. apply IH; [exact H1|lia].
Qed.

Lemma fill_nonneg x y : idx64 (length x) -> (forall v, In v x -> entry_ok v) -> fill_nans64 x = Ok y ->
  length y = length x /\ forall i, (i < length x)%nat -> fin (nth i y fnan) /\ 0 <= val (nth i y fnan) /\ (is_nan (nth i x fnan) = false -> nth i y fnan = nth i x fnan).
Proof.
  intros Hx HE H. unfold fill_nans64 in H. destruct (valid_points64 0 x) as [|[q0 g0] pts] eqn:EP; [discriminate|].
  assert (VS : forall q f, In (q, f) ((q0, g0) :: pts) -> exists j, (j < length x)%nat /\ q = fofn j /\ f = nth j x fnan /\ is_nan f = false).
  { intros q f Hq. rewrite <- EP in Hq. destruct (valid_points_spec x 0 q f Hq) as (j & Hj & -> & -> & N). exists j. rewrite Nat.sub_0_r in *. split; [lia|]. split; [reflexivity|]. split; [reflexivity|exact N]. }
  pose proof (mapM_length _ _ _ H) as L. rewrite combine_length, seq_length, Nat.min_id in L. split; [exact L|]. intros i Hi.
  assert (G : (if is_nan (nth i x fnan) then interp64 ((q0, g0) :: pts) (fofn i) else Ok (nth i x fnan)) = Ok (nth i y fnan)).
  { pose proof (mapM_at _ _ _ i (0%nat, fnan) fnan H ltac:(rewrite combine_length, seq_length, Nat.min_id; exact Hi)) as G.
    rewrite combine_nth in G by apply seq_length. rewrite seq_nth in G by exact Hi. cbn [fst snd Nat.add] in G. exact G. }
  destruct (is_nan (nth i x fnan)) eqn:NE.
  - split; [|split; [|discriminate]].
    all: unfold interp64 in G; destruct (VS q0 g0 (or_introl eq_refl)) as (j0 & Hj0 & E0 & Eg & Ng); subst q0;
      assert (M0 : moderate g0) by (destruct (HE g0) as [HN|HM]; [rewrite Eg; now apply nth_In|congruence|exact HM]);
      destruct (Bltb (fofn i) (fofn j0)) eqn:E.
    1, 3: assert (Ey : nth i y fnan = g0) by congruence; rewrite Ey; solve [apply M0|pose proof (moderate_pos g0 M0); lra].
    all: assert (Ey : nth i y fnan = interp_from64 (fofn j0) g0 pts (fofn i)) by congruence; rewrite Ey;
      destruct (fofn_idx i ltac:(unfold idx64 in *; lia)) as [Vi Fi]; destruct (fofn_idx j0 ltac:(unfold idx64 in *; lia)) as [Vj Fj];
      assert (GE : ~ (IZR (Z.of_nat i) < IZR (Z.of_nat j0))) by (rewrite <- Vi, <- Vj, <- flt_val by assumption; congruence);
      apply Rnot_lt_le in GE; apply le_IZR in GE;
      assert (NJ : j0 <> i) by (intros ->; congruence);
      apply (interp_from_nonneg pts j0 g0 i M0 ltac:(lia) ltac:(unfold idx64 in *; lia));
      intros q f Hq; destruct (VS q f (or_intror Hq)) as (j & Hj & -> & Ef & Nf);
      (split; [destruct (HE f) as [HN|HM]; [rewrite Ef; now apply nth_In|congruence|exact HM]|exists j; split; [reflexivity|split; [unfold idx64 in *; lia|intros ->; congruence]]]).
  - assert (Ey : nth i y fnan = nth i x fnan) by congruence. rewrite Ey. destruct (HE (nth i x fnan) (nth_In x fnan Hi)) as [HN|HM]; [congruence|].
    split; [apply HM|]. split; [pose proof (moderate_pos _ HM); lra|reflexivity].
Qed.
