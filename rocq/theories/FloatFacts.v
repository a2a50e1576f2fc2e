(** FloatFacts: real-number meaning of the binary64 operations, and where adding EPS changes a float. *)
From Coq Require Import Reals.
From Flocq Require Import Core.
From Flocq Require Import IEEE754.BinarySingleNaN.
From Verif Require Import Base Numpy FloatModel.
From Coq Require Import Lra.
Open Scope R_scope.

Notation fexp64 := (SpecFloat.fexp 53 1024).
Notation rnd := (round radix2 fexp64 ZnearestE).
Notation fmt := (generic_format radix2 fexp64).
Definition fin (x : b64) : Prop := is_finite x = true.
Notation val := (@B2R 53 1024).

Global Instance V64 : Valid_exp fexp64. Proof. apply fexp_correct. reflexivity. Qed.
Global Instance M64 : Monotone_exp fexp64. Proof. apply fexp_monotone. Qed.

Lemma fexp64_eq e : fexp64 e = Z.max (e - 53) (-1074). Proof. reflexivity. Qed.

Lemma val_fmt (x : b64) : fmt (val x). Proof. apply generic_format_B2R. Qed.
Lemma rnd_val (x : b64) : rnd (val x) = val x. Proof. apply round_generic; [typeclasses eauto|apply val_fmt]. Qed.

Lemma rnd_le a b : a <= b -> rnd a <= rnd b. Proof. apply round_le; typeclasses eauto. Qed.

Lemma rnd_abs_le x e : (-1074 <= e)%Z -> Rabs x <= bpow radix2 e -> Rabs (rnd x) <= bpow radix2 e.
Proof.
  intros He H. apply abs_round_le_generic; try typeclasses eauto; [|exact H].
  apply generic_format_bpow. rewrite fexp64_eq. lia.
Qed.

Lemma small_big x : Rabs x <= bpow radix2 1023 -> Rlt_bool (Rabs (rnd x)) (bpow radix2 1024) = true.
Proof.
  intros H. apply Rlt_bool_true. eapply Rle_lt_trans; [apply rnd_abs_le with (e := 1023%Z); [lia|exact H]|]. apply bpow_lt. lia.
Qed.

Lemma fadd_val x y : fin x -> fin y -> Rabs (val x + val y) <= bpow radix2 1023 ->
  val (fadd x y) = rnd (val x + val y) /\ fin (fadd x y).
Proof.
  intros Fx Fy H. pose proof (Bplus_correct 53 1024 _ _ mode_NE x y Fx Fy) as P.
  cbn [round_mode] in P. rewrite small_big in P by exact H. destruct P as (P1 & P2 & _). split; assumption.
Qed.
Lemma fsub_val x y : fin x -> fin y -> Rabs (val x - val y) <= bpow radix2 1023 ->
  val (fsub x y) = rnd (val x - val y) /\ fin (fsub x y).
Proof.
  intros Fx Fy H. pose proof (Bminus_correct 53 1024 _ _ mode_NE x y Fx Fy) as P.
  cbn [round_mode] in P. rewrite small_big in P by exact H. destruct P as (P1 & P2 & _). split; assumption.
Qed.
Lemma fmul_val x y : fin x -> fin y -> Rabs (val x * val y) <= bpow radix2 1023 ->
  val (fmul x y) = rnd (val x * val y) /\ fin (fmul x y).
Proof.
  intros Fx Fy H. pose proof (Bmult_correct 53 1024 _ _ mode_NE x y) as P.
  cbn [round_mode] in P. rewrite small_big in P by exact H. destruct P as (P1 & P2 & _). split; [assumption|].
  unfold fin, fmul. now rewrite P2, Fx, Fy.
Qed.
Lemma fdiv_val x y : fin x -> fin y -> val y <> 0 -> Rabs (val x / val y) <= bpow radix2 1023 ->
  val (fdiv x y) = rnd (val x / val y) /\ fin (fdiv x y).
Proof.
  intros Fx Fy Hy H. pose proof (Bdiv_correct 53 1024 _ _ mode_NE x y Hy) as P.
  cbn [round_mode] in P. rewrite small_big in P by exact H. destruct P as (P1 & P2 & _). split; [assumption|].
  unfold fin, fdiv. now rewrite P2.
Qed.
Lemma fofZ_val z : (Z.abs z <= 2 ^ 53)%Z -> val (fofZ z) = IZR z /\ fin (fofZ z).
Proof.
  intros H. pose proof (binary_normalize_correct 53 1024 _ _ mode_NE z 0 false) as P. cbn [round_mode] in P.
  assert (E : F2R (Float radix2 z 0) = IZR z) by (unfold F2R; cbn; lra). rewrite E in P.
  assert (A : Rabs (IZR z) <= bpow radix2 53).
  { rewrite <- abs_IZR. change (bpow radix2 53) with (IZR (2 ^ 53)). now apply IZR_le. }
  assert (F : fmt (IZR z)).
  { destruct (Z.eq_dec (Z.abs z) (2 ^ 53)) as [Eq|Ne].
    - assert (B : fmt (bpow radix2 53)) by (apply generic_format_bpow; rewrite fexp64_eq; lia).
      assert (C : IZR z = bpow radix2 53 \/ IZR z = - bpow radix2 53).
      { change (bpow radix2 53) with (IZR (2 ^ 53)). rewrite <- opp_IZR.
        destruct (Z.abs_spec z) as [[_ W]|[_ W]]; [left|right]; f_equal; lia. }
      destruct C as [-> | ->]; [exact B|now apply generic_format_opp].
    - rewrite <- E. change fexp64 with (FLT_exp (-1074) 53). apply generic_format_FLT. exists (Float radix2 z 0); cbn; [reflexivity| |lia].
      change (Z.pow_pos 2 53) with (2 ^ 53)%Z. lia. }
  rewrite small_big in P.
  - destruct P as (P1 & P2 & _). split; [|exact P2]. unfold fofZ. rewrite P1. apply round_generic; [typeclasses eauto|exact F].
  - eapply Rle_trans; [exact A|]. apply bpow_le. lia.
Qed.

(** ** comparisons *)
Lemma fle_val x y : fin x -> fin y -> Bleb x y = true <-> val x <= val y.
Proof.
  intros Fx Fy. rewrite Bleb_correct by assumption. destruct (Rle_bool_spec (val x) (val y)); split; intros; try lra; congruence.
Qed.
Lemma flt_val x y : fin x -> fin y -> Bltb x y = true <-> val x < val y.
Proof.
  intros Fx Fy. rewrite Bltb_correct by assumption. destruct (Rlt_bool_spec (val x) (val y)); split; intros; try lra; congruence.
Qed.
Lemma fnlt_val x y : fin x -> fin y -> negb (Bltb x y) = true <-> val y <= val x.
Proof.
  intros Fx Fy. rewrite negb_true_iff, <- not_true_iff_false, flt_val by assumption. lra.
Qed.

(** ** EPS *)
Lemma EPS64_fin : fin EPS64. Proof. reflexivity. Qed.
Lemma EPS64_val : val EPS64 = 6044629098073146 * bpow radix2 (-79). Proof. unfold val, EPS64, F2R. cbn -[bpow]. lra. Qed.
Lemma EPS64_approx : Rabs (val EPS64 - 1 / 100000000) < bpow radix2 (-80).
Proof. rewrite EPS64_val. unfold bpow. cbn. split_Rabs; lra. Qed.
Lemma EPS64_bounds : bpow radix2 (-27) < val EPS64 < bpow radix2 (-26).
Proof. rewrite EPS64_val. unfold bpow. cbn. split; lra. Qed.
(** 1e-8 is the decimal literal; the float constant of the model is its correctly rounded value *)
Lemma EPS64_nearest : val EPS64 = rnd (1 / 100000000).
Proof.
  assert (B : bpow radix2 (-27) <= 1 / 100000000 < bpow radix2 (-26)) by (unfold bpow; cbn; split; lra).
  assert (M : mag_val radix2 _ (mag radix2 (1 / 100000000)) = (-26)%Z).
  { apply mag_unique. rewrite Rabs_pos_eq by lra. exact B. }
  unfold round, scaled_mantissa, cexp. rewrite M. change (fexp64 (-26)) with (-79)%Z.
  assert (Z : ZnearestE (1 / 100000000 * bpow radix2 (- -79)) = 6044629098073146%Z).
  { apply Znearest_imp. unfold bpow. cbn. split_Rabs; lra. }
  rewrite Z, EPS64_val. unfold F2R. reflexivity.
Qed.

Lemma ulp_ge x e : bpow radix2 e <= x -> (-1022 <= e)%Z -> bpow radix2 (e - 52) <= ulp radix2 fexp64 x.
Proof.
  intros H He. assert (0 < x) by (pose proof (bpow_gt_0 radix2 e); lra).
  rewrite ulp_neq_0 by lra. apply bpow_le. unfold cexp. rewrite fexp64_eq.
  assert (e + 1 <= mag_val _ _ (mag radix2 x))%Z. { apply mag_ge_bpow. replace (e + 1 - 1)%Z with e by lia. rewrite Rabs_pos_eq by lra. exact H. }
  lia.
Qed.

(** a float strictly above x at distance at most 2^-26 *)
Lemma grid_above x : - bpow radix2 27 <= x < bpow radix2 27 -> exists y, fmt y /\ x < y <= x + bpow radix2 (-26).
Proof.
  intros [H1 H2]. set (k := (Zfloor (x * bpow radix2 26) + 1)%Z).
  assert (K : x * bpow radix2 26 < IZR k <= x * bpow radix2 26 + 1).
  { unfold k. rewrite plus_IZR. pose proof (Zfloor_lb (x * bpow radix2 26)). pose proof (Zfloor_ub (x * bpow radix2 26)). lra. }
  assert (P : bpow radix2 26 * bpow radix2 (-26) = 1) by (rewrite <- bpow_plus; reflexivity).
  pose proof (bpow_gt_0 radix2 26) as P1. pose proof (bpow_gt_0 radix2 (-26)) as P2.
  assert (KB : (Z.abs k <= 2 ^ 53)%Z).
  { assert (Q : bpow radix2 27 * bpow radix2 26 = IZR (2 ^ 53)) by (rewrite <- bpow_plus; reflexivity).
    assert (A1 : - IZR (2 ^ 53) <= x * bpow radix2 26) by (rewrite <- Q; nra).
    assert (A2 : x * bpow radix2 26 < IZR (2 ^ 53)) by (rewrite <- Q; nra).
    assert (Zfloor (x * bpow radix2 26) < 2 ^ 53)%Z. { apply lt_IZR. eapply Rle_lt_trans; [apply Zfloor_lb|exact A2]. }
    assert (- 2 ^ 53 <= Zfloor (x * bpow radix2 26))%Z. { apply Zfloor_lub. rewrite opp_IZR. exact A1. }
    unfold k. lia. }
  exists (IZR k * bpow radix2 (-26)). split.
  - destruct (Z.eq_dec (Z.abs k) (2 ^ 53)) as [Eq|Ne].
    + assert (B : fmt (bpow radix2 27)) by (apply generic_format_bpow; rewrite fexp64_eq; lia).
      assert (Q : IZR (2 ^ 53) * bpow radix2 (-26) = bpow radix2 27).
      { change (IZR (2 ^ 53)) with (bpow radix2 53). rewrite <- bpow_plus. reflexivity. }
      destruct (Z.abs_spec k) as [[_ W]|[_ W]].
      * replace k with (2 ^ 53)%Z by lia. rewrite Q. exact B.
      * replace k with (- 2 ^ 53)%Z by lia. rewrite opp_IZR, Ropp_mult_distr_l_reverse, Q. now apply generic_format_opp.
    + change fexp64 with (FLT_exp (-1074) 53). apply generic_format_FLT. exists (Float radix2 k (-26)); cbn -[bpow]; [reflexivity| |lia].
      change (Z.pow_pos 2 53) with (2 ^ 53)%Z. lia.
  - nra.
Qed.

Lemma EPS_bound x : fin x -> Rabs (val x) <= bpow radix2 1022 -> Rabs (val x + val EPS64) <= bpow radix2 1023.
Proof.
  intros Fx H. pose proof EPS64_bounds as [E1 E2]. eapply Rle_trans; [apply Rabs_triang|].
  assert (bpow radix2 1023 = 2 * bpow radix2 1022). { change 1023%Z with (1 + 1022)%Z. rewrite bpow_plus. reflexivity. }
  assert (bpow radix2 (-26) <= bpow radix2 1022) by (apply bpow_le; lia).
  pose proof (bpow_gt_0 radix2 (-27)). rewrite (Rabs_pos_eq (val EPS64)) by lra. lra.
Qed.

Lemma succ_gap_big x : fmt x -> (bpow radix2 27 <= x \/ x < - bpow radix2 27) -> x + bpow radix2 (-25) <= succ radix2 fexp64 x.
Proof.
  intros Fx [H|H].
  - rewrite succ_eq_pos by (pose proof (bpow_gt_0 radix2 27); lra). pose proof (ulp_ge x 27 H ltac:(lia)) as U.
    change (27 - 52)%Z with (-25)%Z in U. lra.
  - pose proof (bpow_gt_0 radix2 27) as P.
    assert (Fo : fmt (- x)) by now apply generic_format_opp.
    assert (B : fmt (bpow radix2 27)) by (apply generic_format_bpow; rewrite fexp64_eq; lia).
    assert (Pr : bpow radix2 27 <= pred radix2 fexp64 (- x)) by (apply pred_ge_gt; [typeclasses eauto|exact B|exact Fo|lra]).
    pose proof (pred_plus_ulp radix2 fexp64 (- x) ltac:(lra) Fo) as E.
    pose proof (ulp_ge _ 27 Pr ltac:(lia)) as U. change (27 - 52)%Z with (-25)%Z in U.
    replace x with (- (- x)) at 2 by lra. rewrite succ_opp. lra.
Qed.

(** ** widening: adding EPS moves a float iff it lies in [-2^27, 2^27) *)
Lemma widen_small x : fin x -> - bpow radix2 27 <= val x < bpow radix2 27 -> val x < val (fadd x EPS64) /\ fin (fadd x EPS64).
Proof.
  intros Fx H.
  assert (A : Rabs (val x) <= bpow radix2 1022).
  { eapply Rle_trans with (bpow radix2 27); [apply Rabs_le; lra|]. apply bpow_le. lia. }
  destruct (fadd_val x EPS64 Fx EPS64_fin (EPS_bound x Fx A)) as [E F]. split; [|exact F]. rewrite E.
  destruct (grid_above (val x) H) as (y & Fy & Y1 & Y2).
  assert (Su : succ radix2 fexp64 (val x) <= y) by (apply succ_le_lt; [typeclasses eauto|apply val_fmt|exact Fy|exact Y1]).
  assert (Gt : val x < succ radix2 fexp64 (val x)).
  { destruct (Req_dec (val x) 0) as [Z|NZ].
    - rewrite Z, succ_0. change fexp64 with (FLT_exp (-1074) 53). rewrite (ulp_FLT_0 radix2 (-1074) 53). apply bpow_gt_0.
    - now apply succ_gt_id. }
  eapply Rlt_le_trans; [exact Gt|].
  apply round_N_ge_midp; [typeclasses eauto|apply generic_format_succ; [typeclasses eauto|apply val_fmt]|].
  rewrite pred_succ by (try typeclasses eauto; apply val_fmt).
  pose proof EPS64_bounds as [E1 _]. assert (bpow radix2 (-26) = 2 * bpow radix2 (-27)). { change (-26)%Z with (1 + -27)%Z. rewrite bpow_plus. reflexivity. }
  lra.
Qed.

Lemma widen_big_val x : fin x -> (bpow radix2 27 <= val x \/ val x < - bpow radix2 27) ->
  rnd (val x + val EPS64) = val x.
Proof.
  intros Fx H. apply Rle_antisym.
  - apply round_N_le_midp; [typeclasses eauto|apply val_fmt|]. pose proof (succ_gap_big _ (val_fmt x) H).
    pose proof EPS64_bounds as [_ E2]. assert (bpow radix2 (-25) = 2 * bpow radix2 (-26)). { change (-25)%Z with (1 + -26)%Z. rewrite bpow_plus. reflexivity. }
    lra.
  - apply round_ge_generic; [typeclasses eauto|typeclasses eauto|apply val_fmt|]. pose proof EPS64_bounds as [E1 _]. pose proof (bpow_gt_0 radix2 (-27)). lra.
Qed.

Lemma widen_big x : fin x -> (bpow radix2 27 <= val x \/ val x < - bpow radix2 27) -> fadd x EPS64 = x.
Proof.
  intros Fx H. pose proof (widen_big_val x Fx H) as R.
  pose proof (Bplus_correct 53 1024 _ _ mode_NE x EPS64 Fx EPS64_fin) as P. cbn [round_mode] in P. rewrite R in P.
  rewrite Rlt_bool_true in P by apply abs_B2R_lt_emax. destruct P as (P1 & P2 & _).
  apply B2R_inj.
  - destruct (fadd x EPS64) eqn:E; unfold fadd in E; rewrite E in *; cbn in P1, P2; try discriminate; cbn.
    + pose proof (bpow_gt_0 radix2 27). lra.
    + reflexivity.
  - destruct x; cbn in *; try discriminate; [|reflexivity]. pose proof (bpow_gt_0 radix2 27). lra.
  - exact P1.
Qed.
