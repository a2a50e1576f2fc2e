(** FloatOpp: negation commutes with binary64 arithmetic, whatever the operands (overflow, infinities and NaN
    included), up to the sign of a zero. *)
From Coq Require Import Reals.
From Flocq Require Import Core.
From Flocq Require Import IEEE754.BinarySingleNaN.
From Verif Require Import Base Numpy FloatModel FloatAdapt.
From Coq Require Import Lra.
Open Scope R_scope.

(** [y] is [-x]; the sign of a zero is left open; the negation of NaN is NaN *)
Definition opp (x y : b64) : Prop :=
  y = Bopp x \/ (exists s t, x = B754_zero s /\ y = B754_zero t).

Lemma opp_Bopp x : opp x (Bopp x).
Proof. now left. Qed.
Lemma opp_zero s t : opp (B754_zero s) (B754_zero t).
Proof. right. eauto. Qed.
Lemma opp_nan_l y : opp B754_nan y -> y = B754_nan.
Proof. intros [H|(s & t & H & _)]; [exact H|discriminate H]. Qed.
Lemma opp_R x y : opp x y -> B2R y = - B2R x.
Proof. intros [->|(s & t & -> & ->)]; [apply B2R_Bopp|simpl; ring]. Qed.
Lemma opp_finite x y : opp x y -> is_finite y = is_finite x.
Proof. intros [->|(s & t & -> & ->)]; [apply is_finite_Bopp|reflexivity]. Qed.
Lemma opp_is_nan x y : opp x y -> is_nan y = is_nan x.
Proof. intros [->|(s & t & -> & ->)]; [apply is_nan_Bopp|reflexivity]. Qed.
Lemma opp_sign x y : opp x y -> B2R x <> 0 -> Bsign y = negb (Bsign x).
Proof. intros [->|(s & t & -> & ->)] N; [destruct x; try reflexivity; now elim N|now elim N]. Qed.

Lemma zero_R (x : b64) : is_finite x = true -> B2R x = 0 -> exists s, x = B754_zero s.
Proof.
  destruct x as [s|s| |s m e H]; intros F Z; try discriminate F; [eauto|]. exfalso. revert Z. apply (F2R_neq_0 radix2 (Float radix2 (cond_Zopp s (Z.pos m)) e)).
  now destruct s.
Qed.
Lemma opp_intro x y : is_finite x = true -> is_finite y = true -> B2R y = - B2R x -> opp x y.
Proof.
  intros Fx Fy E. destruct (Req_dec (B2R x) 0) as [Z|N].
  - destruct (zero_R x Fx Z) as (s & ->). destruct (zero_R y Fy ltac:(rewrite E, Z; ring)) as (t & ->). apply opp_zero.
  - left. apply B2R_inj; [apply is_finite_strict_B2R; lra|apply is_finite_strict_B2R; rewrite B2R_Bopp; lra|now rewrite B2R_Bopp].
Qed.
Lemma ovf_sf (x : b64) s : B2SF x = binary_overflow 53 1024 mode_NE s -> x = B754_infinity s.
Proof. intros H. apply B2SF_inj. exact H. Qed.
Lemma small_R (x : b64) : Rlt_bool (Rabs (B2R x)) (bpow radix2 1024) = true.
Proof. apply Rlt_bool_true. apply abs_B2R_lt_emax. Qed.
Lemma round_R (x : b64) : round radix2 (SpecFloat.fexp 53 1024) (round_mode mode_NE) (B2R x) = B2R x.
Proof. apply round_generic; [apply valid_rnd_round_mode|apply generic_format_B2R]. Qed.
Lemma round_neg a : round radix2 (SpecFloat.fexp 53 1024) (round_mode mode_NE) (- a) = - round radix2 (SpecFloat.fexp 53 1024) (round_mode mode_NE) a.
Proof. apply round_NE_opp. Qed.
Lemma round_zero : Rlt_bool (Rabs (round radix2 (SpecFloat.fexp 53 1024) (round_mode mode_NE) 0)) (bpow radix2 1024) = true.
Proof. rewrite round_0 by apply valid_rnd_round_mode. rewrite Rabs_R0. apply Rlt_bool_true, bpow_gt_0. Qed.

Lemma opp_nf x y : opp x y -> is_finite x = false -> y = Bopp x.
Proof. intros [->|(s & t & -> & ->)] F; [reflexivity|discriminate F]. Qed.

Lemma fadd_opp x x' y y' : opp x x' -> opp y y' -> opp (fadd x y) (fadd x' y').
Proof.
  intros HX HY. destruct (is_finite x) eqn:Fx.
  2:{ pose proof (opp_nf _ _ HX Fx) as ->. destruct (is_finite y) eqn:Fy.
      - pose proof (opp_finite _ _ HY) as Fy'. rewrite Fy in Fy'. left. destruct x, y, y'; try discriminate; reflexivity.
      - pose proof (opp_nf _ _ HY Fy) as ->. left. destruct x as [| [] | |], y as [| [] | |]; try discriminate; reflexivity. }
  destruct (is_finite y) eqn:Fy.
  2:{ pose proof (opp_nf _ _ HY Fy) as ->. pose proof (opp_finite _ _ HX) as Fx'. rewrite Fx in Fx'. left. destruct x, y, x'; try discriminate; reflexivity. }
  pose proof (opp_finite _ _ HX) as Fx'. rewrite Fx in Fx'. pose proof (opp_finite _ _ HY) as Fy'. rewrite Fy in Fy'.
  pose proof (Bplus_correct 53 1024 Hprec53 Hmax1024 mode_NE x y Fx Fy) as A. pose proof (Bplus_correct 53 1024 Hprec53 Hmax1024 mode_NE x' y' Fx' Fy') as B.
  rewrite (opp_R _ _ HX), (opp_R _ _ HY) in B. replace (- B2R x + - B2R y) with (- (B2R x + B2R y)) in B by ring. rewrite round_neg, Rabs_Ropp in B.
  change (fadd x y) with (Bplus mode_NE x y). change (fadd x' y') with (Bplus mode_NE x' y').
  destruct (Rlt_bool _ _) eqn:L.
  - destruct A as (A1 & A2 & _), B as (B1 & B2 & _). apply opp_intro; [exact A2|exact B2|rewrite A1, B1; reflexivity].
  - destruct A as (A1 & _), B as (B1 & _). rewrite (ovf_sf _ _ A1), (ovf_sf _ _ B1). left.
    assert (B2R x <> 0) as N. { intros Z. rewrite Z, Rplus_0_l, round_R, small_R in L. discriminate L. }
    rewrite (opp_sign _ _ HX N). reflexivity.
Qed.
Lemma fsub_opp x x' y y' : opp x x' -> opp y y' -> opp (fsub x y) (fsub x' y').
Proof.
  intros HX HY. destruct (is_finite x) eqn:Fx.
  2:{ pose proof (opp_nf _ _ HX Fx) as ->. destruct (is_finite y) eqn:Fy.
      - pose proof (opp_finite _ _ HY) as Fy'. rewrite Fy in Fy'. left. destruct x, y, y'; try discriminate; reflexivity.
      - pose proof (opp_nf _ _ HY Fy) as ->. left. destruct x as [| [] | |], y as [| [] | |]; try discriminate; reflexivity. }
  destruct (is_finite y) eqn:Fy.
  2:{ pose proof (opp_nf _ _ HY Fy) as ->. pose proof (opp_finite _ _ HX) as Fx'. rewrite Fx in Fx'. left. destruct x, y, x'; try discriminate; reflexivity. }
  pose proof (opp_finite _ _ HX) as Fx'. rewrite Fx in Fx'. pose proof (opp_finite _ _ HY) as Fy'. rewrite Fy in Fy'.
  pose proof (Bminus_correct 53 1024 Hprec53 Hmax1024 mode_NE x y Fx Fy) as A. pose proof (Bminus_correct 53 1024 Hprec53 Hmax1024 mode_NE x' y' Fx' Fy') as B.
  rewrite (opp_R _ _ HX), (opp_R _ _ HY) in B. replace (- B2R x - - B2R y) with (- (B2R x - B2R y)) in B by ring. rewrite round_neg, Rabs_Ropp in B.
  change (fsub x y) with (Bminus mode_NE x y). change (fsub x' y') with (Bminus mode_NE x' y').
  destruct (Rlt_bool _ _) eqn:L.
  - destruct A as (A1 & A2 & _), B as (B1 & B2 & _). apply opp_intro; [exact A2|exact B2|rewrite A1, B1; reflexivity].
  - destruct A as (A1 & _), B as (B1 & _). rewrite (ovf_sf _ _ A1), (ovf_sf _ _ B1). left.
    assert (B2R x <> 0) as N. { intros Z. rewrite Z, Rminus_0_l, round_neg, Rabs_Ropp, round_R, small_R in L. discriminate L. }
    rewrite (opp_sign _ _ HX N). reflexivity.
Qed.
Lemma fmul_opp x x' y : opp x x' -> opp (fmul x y) (fmul x' y).
Proof.
  intros HX. destruct (is_finite x) eqn:Fx.
  2:{ pose proof (opp_nf _ _ HX Fx) as ->. left. destruct x as [| [] | |], y as [| [] | | []]; try discriminate; reflexivity. }
  destruct (is_finite y) eqn:Fy.
  2:{ destruct HX as [->|(s & t & -> & ->)]; [left; destruct x as [| | | []], y as [| [] | | ]; try discriminate; reflexivity|left; destruct y; try discriminate; reflexivity]. }
  pose proof (opp_finite _ _ HX) as Fx'. rewrite Fx in Fx'.
  pose proof (Bmult_correct 53 1024 Hprec53 Hmax1024 mode_NE x y) as A. pose proof (Bmult_correct 53 1024 Hprec53 Hmax1024 mode_NE x' y) as B.
  rewrite (opp_R _ _ HX) in B. replace (- B2R x * B2R y) with (- (B2R x * B2R y)) in B by ring. rewrite round_neg, Rabs_Ropp in B.
  change (fmul x y) with (Bmult mode_NE x y). change (fmul x' y) with (Bmult mode_NE x' y).
  destruct (Rlt_bool _ _) eqn:L.
  - destruct A as (A1 & A2 & _), B as (B1 & B2 & _). rewrite Fx, Fy in A2. rewrite Fx', Fy in B2. apply opp_intro; [exact A2|exact B2|rewrite A1, B1; reflexivity].
  - rewrite (ovf_sf _ _ A), (ovf_sf _ _ B). left.
    assert (B2R x <> 0) as N. { intros Z. rewrite Z, Rmult_0_l, round_zero in L. discriminate L. }
    rewrite (opp_sign _ _ HX N). simpl. f_equal. now destruct (Bsign x), (Bsign y).
Qed.
Lemma fin_not_nan (x : b64) : is_finite x = true -> is_nan x = false.
Proof. now destruct x. Qed.
Lemma fmul_same x x' : opp x x' -> fmul x' x' = fmul x x.
Proof.
  intros [->|(s & t & -> & ->)]; [|now destruct s, t]. destruct x as [[]|[]| |s m e H]; try reflexivity.
  set (x := B754_finite s m e H : b64).
  pose proof (Bmult_correct 53 1024 Hprec53 Hmax1024 mode_NE x x) as A. pose proof (Bmult_correct 53 1024 Hprec53 Hmax1024 mode_NE (Bopp x) (Bopp x)) as B.
  rewrite B2R_Bopp in B. replace (- B2R x * - B2R x) with (B2R x * B2R x) in B by ring.
  change (fmul x x) with (Bmult mode_NE x x). change (fmul (Bopp x) (Bopp x)) with (Bmult mode_NE (Bopp x) (Bopp x)).
  assert (xorb (Bsign (Bopp x)) (Bsign (Bopp x)) = false /\ xorb (Bsign x) (Bsign x) = false) as [X1 X2] by (destruct s; auto).
  rewrite X1 in B. rewrite X2 in A.
  destruct (Rlt_bool _ _) eqn:L.
  - destruct A as (A1 & A2 & A3), B as (B1 & B2 & B3). change (is_finite x && is_finite x)%bool with true in A2. change (is_finite (Bopp x) && is_finite (Bopp x))%bool with true in B2.
    apply B2R_Bsign_inj; [exact B2|exact A2|congruence|]. rewrite A3, B3; [reflexivity|now apply fin_not_nan|now apply fin_not_nan].
  - rewrite (ovf_sf _ _ A), (ovf_sf _ _ B). reflexivity.
Qed.
Lemma fdiv_opp x x' y : opp x x' -> opp (fdiv x y) (fdiv x' y).
Proof.
  intros HX. destruct (is_finite x) eqn:Fx.
  2:{ pose proof (opp_nf _ _ HX Fx) as ->. left. destruct x as [| [] | |], y as [[] | [] | | []]; try discriminate; reflexivity. }
  destruct (is_finite_strict y) eqn:Fy.
  2:{ destruct HX as [->|(s & t & -> & ->)]; [destruct x as [s| | | []], y as [[] | [] | | ]; try discriminate; try (now left); destruct s; now left|destruct y; try discriminate; [now left|apply opp_zero|now left]]. }
  pose proof (opp_finite _ _ HX) as Fx'. rewrite Fx in Fx'.
  assert (B2R y <> 0) as NY. { destruct y as [| | |s m e H]; try discriminate. apply (F2R_neq_0 radix2 (Float radix2 (cond_Zopp s (Z.pos m)) e)). now destruct s. }
  pose proof (Bdiv_correct 53 1024 Hprec53 Hmax1024 mode_NE x y NY) as A. pose proof (Bdiv_correct 53 1024 Hprec53 Hmax1024 mode_NE x' y NY) as B.
  rewrite (opp_R _ _ HX) in B. replace (- B2R x / B2R y) with (- (B2R x / B2R y)) in B by (unfold Rdiv; ring). rewrite round_neg, Rabs_Ropp in B.
  change (fdiv x y) with (Bdiv mode_NE x y). change (fdiv x' y) with (Bdiv mode_NE x' y).
  destruct (Rlt_bool _ _) eqn:L.
  - destruct A as (A1 & A2 & _), B as (B1 & B2 & _). rewrite Fx in A2. rewrite Fx' in B2. apply opp_intro; [exact A2|exact B2|rewrite A1, B1; reflexivity].
  - rewrite (ovf_sf _ _ A), (ovf_sf _ _ B). left.
    assert (B2R x <> 0) as N. { intros Z. rewrite Z in L. unfold Rdiv in L. rewrite Rmult_0_l, round_zero in L. discriminate L. }
    rewrite (opp_sign _ _ HX N). simpl. f_equal. now destruct (Bsign x), (Bsign y).
Qed.
Lemma opp_sym x y : opp x y -> opp y x.
Proof. intros [->|(s & t & -> & ->)]; [left; now rewrite Bopp_involutive|apply opp_zero]. Qed.
Lemma Beqb_opp x x' y y' : opp x x' -> opp y y' -> Beqb x' y' = Beqb x y.
Proof.
  intros HX HY. destruct (is_finite x) eqn:Fx; destruct (is_finite y) eqn:Fy.
  - pose proof (opp_finite _ _ HX) as Fx'. rewrite Fx in Fx'. pose proof (opp_finite _ _ HY) as Fy'. rewrite Fy in Fy'.
    rewrite !Beqb_correct by assumption. rewrite (opp_R _ _ HX), (opp_R _ _ HY). unfold Req_bool.
    destruct (Rcompare_spec (B2R x) (B2R y)); destruct (Rcompare_spec (- B2R x) (- B2R y)); try reflexivity; lra.
  - pose proof (opp_nf _ _ HY Fy) as ->. pose proof (opp_finite _ _ HX) as Fx'. rewrite Fx in Fx'. destruct x, x', y as [| [] | |]; try discriminate; try reflexivity;
    repeat match goal with b : bool |- _ => destruct b end; reflexivity.
  - pose proof (opp_nf _ _ HX Fx) as ->. pose proof (opp_finite _ _ HY) as Fy'. rewrite Fy in Fy'. destruct y, y', x as [| [] | |]; try discriminate; try reflexivity;
    repeat match goal with b : bool |- _ => destruct b end; reflexivity.
  - pose proof (opp_nf _ _ HY Fy) as ->. pose proof (opp_nf _ _ HX Fx) as ->. destruct x as [| [] | |], y as [| [] | |]; try discriminate; reflexivity.
Qed.
Lemma fmul_opp_r x y y' : opp y y' -> opp (fmul x y) (fmul x y').
Proof.
  intros HY. destruct (is_finite y) eqn:Fy.
  2:{ pose proof (opp_nf _ _ HY Fy) as ->. left. destruct y as [| [] | |], x as [| [] | | []]; try discriminate; reflexivity. }
  destruct (is_finite x) eqn:Fx.
  2:{ destruct HY as [->|(s & t & -> & ->)]; [left; destruct y as [| | | []], x as [| [] | | ]; try discriminate; reflexivity|left; destruct x; try discriminate; reflexivity]. }
  pose proof (opp_finite _ _ HY) as Fy'. rewrite Fy in Fy'.
  pose proof (Bmult_correct 53 1024 Hprec53 Hmax1024 mode_NE x y) as A. pose proof (Bmult_correct 53 1024 Hprec53 Hmax1024 mode_NE x y') as B.
  rewrite (opp_R _ _ HY) in B. replace (B2R x * - B2R y) with (- (B2R x * B2R y)) in B by ring. rewrite round_neg, Rabs_Ropp in B.
  change (fmul x y) with (Bmult mode_NE x y). change (fmul x y') with (Bmult mode_NE x y').
  destruct (Rlt_bool _ _) eqn:L.
  - destruct A as (A1 & A2 & _), B as (B1 & B2 & _). rewrite Fx, Fy in A2. rewrite Fx, Fy' in B2. apply opp_intro; [exact A2|exact B2|rewrite A1, B1; reflexivity].
  - rewrite (ovf_sf _ _ A), (ovf_sf _ _ B). left.
    assert (B2R y <> 0) as N. { intros Z. rewrite Z, Rmult_0_r, round_zero in L. discriminate L. }
    rewrite (opp_sign _ _ HY N). simpl. f_equal. now destruct (Bsign x), (Bsign y).
Qed.
