(** FloatRegionALEProofs: the heterogeneity of RegionalALE and RegionalRHALE is finite with sign + and close to the exact accumulation
    of the bins' standard deviations. *)
From Coq Require Import Reals.
From Flocq Require Import Core.
From Flocq Require Import IEEE754.BinarySingleNaN.
From Verif Require Import Base Numpy NumpyFacts Utils FloatModel FloatFacts FloatGrid FloatBins FloatProofs FloatMean FloatAcc FloatPDP FloatPDPStd FloatRegion FloatRegionMain FloatRegionPDPProofs FloatRegionALE.
From Coq Require Import Lra.
Open Scope R_scope.

Lemma fmul_plus_fin x y : plus64 x -> plus64 y -> fin (fmul x y) -> plus64 (fmul x y).
Proof.
  intros [Fx Sx] [Fy Sy] F. split; [exact F|]. pose proof (Bmult_correct 53 1024 _ _ mode_NE x y) as P. cbn [round_mode] in P. destruct (Rlt_bool _ _).
  - destruct P as (_ & _ & P3). unfold fmul. rewrite P3 by (apply fin_nan, F). now rewrite Sx, Sy.
  - exfalso. unfold fin, fmul in F. rewrite Sx, Sy in P. cbn in P. destruct (Bmult mode_NE x y); try discriminate F; discriminate P.
Qed.
(** not -0.0 *)
Definition not_minus_zero (x : b64) : Prop := Bsign x = true -> val x < 0.
Lemma clip_plus x y : fin x -> fin y -> not_minus_zero x -> Rabs (val x - val y) <= bpow radix2 1023 -> plus64 (clip0 (fsub x y)).
Proof.
  intros Fx Fy NZ B. destruct (fsub_val x y Fx Fy B) as [V F]. unfold clip0. destruct (Bltb (fsub x y) fzero) eqn:E; [split; reflexivity|]. split; [exact F|].
  assert (N : ~ val (fsub x y) < 0). { intros N. assert (Bltb (fsub x y) fzero = true) by (apply flt_val; [exact F|reflexivity|exact N]). congruence. }
  pose proof (Bminus_correct 53 1024 _ _ mode_NE x y Fx Fy) as P. cbn [round_mode] in P. rewrite small_big in P by exact B. destruct P as (_ & _ & P3). unfold fsub. rewrite P3.
  destruct (Rcompare_spec (val x - val y) 0) as [L|EQ|G]; [exfalso; apply N| |reflexivity].
  - rewrite V. destruct (rnd_minus_rel x y) as (e & E1 & E2). rewrite E2. pose proof u53_small. apply Rabs_le_inv in E1. assert (0 < (- (val x - val y)) * (1 + e)) by (apply Rmult_lt_0_compat; lra). lra.
  - destruct (Bsign x) eqn:Sx; [|reflexivity]. specialize (NZ Sx). destruct (Bsign y) eqn:Sy; [reflexivity|exfalso]. assert (0 <= val y) by (apply plus_val; split; assumption). lra.
Qed.
Lemma fadd_nonneg_plus x y : fin x -> 0 <= val x -> plus64 y -> fin (fadd x y) -> plus64 (fadd x y).
Proof.
  intros Fx Px [Fy Sy] F. split; [exact F|]. pose proof (plus_val y (conj Fy Sy)) as Py.
  pose proof (Bplus_correct 53 1024 _ _ mode_NE x y Fx Fy) as P. cbn [round_mode] in P. destruct (Rlt_bool _ _).
  - destruct P as (_ & _ & P3). unfold fadd. rewrite P3. destruct (Rcompare_spec (val x + val y) 0); [lra| |reflexivity]. rewrite Sy. apply andb_false_r.
  - destruct P as (P1 & P2). rewrite P2, Sy in P1. cbn in P1. unfold fadd in *. destruct (Bplus mode_NE x y); try discriminate P1. cbn in P1. now injection P1.
Qed.

Lemma acc1_plus l e x : fins l -> sorted64 l -> fins e -> (2 <= length l)%nat -> length e = (length l - 1)%nat -> (Z.of_nat (length e) + 3 <= 2 ^ 50)%Z ->
  (forall i, (i < length l)%nat -> Rabs (val (nth i l fnan)) <= bpow radix2 1021) ->
  sumR (length e) (fun i => Rabs (val (nth i e fnan)) * (val (nth (S i) l fnan) - val (nth i l fnan))) <= bpow radix2 1021 ->
  (forall a, In a e -> plus64 a) -> fin x -> not_minus_zero x -> Rabs (val x) <= bpow radix2 1021 -> fin (acc1 l e x) -> plus64 (acc1 l e x).
Proof.
  intros Fl So Fe L2 Le HK Bl Be Pe Fx NZ Bx F. unfold acc1 in *. set (j := digitize64_1 l x) in *. assert (Hj : (j <= length l)%nat) by apply digitize64_le.
  destruct (fadd_fin _ _ F) as [FA FM]. apply fadd_nonneg_plus; [exact FA| | |exact F].
  - assert (Pe' : forall i, (i < length e)%nat -> 0 <= val (nth i e fnan)) by (intros i Hi; apply plus_val, Pe, nth_In, Hi).
    pose proof (cs_le l e Fl So Fe L2 Le HK Bl Be Pe' 0%nat) as CL. destruct j as [|j]; [cbn; lra|]. change (nth (S j) (fzero :: fzero :: cumsum64 _) fnan) with (cs l e j). specialize (CL j ltac:(lia) ltac:(lia)). change (val (cs l e 0)) with 0 in CL. exact CL.
  - apply fmul_plus_fin; [| |exact FM].
    + assert (B23 : bpow radix2 1023 = 4 * bpow radix2 1021) by apply bpow1023. assert (B8 : 100000000 <= bpow radix2 1021) by (apply Rle_trans with (bpow radix2 27); [unfold bpow; cbn; lra|apply bpow_le; lia]).
      assert (Y : fin (nth j (nth 0 l fnan :: init_ l ++ [BIGM64]) fnan) /\ Rabs (val (nth j (nth 0 l fnan :: init_ l ++ [BIGM64]) fnan)) <= bpow radix2 1021).
      { assert (G : forall i, (i < length l)%nat -> fin (nth i l fnan) /\ Rabs (val (nth i l fnan)) <= bpow radix2 1021) by (intros i Hi; split; [now apply fins_nth|now apply Bl]).
        destruct j as [|j]; [apply G; lia|]. cbn [nth]. destruct (Nat.eq_dec j (length l - 1)) as [->|Q].
        - replace (length l - 1)%nat with (length (init_ l) + 0)%nat by (unfold init_; rewrite removelast_len; lia). rewrite nth_app_b. cbn [nth]. rewrite (proj1 bigm_ok), Rabs_pos_eq by lra. split; [exact (proj2 bigm_ok)|exact B8].
        - rewrite app_nth1 by (unfold init_; rewrite removelast_len; lia). unfold init_. rewrite removelast_nth by lia. apply G. lia. }
      destruct Y as [FY BY]. apply clip_plus; auto. rewrite B23. unfold Rminus. eapply Rle_trans; [apply Rabs_triang|]. rewrite Rabs_Ropp. lra.
    + destruct j as [|j]; [split; reflexivity|]. cbn [nth]. destruct (Nat.eq_dec j (length e)) as [->|Q].
      * replace (nth (length e) (e ++ _) fnan) with (nth (length e + 0) (e ++ [nth (length e - 1) e fnan]) fnan) by (f_equal; lia). rewrite nth_app_b. cbn [nth]. apply Pe, nth_In. lia.
      * rewrite app_nth1 by lia. apply Pe, nth_In. lia.
Qed.
