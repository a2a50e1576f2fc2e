(** FloatPDPMore: order and sign of the binary64 PDP, additive models. *)
From Coq Require Import Reals Permutation.
From Flocq Require Import Core.
From Flocq Require Import IEEE754.BinarySingleNaN Relative.
From Verif Require Import Base Numpy NumpyFacts FloatModel FloatFacts FloatGrid FloatBins FloatProofs FloatMean FloatAcc FloatVar FloatPDP FloatPDPSpec FloatPDPMean FloatPDPStd FloatPDPProofs.
From Coq Require Import Lra.
Open Scope R_scope.

Lemma mean_mono o l l' A : complete o -> small_len l -> length l' = length l -> fins l -> fins l' -> 0 <= A <= bpow radix2 900 -> (forall x, In x l -> Rabs (val x) <= A) -> (forall x, In x l' -> Rabs (val x) <= A) ->
  (forall i, val (nth i l fzero) <= val (nth i l' fzero)) -> val (mean64 o l) <= val (mean64 o l').
Proof.
  intros C SL L F F' HA B B' H. assert (SL' : small_len l'). { destruct SL as [N Z]. split; [intros ->; destruct l; [congruence|discriminate]|now rewrite L]. }
  destruct (mean64_close o l A C SL F HA B) as (T & _ & E & _). destruct (mean64_close o l' A C SL' F' HA B') as (T' & _ & E' & _). rewrite L in T', E'.
  rewrite E, E'. apply rnd_le. unfold Rdiv. apply Rmult_le_compat_r; [left; apply Rinv_0_lt_compat, len_pos, SL|]. now apply laid_mono.
Qed.
Lemma mean_opp o l l' A : complete o -> small_len l -> length l' = length l -> fins l -> fins l' -> 0 <= A <= bpow radix2 900 -> (forall x, In x l -> Rabs (val x) <= A) ->
  (forall i, val (nth i l' fzero) = - val (nth i l fzero)) -> val (mean64 o l') = - val (mean64 o l) /\ fin (mean64 o l') /\ fin (mean64 o l).
Proof.
  intros C SL L F F' HA B H. assert (SL' : small_len l'). { destruct SL as [N Z]. split; [intros ->; destruct l; [congruence|discriminate]|now rewrite L]. }
  assert (B' : forall x, In x l' -> Rabs (val x) <= A).
  { intros x Hx. apply (In_nth _ _ fzero) in Hx as (i & Hi & <-). rewrite H, Rabs_Ropp. apply B, nth_In. lia. }
  destruct (mean64_close o l A C SL F HA B) as (T & Fm & E & _). destruct (mean64_close o l' A C SL' F' HA B') as (T' & Fm' & E' & _). rewrite L in T', E'.
  split; [|split; assumption]. rewrite E, E', <- rnd_opp. f_equal. rewrite (laid_opp _ l l' H T T'). unfold Rdiv. ring.
Qed.
Lemma fmul_square_opp d d' : fin d -> fin d' -> val d' = - val d -> Rabs (val d * val d) <= bpow radix2 1023 -> fmul d' d' = fmul d d.
Proof.
  intros F F' E B. assert (EE : val d' * val d' = val d * val d) by (rewrite E; ring).
  destruct (fmul_val d d F F B) as [V FV]. destruct (fmul_val d' d' F' F' ltac:(now rewrite EE)) as [V' FV'].
  assert (SG : forall z : b64, fin z -> fin (fmul z z) -> Rabs (val z * val z) <= bpow radix2 1023 -> Bsign (fmul z z) = false).
  { clear. intros z F FZ B. pose proof (Bmult_correct 53 1024 _ _ mode_NE z z) as P. cbn [round_mode] in P. rewrite small_big in P by exact B. destruct P as (_ & _ & P). unfold fmul. rewrite P; [apply xorb_nilpotent|].
    change (Bmult mode_NE z z) with (fmul z z). destruct (fmul z z); try reflexivity. discriminate FZ. }
  apply B2R_Bsign_inj; [exact FV'|exact FV|now rewrite V, V', EE|]. rewrite !SG; auto. now rewrite EE.
Qed.
Lemma sqdev_opp m m' e e' : fin m -> fin m' -> fin e -> fin e' -> val m' = - val m -> val e' = - val e -> Rabs (val e - val m) <= bpow radix2 500 -> sqdev m' e' = sqdev m e.
Proof.
  intros F1 F2 F3 F4 E1 E2 B. assert (B5 : bpow radix2 500 <= bpow radix2 1023) by (apply bpow_le; lia).
  destruct (fsub_val e m F3 F1 ltac:(lra)) as [V F]. assert (EO : val e' - val m' = - (val e - val m)) by (rewrite E1, E2; ring).
  destruct (fsub_val e' m' F4 F2 ltac:(rewrite EO, Rabs_Ropp; lra)) as [V' F']. unfold sqdev. apply fmul_square_opp; [exact F|exact F'|rewrite V, V', EO, rnd_opp; reflexivity|].
  pose proof (rnd_abs_le (val e - val m) 500 ltac:(lia) B) as RB. rewrite <- V in RB. rewrite Rabs_mult. apply Rle_trans with (bpow radix2 500 * bpow radix2 500); [apply Rmult_le_compat; auto using Rabs_pos|]. rewrite <- bpow_plus. apply bpow_le. lia.
Qed.
Lemma std_opp o l l' A : complete o -> small_len l -> length l' = length l -> fins l -> fins l' -> 0 <= A <= bpow radix2 400 -> (forall x, In x l -> Rabs (val x) <= A) ->
  (forall i, val (nth i l' fzero) = - val (nth i l fzero)) -> std64 o l' = std64 o l.
Proof.
  intros C SL L F F' HA B H. assert (HA' : 0 <= A <= bpow radix2 900) by (split; [lra|]; eapply Rle_trans; [apply HA|apply bpow_le; lia]).
  destruct (mean_opp o l l' A C SL L F F' HA' B H) as (E & Fm' & Fm). destruct (mean64_close o l A C SL F HA' B) as (_ & _ & _ & Em & EA).
  unfold std64. do 2 f_equal. apply nth_ext with (d := sqdev (mean64 o l') fzero) (d' := sqdev (mean64 o l) fzero); rewrite !map_length; [exact L|].
  intros i Hi. rewrite !map_nth. apply sqdev_opp; auto.
  - apply F, nth_In. lia.
  - apply F', nth_In. lia.
  - assert (Hi' : (i < length l)%nat) by lia. pose proof (B _ (nth_In l fzero Hi')) as B1.
    assert (G : gam (S (steps (o (length l)))) <= / 4). { apply gam_1. pose proof (complete_steps o (length l) C (small_len_pos l SL)). destruct SL. lia. }
    assert (GA : gam (S (steps (o (length l)))) * (asum l / INR (length l)) <= / 4 * A). { apply Rmult_le_compat; [apply gam_pos| |exact G|exact EA]. unfold Rdiv. apply Rmult_le_pos; [apply asum_pos|left; apply Rinv_0_lt_compat, len_pos, SL]. }
    pose proof (Ravg_bound val l A ltac:(apply SL) B) as AB. assert (E1 : eta <= 1) by (change 1 with (bpow radix2 0); apply bpow_le; lia).
    assert (1 <= bpow radix2 400) by (change 1 with (bpow radix2 0); apply bpow_le; lia).
    apply Rle_trans with (4 * bpow radix2 400); [|change 4 with (bpow radix2 2); rewrite <- bpow_plus; apply bpow_le; lia].
    apply Rabs_le_inv in B1. apply Rabs_le_inv in AB. apply Rabs_le_inv in Em. apply Rabs_le. lra.
Qed.

Lemma nth_map_default {A} (f : A -> b64) l i (P : b64 -> Prop) : P fzero -> (forall a, In a l -> P (f a)) -> P (nth i (map f l) fzero).
Proof.
  intros P0 H. destruct (Nat.lt_ge_cases i (length l)) as [L|L].
  - pose proof (nth_In (map f l) fzero ltac:(rewrite map_length; exact L)) as I. apply in_map_iff in I as (a & <- & Ha). now apply H.
  - rewrite nth_overflow by (rewrite map_length; exact L). exact P0.
Qed.
Lemma nth_map_pair {A} (f g : A -> b64) l (P : b64 -> b64 -> Prop) : P fzero fzero -> (forall a, In a l -> P (f a) (g a)) -> forall i, P (nth i (map f l) fzero) (nth i (map g l) fzero).
Proof.
  intros P0. induction l as [|a l IH]; intros H [|i]; cbn [map nth]; auto; [apply H; now left|]. apply IH. intros b Hb. apply H. now right.
Qed.

Section Pair.
Variable p : pdp64.
Hypothesis SZ : sized p.
Variable M : R.
Hypothesis HM : 0 <= M <= bpow radix2 380.
Notation ice r x := (ice64 (p64_target p) (p64_feature p) r x).
Lemma A_bound : 0 <= 3 * M + 2 * eta <= bpow radix2 400.
Proof.
  pose proof (bpow_gt_0 radix2 (-1075)) as E0. assert (E1 : eta <= 1) by (change 1 with (bpow radix2 0); apply bpow_le; lia).
  split; [lra|]. assert (1 <= bpow radix2 380) by (change 1 with (bpow radix2 0); apply bpow_le; lia). apply Rle_trans with (bpow radix2 4 * bpow radix2 380); [change (bpow radix2 4) with 16; lra|]. rewrite <- bpow_plus. apply bpow_le. lia.
Qed.
Lemma kept_small {B} (f : list b64 -> B) : small_len (map f (kept64 p)).
Proof. destruct SZ as (_ & _ & [N L] & _). split; [destruct (kept64 p); [congruence|discriminate]|now rewrite map_length]. Qed.

(** ** order *)
Lemma entry_mono c x x' r : tame_at p M x -> tame_at p M x' -> (forall b, In b (base_points p c) -> tame_at p M b) -> In r (kept64 p) -> val (ice r x) <= val (ice r x') -> val (entry64 p c r x) <= val (entry64 p c r x').
Proof.
  intros HX HX' HB Hr L. destruct SZ as (C0 & C1 & KL & PL). destruct (HX r Hr) as [F1 B1]. destruct (HX' r Hr) as [F2 B2].
  destruct (entry_close p C0 PL c M x r HM HX HB Hr) as (G1 & _ & _). destruct (entry_close p C0 PL c M x' r HM HX' HB Hr) as (G2 & _ & _).
  assert (BIG : 8 * bpow radix2 380 + 8 <= bpow radix2 1023).
  { assert (1 <= bpow radix2 380) by (change 1 with (bpow radix2 0); apply bpow_le; lia). apply Rle_trans with (bpow radix2 4 * bpow radix2 380); [change (bpow radix2 4) with 16; lra|]. rewrite <- bpow_plus. apply bpow_le. lia. }
  assert (SUB : forall y, fin y -> Rabs (val y) <= 2 * M + 1 -> val (fsub (ice r x) y) <= val (fsub (ice r x') y)).
  { intros y Fy By. apply Rabs_le_inv in B1. apply Rabs_le_inv in B2. apply Rabs_le_inv in By.
    destruct (fsub_val (ice r x) y F1 Fy ltac:(apply Rabs_le; lra)) as [-> _]. destruct (fsub_val (ice r x') y F2 Fy ltac:(apply Rabs_le; lra)) as [-> _]. apply rnd_le. lra. }
  destruct c; cbn [entry64] in *; [exact L| |].
  - assert (F3 : forall t, In t (grid64 p) -> fin (ice r t) /\ Rabs (val (ice r t)) <= M) by (intros t Ht; now apply (HB t Ht)).
    destruct (mean64_close (p64_axis0 p) (map (fun t => ice r t) (grid64 p)) M C0) as (_ & Fm & _ & Em & EA).
    + destruct (grid_small p PL) as [N K]. split; [destruct (grid64 p); [congruence|discriminate]|now rewrite map_length].
    + intros y Hy. apply in_map_iff in Hy as (t & <- & Ht). now apply F3.
    + split; [lra|]. eapply Rle_trans; [apply HM|apply bpow_le; lia].
    + intros y Hy. apply in_map_iff in Hy as (t & <- & Ht). now apply F3.
    + apply SUB; [exact Fm|]. pose proof (Ravg_bound val (map (fun t => ice r t) (grid64 p)) M) as AB. rewrite map_length, (grid_len p PL) in Em, EA.
      assert (E1 : eta <= 1) by (change 1 with (bpow radix2 0); apply bpow_le; lia).
      assert (G : gam (S (steps (p64_axis0 p (p64_points p)))) <= / 4) by (apply gam_1; pose proof (d0_small p C0 PL) as D; unfold d0 in D; lia).
      assert (GA : gam (S (steps (p64_axis0 p (p64_points p)))) * (asum (map (fun t => ice r t) (grid64 p)) / INR (p64_points p)) <= / 4 * M).
      { apply Rmult_le_compat; [apply gam_pos| |exact G|exact EA]. unfold Rdiv. apply Rmult_le_pos; [apply asum_pos|left; apply Rinv_0_lt_compat, lt_0_INR; lia]. }
      specialize (AB ltac:(destruct (grid_small p PL) as [N _]; destruct (grid64 p); [congruence|discriminate]) ltac:(intros y Hy; apply in_map_iff in Hy as (t & <- & Ht); now apply F3)).
      apply Rabs_le_inv in AB. apply Rabs_le_inv in Em. apply Rabs_le. lra.
  - destruct (HB (p64_lo p) (or_introl eq_refl) r Hr) as [F3 B3]. apply SUB; [exact F3|lra].
Qed.
Lemma curve_mono c x x' : tame_at p M x -> tame_at p M x' -> (forall b, In b (base_points p c) -> tame_at p M b) -> (forall r, In r (kept64 p) -> val (ice r x) <= val (ice r x')) ->
  val (mean64 (p64_axis1 p) (map (fun r => entry64 p c r x) (kept64 p))) <= val (mean64 (p64_axis1 p) (map (fun r => entry64 p c r x') (kept64 p))).
Proof.
  intros HX HX' HB L. destruct SZ as (C0 & C1 & KL & PL). pose proof A_bound as AB.
  assert (EX : forall r, In r (kept64 p) -> fin (entry64 p c r x) /\ Rabs (val (entry64 p c r x)) <= 3 * M + 2 * eta) by (intros r Hr; destruct (entry_close p C0 PL c M x r HM HX HB Hr) as (a & _ & b); auto).
  assert (EX' : forall r, In r (kept64 p) -> fin (entry64 p c r x') /\ Rabs (val (entry64 p c r x')) <= 3 * M + 2 * eta) by (intros r Hr; destruct (entry_close p C0 PL c M x' r HM HX' HB Hr) as (a & _ & b); auto).
  apply mean_mono with (A := 3 * M + 2 * eta).
  - exact C1.
  - apply kept_small.
  - now rewrite !map_length.
  - intros y Hy. apply in_map_iff in Hy as (r & <- & Hr). now apply EX.
  - intros y Hy. apply in_map_iff in Hy as (r & <- & Hr). now apply EX'.
  - split; [lra|]. eapply Rle_trans; [apply AB|apply bpow_le; lia].
  - intros y Hy. apply in_map_iff in Hy as (r & <- & Hr). now apply EX.
  - intros y Hy. apply in_map_iff in Hy as (r & <- & Hr). now apply EX'.
  - intros i. apply (nth_map_pair (fun r => entry64 p c r x) (fun r => entry64 p c r x') (kept64 p) (fun a b => val a <= val b)); [lra|]. intros r Hr. apply entry_mono; auto.
Qed.

(** ** sign *)
Variable p' : pdp64.
Notation ice' r x := (ice64 (p64_target p') (p64_feature p') r x).
Hypothesis SAME : p64_rows p' = p64_rows p /\ p64_feature p' = p64_feature p /\ p64_lo p' = p64_lo p /\ p64_hi p' = p64_hi p /\ p64_points p' = p64_points p /\ p64_axis0 p' = p64_axis0 p /\ p64_axis1 p' = p64_axis1 p.
Lemma kept_same : kept64 p' = kept64 p. Proof. unfold kept64. destruct SAME as (-> & -> & -> & -> & _). reflexivity. Qed.
Lemma grid_same : grid64 p' = grid64 p. Proof. unfold grid64. destruct SAME as (_ & _ & -> & -> & -> & _). reflexivity. Qed.
Definition opposite_at (x : b64) : Prop := forall r, In r (kept64 p) -> fin (ice' r x) /\ val (ice' r x) = - val (ice r x).

Lemma tame_opp x : tame_at p M x -> opposite_at x -> tame_at p' M x.
Proof. intros T O r Hr. rewrite kept_same in Hr. destruct (T r Hr) as [_ B]. destruct (O r Hr) as [F E]. split; [exact F|]. now rewrite E, Rabs_Ropp. Qed.
Lemma base_same c : base_points p' c = base_points p c.
Proof. destruct c; cbn [base_points]; [reflexivity|apply grid_same|]. destruct SAME as (_ & _ & -> & _). reflexivity. Qed.

Lemma entry_opp c x r : tame_at p M x -> opposite_at x -> (forall b, In b (base_points p c) -> tame_at p M b /\ opposite_at b) -> In r (kept64 p) ->
  fin (entry64 p' c r x) /\ val (entry64 p' c r x) = - val (entry64 p c r x).
Proof.
  intros HX HO HB Hr. destruct SZ as (C0 & C1 & KL & PL). destruct (HX r Hr) as [F1 B1]. destruct (HO r Hr) as [F2 E2].
  assert (FE : fin (entry64 p' c r x)).
  { destruct (entry_close p' ltac:(destruct SAME as (_ & _ & _ & _ & _ & -> & _); exact C0) ltac:(destruct SAME as (_ & _ & _ & _ & -> & _); exact PL) c M x r HM) as (F & _).
    - now apply tame_opp.
    - intros b Hb. rewrite base_same in Hb. apply tame_opp; now apply HB.
    - now rewrite kept_same.
    - exact F. }
  split; [exact FE|].
  assert (BIG : 8 * bpow radix2 380 + 8 <= bpow radix2 1023).
  { assert (1 <= bpow radix2 380) by (change 1 with (bpow radix2 0); apply bpow_le; lia). apply Rle_trans with (bpow radix2 4 * bpow radix2 380); [change (bpow radix2 4) with 16; lra|]. rewrite <- bpow_plus. apply bpow_le. lia. }
  assert (SUB : forall y y', fin y -> fin y' -> Rabs (val y) <= 2 * M + 1 -> val y' = - val y -> val (fsub (ice' r x) y') = - val (fsub (ice r x) y)).
  { intros y y' Fy Fy' By Ey. assert (EO : val (ice' r x) - val y' = - (val (ice r x) - val y)) by (rewrite E2, Ey; ring).
    assert (BS : Rabs (val (ice r x) - val y) <= bpow radix2 1023) by (apply Rabs_le_inv in B1; apply Rabs_le_inv in By; apply Rabs_le; lra).
    destruct (fsub_val (ice r x) y F1 Fy BS) as [-> _]. destruct (fsub_val (ice' r x) y' F2 Fy' ltac:(rewrite EO, Rabs_Ropp; exact BS)) as [-> _]. now rewrite EO, rnd_opp. }
  destruct c; cbn [entry64] in *; [exact E2| |].
  - assert (F3 : forall t, In t (grid64 p) -> (fin (ice r t) /\ Rabs (val (ice r t)) <= M) /\ (fin (ice' r t) /\ val (ice' r t) = - val (ice r t))) by (intros t Ht; split; [now apply (proj1 (HB t Ht))|now apply (proj2 (HB t Ht))]).
    assert (SG : small_len (map (fun t => ice r t) (grid64 p))) by (destruct (grid_small p PL) as [N K]; split; [destruct (grid64 p); [congruence|discriminate]|now rewrite map_length]).
    assert (HA : 0 <= M <= bpow radix2 900) by (split; [lra|]; eapply Rle_trans; [apply HM|apply bpow_le; lia]).
    assert (Fg : fins (map (fun t => ice r t) (grid64 p))) by (intros y Hy; apply in_map_iff in Hy as (t & <- & Ht); now apply F3).
    assert (Bg : forall y, In y (map (fun t => ice r t) (grid64 p)) -> Rabs (val y) <= M) by (intros y Hy; apply in_map_iff in Hy as (t & <- & Ht); now apply F3).
    destruct (mean64_close (p64_axis0 p) _ M C0 SG Fg HA Bg) as (_ & Fm & _ & Em & EA).
    destruct (mean_opp (p64_axis0 p) (map (fun t => ice r t) (grid64 p)) (map (fun t => ice' r t) (grid64 p)) M C0 SG ltac:(now rewrite !map_length) Fg) as (MO & FO & _); auto.
    + intros y Hy. apply in_map_iff in Hy as (t & <- & Ht). now apply F3.
    + intros i. apply (nth_map_pair (fun t => ice' r t) (fun t => ice r t) (grid64 p) (fun a b => val a = - val b)); [cbn; lra|]. intros t Ht. now apply F3.
    + rewrite grid_same. replace (p64_axis0 p') with (p64_axis0 p) by (destruct SAME as (_ & _ & _ & _ & _ & -> & _); reflexivity). apply SUB; auto.
      rewrite map_length, (grid_len p PL) in Em, EA. assert (E1 : eta <= 1) by (change 1 with (bpow radix2 0); apply bpow_le; lia).
      assert (G : gam (S (steps (p64_axis0 p (p64_points p)))) <= / 4) by (apply gam_1; pose proof (d0_small p C0 PL) as D; unfold d0 in D; lia).
      assert (GA : gam (S (steps (p64_axis0 p (p64_points p)))) * (asum (map (fun t => ice r t) (grid64 p)) / INR (p64_points p)) <= / 4 * M).
      { apply Rmult_le_compat; [apply gam_pos| |exact G|exact EA]. unfold Rdiv. apply Rmult_le_pos; [apply asum_pos|left; apply Rinv_0_lt_compat, lt_0_INR; lia]. }
      pose proof (Ravg_bound val _ M (proj1 SG) Bg) as AB. apply Rabs_le_inv in AB. apply Rabs_le_inv in Em. apply Rabs_le. lra.
  - destruct (HB (p64_lo p) (or_introl eq_refl)) as [T O]. destruct (T r Hr) as [F3 B3]. destruct (O r Hr) as [F4 E4]. replace (p64_lo p') with (p64_lo p) by (destruct SAME as (_ & _ & -> & _); reflexivity). apply SUB; auto. lra.
Qed.
Lemma curve_opp c x : tame_at p M x -> opposite_at x -> (forall b, In b (base_points p c) -> tame_at p M b /\ opposite_at b) ->
  let l := map (fun r => entry64 p c r x) (kept64 p) in let l' := map (fun r => entry64 p' c r x) (kept64 p') in
  val (mean64 (p64_axis1 p') l') = - val (mean64 (p64_axis1 p) l) /\ fin (mean64 (p64_axis1 p') l') /\ std64 (p64_axis1 p') l' = std64 (p64_axis1 p) l.
Proof.
  intros HX HO HB l l'. pose proof SZ as (C0 & C1 & KL & PL). pose proof A_bound as AB.
  assert (EX : forall r, In r (kept64 p) -> fin (entry64 p c r x) /\ Rabs (val (entry64 p c r x)) <= 3 * M + 2 * eta) by (intros r Hr; destruct (entry_close p C0 PL c M x r HM HX ltac:(intros; now apply HB) Hr) as (a & _ & b); auto).
  assert (EO : forall r, In r (kept64 p) -> fin (entry64 p' c r x) /\ val (entry64 p' c r x) = - val (entry64 p c r x)) by (intros; now apply entry_opp).
  unfold l'. rewrite kept_same. replace (p64_axis1 p') with (p64_axis1 p) by (destruct SAME as (_ & _ & _ & _ & _ & _ & ->); reflexivity).
  assert (SL : small_len l) by apply kept_small.
  assert (F : fins l) by (intros y Hy; apply in_map_iff in Hy as (r & <- & Hr); now apply EX).
  assert (B : forall y, In y l -> Rabs (val y) <= 3 * M + 2 * eta) by (intros y Hy; apply in_map_iff in Hy as (r & <- & Hr); now apply EX).
  assert (F' : fins (map (fun r => entry64 p' c r x) (kept64 p))) by (intros y Hy; apply in_map_iff in Hy as (r & <- & Hr); now apply EO).
  assert (H : forall i, val (nth i (map (fun r => entry64 p' c r x) (kept64 p)) fzero) = - val (nth i l fzero)).
  { intros i. apply (nth_map_pair (fun r => entry64 p' c r x) (fun r => entry64 p c r x) (kept64 p) (fun a b => val a = - val b)); [cbn; lra|]. intros r Hr. now apply EO. }
  assert (L : length (map (fun r => entry64 p' c r x) (kept64 p)) = length l) by (unfold l; now rewrite !map_length).
  destruct (mean_opp (p64_axis1 p) l _ (3 * M + 2 * eta) C1 SL L F F' ltac:(split; [lra|]; eapply Rle_trans; [apply AB|apply bpow_le; lia]) B H) as (E & FM & _).
  split; [exact E|]. split; [exact FM|]. exact (std_opp (p64_axis1 p) l _ (3 * M + 2 * eta) C1 SL L F F' AB B H).
Qed.
End Pair.

(** ** additive models *)
Lemma Rsd_const {A} (c : R) (l : list A) : l <> [] -> Rsd (map (fun _ => c) l) = 0.
Proof.
  intros N. unfold Rsd. rewrite Ravg_const by exact N. rewrite map_map, (map_ext _ (fun _ => 0)) by (intros; ring). rewrite Ravg_const by exact N. apply sqrt_0.
Qed.
Section Additive.
Variable p : pdp64.
Hypothesis SZ : sized p.
Notation ice r x := (ice64 (p64_target p) (p64_feature p) r x).
Variables (a : b64 -> R) (b : list b64 -> R) (delta : R).
Definition start_of (c : centering64) : R := match c with NoCentering => 0 | ZeroStart => a (p64_lo p) | ZeroIntegral => Ravg (map a (grid64 p)) end.
Lemma additive_ice c x : c <> NoCentering -> (forall r y, In r (kept64 p) -> y = x \/ In y (base_points p c) -> Rabs (val (ice r y) - (a y + b r)) <= delta) ->
  forall r, In r (kept64 p) -> Rabs (exact_ice p c x r - (a x - start_of c)) <= 2 * delta.
Proof.
  intros NC H r Hr. destruct SZ as (_ & _ & _ & PL). pose proof (H r x Hr (or_introl eq_refl)) as HX. unfold exact_ice. destruct c; [congruence| |]; cbn [level start_of base_points] in *.
  - pose proof (Ravg_close (fun t => val (ice r t)) (fun t => a t + b r) (grid64 p) delta (proj1 (grid_small p PL)) ltac:(intros t Ht; apply H; auto)) as AC.
    assert (EA : Ravg (map (fun t => a t + b r) (grid64 p)) = Ravg (map a (grid64 p)) + b r).
    { unfold Ravg. rewrite !map_length, Rsum_plus, Rsum_const. pose proof (len_pos _ (proj1 (grid_small p PL))). field. lra. }
    rewrite EA in AC. apply Rabs_le_inv in AC. apply Rabs_le_inv in HX. apply Rabs_le. lra.
  - pose proof (H r (p64_lo p) Hr (or_intror (or_introl eq_refl))) as HL. apply Rabs_le_inv in HL. apply Rabs_le_inv in HX. apply Rabs_le. lra.
Qed.
Lemma additive_exact c x : c <> NoCentering -> 0 <= delta -> (forall r y, In r (kept64 p) -> y = x \/ In y (base_points p c) -> Rabs (val (ice r y) - (a y + b r)) <= delta) ->
  Rabs (exact_mean p c x - (a x - start_of c)) <= 2 * delta /\ exact_sd p c x <= 2 * delta.
Proof.
  intros NC D H. assert (N : kept64 p <> []) by apply SZ. pose proof (additive_ice c x NC H) as AI. split.
  - pose proof (Ravg_close (exact_ice p c x) (fun _ => a x - start_of c) (kept64 p) (2 * delta) N AI) as AC. now rewrite Ravg_const in AC by exact N.
  - pose proof (sd_le (exact_ice p c x) (fun _ => a x - start_of c) (kept64 p) (2 * delta) N ltac:(lra) AI) as SC. rewrite Rsd_const in SC by exact N. unfold exact_sd. lra.
Qed.
End Additive.
