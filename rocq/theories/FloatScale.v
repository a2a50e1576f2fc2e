(** FloatScale: multiplying every number by a power of two multiplies sums, means and standard deviations by exactly that power. *)
From Coq Require Import Reals Permutation.
From Flocq Require Import Core.
From Flocq Require Import IEEE754.BinarySingleNaN.
From Verif Require Import Base Numpy NumpyFacts FloatModel FloatFacts FloatGrid FloatBins FloatProofs FloatMean FloatAcc FloatVar FloatPDP FloatPDPSpec FloatPDPMean FloatPDPStd FloatPDPProofs FloatPDPMore FloatGrain FloatRegionALEDiff.
From Coq Require Import Lra.
Open Scope R_scope.
Local Notation eta := (bpow radix2 (-1075)).

Lemma rnd_scale k x : (-200 <= k <= 200)%Z -> x = 0 \/ bpow radix2 (-800) <= Rabs x -> rnd (bpow radix2 k * x) = bpow radix2 k * rnd x.
Proof.
  intros Hk [-> | B]; [rewrite Rmult_0_r, rnd_0; ring|]. assert (N : x <> 0). { intros E. rewrite E, Rabs_R0 in B. pose proof (bpow_gt_0 radix2 (-800)). lra. }
  pose proof (mag_ge_bpow radix2 x (-799) B) as M. rewrite (Rmult_comm _ x). unfold round, scaled_mantissa, cexp. rewrite mag_mult_bpow by exact N. rewrite !fexp64_eq.
  replace (Z.max (mag radix2 x + k - 53) (-1074)) with (Z.max (mag radix2 x - 53) (-1074) + k)%Z by lia. set (c := Z.max (mag radix2 x - 53) (-1074)).
  rewrite Rmult_assoc, <- bpow_plus. replace (k + - (c + k))%Z with (- c)%Z by lia. unfold F2R. cbn [Fnum Fexp]. rewrite bpow_plus. ring.
Qed.
(** [y] is [x] times 2^k, and [x] is a multiple of 2^e *)
Definition scaled (k e : Z) (x y : b64) : Prop := val y = bpow radix2 k * val x /\ grain e (val x).
Lemma grain_big e x : (-800 <= e)%Z -> grain e x -> x = 0 \/ bpow radix2 (-800) <= Rabs x.
Proof. intros H G. destruct (grain_coarse e x G) as [Z|B]; [now left|right]. eapply Rle_trans; [apply bpow_le, H|exact B]. Qed.

Lemma laid_scale k e o l l' : (-200 <= k <= 200)%Z -> (-800 <= e)%Z -> (forall i, scaled k e (nth i l fzero) (nth i l' fzero)) -> fin (tsum (laid o l)) -> fin (tsum (laid o l')) -> scaled k e (tsum (laid o l)) (tsum (laid o l')).
Proof.
  intros Hk He H. induction o as [i|a IHa b IHb]; cbn [laid tsum]; intros F1 F2; [apply H|].
  pose proof F1 as F1'. apply fadd_inv in F1 as (Fa & Fb & E1). apply fadd_inv in F2 as (Fa' & Fb' & E2). destruct (IHa Fa Fa') as [Ea Ga]. destruct (IHb Fb Fb') as [Eb Gb]. split; [|apply grain_fadd; auto; lia].
  rewrite E2, E1, Ea, Eb, <- Rmult_plus_distr_l. apply rnd_scale; [exact Hk|]. apply (grain_big e); [exact He|now apply grain_plus].
Qed.
Lemma grain_rnd_big k x : (-1022 <= k)%Z -> x = 0 \/ bpow radix2 k <= Rabs x -> grain (k - 52) (rnd x).
Proof.
  intros Hk [-> | B]; [rewrite rnd_0; apply grain_0|]. unfold round. apply grain_F2R. unfold cexp. rewrite fexp64_eq. pose proof (mag_ge_bpow radix2 x (k + 1)) as M. replace (k + 1 - 1)%Z with k in M by lia. specialize (M B). lia.
Qed.
Lemma grain_div e x n : (Z.of_nat n <= 2 ^ 40)%Z -> (1 <= n)%nat -> grain e x -> x / INR n = 0 \/ bpow radix2 (e - 40) <= Rabs (x / INR n).
Proof.
  intros Hn H1 G. assert (NP : 0 < INR n) by (apply lt_0_INR; lia). destruct (grain_coarse e x G) as [-> | B]; [left; unfold Rdiv; ring|right].
  unfold Rdiv. rewrite Rabs_mult, (Rabs_pos_eq (/ INR n)) by (left; now apply Rinv_0_lt_compat). unfold Zminus. rewrite bpow_plus. apply Rmult_le_compat; [apply bpow_ge_0|apply bpow_ge_0|exact B|].
  change (bpow radix2 (-(40))) with (/ bpow radix2 40). apply Rinv_le; [exact NP|]. rewrite INR_IZR_INZ. change (bpow radix2 40) with (IZR (2 ^ 40)). apply IZR_le. exact Hn.
Qed.
Lemma mean_scale k e o l l' A A' : (-200 <= k <= 200)%Z -> (-700 <= e)%Z -> complete o -> small_len l -> length l' = length l -> fins l -> fins l' -> 0 <= A <= bpow radix2 900 -> 0 <= A' <= bpow radix2 900 ->
  (forall x, In x l -> Rabs (val x) <= A) -> (forall x, In x l' -> Rabs (val x) <= A') -> (forall i, scaled k e (nth i l fzero) (nth i l' fzero)) ->
  scaled k (e - 92) (mean64 o l) (mean64 o l') /\ fin (mean64 o l') /\ fin (mean64 o l).
Proof.
  intros Hk He C SL L F F' HA HA' B B' H. assert (SL' : small_len l'). { destruct SL as [N Z]. split; [intros ->; destruct l; [congruence|discriminate]|now rewrite L]. }
  destruct (mean64_close o l A C SL F HA B) as (T & Fm & E & _). destruct (mean64_close o l' A' C SL' F' HA' B') as (T' & Fm' & E' & _). rewrite L in T', E'.
  destruct (laid_scale k e (o (length l)) l l' Hk ltac:(lia) H T T') as [ES GS]. pose proof (small_len_pos l SL) as L1. destruct SL as [N LZ]. pose proof (grain_div e _ (length l) LZ L1 GS) as D.
  split; [|split; assumption]. split.
  - rewrite E, E', ES. unfold Rdiv. rewrite Rmult_assoc. apply rnd_scale; [exact Hk|]. destruct D as [D|D]; [now left|right]. eapply Rle_trans; [|exact D]. apply bpow_le. lia.
  - rewrite E. replace (e - 92)%Z with (e - 40 - 52)%Z by lia. apply grain_rnd_big; [lia|exact D].
Qed.
Lemma mean_size o l A : complete o -> small_len l -> fins l -> 0 <= A <= bpow radix2 900 -> (forall x, In x l -> Rabs (val x) <= A) -> Rabs (val (mean64 o l)) <= 2 * A + 1.
Proof.
  intros C SL F HA B. destruct (mean64_close o l A C SL F HA B) as (_ & _ & _ & Em & EA).
  assert (G : gam (S (steps (o (length l)))) <= / 4). { apply gam_1. pose proof (complete_steps o (length l) C (small_len_pos l SL)). destruct SL. lia. }
  assert (GA : gam (S (steps (o (length l)))) * (asum l / INR (length l)) <= / 4 * A). { apply Rmult_le_compat; [apply gam_pos| |exact G|exact EA]. unfold Rdiv. apply Rmult_le_pos; [apply asum_pos|left; apply Rinv_0_lt_compat, len_pos, SL]. }
  pose proof (Ravg_bound val l A ltac:(apply SL) B) as AB. assert (E1 : eta <= 1) by (change 1 with (bpow radix2 0); apply bpow_le; lia). apply Rabs_le_inv in AB. apply Rabs_le_inv in Em. apply Rabs_le. lra.
Qed.
Lemma sub_scale k e a b a' b' : (-200 <= k <= 200)%Z -> (-800 <= e)%Z -> scaled k e a a' -> scaled k e b b' -> fin a -> fin b -> fin a' -> fin b' ->
  Rabs (val a - val b) <= bpow radix2 1023 -> Rabs (val a' - val b') <= bpow radix2 1023 -> scaled k e (fsub a b) (fsub a' b') /\ fin (fsub a b) /\ fin (fsub a' b').
Proof.
  intros Hk He [Ea Ga] [Eb Gb] Fa Fb Fa' Fb' B B'. destruct (fsub_val a b Fa Fb B) as [V F]. destruct (fsub_val a' b' Fa' Fb' B') as [V' F']. split; [|split; assumption].
  assert (G : grain e (val a - val b)) by (apply grain_plus; [exact Ga|now apply grain_opp]). split; [|rewrite V; apply grain_rnd; [lia|exact G]].
  rewrite V', V, Ea, Eb, <- Rmult_minus_distr_l. apply rnd_scale; [exact Hk|]. now apply (grain_big e).
Qed.
Lemma scaled_weak k e e' x y : (e' <= e)%Z -> scaled k e x y -> scaled k e' x y. Proof. intros H [E G]. split; [exact E|now apply (grain_weak e)]. Qed.
Lemma sqdev_scale k e m m' x x' : (-100 <= k <= 100)%Z -> (-350 <= e)%Z -> scaled k e m m' -> scaled k e x x' -> fin m -> fin m' -> fin x -> fin x' -> Rabs (val x - val m) <= bpow radix2 405 -> Rabs (val x' - val m') <= bpow radix2 405 ->
  scaled (2 * k) (2 * e - 52) (sqdev m x) (sqdev m' x') /\ (fin (sqdev m x) /\ Rabs (val (sqdev m x)) <= bpow radix2 810) /\ fin (sqdev m' x') /\ Rabs (val (sqdev m' x')) <= bpow radix2 810.
Proof.
  intros Hk He Sm Sx Fm Fm' Fx Fx' B B'. assert (B0 : bpow radix2 405 <= bpow radix2 1023) by (apply bpow_le; lia).
  destruct (sub_scale k e x m x' m' ltac:(lia) ltac:(lia) Sx Sm Fx Fm Fx' Fm' ltac:(lra) ltac:(lra)) as ([E G] & Fd & Fd').
  assert (SQ : forall d : b64, fin d -> Rabs (val d) <= bpow radix2 405 -> Rabs (val d * val d) <= bpow radix2 810). { intros d _ D. rewrite Rabs_mult. change 810%Z with (405 + 405)%Z. rewrite bpow_plus. apply Rmult_le_compat; auto using Rabs_pos. }
  assert (D : Rabs (val (fsub x m)) <= bpow radix2 405) by (rewrite (proj1 (fsub_val x m Fx Fm ltac:(lra))); apply rnd_abs_le; [lia|exact B]).
  assert (D' : Rabs (val (fsub x' m')) <= bpow radix2 405) by (rewrite (proj1 (fsub_val x' m' Fx' Fm' ltac:(lra))); apply rnd_abs_le; [lia|exact B']).
  pose proof (SQ _ Fd D) as Q. pose proof (SQ _ Fd' D') as Q'. assert (B8 : bpow radix2 810 <= bpow radix2 1023) by (apply bpow_le; lia). unfold sqdev.
  destruct (fmul_val _ _ Fd Fd ltac:(lra)) as [V F]. destruct (fmul_val _ _ Fd' Fd' ltac:(lra)) as [V' F']. set (d := fsub x m) in *. set (d' := fsub x' m') in *.
  assert (SB : val d * val d = 0 \/ bpow radix2 (2 * e) <= Rabs (val d * val d)).
  { destruct (grain_coarse e _ G) as [Z|C]; [left; rewrite Z; ring|right]. rewrite Rabs_mult. replace (2 * e)%Z with (e + e)%Z by lia. rewrite bpow_plus. apply Rmult_le_compat; auto using bpow_ge_0. }
  split; [|split; (split; [assumption|])].
  - split; [|rewrite V; apply grain_rnd_big; [lia|exact SB]]. rewrite V', V, E. replace (bpow radix2 k * val d * (bpow radix2 k * val d)) with (bpow radix2 (2 * k) * (val d * val d)) by (replace (2 * k)%Z with (k + k)%Z by lia; rewrite bpow_plus; ring).
    apply rnd_scale; [lia|]. destruct SB as [Z|SB]; [now left|right]. eapply Rle_trans; [|exact SB]. apply bpow_le. lia.
  - rewrite V. apply rnd_abs_le; [lia|exact Q].
  - rewrite V'. apply rnd_abs_le; [lia|exact Q'].
Qed.
Lemma dev_size o l A x : complete o -> small_len l -> fins l -> 0 <= A <= bpow radix2 400 -> (forall x, In x l -> Rabs (val x) <= A) -> In x l -> Rabs (val x - val (mean64 o l)) <= bpow radix2 405.
Proof.
  intros C SL F HA B I. pose proof (mean_size o l A C SL F ltac:(split; [lra|]; eapply Rle_trans; [apply HA|apply bpow_le; lia]) B) as M. specialize (B x I). assert (1 <= bpow radix2 400) by (change 1 with (bpow radix2 0); apply bpow_le; lia).
  change 405%Z with (5 + 400)%Z. rewrite bpow_plus. change (bpow radix2 5) with 32. apply Rabs_le_inv in M. apply Rabs_le_inv in B. apply Rabs_le. lra.
Qed.
Lemma std_scale k e o l l' A A' : (-100 <= k <= 100)%Z -> (-230 <= e)%Z -> complete o -> small_len l -> length l' = length l -> fins l -> fins l' -> 0 <= A <= bpow radix2 400 -> 0 <= A' <= bpow radix2 400 ->
  (forall x, In x l -> Rabs (val x) <= A) -> (forall x, In x l' -> Rabs (val x) <= A') -> (forall i, scaled k e (nth i l fzero) (nth i l' fzero)) ->
  (val (std64 o l') = bpow radix2 k * val (std64 o l) /\ fin (std64 o l')) /\ (fin (std64 o l) /\ grain (-446) (val (std64 o l))) /\ Rabs (val (std64 o l)) <= bpow radix2 410 /\ Rabs (val (std64 o l')) <= bpow radix2 410.
Proof.
  intros Hk He C SL L F F' HA HA' B B' H. assert (B49 : bpow radix2 400 <= bpow radix2 900) by (apply bpow_le; lia). assert (SL' : small_len l'). { destruct SL as [N Z]. split; [intros ->; destruct l; [congruence|discriminate]|now rewrite L]. }
  destruct (mean_scale k e o l l' A A' ltac:(lia) ltac:(lia) C SL L F F' ltac:(lra) ltac:(lra) B B' H) as (SM & Fm' & Fm). unfold std64. set (m := mean64 o l) in *. set (m' := mean64 o l') in *.
  set (q := map (sqdev m) l). set (q' := map (sqdev m') l').
  assert (Q : forall i, (i < length l)%nat -> scaled (2 * k) (2 * (e - 92) - 52) (nth i q fzero) (nth i q' fzero) /\ (fin (nth i q fzero) /\ Rabs (val (nth i q fzero)) <= bpow radix2 810) /\ fin (nth i q' fzero) /\ Rabs (val (nth i q' fzero)) <= bpow radix2 810).
  { intros i Hi. rewrite (nth_indep q fzero (sqdev m fzero)) by (unfold q; rewrite map_length; exact Hi). rewrite (nth_indep q' fzero (sqdev m' fzero)) by (unfold q'; rewrite map_length, L; exact Hi). unfold q, q'. rewrite !map_nth.
    assert (I : In (nth i l fzero) l) by (apply nth_In; exact Hi). assert (I' : In (nth i l' fzero) l') by (apply nth_In; lia).
    apply sqdev_scale; auto; [lia|exact (scaled_weak k e (e - 92) _ _ ltac:(lia) (H i))|apply (dev_size o l A); auto|apply (dev_size o l' A'); auto]. }
  assert (Lq : length q = length l) by apply map_length. assert (Lq' : length q' = length q) by (unfold q', q; rewrite !map_length; exact L).
  assert (SLq : small_len q). { destruct SL as [N Z]. split; [intros E; rewrite E in Lq; destruct l; [congruence|discriminate]|now rewrite Lq]. }
  assert (IQ : forall x, In x q -> fin x /\ Rabs (val x) <= bpow radix2 810) by (intros x Hx; apply (In_nth _ _ fzero) in Hx as (i & Hi & <-); apply Q; lia).
  assert (IQ' : forall x, In x q' -> fin x /\ Rabs (val x) <= bpow radix2 810) by (intros x Hx; apply (In_nth _ _ fzero) in Hx as (i & Hi & <-); apply Q; lia).
  assert (HB : 0 <= bpow radix2 810 <= bpow radix2 900) by (split; [apply bpow_ge_0|apply bpow_le; lia]).
  destruct (mean_scale (2 * k) (2 * (e - 92) - 52) o q q' (bpow radix2 810) (bpow radix2 810) ltac:(lia) ltac:(lia) C SLq Lq' ltac:(intros x Hx; now apply IQ) ltac:(intros x Hx; now apply IQ') HB HB ltac:(intros x Hx; now apply IQ) ltac:(intros x Hx; now apply IQ')) as ([EV GV] & Fv' & Fv).
  { intros i. destruct (Nat.lt_ge_cases i (length l)) as [Hi|Hi]; [now apply Q|]. rewrite !nth_overflow by lia. split; [cbn; ring|apply grain_0]. }
  assert (P : 0 <= val (mean64 o q)).
  { assert (P0 : forall x, In x q -> 0 <= val x). { intros x Hx. apply in_map_iff in Hx as (y & <- & Hy). assert (FQ : fin (sqdev m y)) by (apply IQ; unfold q; now apply in_map). unfold sqdev in *. rewrite fmul_inv by exact FQ. apply rnd_nonneg, Rle_0_sqr. }
    destruct (mean64_close o q (bpow radix2 810) C SLq ltac:(intros x Hx; now apply IQ) HB ltac:(intros x Hx; now apply IQ)) as (T & _ & -> & _). apply rnd_nonneg. unfold Rdiv. apply Rmult_le_pos; [|left; apply Rinv_0_lt_compat, len_pos, SLq].
    assert (NN : forall i, 0 <= val (nth i q fzero)). { intros i. destruct (Nat.lt_ge_cases i (length q)) as [Hi|Hi]; [apply P0, nth_In, Hi|rewrite nth_overflow by exact Hi; cbn; lra]. }
    clear - T NN. revert T. generalize (o (length q)). intros t. induction t as [i|a IHa b IHb]; cbn [laid tsum]; intros T; [apply NN|]. apply fadd_inv in T as (Fa & Fb & ->). apply rnd_nonneg. specialize (IHa Fa). specialize (IHb Fb). lra. }
  destruct (fsqrt_val _ Fv P) as [V F1]. assert (P' : 0 <= val (mean64 o q')) by (rewrite EV; apply Rmult_le_pos; [apply bpow_ge_0|exact P]). destruct (fsqrt_val _ Fv' P') as [V' F2].
  assert (SB : sqrt (val (mean64 o q)) = 0 \/ bpow radix2 (-394) <= Rabs (sqrt (val (mean64 o q)))).
  { destruct (grain_coarse _ _ GV) as [Z|Bg]; [left; rewrite Z; apply sqrt_0|right]. rewrite Rabs_pos_eq in Bg by exact P. rewrite Rabs_pos_eq by apply sqrt_pos.
    apply Rle_trans with (sqrt (bpow radix2 (2 * (-394)))); [rewrite sqrt_bpow; lra|]. apply sqrt_le_1_alt. eapply Rle_trans; [|exact Bg]. apply bpow_le. lia. }
  assert (SZ : forall m0, 0 <= val m0 -> Rabs (val m0) <= 2 * bpow radix2 810 + 1 -> Rabs (rnd (sqrt (val m0))) <= bpow radix2 410).
  { intros m0 P0 B0. apply rnd_abs_le; [lia|]. rewrite Rabs_pos_eq by apply sqrt_pos. rewrite Rabs_pos_eq in B0 by exact P0. apply Rle_trans with (sqrt (bpow radix2 (2 * 410))); [|rewrite sqrt_bpow; lra]. apply sqrt_le_1_alt. assert (1 <= bpow radix2 810) by (change 1 with (bpow radix2 0); apply bpow_le; lia).
    apply Rle_trans with (bpow radix2 2 * bpow radix2 810); [change (bpow radix2 2) with 4; lra|]. rewrite <- bpow_plus. apply bpow_le. lia. }
  assert (SLq' : small_len q'). { destruct SLq as [N Z]. split; [intros E; rewrite E in Lq'; destruct q; [congruence|discriminate]|now rewrite Lq']. }
  pose proof (mean_size o q _ C SLq ltac:(intros x Hx; now apply IQ) HB ltac:(intros x Hx; now apply IQ)) as MS. pose proof (mean_size o q' _ C SLq' ltac:(intros x Hx; now apply IQ') HB ltac:(intros x Hx; now apply IQ')) as MS'.
  split; [split; [|exact F2]|split; [split; [exact F1|]|split; [rewrite V; now apply SZ|rewrite V'; now apply SZ]]].
  - rewrite V', V, EV. replace (sqrt (bpow radix2 (2 * k) * val (mean64 o q))) with (bpow radix2 k * sqrt (val (mean64 o q))).
    + apply rnd_scale; [lia|]. destruct SB as [Z|SB]; [now left|right]. eapply Rle_trans; [|exact SB]. apply bpow_le. lia.
    + rewrite sqrt_mult by (auto using bpow_ge_0). now rewrite sqrt_bpow.
  - rewrite V. change (-446)%Z with (-394 - 52)%Z. apply grain_rnd_big; [lia|exact SB].
Qed.

(** ** PDP *)
Section Pair.
Variables p p' : pdp64.
Hypothesis SZ : sized p.
Variables (k : Z) (M : R).
Hypothesis HK : (-100 <= k <= 100)%Z.
Hypothesis HM : 0 <= M <= bpow radix2 250.
Hypothesis SAME : p64_rows p' = p64_rows p /\ p64_feature p' = p64_feature p /\ p64_lo p' = p64_lo p /\ p64_hi p' = p64_hi p /\ p64_points p' = p64_points p /\ p64_axis0 p' = p64_axis0 p /\ p64_axis1 p' = p64_axis1 p.
Notation ice r x := (ice64 (p64_target p) (p64_feature p) r x).
Notation ice' r x := (ice64 (p64_target p') (p64_feature p') r x).
(** at position x the model returns numbers that are 0 or of size 2^-80 to M, and the other one returns them times 2^k *)
Definition scaled_at (x : b64) : Prop := forall r, In r (kept64 p) -> coarse (-80) (ice r x) /\ Rabs (val (ice r x)) <= M /\ fin (ice' r x) /\ val (ice' r x) = bpow radix2 k * val (ice r x).
Let M' : R := bpow radix2 k * M.
Lemma M_bounds : M <= bpow radix2 350 /\ 0 <= M' <= bpow radix2 350.
Proof using HK HM. clear SZ SAME.
  split; [eapply Rle_trans; [apply HM|apply bpow_le; lia]|]. pose proof (bpow_ge_0 radix2 k). split; [apply Rmult_le_pos; lra|]. apply Rle_trans with (bpow radix2 100 * bpow radix2 250); [|rewrite <- bpow_plus; apply Rle_refl].
  apply Rmult_le_compat; try lra. apply bpow_le. lia.
Qed.
Lemma kept_same' : kept64 p' = kept64 p. Proof using SAME. unfold kept64. destruct SAME as (-> & -> & -> & -> & _). reflexivity. Qed.
Lemma sized' : sized p'. Proof using SZ SAME. unfold sized. rewrite kept_same'. destruct SAME as (_ & _ & _ & _ & -> & -> & ->). exact SZ. Qed.
Lemma base_same' c : base_points p' c = base_points p c.
Proof using SAME. destruct c; cbn [base_points]; [reflexivity| |]; [unfold grid64; destruct SAME as (_ & _ & -> & -> & -> & _); reflexivity|destruct SAME as (_ & _ & -> & _); reflexivity]. Qed.
Lemma tame_left x : scaled_at x -> tame_at p M x. Proof. intros S r Hr. destruct (S r Hr) as ((F & _) & B & _). split; assumption. Qed.
Lemma tame_right x : scaled_at x -> tame_at p' M' x.
Proof using SAME. clear HK HM SZ. intros S r Hr. rewrite kept_same' in Hr. destruct (S r Hr) as (_ & B & F & E). split; [exact F|]. unfold M'. rewrite E, Rabs_mult, (Rabs_pos_eq (bpow radix2 k)) by apply bpow_ge_0. apply Rmult_le_compat_l; [apply bpow_ge_0|exact B]. Qed.
Lemma ice_scaled x r : scaled_at x -> In r (kept64 p) -> scaled k (-132) (ice r x) (ice' r x).
Proof. intros S Hr. destruct (S r Hr) as (C & _ & _ & E). split; [exact E|]. exact (coarse_grain (-80) _ ltac:(lia) C). Qed.

Lemma entry_scale c x r : scaled_at x -> (forall b, In b (base_points p c) -> scaled_at b) -> In r (kept64 p) ->
  scaled k (-224) (entry64 p c r x) (entry64 p' c r x) /\ (fin (entry64 p c r x) /\ Rabs (val (entry64 p c r x)) <= bpow radix2 400) /\ fin (entry64 p' c r x) /\ Rabs (val (entry64 p' c r x)) <= bpow radix2 400.
Proof.
  intros HX HB Hr. destruct M_bounds as (MA & MB). pose proof sized' as (C0' & _ & _ & PL'). pose proof SZ as (C0 & C1 & KL & PL). assert (Hr' : In r (kept64 p')) by now rewrite kept_same'.
  assert (B38 : bpow radix2 350 <= bpow radix2 380) by (apply bpow_le; lia). assert (E0 : 0 < eta <= 1) by (split; [apply bpow_gt_0|change 1 with (bpow radix2 0); apply bpow_le; lia]).
  assert (B40 : 3 * bpow radix2 350 + 2 <= bpow radix2 400). { assert (1 <= bpow radix2 350) by (change 1 with (bpow radix2 0); apply bpow_le; lia). apply Rle_trans with (bpow radix2 3 * bpow radix2 350); [change (bpow radix2 3) with 8; lra|]. rewrite <- bpow_plus. apply bpow_le. lia. }
  destruct (entry_close p C0 PL c M x r ltac:(lra) (tame_left x HX) ltac:(intros b Hb; apply tame_left; auto) Hr) as (F1 & _ & B1).
  destruct (entry_close p' C0' PL' c M' x r ltac:(lra) (tame_right x HX) ltac:(intros b Hb; rewrite base_same' in Hb; apply tame_right; auto) Hr') as (F2 & _ & B2).
  split; [|split; (split; [assumption|lra])].
  pose proof (ice_scaled x r HX Hr) as SX. destruct (HX r Hr) as ((FX & _) & BX & FX' & EX). destruct (tame_right x HX r Hr') as [_ BX'].
  assert (SUB : forall y y', scaled k (-224) y y' -> fin y -> fin y' -> Rabs (val y) <= bpow radix2 400 -> Rabs (val y') <= bpow radix2 400 -> scaled k (-224) (fsub (ice r x) y) (fsub (ice' r x) y')).
  { intros y y' Sy Fy Fy' By By'. assert (B10 : 2 * bpow radix2 400 <= bpow radix2 1023) by (change 2 with (bpow radix2 1); rewrite <- bpow_plus; apply bpow_le; lia).
    apply (sub_scale k (-224) _ _ _ _ ltac:(lia) ltac:(lia) (scaled_weak k (-132) (-224) _ _ ltac:(lia) SX) Sy FX Fy FX' Fy').
    - apply Rabs_le_inv in BX. apply Rabs_le_inv in By. apply Rabs_le. lra.
    - apply Rabs_le_inv in BX'. apply Rabs_le_inv in By'. apply Rabs_le. lra. }
  destruct c; cbn [entry64 base_points] in *.
  - exact (scaled_weak k (-132) (-224) _ _ ltac:(lia) SX).
  - assert (GE : grid64 p' = grid64 p) by (unfold grid64; destruct SAME as (_ & _ & -> & -> & -> & _); reflexivity). rewrite GE. replace (p64_axis0 p') with (p64_axis0 p) by (destruct SAME as (_ & _ & _ & _ & _ & -> & _); reflexivity).
    assert (SG : small_len (map (fun t => ice r t) (grid64 p))) by (destruct (grid_small p PL) as [N K]; split; [destruct (grid64 p); [congruence|discriminate]|now rewrite map_length]).
    assert (SG' : small_len (map (fun t => ice' r t) (grid64 p))) by (destruct (grid_small p PL) as [N K]; split; [destruct (grid64 p); [congruence|discriminate]|now rewrite map_length]).
    assert (Fg : fins (map (fun t => ice r t) (grid64 p))) by (intros y Hy; apply in_map_iff in Hy as (t & <- & Ht); now apply (tame_left t (HB t Ht))).
    assert (Bg : forall y, In y (map (fun t => ice r t) (grid64 p)) -> Rabs (val y) <= M) by (intros y Hy; apply in_map_iff in Hy as (t & <- & Ht); now apply (tame_left t (HB t Ht))).
    assert (Fg' : fins (map (fun t => ice' r t) (grid64 p))) by (intros y Hy; apply in_map_iff in Hy as (t & <- & Ht); now apply (tame_right t (HB t Ht))).
    assert (Bg' : forall y, In y (map (fun t => ice' r t) (grid64 p)) -> Rabs (val y) <= M') by (intros y Hy; apply in_map_iff in Hy as (t & <- & Ht); now apply (tame_right t (HB t Ht))).
    assert (B39 : bpow radix2 350 <= bpow radix2 900) by (apply bpow_le; lia).
    assert (LG : length (map (fun t => ice' r t) (grid64 p)) = length (map (fun t => ice r t) (grid64 p))) by (rewrite !map_length; reflexivity).
    assert (HA : 0 <= M <= bpow radix2 900) by lra. assert (HA' : 0 <= M' <= bpow radix2 900) by lra.
    destruct (mean_scale k (-132) (p64_axis0 p) (map (fun t => ice r t) (grid64 p)) (map (fun t => ice' r t) (grid64 p)) M M' ltac:(lia) ltac:(lia) C0 SG LG Fg Fg' HA HA' Bg Bg') as (SM & Fm' & Fm).
    { intros i. apply (nth_map_pair (fun t => ice r t) (fun t => ice' r t) (grid64 p) (scaled k (-132))); [split; [cbn; ring|apply grain_0]|]. intros t Ht. apply ice_scaled; auto. }
    pose proof (mean_size (p64_axis0 p) _ M C0 SG Fg HA Bg) as Z. pose proof (mean_size (p64_axis0 p) _ M' C0 SG' Fg' HA' Bg') as Z'. apply SUB; auto; lra.
  - specialize (HB (p64_lo p) (or_introl eq_refl)). replace (p64_lo p') with (p64_lo p) by (destruct SAME as (_ & _ & -> & _); reflexivity).
    destruct (tame_left _ HB r Hr) as [Fs Bs]. destruct (tame_right _ HB r Hr') as [Fs' Bs']. apply SUB; auto; try lra. exact (scaled_weak k (-132) (-224) _ _ ltac:(lia) (ice_scaled _ r HB Hr)).
Qed.
Lemma curve_scale c x : scaled_at x -> (forall b, In b (base_points p c) -> scaled_at b) ->
  let l := map (fun r => entry64 p c r x) (kept64 p) in let l' := map (fun r => entry64 p' c r x) (kept64 p') in
  (val (mean64 (p64_axis1 p') l') = bpow radix2 k * val (mean64 (p64_axis1 p) l) /\ fin (mean64 (p64_axis1 p') l')) /\ val (std64 (p64_axis1 p') l') = bpow radix2 k * val (std64 (p64_axis1 p) l) /\ fin (std64 (p64_axis1 p') l').
Proof.
  intros HX HB l l'. pose proof SZ as (C0 & C1 & KL & PL). unfold l'. rewrite kept_same'. replace (p64_axis1 p') with (p64_axis1 p) by (destruct SAME as (_ & _ & _ & _ & _ & _ & ->); reflexivity).
  pose proof (fun r Hr => entry_scale c x r HX HB Hr) as EX. assert (SL : small_len l) by (unfold l; destruct KL as [N Z]; split; [destruct (kept64 p); [congruence|discriminate]|now rewrite map_length]).
  assert (F : fins l) by (intros y Hy; apply in_map_iff in Hy as (r & <- & Hr); now apply EX).
  assert (B : forall y, In y l -> Rabs (val y) <= bpow radix2 400) by (intros y Hy; apply in_map_iff in Hy as (r & <- & Hr); now apply EX).
  assert (F' : fins (map (fun r => entry64 p' c r x) (kept64 p))) by (intros y Hy; apply in_map_iff in Hy as (r & <- & Hr); now apply EX).
  assert (B' : forall y, In y (map (fun r => entry64 p' c r x) (kept64 p)) -> Rabs (val y) <= bpow radix2 400) by (intros y Hy; apply in_map_iff in Hy as (r & <- & Hr); now apply EX).
  assert (H : forall i, scaled k (-224) (nth i l fzero) (nth i (map (fun r => entry64 p' c r x) (kept64 p)) fzero)).
  { intros i. apply (nth_map_pair (fun r => entry64 p c r x) (fun r => entry64 p' c r x) (kept64 p) (scaled k (-224))); [split; [cbn; ring|apply grain_0]|]. intros r Hr. now apply EX. }
  assert (L : length (map (fun r => entry64 p' c r x) (kept64 p)) = length l) by (unfold l; now rewrite !map_length).
  assert (HA : 0 <= bpow radix2 400 <= bpow radix2 400) by (split; [apply bpow_ge_0|lra]). assert (HA9 : 0 <= bpow radix2 400 <= bpow radix2 900) by (split; [apply bpow_ge_0|apply bpow_le; lia]).
  destruct (mean_scale k (-224) (p64_axis1 p) l _ _ _ ltac:(lia) ltac:(lia) C1 SL L F F' HA9 HA9 B B' H) as ((E & _) & FM & _).
  split; [split; assumption|]. apply (std_scale k (-224) (p64_axis1 p) l _ _ _ HK ltac:(lia) C1 SL L F F' HA HA B B' H).
Qed.
End Pair.
