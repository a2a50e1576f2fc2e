(** Prop_FloatDP: C111, the dynamic-programming binning in binary64. *)
From Coq Require Import Reals.
From Flocq Require Import Core.
From Flocq Require Import IEEE754.BinarySingleNaN.
From Verif Require Import Base Numpy NumpyFacts FloatModel FloatFacts FloatGrid FloatBins FloatMean FloatAcc FloatVar FloatFit FloatProofs FloatAdapt FloatGreedy FloatDP FloatDPGrid Prop_Float Prop_FloatGreedy.
From Coq Require Import Lra.
Open Scope R_scope.

(** the total float64 cost of the bins with edges js (indices into the grid), added from left to right *)
Definition total64 (cost : nat -> nat -> b64) (js : list nat) : b64 := fold_left fadd (map (fun p => cost (fst p) (snd p)) (combine js (tl js))) fzero.

Lemma total_walk c js : forall cur acc, fold_left fadd (map (fun p => c (fst p) (snd p)) (combine (cur :: js) js)) acc = walk c acc cur js.
Proof. induction js as [|j js IH]; intros cur acc; [reflexivity|]. cbn [combine map fold_left walk fst snd]. apply IH. Qed.
Lemma moves_nth (R : nat -> nat -> Prop) js : forall a, moves R a js <-> forall i, (i < length js)%nat -> R (nth i (a :: js) 0%nat) (nth (S i) (a :: js) 0%nat).
Proof.
  induction js as [|j js IH]; intros a; cbn [moves length]; [split; [intros _ i Hi; lia|trivial]|]. rewrite IH. split.
  - intros [H1 H2] [|i] Hi; [exact H1|]. apply (H2 i). lia.
  - intros H. split; [apply (H 0%nat); lia|]. intros i Hi. apply (H (S i)). lia.
Qed.
Lemma moves_impl (P Q : nat -> nat -> Prop) js : forall a, (forall i j, P i j -> Q i j) -> moves P a js -> moves Q a js.
Proof. induction js as [|j js IH]; intros a H; cbn [moves]; [trivial|]. intros [H1 H2]. split; auto. Qed.
Lemma walk_ext c c' js : forall a acc, moves (fun i j => c i j = c' i j) a js -> walk c acc a js = walk c' acc a js.
Proof. induction js as [|j js IH]; intros a acc; cbn [moves walk]; [reflexivity|]. intros [-> H]. now apply IH. Qed.
Lemma last_nth (l : list nat) : forall a, last l a = nth (length l) (a :: l) 0%nat.
Proof.
  induction l as [|b l IH]; intros a; [reflexivity|]. change (last (b :: l) a) with (match l with [] => b | _ => last l a end). change (nth (length (b :: l)) (a :: b :: l) 0%nat) with (nth (length l) (b :: l) 0%nat). rewrite <- (IH b). destruct l as [|d l]; [reflexivity|]. clear. revert d. induction l as [|x l IHl]; intros d; [reflexivity|]. cbn [last] in *. apply IHl.
Qed.

Section DP.
  Variables (var : list b64 -> b64) (xs es : list b64) (lo hi : b64) (m : nat) (d : b64) (K : nat) (M : R).
  Hypotheses (FX : fins xs) (Flo : fin lo) (Fhi : fin hi) (B1 : Rabs (val lo) <= M) (B2 : Rabs (val hi) <= M) (HM : M <= bpow radix2 90) (HD : bpow radix2 (-900) <= val hi - val lo)
    (HK : (2 <= K)%nat) (HK2 : (Z.of_nat K <= 2 ^ 48)%Z) (LE : length es = length xs) (LX : (Z.of_nat (length xs) <= 2 ^ 48)%Z) (m1 : (1 <= m)%nat)
    (Hd : fin d /\ 0 <= val d <= 1) (Hv : forall s, s <> [] -> (length s <= length es)%nat -> (forall e, In e s -> In e es) -> fin (var s) /\ 0 <= val (var s) <= bpow radix2 500).
  Let P := position64 lo hi K.
  Let cost (i j : nat) : b64 := bin_cost64 var xs es m d (P i) (P j).
  Let c := cost64 var xs es lo hi m d K.
  Let HM' : M <= bpow radix2 1020. Proof. eapply Rle_trans; [exact HM|]. apply bpow_le. lia. Qed.
  Let Hc : forall i j, (i <= K)%nat -> (j <= K)%nat -> fits 1 (c i j).
  Proof. intros i j Hi Hj. apply (move_fits lo hi K M); auto. lia. Qed.
  Let Hcc : forall i, (i <= K)%nat -> c i i = fzero. Proof. intros i _. apply stay_free. Qed.
  Let HK3 : (Z.of_nat K + 1 <= 2 ^ 50)%Z. Proof. lia. Qed.
  Let HK4 : (1 <= K)%nat. Proof. lia. Qed.

  Lemma cost_up i j : (i < j)%nat -> c i j = cost i j.
  Proof. intros H. unfold c, cost64, cost, P. destruct (Nat.ltb_spec j i); [lia|]. destruct (Nat.eqb_spec i j); [lia|reflexivity]. Qed.
  Lemma rising_cons ks : rising ks K -> exists js, ks = 0%nat :: js /\ (1 <= length js)%nat /\ moves (fun i j => (i < j)%nat) 0 js /\ last js 0%nat = K /\ inside K js /\ (length js <= K)%nat.
  Proof.
    intros (R1 & R2 & R3 & R4). destruct ks as [|k js]; [cbn in R1; lia|]. cbn in R2. subst k. exists js. cbn [length] in *.
    replace (S (length js) - 1)%nat with (length js) in R3 by lia.
    assert (RI : forall q i, (i + q <= length js)%nat -> (nth i (0 :: js) 0 + q <= nth (i + q) (0 :: js) 0)%nat).
    { induction q as [|q IH]; intros i Hi; [replace (i + 0)%nat with i by lia; lia|]. specialize (IH i ltac:(lia)). specialize (R4 (i + q)%nat ltac:(lia)). replace (i + S q)%nat with (S (i + q)) by lia. lia. }
    split; [reflexivity|]. split; [lia|]. split; [apply moves_nth; intros i Hi; apply R4; lia|]. split; [rewrite last_nth; exact R3|]. split.
    - intros j Hj. destruct (In_nth _ _ 0%nat Hj) as (i & Hi & <-). specialize (RI (length js - S i)%nat (S i) ltac:(lia)). replace (S i + (length js - S i))%nat with (length js) in RI by lia. rewrite R3 in RI. cbn [nth] in *. lia.
    - specialize (RI (length js) 0%nat ltac:(lia)). cbn [Nat.add] in RI. rewrite R3 in RI. cbn [nth] in RI. lia.
  Qed.
  Lemma cons_rising js : (1 <= length js)%nat -> moves (fun i j => (i < j)%nat) 0 js -> last js 0%nat = K -> rising (0%nat :: js) K.
  Proof.
    intros L Mv E. split; [cbn; lia|]. split; [reflexivity|]. split; [cbn [length]; replace (S (length js) - 1)%nat with (length js) by lia; rewrite <- last_nth; exact E|].
    intros i Hi. cbn [length] in Hi. apply moves_nth with (js := js) (a := 0%nat) (R := fun i j => (i < j)%nat); auto. lia.
  Qed.
  Lemma total_c js : moves (fun i j => (i < j)%nat) 0 js -> total64 cost (0%nat :: js) = walk c fzero 0 js.
  Proof. intros Mv. unfold total64. cbn [tl]. rewrite total_walk. symmetry. apply walk_ext. eapply moves_impl; [|exact Mv]. intros i j H. now apply cost_up. Qed.

  Lemma dp_spec ks0 : rising ks0 K -> val (total64 cost ks0) < val BIGM64 ->
    exists js, dp_limits64 var xs es lo hi m d K = map P js /\ rising js K /\ (forall ks, rising ks K -> val (total64 cost js) <= val (total64 cost ks)) /\
      forall i, (S i < length js)%nat -> (m <= length (selected64 xs es (P (nth i js 0%nat)) (P (nth (S i) js 0%nat))))%nat.
  Proof.
    intros R0 G0. destruct (found_best K c Hc HK3 HK4) as (F1 & F2 & F3 & F4). set (f := found K c) in *.
    (* the found path against every rising path *)
    assert (Opt : forall ks, rising ks K -> val (walk c fzero 0 f) <= val (total64 cost ks)).
    { intros ks R. destruct (rising_cons ks R) as (js & -> & L1 & Mv & La & Ins & Ll). rewrite total_c by exact Mv.
      rewrite <- (walk_stays K c Hc HK4 Hcc (K - length js) js Ins) by lia. apply F4.
      - rewrite app_length, repeat_length. lia.
      - intros j Hj. apply in_app_or in Hj as [Hj|Hj]; [apply repeat_spec in Hj; lia|now apply Ins].
      - rewrite <- La. destruct (exists_last (l := js)) as (js' & j & ->); [intros E; rewrite E in L1; cbn in L1; lia|]. rewrite app_assoc, !last_last. reflexivity. }
    pose proof (Opt ks0 R0) as O0. destruct bigm_fits as [_ VB].
    assert (Mf : moves (fun a j => val (c a j) < val BIGM64) 0 f).
    { apply (walk_moves K c Hc HK4 f 0 fzero 0); auto; try apply fits_0; try lia. lra. }
    assert (Mg : moves (fun a j => (a <= j)%nat /\ (a < j -> (m <= length (selected64 xs es (P a) (P j)))%nat)%nat) 0 f).
    { eapply moves_impl; [|exact Mf]. intros a j H. cbn beta in H. unfold c, cost64 in H. destruct (Nat.ltb_spec j a); [lra|]. split; [lia|]. intros Haj. destruct (Nat.eqb_spec a j); [lia|].
      unfold bin_cost64 in H. cbv zeta in H. fold P in H. destruct (Nat.ltb_spec (length (selected64 xs es (P a) (P j))) m); [lra|assumption]. }
    pose proof (dedup_moves K c Hc HK4 Hcc _ f 0 Mg) as Md. destruct (dedup_walk K c Hc HK4 Hcc f 0 fzero 0 (fits_0 0) ltac:(lia) F2 ltac:(lia)) as (D1 & D2 & D3 & D4). set (g := dedup64 (Some 0%nat) f) in *.
    assert (Lg : (1 <= length g)%nat). { destruct g; [|cbn; lia]. cbn in D3. rewrite F3 in D3. lia. }
    assert (Ms : moves (fun i j => (i < j)%nat) 0 g) by (eapply moves_impl; [|exact Md]; cbn; tauto).
    exists (0%nat :: g). split; [unfold dp_limits64; rewrite path_eq; reflexivity|]. split; [apply cons_rising; auto; now rewrite D3|].
    split; [intros ks R; rewrite total_c by exact Ms; rewrite D4; now apply Opt|].
    intros i Hi. cbn [length] in Hi. apply (moves_nth (fun i j => (m <= length (selected64 xs es (P i) (P j)))%nat) g 0); [|lia]. eapply moves_impl; [|exact Md]. cbn. tauto.
  Qed.
End DP.

Lemma selected_count xs es a b : length es = length xs -> length (selected64 xs es a b) = count (fun x => Bleb a x && Bleb x b) xs.
Proof.
  unfold selected64, count. rewrite map_length. revert es. induction xs as [|x xs IH]; intros [|e es] L; try discriminate L; [reflexivity|]. cbn [combine filter fst]. destruct (Bleb a x && Bleb x b); cbn [length]; rewrite IH by (cbn in L; lia); reflexivity.
Qed.

(** DP.find on a non-categorical feature with at least 2 m instances and K >= 2 candidate bins, for every variance function whose values on
    effects of the data are finite, non-negative and at most 2^500. If some binning along the K + 1 grid points costs less than BIG_M (1e8),
    the returned limits are grid points js from the first to the last whose float64 total cost is the smallest of all
    such binnings; every bin holds at least m instances; the limits increase from lo to within M 2^-49 of hi; and, for |values| at most
    2^22, every instance has a bin. *)
Theorem C111_dp_partial var xs es lo hi m discount K cat M :
  fins xs -> fin lo -> fin hi -> Rabs (val lo) <= M -> Rabs (val hi) <= M -> M <= bpow radix2 90 -> bpow radix2 (-900) <= val hi - val lo ->
  (2 <= K)%nat -> (Z.of_nat K <= 2 ^ 48)%Z -> length es = length xs -> (Z.of_nat (length xs) <= 2 ^ 48)%Z ->
  (forall x, In x xs -> val lo <= val x <= val hi) -> (1 <= m)%nat -> (2 * m <= length xs)%nat ->
  fin discount /\ 0 <= val discount <= 1 ->
  (forall s, s <> [] -> (length s <= length es)%nat -> (forall e, In e s -> In e es) -> fin (var s) /\ 0 <= val (var s) <= bpow radix2 500) ->
  (cat < length (unique64 xs))%nat -> (2 <= length (unique64 xs))%nat -> allclose64 lo hi = false ->
  let P := position64 lo hi K in
  let cost := fun i j => bin_cost64 var xs es m discount (P i) (P j) in
  (exists ks, rising ks K /\ val (total64 cost ks) < 100000000) ->
  exists js, let l := map P js in
    dp_find64 var xs es lo hi m discount K cat = Ok (Some l) /\ rising js K /\
    (forall ks, rising ks K -> val (total64 cost js) <= val (total64 cost ks)) /\
    enough xs m l /\
    fins l /\ sorted64 l /\ val (nth 0 l fnan) = val lo /\ Rabs (val (nth (length l - 1) l fnan) - val hi) <= M * bpow radix2 (-49) /\
    (M <= bpow radix2 22 -> forall x, In x xs -> exists k, digitize64_1 (widen64 l) x = S k /\ (S k < length l)%nat /\ val (nth k l fnan) <= val x /\
      (val x < val (nth (S k) l fnan) \/ S k = (length l - 1)%nat)).
Proof.
  intros FX Flo Fhi B1 B2 HM HD HK HK2 LE LX RX m1 Hm Hd Hv Hcat Hu Hac P cost (ks0 & R0 & G0).
  assert (HM' : M <= bpow radix2 1020) by (eapply Rle_trans; [exact HM|apply bpow_le; lia]). assert (HK1 : (1 <= K)%nat) by lia.
  destruct (dp_spec var xs es lo hi m discount K M Flo Fhi B1 B2 HM HD HK HK2 LE LX m1 Hd Hv ks0 R0) as (js & EQ & R & Opt & En); [rewrite (proj2 bigm_fits); exact G0|].
  exists js. intros l. fold P in EQ, En. pose proof R as (R1 & R2 & R3 & R4).
  assert (Ll : length l = length js) by (unfold l; apply map_length).
  assert (Nl : forall i, (i < length l)%nat -> nth i l fnan = P (nth i js 0%nat)). { intros i Hi. unfold l. rewrite (nth_indep _ fnan (P 0%nat)) by (rewrite map_length; lia). apply map_nth. }
  assert (Bj : forall q i, (i + q = length js - 1)%nat -> (nth i js 0 <= K)%nat).
  { induction q as [|q IH]; intros i Hi; [replace i with (length js - 1)%nat by lia; lia|]. specialize (IH (S i) ltac:(lia)). specialize (R4 i ltac:(lia)). lia. }
  assert (Bk : forall i, (i < length l)%nat -> (nth i js 0 <= K)%nat) by (intros i Hi; apply (Bj (length js - 1 - i)%nat); lia).
  assert (Fp : forall i, (i <= K)%nat -> fin (P i)) by (intros i Hi; apply (pos_val lo hi K M); auto).
  assert (Fl : fins l). { intros x Hx. destruct (In_nth _ _ fnan Hx) as (i & Hi & <-). rewrite Nl by exact Hi. apply Fp, Bk, Hi. }
  assert (Sl : sorted64 l). { intros i Hi. rewrite !Nl by lia. apply (pos_le lo hi K M); auto. apply Nat.lt_le_incl, R4. lia. }
  assert (E0 : val (nth 0 l fnan) = val lo). { rewrite Nl by lia. rewrite R2. apply (pos_0 lo hi K M); auto. }
  assert (EL : nth (length l - 1) l fnan = P K). { rewrite Nl by lia. rewrite Ll, R3. reflexivity. }
  split. { unfold dp_find64, none_valid64. destruct (Nat.eqb_spec (length (unique64 xs)) 1); [lia|]. cbn [orb]. destruct (Nat.ltb_spec (length xs) m); [lia|]. destruct (Nat.leb_spec (length (unique64 xs)) cat); [lia|].
    unfold only_one64. rewrite Hac, LE. cbn [orb]. destruct (Nat.ltb_spec (length xs) (2 * m)); [lia|]. rewrite andb_false_r. destruct K as [|[|K']]; [lia|lia|]. now rewrite EQ. }
  split; [exact R|]. split; [exact Opt|]. split; [intros i Hi; rewrite !Nl by lia; rewrite <- (selected_count xs es) by exact LE; apply En; lia|].
  split; [exact Fl|]. split; [exact Sl|]. split; [exact E0|]. split; [rewrite EL; apply (pos_last lo hi K M); auto|].
  intros H22 x Hx. destruct (RX x Hx) as [X1 X2]. pose proof (pos_wide lo hi K M Flo Fhi B1 B2 HM' HD HK1 HK2 H22) as PW. fold P in PW.
  assert (RL : - bpow radix2 27 <= val (last64 l) < bpow radix2 27).
  { unfold last64. rewrite EL. pose proof (pos_last lo hi K M Flo Fhi B1 B2 HM' HD HK1 HK2) as PL. fold P in PL. apply Rabs_le_inv in PL, B2.
    assert (T : M * bpow radix2 (-49) <= bpow radix2 (-27)). { apply Rle_trans with (bpow radix2 22 * bpow radix2 (-49)); [apply Rmult_le_compat_r; [apply bpow_ge_0|exact H22]|]. rewrite <- bpow_plus. apply bpow_le. lia. }
    assert (E3 : bpow radix2 (-27) <= 1) by (change 1 with (bpow radix2 0); apply bpow_le; lia). assert (E4 : bpow radix2 27 = 32 * bpow radix2 22) by (change 27%Z with (5 + 22)%Z; rewrite bpow_plus; reflexivity).
    assert (E5 : 1 <= bpow radix2 22) by (change 1 with (bpow radix2 0); apply bpow_le; lia). lra. }
  destruct (widen64_sorted l ltac:(lia) Fl Sl RL) as (W1 & W2 & _).
  assert (Wn : forall i, (i < length l - 1)%nat -> nth i (widen64 l) fnan = nth i l fnan). { intros i Hi. rewrite widen64_nth by lia. destruct (Nat.eqb_spec i (length l - 1)); [lia|reflexivity]. }
  assert (Wl : nth (length l - 1) (widen64 l) fnan = fadd (P K) EPS64) by (rewrite widen64_nth, Nat.eqb_refl, EL by lia; reflexivity).
  destruct (digitize64_inside (widen64 l) x W1 W2 (FX x Hx)) as (k & D1 & D2 & D3 & D4); [rewrite widen64_length; lia|rewrite widen64_length, Wl, Wn by lia; rewrite E0; lra|].
  rewrite widen64_length in D2. exists k. split; [exact D1|]. split; [exact D2|]. rewrite Wn in D3 by lia. split; [exact D3|].
  destruct (Nat.eq_dec (S k) (length l - 1)) as [->|]; [now right|left]. rewrite Wn in D4 by lia. exact D4.
Qed.
Print Assumptions C111_dp_partial.

(** The hypothesis on the variance holds for the two-pass float64 variance of effects of absolute value at most 2^200. *)
Lemma asum_bound l B : (forall e, In e l -> Rabs (val e) <= B) -> asum l <= IZR (Z.of_nat (length l)) * B.
Proof.
  intros H. unfold asum. induction l as [|e l IH]; cbn [fold_right length]; [change (IZR (Z.of_nat 0)) with 0; lra|]. rewrite Nat2Z.inj_succ, succ_IZR.
  pose proof (H e (or_introl eq_refl)). specialize (IH (fun x Hx => H x (or_intror Hx))). lra.
Qed.
Lemma dev2_bound l c B : (forall e, In e l -> Rabs (val e - c) <= B) -> dev2 c l <= IZR (Z.of_nat (length l)) * (B * B).
Proof.
  intros H. unfold dev2. induction l as [|e l IH]; cbn [fold_right length]; [change (IZR (Z.of_nat 0)) with 0; lra|]. rewrite Nat2Z.inj_succ, succ_IZR.
  pose proof (H e (or_introl eq_refl)) as He. specialize (IH (fun x Hx => H x (or_intror Hx))).
  assert ((val e - c) * (val e - c) <= B * B). { rewrite <- (Rabs_pos_eq ((val e - c) * (val e - c))) by (apply Rle_0_sqr). rewrite Rabs_mult. apply Rmult_le_compat; try apply Rabs_pos; assumption. } lra.
Qed.
Theorem C111_variance es s : fins es -> (forall e, In e es -> Rabs (val e) <= bpow radix2 200) -> (Z.of_nat (length es) <= 2 ^ 48)%Z ->
  s <> [] -> (length s <= length es)%nat -> (forall e, In e s -> In e es) -> fin (var_seq s) /\ 0 <= val (var_seq s) <= bpow radix2 500.
Proof.
  intros F B N Sn Ls Sub. set (n := length s) in *. assert (N1 : (1 <= n)%nat) by (destruct s; [congruence|cbn in *; lia]).
  assert (Fs : fins s) by (intros e He; apply F, Sub, He). assert (Bs : forall e, In e s -> Rabs (val e) <= bpow radix2 200) by (intros e He; apply B, Sub, He).
  set (T := bpow radix2 200) in *. assert (T1 : 1 <= T) by (change 1 with (bpow radix2 0); apply bpow_le; lia). pose proof (asum_bound s T Bs) as A1. fold n in A1. pose proof (asum_pos s) as A0.
  set (q := IZR (Z.of_nat n)) in *. assert (Q1 : 1 <= q) by (apply IZR_le; lia). assert (Q2 : q <= bpow radix2 48) by (change (bpow radix2 48) with (IZR (2 ^ 48)); apply IZR_le; lia).
  assert (QT : q * T <= bpow radix2 248). { change 248%Z with (48 + 200)%Z. rewrite bpow_plus. fold T. apply Rmult_le_compat_r; lra. }
  pose proof (gam_1 n ltac:(lia)) as G1. pose proof (gam_pos n) as G0. pose proof (gam_1 (S n) ltac:(lia)) as G1'. pose proof (gam_pos (S n)) as G0'.
  destruct (fsum_error s n Fs N1 ltac:(lia)) as [Fm Em].
  { fold n. apply Rle_trans with (2 * bpow radix2 248); [apply Rmult_le_compat; lra|]. change 2 with (bpow radix2 1). rewrite <- bpow_plus. apply bpow_le. lia. }
  fold n q in Em. set (mu := fdiv (fsum s) (fofn n)) in *. pose proof (rsum_asum s) as RA.
  assert (AQ : 0 <= asum s / q <= T). { split; [apply Rmult_le_pos; [lra|left; apply Rinv_0_lt_compat; lra]|apply Rle_div_l; lra]. }
  assert (RQ : Rabs (rsum s / q) <= T). { unfold Rdiv. rewrite Rabs_mult, (Rabs_pos_eq (/ q)) by (left; apply Rinv_0_lt_compat; lra). apply Rle_trans with (asum s / q); [apply Rmult_le_compat_r; [left; apply Rinv_0_lt_compat; lra|exact RA]|lra]. }
  assert (Et : bpow radix2 (-1075) <= 1) by (change 1 with (bpow radix2 0); apply bpow_le; lia).
  assert (GA : gam (S n) * (asum s / q) <= / 4 * T) by (apply Rmult_le_compat; lra).
  assert (Bm : Rabs (val mu) <= 3 * T). { replace (val mu) with ((val mu - rsum s / q) + rsum s / q) by ring. eapply Rle_trans; [apply Rabs_triang|]. lra. }
  assert (De : forall e, In e s -> Rabs (val e - val mu) <= 4 * T). { intros e He. specialize (Bs e He). apply Rabs_le_inv in Bs, Bm. apply Rabs_le. lra. }
  pose proof (dev2_bound s (val mu) (4 * T) De) as DB. fold n q in DB.
  assert (TT : 4 * T * (4 * T) = bpow radix2 404). { unfold T. change 4 with (bpow radix2 2). rewrite <- !bpow_plus. reflexivity. } rewrite TT in DB.
  assert (DB' : dev2 (val mu) s <= bpow radix2 452). { eapply Rle_trans; [exact DB|]. change 452%Z with (48 + 404)%Z. rewrite bpow_plus. apply Rmult_le_compat_r; [apply bpow_ge_0|exact Q2]. }
  destruct (variance_error mu s n Fm Fs eq_refl N1 ltac:(lia)) as (V1 & V2 & V3).
  { eapply Rle_trans; [exact DB'|]. apply bpow_le. lia. }
  { intros e He. eapply Rle_trans; [now apply De|]. unfold T. change 4 with (bpow radix2 2). rewrite <- bpow_plus. apply bpow_le. lia. }
  change (fdiv (fsum (map (sqdev mu) s)) (fofn n)) with (var_seq s) in *. split; [exact V1|]. split; [exact V2|]. fold q in V3. set (r := dev2 (val mu) s / q) in *.
  assert (R1 : 0 <= r <= bpow radix2 404). { unfold r. split; [apply Rmult_le_pos; [apply dev2_pos|left; apply Rinv_0_lt_compat; lra]|apply Rle_div_l; lra]. }
  pose proof (gam_1 (n + 4) ltac:(lia)) as G4. pose proof (gam_pos (n + 4)) as G4'. assert (GR : gam (n + 4) * r <= / 4 * bpow radix2 404) by (apply Rmult_le_compat; lra).
  apply Rabs_le_inv in V3. assert (Ee : eta <= 1) by lra. assert (P1 : 1 <= bpow radix2 404) by (change 1 with (bpow radix2 0); apply bpow_le; lia).
  apply Rle_trans with (8 * bpow radix2 404); [lra|]. change 8 with (bpow radix2 3). rewrite <- bpow_plus. apply bpow_le. lia.
Qed.
Print Assumptions C111_variance.

(** * Concrete cases *)

(** The values 0, ..., 16 (twice each) with effect 0 below 9 and 1 from 9 on, eight candidate bins, min_points 2, discount 0.3: the hypotheses
    of C111_dp_partial hold (one bin costs less than 1e8), and the optimum found has the limits 0, 8, 10, 16. *)
Example dp17_hypotheses :
  fins xs17 /\ (forall x, In x xs17 -> val (fofn 0) <= val x <= val (fofn 16)) /\ length es17 = length xs17 /\ (2 * 2 <= length xs17)%nat /\
  (15 < length (unique64 xs17))%nat /\ allclose64 (fofn 0) (fofn 16) = false /\ (fin f03 /\ 0 <= val f03 <= 1) /\
  (forall s, s <> [] -> (length s <= length es17)%nat -> (forall e, In e s -> In e es17) -> fin (var_seq s) /\ 0 <= val (var_seq s) <= bpow radix2 500) /\
  exists ks, rising ks 8 /\ val (total64 (fun i j => bin_cost64 var_seq xs17 es17 2 f03 (position64 (fofn 0) (fofn 16) 8 i) (position64 (fofn 0) (fofn 16) 8 j)) ks) < 100000000.
Proof.
  assert (FX : fins xs17) by (apply fins_check; vm_compute; reflexivity). assert (FE : fins es17) by (apply fins_check; vm_compute; reflexivity).
  assert (F0 : fin (fofn 0)) by (apply fofZ_val; cbn; lia). assert (F16 : fin (fofn 16)) by (apply fofZ_val; cbn; lia).
  split; [exact FX|]. split.
  { assert (C : forallb (fun x => Bleb (fofn 0) x && Bleb x (fofn 16)) xs17 = true) by (vm_compute; reflexivity). rewrite forallb_forall in C. intros x Hx. specialize (C x Hx). apply andb_true_iff in C as [C1 C2]. split; apply fle_val; auto. }
  split; [vm_compute; reflexivity|]. split; [apply Nat.leb_le; vm_compute; reflexivity|]. split; [apply Nat.ltb_lt; vm_compute; reflexivity|]. split; [vm_compute; reflexivity|].
  split; [split; [reflexivity|]; cbn [f03 B2R]; unfold F2R; cbn; lra|]. split.
  { intros s. apply C111_variance; [exact FE| |apply Z.leb_le; vm_compute; reflexivity].
    assert (C : forallb (fun x => Bleb (fofn 0) x && Bleb x (fofn 16)) es17 = true) by (vm_compute; reflexivity). rewrite forallb_forall in C. intros x Hx. specialize (C x Hx). apply andb_true_iff in C as [C1 C2].
    apply fle_val in C1; auto. apply fle_val in C2; auto. destruct (fofZ_val (Z.of_nat 0) ltac:(cbn; lia)) as [V0 _]. destruct (fofZ_val (Z.of_nat 16) ltac:(cbn; lia)) as [V16 _]. fold (fofn 0) in V0. fold (fofn 16) in V16. rewrite V0 in C1. rewrite V16 in C2.
    change (IZR (Z.of_nat 0)) with 0 in C1. change (IZR (Z.of_nat 16)) with 16 in C2. apply Rabs_le. assert (16 <= bpow radix2 200) by (change 16 with (bpow radix2 4); apply bpow_le; lia). lra. }
  exists [0%nat; 8%nat]. split; [split; [cbn; lia|]; split; [reflexivity|]; split; [reflexivity|]; intros [|i] Hi; cbn in Hi |- *; lia|].
  match goal with |- val ?t < _ => set (c := t) end. assert (C : is_finite c && Bltb c BIGM64 = true) by (vm_compute; reflexivity). clearbody c. apply andb_true_iff in C as [C1 C2].
  apply flt_val in C2; [|exact C1|apply bigm_fits]. rewrite (proj2 bigm_fits) in C2. exact C2.
Qed.
Example dp17 :
  match dp_find64 var_seq xs17 es17 (fofn 0) (fofn 16) 2 f03 8 15 with
  | Ok (Some l) => Nat.eqb (length l) 4 && forallb (fun p => Beqb (fst p) (snd p)) (combine l (map fofn [0; 8; 10; 16]%nat))
  | _ => false
  end = true.
Proof. vm_compute. reflexivity. Qed.

(** Above 2^22 "every instance has a bin" is false. Sixteen instances, the feature from 5 to 2^26 (the default axis limits), seven candidate
    bins: the last limit is computed as 67108863.99999999, widening gives exactly 2^26, the largest instance falls outside, and the fit (which
    succeeds) has three bin effects for two bins: every evaluation raises ValueError. *)
Definition big_X : list (list b64) := map (fun z => [fofZ z]) (map (fun i => 5 + Z.of_nat i)%Z (seq 0 8) ++ map (fun i => 67108864 - Z.of_nat i)%Z (seq 0 8)).
Definition big_E : list (list b64) := repeat [fofn 0] 8 ++ repeat [fofn 1] 8.
Theorem C111_refuted : exists lo hi p,
  axis_limits64 big_X 0 = Ok (lo, hi) /\ val lo = 5 /\ val hi = bpow radix2 26 /\
  rhale_fit_feature64 var_seq big_X big_E lo hi 0 (BDP 7 f03 2 10) = Ok p /\ length (p64_limits p) = 3%nat /\ length (p64_effect p) = 3%nat /\ length (p64_dx p) = 2%nat /\
  forall xs, eval_unnorm64 p xs = Raise ValueError.
Proof.
  assert (FC : fins (col64 big_X 0)) by (apply fins_check; vm_compute; reflexivity).
  set (r := '(lo, hi) <- axis_limits64 big_X 0 ;; p <- rhale_fit_feature64 var_seq big_X big_E lo hi 0 (BDP 7 f03 2 10) ;; Ok (lo, hi, p)).
  assert (C : match r with Ok (lo, hi, p) => Beqb lo (fofZ 5) && Beqb hi (fofZ 67108864) && forallb is_finite [lo; hi] && Nat.eqb (length (p64_limits p)) 3 && Nat.eqb (length (p64_effect p)) 3 && Nat.eqb (length (p64_dx p)) 2 &&
     forallb is_finite (p64_limits p) && mono_incr64 (p64_limits p) | _ => false end = true) by (vm_compute; reflexivity).
  destruct r as [[[lo hi] p]|] eqn:Er; [|discriminate C]. unfold r in Er. clear r. apply bind_ok in Er as ([lo' hi'] & E1 & Er). apply bind_ok in Er as (p' & E2 & Er). injection Er as -> -> ->.
  repeat (apply andb_true_iff in C as [C ?]). exists lo, hi, p. apply Nat.eqb_eq in H1, H2, H3.
  cbn [forallb] in H4. apply andb_true_iff in H4 as [Fl Fh]. rewrite andb_true_r in Fh.
  destruct (fofZ_val 5 ltac:(lia)) as [V5 F5]. destruct (fofZ_val 67108864 ltac:(lia)) as [Vb Fb].
  assert (BE : forall x y, fin x -> fin y -> Beqb x y = true -> val x = val y). { intros x y Fx Fy H'. rewrite Beqb_correct in H' by assumption. destruct (Req_bool_spec (val x) (val y)); [assumption|discriminate H']. }
  split; [exact E1|]. split; [rewrite (BE _ _ Fl F5 C); exact V5|]. split; [rewrite (BE _ _ Fh Fb H5), Vb; reflexivity|]. split; [exact E2|]. split; [exact H3|]. split; [exact H2|]. split; [exact H1|].
  intros xs. unfold eval_unnorm64. assert (FL : fins (p64_limits p)) by (apply fins_check; exact H0). apply accumulate_shape; [exact FL| |rewrite H1, H2; lia|rewrite H2; lia|rewrite H1; lia].
  revert H FL. generalize (p64_limits p). clear. intros l. induction l as [|a l IH]; intros H F i Hi; [cbn in Hi; lia|]. destruct l as [|b l]; [cbn in Hi; lia|]. unfold mono_incr64 in H. cbn [tl combine forallb fst snd] in H. apply andb_true_iff in H as [H1 H2].
  destruct i as [|i]; [cbn [nth]; apply fle_val; auto; apply F; cbn; auto|]. apply (IH H2 (fins_tl _ _ F) i). cbn [length] in *. lia.
Qed.
Print Assumptions C111_refuted.
