(** FloatFit: the bin computations succeed in binary64 when some bin holds two instances; bounds on the heterogeneity. *)
From Coq Require Import Reals.
From Flocq Require Import Core.
From Flocq Require Import IEEE754.BinarySingleNaN.
From Verif Require Import Base Numpy NumpyFacts FloatModel FloatFacts FloatGrid FloatBins FloatProofs FloatMean FloatVar FloatFill FloatAcc FloatLine FloatLine2 Prop_FloatMean Prop_FloatVar.
From Coq Require Import Lra.
Open Scope R_scope.

Lemma mapM_total {A B} (f : A -> res B) l : (forall a, In a l -> exists b, f a = Ok b) -> exists bs, mapM f l = Ok bs.
Proof.
  induction l as [|a l IH]; intros H; [exists []; reflexivity|]. destruct (H a (or_introl eq_refl)) as (b & E). destruct IH as (bs & E'); [intros; apply H; now right|].
  exists (b :: bs). cbn [mapM]. rewrite E. cbn [bind]. rewrite E'. reflexivity.
Qed.
Lemma fill_exists x : (exists v, In v x /\ is_nan v = false) -> exists y, fill_nans64 x = Ok y.
Proof.
  intros (v & Hv & Nv). unfold fill_nans64. destruct (valid_points64 0 x) as [|[x0 f0] pts] eqn:E.
  - exfalso. clear - Hv Nv E. revert E. generalize 0%nat. induction x as [|a x IH]; intros s E; [destruct Hv|]. cbn [valid_points64] in E. destruct Hv as [->|Hv]; [rewrite Nv in E; discriminate E|].
    destruct (is_nan a); [apply (IH Hv _ E)|discriminate E].
  - apply mapM_total. intros (i, a) _. cbn [snd fst]. destruct (is_nan a); [|eauto]. unfold interp64. destruct (Bltb _ _); eauto.
Qed.

Section Fit.
  Variables (xs es l : list b64).
  Hypotheses (Fx : fins xs) (F : fins l) (So : sorted64 l) (L : (2 <= length l)%nat) (Le : length xs = length es)
    (C : forall x, In x xs -> val (first64 l) <= val x <= val (last64 l)) (B : - bpow radix2 27 <= val (last64 l) < bpow radix2 27).
  Let K := (length l - 1)%nat.

  Lemma bin_of x : In x xs -> exists k, digitize64_1 (widen64 l) x = S k /\ (k < K)%nat /\ in_bin64 (widen64 l) k x = true.
  Proof.
    intros Hx. destruct (widen64_sorted l ltac:(lia) F So B) as (F' & So' & LL). destruct (C x Hx) as [C1 C2].
    destruct (digitize64_inside (widen64 l) x F' So' (Fx x Hx)) as (k & E & K1 & K2); [rewrite widen64_length; lia| |].
    - split; [|unfold last64 at 2 in LL; lra]. rewrite widen64_nth by lia. destruct (Nat.eqb_spec 0 (length l - 1)); [lia|exact C1].
    - exists k. rewrite widen64_length in K1. split; [exact E|]. split; [unfold K; lia|]. rewrite (in_bin_digitize (widen64 l)); auto; [|rewrite widen64_length; exact K1]. apply Z.eqb_eq. lia.
  Qed.

  Lemma bins_exist : exists be ppb bv bev, compute_bin_effect64 xs es l = Ok (be, ppb) /\ compute_bin_variance64 xs es l be = Ok (bv, bev) /\
    length be = K /\ length bv = K /\ length bev = K.
  Proof.
    destruct (widen64_sorted l ltac:(lia) F So B) as (F' & So' & _). set (idx := map (fun x => (Z.of_nat (digitize64_1 (widen64 l) x) - 1)%Z) xs).
    assert (I : bin_indices64 xs l = Ok idx) by (apply bin_indices64_eq; auto; lia).
    assert (R : forall z, In z idx -> (0 <= z < Z.of_nat K)%Z). { intros z Hz. apply in_map_iff in Hz as (x & <- & Hx). destruct (bin_of x Hx) as (k & E & Hk & _). lia. }
    assert (W : bincount_len idx K = K). { unfold bincount_len. assert (zmax0 idx <= Z.of_nat K - 1)%Z; [|lia]. apply zmax0_le; [lia|]. intros z Hz. specialize (R z Hz). lia. }
    assert (N : existsb (fun z => (z <? 0)%Z) idx = false). { apply not_true_iff_false. intros H. apply existsb_exists in H as (z & Hz & H). specialize (R z Hz). apply Z.ltb_lt in H. lia. }
    assert (Li : length idx = length xs) by apply map_length.
    unfold compute_bin_effect64, compute_bin_variance64. rewrite I. cbn [bind]. fold K. unfold bincount_w64, bincount. rewrite N, W, Li, Le, Nat.eqb_refl. cbn [negb bind].
    set (agg := map _ (seq 0 K)). set (pp := map _ (seq 0 K)). set (be := divide_where64 _ agg pp).
    assert (La : length agg = K) by (unfold agg; now rewrite map_length, seq_length). assert (Lp : length pp = K) by (unfold pp; now rewrite map_length, seq_length).
    assert (Lb : length be = K) by (unfold be, divide_where64; rewrite map_length, combine_length, La, Lp; lia).
    exists be, pp. rewrite (takez_ok be idx fnan) by (intros i Hi; rewrite Lb; now apply R). cbn [bind].
    rewrite (vzip_eq _ es) by (rewrite map_length; lia). cbn [bind].
    match goal with |- context [Nat.eqb (length es) (length ?v)] => assert (Lv : length v = length es) by (rewrite map_length, combine_length, map_length; lia); rewrite Lv end.
    rewrite Nat.eqb_refl. cbn [negb bind]. eexists _, _. split; [reflexivity|]. split; [reflexivity|]. split; [exact Lb|].
    unfold divide_where64. rewrite !map_length, !combine_length, !map_length, !combine_length, !map_length, !seq_length, Lp. lia.
  Qed.

  (** some bin holds two instances as soon as there are more instances than bins *)
  Lemma members_count k : (k < K)%nat -> length (bin_members (widen64 l) k xs es) = count_occ Nat.eq_dec (map (fun x => Nat.pred (digitize64_1 (widen64 l) x)) xs) k.
  Proof.
    intros Hk. destruct (widen64_sorted l ltac:(lia) F So B) as (F' & So' & _). assert (BO := bin_of). unfold bin_members. rewrite map_length.
    assert (G : forall zs (ws : list b64), length zs = length ws -> (forall x, In x zs -> In x xs) -> length (filter (fun z => in_bin64 (widen64 l) k (fst z)) (combine zs ws)) = count_occ Nat.eq_dec (map (fun x => Nat.pred (digitize64_1 (widen64 l) x)) zs) k).
    { induction zs as [|x zs IH]; intros [|w ws] E H; cbn in E; try lia; [reflexivity|]. cbn [combine filter map count_occ fst].
      assert (Hx : In x xs) by (apply H; now left). destruct (BO x Hx) as (j & Ej & Hj & Bj). rewrite Ej. cbn [Nat.pred].
      rewrite (in_bin_digitize (widen64 l)) by (auto; rewrite widen64_length; lia). rewrite Ej.
      destruct (Nat.eq_dec j k) as [->|N].
      - destruct (Z.eqb_spec (Z.of_nat k) (Z.of_nat (S k) - 1)); [|lia]. cbn [length]. f_equal. apply IH; [lia|intros; apply H; now right].
      - destruct (Z.eqb_spec (Z.of_nat k) (Z.of_nat (S j) - 1)); [lia|]. apply IH; [lia|intros; apply H; now right]. }
    apply G; auto.
  Qed.
  Lemma crowded : (K < length xs)%nat -> exists k, (k < K)%nat /\ (2 <= length (bin_members (widen64 l) k xs es))%nat.
  Proof.
    intros H. set (ids := map (fun x => Nat.pred (digitize64_1 (widen64 l) x)) xs).
    assert (R : forall i, In i ids -> (i < K)%nat). { intros i Hi. apply in_map_iff in Hi as (x & <- & Hx). destruct (bin_of x Hx) as (k & -> & Hk & _). exact Hk. }
    assert (D : forall n, (exists k, (k < n)%nat /\ (2 <= count_occ Nat.eq_dec ids k)%nat) \/ forall k, (k < n)%nat -> (count_occ Nat.eq_dec ids k <= 1)%nat).
    { induction n as [|n [(k & H1 & H2)|IH]]; [right; intros; lia|left; exists k; split; [lia|exact H2]|].
      destruct (Nat.le_gt_cases (count_occ Nat.eq_dec ids n) 1) as [G|G]; [right|left; exists n; lia]. intros k Hk. destruct (Nat.eq_dec k n) as [->|]; [exact G|apply IH; lia]. }
    destruct (D K) as [(k & H1 & H2)|N]; [exists k; split; [exact H1|rewrite members_count by exact H1; exact H2]|exfalso].
    assert (ND : NoDup ids). { apply (NoDup_count_occ Nat.eq_dec). intros k. destruct (Nat.lt_ge_cases k K) as [G|G]; [now apply N|]. rewrite (proj1 (count_occ_not_In Nat.eq_dec ids k)); [lia|]. intros I. specialize (R k I). lia. }
    assert (length ids <= length (seq 0 K))%nat by (apply NoDup_incl_length; [exact ND|intros i Hi; apply in_seq; specialize (R i Hi); lia]).
    rewrite seq_length in H0. unfold ids in H0. rewrite map_length in H0. lia.
  Qed.
End Fit.

(** sums of squares of near effects *)
Lemma dev2_near A t m s ms : (forall e, In e ms -> near A t e) -> Rabs (m - A) <= s -> dev2 m ms <= IZR (Z.of_nat (length ms)) * ((t + s) * (t + s)).
Proof.
  intros H Hm. assert (S0 : 0 <= s) by (eapply Rle_trans; [apply Rabs_pos|exact Hm]). unfold dev2. induction ms as [|e ms IH]; cbn [fold_right length]; [change (Z.of_nat 0) with 0%Z; lra|].
  specialize (IH (fun e He => H e (or_intror He))). destruct (H e (or_introl eq_refl)) as [_ He]. rewrite Nat2Z.inj_succ, succ_IZR.
  assert ((val e - m) * (val e - m) <= (t + s) * (t + s)); [|lra].
  assert (Q : Rabs (val e - m) <= t + s). { replace (val e - m) with ((val e - A) - (m - A)) by ring. unfold Rminus at 1. eapply Rle_trans; [apply Rabs_triang|]. rewrite Rabs_Ropp. lra. }
  rewrite <- (Rabs_pos_eq ((val e - m) * (val e - m))) by apply Rle_0_sqr. rewrite Rabs_mult. apply Rmult_le_compat; auto using Rabs_pos.
Qed.

(** how far the float mean of a bin of near effects is from the slope *)
Definition mean_err (N : nat) (A t : R) : R := t + gam (S N) * (Rabs A + t) + bpow radix2 (-1075).
(** the variance of a bin of near effects *)
Definition var_err (N : nat) (A t : R) : R := 2 * ((t + mean_err N A t) * (t + mean_err N A t)) + 3 * bpow radix2 (-1075).

Lemma mean_err_bound N A t : (Z.of_nat N + 1 <= 2 ^ 50)%Z -> 0 <= t -> Rabs A + t <= bpow radix2 400 -> 0 <= mean_err N A t <= 2 * bpow radix2 400.
Proof.
  intros HN T0 BA. unfold mean_err. pose proof (gam_1' (S N) ltac:(lia)) as G1. pose proof (gam_pos (S N)) as G0. pose proof (Rabs_pos A). pose proof (bpow_gt_0 radix2 (-1075)).
  assert (E1 : bpow radix2 (-1075) <= / 4 * bpow radix2 400). { change (/ 4) with (bpow radix2 (-2)). rewrite <- bpow_plus. apply bpow_le. lia. }
  assert (gam (S N) * (Rabs A + t) <= / 4 * (Rabs A + t)) by (apply Rmult_le_compat_r; lra). assert (0 <= gam (S N) * (Rabs A + t)) by (apply Rmult_le_pos; lra). lra.
Qed.

Section Near.
  Variables (xs es l : list b64) (A t : R).
  Hypotheses (Fx : fins xs) (F : fins l) (So : sorted64 l) (L : (2 <= length l)%nat) (Le : length xs = length es) (HN : (Z.of_nat (length xs) + 1 <= 2 ^ 50)%Z)
    (C : forall x, In x xs -> val (first64 l) <= val x <= val (last64 l)) (B : - bpow radix2 27 <= val (last64 l) < bpow radix2 27)
    (HE : forall e, In e es -> near A t e) (T0 : 0 <= t) (BA : Rabs A + t <= bpow radix2 400).
  Let K := (length l - 1)%nat.

  Lemma BA9 : Rabs A + t <= bpow radix2 900. Proof. eapply Rle_trans; [exact BA|]. apply bpow_le. lia. Qed.
  Lemma member_near k e : In e (bin_members (widen64 l) k xs es) -> near A t e.
  Proof. intros He. apply HE. unfold bin_members in He. apply in_map_iff in He as ((x & e') & <- & He). apply filter_In in He as [He _]. now apply in_combine_r in He. Qed.
  Lemma members_le k : (length (bin_members (widen64 l) k xs es) <= length xs)%nat.
  Proof. unfold bin_members. rewrite map_length. eapply Nat.le_trans; [apply filter_length_le|]. rewrite combine_length. lia. Qed.

  Variables (be : list b64) (ppb : list nat) (bv bev : list b64).
  Hypotheses (HB : compute_bin_effect64 xs es l = Ok (be, ppb)) (HV : compute_bin_variance64 xs es l be = Ok (bv, bev)) (Lb : length be = K).

  Lemma effect_fin k : (k < K)%nat -> bin_members (widen64 l) k xs es <> [] -> near A (mean_err (length xs) A t) (nth k be fnan).
  Proof.
    intros Hk NE. destruct (bins_near xs es l be ppb A t Fx F So L Le HN C B HE T0 BA9 HB Lb (nth k be fnan)) as [H|H]; [apply nth_In; lia| |exact H]. exfalso.
    destruct (widen64_sorted l ltac:(lia) F So B) as (F' & So' & _). destruct (C101_bins xs es l be ppb k Fx F' So' ltac:(lia) Le ltac:(lia) HB) as (_ & _ & NE'). destruct NE' as [Fv _]; auto.
    - intros e He. exact (proj1 (member_near k e He)).
    - destruct (near_sums A t _ (member_near k)) as [_ S2]. eapply Rle_trans; [exact S2|]. pose proof (members_le k). apply Rle_trans with (bpow radix2 50 * bpow radix2 400); [|rewrite <- bpow_plus; apply bpow_le; lia].
      apply Rmult_le_compat; try lra; [apply IZR_le; lia|pose proof (Rabs_pos A); lra|]. change (bpow radix2 50) with (IZR (2 ^ 50)). apply IZR_le. lia.
    - destruct (nth k be fnan); try discriminate Fv; discriminate H.
  Qed.

  Lemma variance_near k : (k < K)%nat -> let ms := bin_members (widen64 l) k xs es in
    ((length ms < 2)%nat -> is_nan (nth k bv fnan) = true /\ is_nan (nth k bev fnan) = true) /\
    ((2 <= length ms)%nat -> (fin (nth k bv fnan) /\ 0 <= val (nth k bv fnan) <= var_err (length xs) A t) /\ (fin (nth k bev fnan) /\ 0 <= val (nth k bev fnan) <= var_err (length xs) A t)).
  Proof.
    intros Hk ms. destruct (widen64_sorted l ltac:(lia) F So B) as (F' & So' & _). destruct (C105_variance xs es l be bv bev k Fx F' So' ltac:(lia) Le HN ltac:(lia) HV) as [V1 V2]. fold ms in V1, V2. split; [exact V1|].
    intros H2. assert (NE : ms <> []) by (intros E; rewrite E in H2; cbn in H2; lia). destruct (effect_fin k Hk NE) as [Fm Nm]. set (m := nth k be fnan) in *.
    pose proof (mean_err_bound (length xs) A t HN T0 BA) as [M0 M1]. set (s := mean_err (length xs) A t) in *.
    assert (D := dev2_near A t (val m) s ms (member_near k) Nm). pose proof (members_le k) as Lm. fold ms in Lm.
    set (n := IZR (Z.of_nat (length ms))) in *. assert (N2 : 2 <= n) by (apply IZR_le; lia). assert (NB : n <= bpow radix2 50) by (change (bpow radix2 50) with (IZR (2 ^ 50)); apply IZR_le; lia).
    pose proof (Rabs_pos A) as A0. assert (TS : 0 <= t + s <= bpow radix2 402). { change (bpow radix2 402) with (bpow radix2 (2 + 400)). rewrite bpow_plus. change (bpow radix2 2) with 4. lra. }
    assert (TT : 0 <= (t + s) * (t + s) <= bpow radix2 804). { split; [apply Rmult_le_pos; lra|]. change (bpow radix2 804) with (bpow radix2 (402 + 402)). rewrite bpow_plus. apply Rmult_le_compat; lra. }
    set (q := (t + s) * (t + s)) in *.
    destruct V2 as (Fv & P & _ & Ev & Eb); auto.
    { intros e He. exact (proj1 (member_near k e He)). }
    { eapply Rle_trans; [exact D|]. apply Rle_trans with (bpow radix2 50 * bpow radix2 804); [apply Rmult_le_compat; lra|]. rewrite <- bpow_plus. apply bpow_le. lia. }
    { intros e He. destruct (member_near k e He) as [_ Hn]. replace (val e - val m) with ((val e - A) - (val m - A)) by ring. unfold Rminus at 1. eapply Rle_trans; [apply Rabs_triang|]. rewrite Rabs_Ropp.
      assert (bpow radix2 402 <= bpow radix2 1021) by (apply bpow_le; lia). lra. }
    set (d := dev2 (val m) ms / n) in *.
    assert (D0 : 0 <= d). { unfold d, Rdiv. apply Rmult_le_pos; [apply dev2_pos|]. apply Rlt_le, Rinv_0_lt_compat. lra. }
    assert (D1 : d <= q). { unfold d. apply Rle_div_l; lra. }
    change ((1 + bpow radix2 (-53)) ^ (length ms + 4) - 1) with (gam (length ms + 4)) in Ev. pose proof (gam_pos (length ms + 4)) as G0.
    assert (G4 : gam (length ms + 4) <= 1).
    { assert (G5 : gam (length ms + 4) <= gam (4 + S (length xs))) by (apply gam_le; lia). pose proof (gam_1' (S (length xs)) ltac:(lia)) as G. pose proof (gam_pos (S (length xs))) as G0'. set (g := gam (S (length xs))) in *.
      eapply Rle_trans; [exact G5|]. cbn [Nat.add]. do 4 rewrite gam_S. fold g. pose proof u53_pos. pose proof u53_small. set (u := u53) in *.
      assert (X : forall y, 0 <= y <= 1 -> 0 <= y + u * (1 + y) <= y + / 100000). { intros y Hy. assert (0 <= u * (1 + y)) by (apply Rmult_le_pos; lra). assert (u * (1 + y) <= / 1000000 * 2) by (apply Rmult_le_compat; lra). lra. }
      pose proof (X g ltac:(lra)) as X1. pose proof (X _ ltac:(split; [apply X1|lra])) as X2. pose proof (X _ ltac:(split; [apply X2|lra])) as X3. pose proof (X _ ltac:(split; [apply X3|lra])) as X4. lra. }
    apply Rabs_le_inv in Ev. assert (gam (length ms + 4) * d <= 1 * d) by (apply Rmult_le_compat_r; lra).
    assert (VB : val (nth k bv fnan) <= var_err (length xs) A t) by (unfold var_err; fold s; fold q; lra).
    split; [auto|]. destruct (fofn_idx (length ms)) as [Vn Fn]; [unfold idx64; lia|]. fold n in Vn.
    set (v := nth k bv fnan) in *. assert (QB : 0 <= val v / n <= val v). { split; [unfold Rdiv; apply Rmult_le_pos; [lra|apply Rlt_le, Rinv_0_lt_compat; lra]|]. apply Rle_div_l; [lra|]. assert (val v * 1 <= val v * n) by (apply Rmult_le_compat_l; lra). lra. }
    assert (Big : val v <= bpow radix2 1023). { eapply Rle_trans; [exact VB|]. unfold var_err. fold s. fold q. assert (bpow radix2 (-1075) <= bpow radix2 804) by (apply bpow_le; lia). pose proof (bpow_ge_0 radix2 (-1075)).
      assert (Q8 : bpow radix2 (3 + 804) <= bpow radix2 1023) by (apply bpow_le; lia). rewrite bpow_plus in Q8. change (bpow radix2 3) with 8 in Q8. lra. }
    destruct (fdiv_val v (fofn (length ms)) Fv Fn) as [VD FD]; [rewrite Vn; apply Rgt_not_eq; lra|rewrite Vn, Rabs_pos_eq by lra; lra|]. rewrite Vn in VD. rewrite Eb. split; [exact FD|]. rewrite VD.
    split; [apply rnd_nonneg; lra|]. eapply Rle_trans; [|exact VB]. apply Rle_trans with (rnd (val v)); [apply rnd_le; lra|rewrite rnd_val; apply Rle_refl].
  Qed.
End Near.

(** the fit succeeds and its effects and variances are bounded *)
Lemma params_near xs es l A t :
  fins xs -> fins l -> sorted64 l -> (2 <= length l)%nat -> length xs = length es -> (Z.of_nat (length xs) + 1 <= 2 ^ 50)%Z -> (length l <= length xs)%nat ->
  (forall x, In x xs -> val (first64 l) <= val x <= val (last64 l)) -> - bpow radix2 27 <= val (last64 l) < bpow radix2 27 ->
  (forall e, In e es -> near A t e) -> 0 <= t -> Rabs A + t <= bpow radix2 400 ->
  exists p, compute_ale_params64 xs es l = Ok p /\ length (p64_effect p) = (length l - 1)%nat /\ length (p64_var p) = (length l - 1)%nat /\ length (p64_est p) = (length l - 1)%nat /\
    (forall e, In e (p64_effect p) -> near A (slope_err (length xs) A t) e) /\
    (forall v, In v (p64_var p) \/ In v (p64_est p) -> near 0 (2 * var_err (length xs) A t + bpow radix2 (-1000)) v).
Proof.
  intros Fx F So L Le HN HL C B HE T0 BA. destruct (bins_exist xs es l Fx F So L Le C B) as (be & ppb & bv & bev & H1 & H2 & L1 & L2 & L3).
  destruct (crowded xs es l Fx F So L Le C B ltac:(lia)) as (k & Hk & Hm).
  assert (VN := fun k Hk => variance_near xs es l A t Fx F So L Le HN C B HE T0 BA be ppb bv bev H1 H2 L1 k Hk).
  assert (NN : forall x, fin x -> is_nan x = false) by (intros [| | |]; [reflexivity|discriminate|discriminate|reflexivity]).
  destruct (VN k Hk) as [_ V]. destruct (V Hm) as [[V1 _] [V2 _]].
  destruct (fill_exists be) as (e & E1). { exists (nth k be fnan). split; [apply nth_In; lia|]. apply NN. apply (effect_fin xs es l A t Fx F So L Le HN C B HE T0 BA be ppb H1 L1 k Hk). intros E. rewrite E in Hm. cbn in Hm. lia. }
  destruct (fill_exists bv) as (v & E2). { exists (nth k bv fnan). split; [apply nth_In; lia|now apply NN]. }
  destruct (fill_exists bev) as (w & E3). { exists (nth k bev fnan). split; [apply nth_In; lia|now apply NN]. }
  assert (HP : compute_ale_params64 xs es l = Ok (mkP64 l (map (fun p => fsub (snd p) (fst p)) (combine l (tl l))) ppb e v w)). { unfold compute_ale_params64. rewrite H1. cbn [bind]. rewrite H2. cbn [bind]. rewrite E1. cbn [bind]. rewrite E2. cbn [bind]. rewrite E3. reflexivity. }
  eexists. split; [exact HP|]. destruct (effects_near xs es l _ A t Fx F So L Le HN ltac:(lia) C B HE T0 ltac:(eapply Rle_trans; [exact BA|]; apply bpow_le; lia) HP) as [P1 P2]. cbn [p64_effect p64_var p64_est] in *.
  pose proof (fill64_length _ _ E2) as Lv. pose proof (fill64_length _ _ E3) as Lw. split; [exact P1|]. split; [lia|]. split; [lia|]. split.
  { intros x Hx. destruct (In_nth _ _ fnan Hx) as (i & Hi & <-). apply P2. lia. }
  pose proof (mean_err_bound (length xs) A t HN T0 BA) as [M0 M1]. pose proof (Rabs_pos A) as A0. set (s := mean_err (length xs) A t) in *.
  assert (TS : 0 <= t + s <= bpow radix2 402). { change (bpow radix2 402) with (bpow radix2 (2 + 400)). rewrite bpow_plus. change (bpow radix2 2) with 4. lra. }
  assert (TT : 0 <= (t + s) * (t + s) <= bpow radix2 804). { split; [apply Rmult_le_pos; lra|]. change (bpow radix2 804) with (bpow radix2 (402 + 402)). rewrite bpow_plus. apply Rmult_le_compat; lra. }
  assert (VB : Rabs 0 + var_err (length xs) A t <= bpow radix2 1000).
  { rewrite Rabs_R0. unfold var_err. fold s. assert (bpow radix2 (-1075) <= bpow radix2 804) by (apply bpow_le; lia). pose proof (bpow_ge_0 radix2 (-1075)). assert (Q8 : bpow radix2 (3 + 804) <= bpow radix2 1000) by (apply bpow_le; lia). rewrite bpow_plus in Q8. change (bpow radix2 3) with 8 in Q8. lra. }
  assert (FC : forall z y, length z = (length l - 1)%nat -> (forall i, (i < length l - 1)%nat -> is_nan (nth i z fnan) = true \/ fin (nth i z fnan) /\ 0 <= val (nth i z fnan) <= var_err (length xs) A t) -> fill_nans64 z = Ok y ->
     forall x, In x y -> near 0 (2 * var_err (length xs) A t + bpow radix2 (-1000)) x).
  { intros z y Lz Hz Ez x Hx. destruct (fill_close 0 (var_err (length xs) A t) z y VB) as [Ly N]; [unfold idx64; lia| |exact Ez|].
    - intros u Hu. destruct (In_nth _ _ fnan Hu) as (i & Hi & <-). destruct (Hz i ltac:(lia)) as [|[G1 G2]]; [now left|right]. split; [exact G1|]. rewrite Rminus_0_r, Rabs_pos_eq; lra.
    - destruct (In_nth _ _ fnan Hx) as (i & Hi & <-). specialize (N i ltac:(lia)). rewrite Rabs_R0 in N. apply (near_le _ _ _ _ N). lra. }
  intros x [Hx|Hx]; [apply (FC bv v L2)|apply (FC bev w L3)]; auto; intros i Hi; destruct (VN i Hi) as [Va Vb]; set (ms := bin_members (widen64 l) i xs es) in *; destruct (Nat.lt_ge_cases (length ms) 2) as [G|G];
    [left; now apply Va|right; now apply Vb|left; now apply Va|right; now apply Vb].
Qed.
