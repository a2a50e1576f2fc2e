(** FloatMean: rounding error of sums and means in binary64, for any order of summation. *)
From Coq Require Import Reals Permutation.
From Flocq Require Import Core.
From Flocq Require Import IEEE754.BinarySingleNaN Relative.
From Verif Require Import Base Numpy FloatModel FloatFacts FloatGrid FloatBins FloatProofs.
From Coq Require Import Lra.
Open Scope R_scope.

(** an order of summation: numpy adds the elements pairwise, in blocks, or one after the other, depending on the layout
    of the array; every one of these is a binary tree of additions *)
Inductive tree := Leaf (x : b64) | Plus (a b : tree).
Fixpoint leaves (t : tree) : list b64 := match t with Leaf x => [x] | Plus a b => leaves a ++ leaves b end.
Fixpoint depth (t : tree) : nat := match t with Leaf _ => 0 | Plus a b => S (Nat.max (depth a) (depth b)) end.
Fixpoint tsum (t : tree) : b64 := match t with Leaf x => x | Plus a b => fadd (tsum a) (tsum b) end.

(** exact sums *)
Definition rsum (l : list b64) : R := fold_right (fun x s => val x + s) 0 l.
Definition asum (l : list b64) : R := fold_right (fun x s => Rabs (val x) + s) 0 l.

Lemma rsum_app l l' : rsum (l ++ l') = rsum l + rsum l'.
Proof. unfold rsum. induction l as [|x l IH]; cbn [app fold_right]; [ring|]. rewrite IH. ring. Qed.
Lemma asum_app l l' : asum (l ++ l') = asum l + asum l'.
Proof. unfold asum. induction l as [|x l IH]; cbn [app fold_right]; [ring|]. rewrite IH. ring. Qed.
Lemma asum_pos l : 0 <= asum l.
Proof. unfold asum. induction l as [|x l IH]; cbn [fold_right]; [lra|]. pose proof (Rabs_pos (val x)). lra. Qed.
Lemma rsum_asum l : Rabs (rsum l) <= asum l.
Proof.
  unfold rsum, asum. induction l as [|x l IH]; cbn [fold_right]; [rewrite Rabs_R0; lra|]. eapply Rle_trans; [apply Rabs_triang|]. lra.
Qed.
Lemma rsum_perm l l' : Permutation l l' -> rsum l = rsum l' /\ asum l = asum l'.
Proof.
  induction 1 as [|x l l' _ [IH1 IH2]|x y l|l1 l2 l3 _ [IH1 IH2] _ [IH3 IH4]]; unfold rsum, asum in *; cbn [fold_right]; split; try lra; congruence.
Qed.

Definition gam (d : nat) : R := (1 + u53) ^ d - 1.
Lemma gam_0 : gam 0 = 0. Proof. unfold gam. cbn. ring. Qed.
Lemma pow_ge_1 d : 1 <= (1 + u53) ^ d.
Proof. apply pow_R1_Rle. pose proof u53_pos. lra. Qed.
Lemma gam_pos d : 0 <= gam d. Proof. pose proof (pow_ge_1 d). unfold gam. lra. Qed.
Lemma gam_S d : gam (S d) = gam d + u53 * (1 + gam d). Proof. unfold gam. cbn [pow]. ring. Qed.
Lemma gam_le d d' : (d <= d')%nat -> gam d <= gam d'.
Proof. intros H. unfold gam. pose proof (Rle_pow (1 + u53) d d' ltac:(pose proof u53_pos; lra) H). lra. Qed.
Lemma gam_small d : (Z.of_nat d <= 2 ^ 50)%Z -> gam d <= 2 * IZR (Z.of_nat d) * u53.
Proof.
  intros H. pose proof u53_pos as UP.
  assert (G : forall k, (Z.of_nat k <= 2 ^ 50)%Z -> gam k <= IZR (Z.of_nat k) * u53 * (1 + IZR (Z.of_nat k) * u53)).
  { clear d H. induction k as [|k IH]; intros H; [rewrite gam_0; cbn [Z.of_nat]; lra|].
    rewrite gam_S. specialize (IH ltac:(lia)). rewrite Nat2Z.inj_succ, succ_IZR.
    assert (K0 : 0 <= IZR (Z.of_nat k)) by (apply IZR_le; lia).
    set (t := IZR (Z.of_nat k)) in *.
    assert (T : t * u53 <= / 8).
    { assert (T1 : t <= bpow radix2 50). { change (bpow radix2 50) with (IZR (2 ^ 50)). apply IZR_le. lia. }
      apply Rle_trans with (bpow radix2 50 * u53); [apply Rmult_le_compat_r; lra|]. rewrite <- bpow_plus. change (50 + -53)%Z with (-3)%Z. unfold bpow. cbn. lra. }
    assert (0 <= t * u53) by (apply Rmult_le_pos; lra). set (w := t * u53) in *. replace ((t + 1) * u53) with (w + u53) by (unfold w; ring).
    assert (u53 * gam k <= u53 * (w * (1 + w))) by (apply Rmult_le_compat_l; lra).
    assert (W2 : w * (1 + w) <= 2 * w) by (clear - T H0; nra).
    assert (u53 * (w * (1 + w)) <= u53 * (2 * w)) by (apply Rmult_le_compat_l; lra).
    assert (0 <= u53 * u53) by (apply Rmult_le_pos; lra). lra. }
  specialize (G d H).
  assert (K0 : 0 <= IZR (Z.of_nat d)) by (apply IZR_le; lia).
  assert (T1 : IZR (Z.of_nat d) <= bpow radix2 50). { change (bpow radix2 50) with (IZR (2 ^ 50)). now apply IZR_le. }
  assert (T : IZR (Z.of_nat d) * u53 <= 1).
  { apply Rle_trans with (bpow radix2 50 * u53); [apply Rmult_le_compat_r; lra|]. rewrite <- bpow_plus. change (50 + -53)%Z with (-3)%Z. unfold bpow. cbn. lra. }
  assert (0 <= IZR (Z.of_nat d) * u53) by (apply Rmult_le_pos; lra). nra.
Qed.

Lemma tsum_error t : fins (leaves t) -> (1 + gam (depth t)) * asum (leaves t) <= bpow radix2 1023 ->
  fin (tsum t) /\ Rabs (val (tsum t) - rsum (leaves t)) <= gam (depth t) * asum (leaves t).
Proof.
  induction t as [x|a IHa b IHb]; intros F B.
  - cbn [tsum leaves depth] in *. split; [apply F; now left|]. rewrite gam_0. unfold rsum. cbn [fold_right].
    replace (val x - (val x + 0)) with 0 by ring. rewrite Rabs_R0. lra.
  - cbn [tsum leaves depth] in *. set (d := Nat.max (depth a) (depth b)) in *.
    assert (Fa : fins (leaves a)) by (intros x Hx; apply F, in_or_app; now left).
    assert (Fb : fins (leaves b)) by (intros x Hx; apply F, in_or_app; now right).
    rewrite asum_app in B |- *. rewrite rsum_app.
    pose proof (asum_pos (leaves a)) as Pa. pose proof (asum_pos (leaves b)) as Pb.
    pose proof (gam_le (depth a) d (Nat.le_max_l _ _)) as Ga. pose proof (gam_le (depth b) d (Nat.le_max_r _ _)) as Gb.
    pose proof (gam_pos d) as Gd. pose proof (gam_pos (depth a)) as Gpa. pose proof (gam_pos (depth b)) as Gpb. pose proof u53_pos as UP.
    rewrite gam_S in B |- *. set (A := asum (leaves a)) in *. set (C := asum (leaves b)) in *. set (g := gam d) in *.
    assert (B' : (1 + g) * (A + C) <= bpow radix2 1023).
    { eapply Rle_trans; [|exact B]. apply Rmult_le_compat_r; nra. }
    destruct (IHa Fa) as [Fta Ea]. { fold A. eapply Rle_trans; [|exact B']. apply Rmult_le_compat; lra. }
    destruct (IHb Fb) as [Ftb Eb]. { fold C. eapply Rle_trans; [|exact B']. apply Rmult_le_compat; lra. }
    fold A in Ea. fold C in Eb.
    assert (Ea' : Rabs (val (tsum a) - rsum (leaves a)) <= g * A) by (eapply Rle_trans; [exact Ea|apply Rmult_le_compat_r; lra]).
    assert (Eb' : Rabs (val (tsum b) - rsum (leaves b)) <= g * C) by (eapply Rle_trans; [exact Eb|apply Rmult_le_compat_r; lra]).
    pose proof (rsum_asum (leaves a)) as Ra. pose proof (rsum_asum (leaves b)) as Rb. fold A in Ra. fold C in Rb.
    set (p := val (tsum a)) in *. set (q := val (tsum b)) in *. set (ra := rsum (leaves a)) in *. set (rb := rsum (leaves b)) in *.
    assert (E1 : Rabs (p + q - (ra + rb)) <= g * (A + C)).
    { replace (p + q - (ra + rb)) with ((p - ra) + (q - rb)) by ring. eapply Rle_trans; [apply Rabs_triang|]. lra. }
    assert (E2 : Rabs (p + q) <= (1 + g) * (A + C)).
    { replace (p + q) with ((p + q - (ra + rb)) + (ra + rb)) by ring. eapply Rle_trans; [apply Rabs_triang|].
      pose proof (Rabs_triang ra rb). lra. }
    destruct (fadd_val (tsum a) (tsum b) Fta Ftb) as [Es Fs]. { fold p q. lra. }
    split; [exact Fs|]. rewrite Es. destruct (rnd_plus_rel (tsum a) (tsum b)) as (e & He & Ee). rewrite Ee. fold p q.
    replace ((p + q) * (1 + e) - (ra + rb)) with ((p + q - (ra + rb)) + (p + q) * e) by ring.
    eapply Rle_trans; [apply Rabs_triang|]. rewrite (Rabs_mult (p + q) e).
    assert (Rabs (p + q) * Rabs e <= (1 + g) * (A + C) * u53) by (apply Rmult_le_compat; auto using Rabs_pos). lra.
Qed.

(** one division by the count *)
Lemma rnd_err x : Rabs (rnd x - x) <= u53 * Rabs x + bpow radix2 (-1075).
Proof.
  destruct (relative_error_N_FLT'_ex radix2 (-1074) 53 ltac:(reflexivity) (fun x => negb (Z.even x)) x) as (e & t & E1 & E2 & _ & E3).
  change (FLT_exp (-1074) 53) with fexp64 in E3. rewrite E3.
  replace (x * (1 + e) + t - x) with (x * e + t) by ring. eapply Rle_trans; [apply Rabs_triang|]. rewrite Rabs_mult.
  assert (U : Rabs e <= u53).
  { eapply Rle_trans; [exact E1|]. eapply Rle_trans; [apply u_rod1pu_ro_le_u_ro|]. unfold u_ro. rewrite bpow_plus. change (bpow radix2 1) with 2. change (- (53))%Z with (-53)%Z. lra. }
  assert (bpow radix2 (-1074) = 2 * bpow radix2 (-1075)). { change (-1074)%Z with (1 + -1075)%Z. rewrite bpow_plus. reflexivity. }
  pose proof (Rabs_pos x). rewrite (Rmult_comm u53). apply Rplus_le_compat; [now apply Rmult_le_compat_l|lra].
Qed.

Lemma mean_error t n : fins (leaves t) -> (1 <= n)%nat -> (Z.of_nat n <= 2 ^ 53)%Z ->
  (1 + gam (depth t)) * asum (leaves t) <= bpow radix2 1023 ->
  fin (fdiv (tsum t) (fofn n)) /\
  Rabs (val (fdiv (tsum t) (fofn n)) - rsum (leaves t) / IZR (Z.of_nat n)) <= gam (S (depth t)) * (asum (leaves t) / IZR (Z.of_nat n)) + bpow radix2 (-1075).
Proof.
  intros F N1 Hn B. destruct (tsum_error t F B) as [Fs E]. destruct (fofZ_val (Z.of_nat n) ltac:(lia)) as [Vn Fn].
  set (s := val (tsum t)) in *.
  set (A := asum (leaves t)) in *. set (r := rsum (leaves t)) in *. set (g := gam (depth t)) in *.
  assert (N : 1 <= IZR (Z.of_nat n)) by (apply IZR_le; lia). set (k := IZR (Z.of_nat n)) in *.
  pose proof (asum_pos (leaves t)) as PA. fold A in PA. pose proof (rsum_asum (leaves t)) as RA. fold r A in RA. pose proof (gam_pos (depth t)) as PG. fold g in PG.
  assert (KI : 0 < / k) by (apply Rinv_0_lt_compat; lra).
  assert (S1 : Rabs s <= (1 + g) * A). { replace s with ((s - r) + r) by ring. eapply Rle_trans; [apply Rabs_triang|]. lra. }
  assert (KI1 : / k <= 1) by (rewrite <- Rinv_1; apply Rinv_le; lra).
  assert (S2 : Rabs (s / k) <= (1 + g) * (A / k)).
  { unfold Rdiv. rewrite Rabs_mult, (Rabs_pos_eq (/ k)) by lra. rewrite <- Rmult_assoc. apply Rmult_le_compat_r; lra. }
  destruct (fdiv_val (tsum t) (fofn n) Fs Fn) as [Ed Fd].
  { unfold fofn. rewrite Vn. fold k. lra. }
  { unfold fofn. rewrite Vn. fold s k. unfold Rdiv. rewrite Rabs_mult, (Rabs_pos_eq (/ k)) by lra. pose proof (Rabs_pos s). nra. }
  split; [exact Fd|]. rewrite Ed. unfold fofn. rewrite Vn. fold s k.
  replace (rnd (s / k) - r / k) with ((rnd (s / k) - s / k) + (s - r) / k) by (unfold Rdiv; ring).
  eapply Rle_trans; [apply Rabs_triang|]. pose proof (rnd_err (s / k)) as RE.
  assert (E' : Rabs ((s - r) / k) <= g * (A / k)).
  { unfold Rdiv. rewrite Rabs_mult, (Rabs_pos_eq (/ k)) by lra. rewrite <- Rmult_assoc. apply Rmult_le_compat_r; lra. }
  rewrite gam_S. fold g. pose proof u53_pos as UP.
  assert (u53 * Rabs (s / k) <= u53 * ((1 + g) * (A / k))) by (apply Rmult_le_compat_l; lra). lra.
Qed.

(** adding one after the other *)
Fixpoint chain (acc : tree) (l : list b64) : tree := match l with [] => acc | x :: l' => chain (Plus acc (Leaf x)) l' end.
Lemma chain_sum l : forall acc, tsum (chain acc l) = fold_left fadd l (tsum acc).
Proof. induction l as [|x l IH]; intros acc; [reflexivity|]. cbn [chain fold_left]. now rewrite IH. Qed.
Lemma chain_leaves l : forall acc, leaves (chain acc l) = leaves acc ++ l.
Proof. induction l as [|x l IH]; intros acc; cbn [chain]; [now rewrite app_nil_r|]. rewrite IH. cbn [leaves]. now rewrite <- app_assoc. Qed.
Lemma chain_depth l : forall acc, depth (chain acc l) = (depth acc + length l)%nat.
Proof. induction l as [|x l IH]; intros acc; cbn [chain length]; [lia|]. rewrite IH. cbn [depth]. rewrite Nat.max_0_r. lia. Qed.

Lemma fsum_error l n : fins l -> (1 <= n)%nat -> (Z.of_nat n <= 2 ^ 53)%Z ->
  (1 + gam (length l)) * asum l <= bpow radix2 1023 ->
  fin (fdiv (fsum l) (fofn n)) /\
  Rabs (val (fdiv (fsum l) (fofn n)) - rsum l / IZR (Z.of_nat n)) <= gam (S (length l)) * (asum l / IZR (Z.of_nat n)) + bpow radix2 (-1075).
Proof.
  intros F N1 Hn B. pose proof (mean_error (chain (Leaf fzero) l) n) as M.
  rewrite chain_leaves, chain_depth, chain_sum in M. cbn [leaves app depth tsum Nat.add] in M.
  assert (R0 : rsum (fzero :: l) = rsum l) by (unfold rsum; cbn [fold_right]; unfold fzero at 1; cbn [B2R]; ring).
  assert (A0 : asum (fzero :: l) = asum l) by (unfold asum; cbn [fold_right]; unfold fzero at 1; cbn [B2R]; rewrite Rabs_R0; ring).
  rewrite R0, A0 in M. apply M; auto. intros x [<-|Hx]; [reflexivity|now apply F].
Qed.
