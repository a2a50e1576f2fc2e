(** FloatVar: the bin variance (utils.py:163-244) in binary64: two passes, relative accuracy, sign. *)
From Coq Require Import Reals Permutation.
From Flocq Require Import Core.
From Flocq Require Import IEEE754.BinarySingleNaN Relative.
From Verif Require Import Base Numpy NumpyFacts FloatModel FloatFacts FloatGrid FloatBins FloatProofs FloatMean FloatAcc Prop_FloatMean.
From Coq Require Import Lra.
Open Scope R_scope.

Definition sqdev (m e : b64) : b64 := fmul (fsub e m) (fsub e m).
(** exact sum of squared deviations *)
Definition dev2 (m : R) (l : list b64) : R := fold_right (fun e s => (val e - m) * (val e - m) + s) 0 l.
Lemma dev2_pos m l : 0 <= dev2 m l.
Proof. unfold dev2. induction l as [|e l IH]; cbn [fold_right]; [lra|]. pose proof (Rle_0_sqr (val e - m)) as P. unfold Rsqr in P. lra. Qed.
Lemma dev2_in m l e : In e l -> (val e - m) * (val e - m) <= dev2 m l.
Proof.
  unfold dev2. induction l as [|a l IH]; intros H; [destruct H|]. cbn [fold_right]. pose proof (dev2_pos m l) as P. unfold dev2 in P. pose proof (Rle_0_sqr (val a - m)) as Q. unfold Rsqr in Q.
  destruct H as [->|H]; [lra|]. specialize (IH H). lra.
Qed.
(** sum of squares about any m = n Var + n (m - mean)^2 *)
Lemma dev2_shift m l n : length l = n -> (1 <= n)%nat ->
  dev2 m l = dev2 (rsum l / IZR (Z.of_nat n)) l + IZR (Z.of_nat n) * ((m - rsum l / IZR (Z.of_nat n)) * (m - rsum l / IZR (Z.of_nat n))).
Proof.
  intros L N. assert (G : forall c, dev2 c l = dev2 0 l - 2 * c * rsum l + IZR (Z.of_nat (length l)) * (c * c)).
  { intros c. clear. unfold dev2, rsum. induction l as [|e l IH]; cbn [fold_right length]; [change (Z.of_nat 0) with 0%Z; lra|]. rewrite Nat2Z.inj_succ, succ_IZR, IH. ring. }
  rewrite (G m), (G (rsum l / _)), L. assert (1 <= IZR (Z.of_nat n)) by (apply IZR_le; lia). field. lra.
Qed.

Lemma sqdev_ok m e : fin m -> fin e -> (val e - val m) * (val e - val m) <= bpow radix2 1021 -> Rabs (val e - val m) <= bpow radix2 1021 ->
  let r := (val e - val m) * (val e - val m) in
  fin (sqdev m e) /\ 0 <= val (sqdev m e) /\ Rabs (val (sqdev m e) - r) <= gam 3 * r + eta.
Proof.
  intros Fm Fe B1 B2 r. pose proof bpow1021_big as B8. pose proof u53_pos as U. pose proof u53_small as US.
  destruct (fsub_val e m Fe Fm) as [V F]. { rewrite bpow1023. lra. }
  destruct (rnd_minus_rel e m) as (d & D1 & D2). rewrite D2 in V. set (w := val e - val m) in *.
  assert (R0 : 0 <= r) by (unfold r; pose proof (Rle_0_sqr w) as Q; unfold Rsqr in Q; exact Q). fold r in B1.
  apply Rabs_le_inv in D1.
  assert (S : val (fsub e m) * val (fsub e m) = r * ((1 + d) * (1 + d))) by (rewrite V; unfold r; ring).
  assert (T : 0 <= (1 + d) * (1 + d) <= (1 + u53) * (1 + u53)) by (clear - D1 U US; split; nra).
  assert (T' : Rabs ((1 + d) * (1 + d) - 1) <= (1 + u53) * (1 + u53) - 1) by (apply Rabs_le; clear - D1 U US; split; nra).
  assert (SB : 0 <= r * ((1 + d) * (1 + d)) <= r * ((1 + u53) * (1 + u53))) by (split; [apply Rmult_le_pos; lra|apply Rmult_le_compat_l; lra]).
  assert (T2 : (1 + u53) * (1 + u53) <= 2) by nra.
  destruct (fmul_val (fsub e m) (fsub e m) F F) as [V2 F2].
  { rewrite S, Rabs_pos_eq by lra. rewrite bpow1023. assert (r * ((1 + u53) * (1 + u53)) <= r * 2) by (apply Rmult_le_compat_l; lra). lra. }
  split; [exact F2|]. unfold sqdev. rewrite V2, S. split; [apply rnd_nonneg; lra|].
  pose proof (rnd_err (r * ((1 + d) * (1 + d)))) as RE. rewrite (Rabs_pos_eq (r * _)) in RE by lra.
  replace (rnd (r * ((1 + d) * (1 + d))) - r) with ((rnd (r * ((1 + d) * (1 + d))) - r * ((1 + d) * (1 + d))) + r * ((1 + d) * (1 + d) - 1)) by ring.
  eapply Rle_trans; [apply Rabs_triang|]. rewrite (Rabs_mult r), (Rabs_pos_eq r R0).
  assert (r * Rabs ((1 + d) * (1 + d) - 1) <= r * ((1 + u53) * (1 + u53) - 1)) by (apply Rmult_le_compat_l; lra).
  assert (u53 * (r * ((1 + d) * (1 + d))) <= u53 * (r * ((1 + u53) * (1 + u53)))) by (apply Rmult_le_compat_l; lra).
  assert (G3 : gam 3 * r = r * ((1 + u53) * (1 + u53) - 1) + u53 * (r * ((1 + u53) * (1 + u53)))) by (unfold gam; cbn [pow]; ring). lra.
Qed.

Lemma sqdev_sum m l : fin m -> fins l -> dev2 (val m) l <= bpow radix2 1021 -> (forall e, In e l -> Rabs (val e - val m) <= bpow radix2 1021) ->
  let qs := map (sqdev m) l in
  fins qs /\ (forall q, In q qs -> 0 <= val q) /\ asum qs = rsum qs /\
  Rabs (rsum qs - dev2 (val m) l) <= gam 3 * dev2 (val m) l + IZR (Z.of_nat (length l)) * eta.
Proof.
  intros Fm F B1 B2 qs. unfold qs.
  assert (Q : forall e, In e l -> fin (sqdev m e) /\ 0 <= val (sqdev m e) /\ Rabs (val (sqdev m e) - (val e - val m) * (val e - val m)) <= gam 3 * ((val e - val m) * (val e - val m)) + eta).
  { intros e He. apply sqdev_ok; auto. pose proof (dev2_in (val m) l e He). lra. }
  split; [intros q Hq; apply in_map_iff in Hq as (e & <- & He); now apply Q|].
  split; [intros q Hq; apply in_map_iff in Hq as (e & <- & He); now apply Q|].
  clear F B1 B2. unfold asum, rsum, dev2. induction l as [|e l IH]; cbn [map fold_right length].
  - split; [reflexivity|]. change (Z.of_nat 0) with 0%Z. rewrite Rminus_0_r, Rabs_R0. lra.
  - destruct IH as [I1 I2]; [intros a Ha; apply Q; now right|]. destruct (Q e (or_introl eq_refl)) as (_ & P & E). split; [rewrite I1, Rabs_pos_eq by exact P; reflexivity|].
    rewrite Nat2Z.inj_succ, succ_IZR.
    match goal with |- Rabs (?a + ?b - (?c + ?d)) <= _ => replace (a + b - (c + d)) with ((a - c) + (b - d)) by ring end.
    eapply Rle_trans; [apply Rabs_triang|]. lra.
Qed.

(** a finite sum comes from finite terms and is the rounding of the exact sum *)
Lemma fadd_inv x y : fin (fadd x y) -> fin x /\ fin y /\ val (fadd x y) = rnd (val x + val y).
Proof.
  intros F. assert (Fx : fin x). { destruct x as [s|s| |s m e W]; try reflexivity; exfalso; destruct y as [t|t| |t q d V]; unfold fin, fadd, Bplus in F; cbn in F; try discriminate F; try (destruct (Bool.eqb _ _); discriminate F); try (destruct s, t; discriminate F). }
  assert (Fy : fin y). { destruct y as [s|s| |s m e W]; try reflexivity; exfalso; destruct x as [t|t| |t q d V]; unfold fin, fadd, Bplus in F; cbn in F; try discriminate F; try (destruct (Bool.eqb _ _); discriminate F); try (destruct s, t; discriminate F). }
  split; [exact Fx|]. split; [exact Fy|]. pose proof (Bplus_correct 53 1024 _ _ mode_NE x y Fx Fy) as P. cbn [round_mode] in P.
  destruct (Rlt_bool _ _); [apply P|]. destruct P as [P _]. exfalso. change (Bplus mode_NE x y) with (fadd x y) in P. unfold fin in F. rewrite <- is_finite_SF_B2SF, P in F.
  unfold binary_overflow, overflow_to_inf in F. destruct (Bsign x); discriminate F.
Qed.
Lemma fold_fadd_nonneg qs : forall acc, fin (fold_left fadd qs acc) -> 0 <= val acc -> (forall q, In q qs -> 0 <= val q) -> 0 <= val (fold_left fadd qs acc).
Proof.
  induction qs as [|q qs IH]; intros acc F A H; cbn [fold_left] in *; [exact A|]. apply IH; [exact F| |intros; apply H; now right].
  assert (FA : fin (fadd acc q)).
  { clear - F. revert F. generalize (fadd acc q). clear. induction qs as [|q qs IH]; intros a F; cbn [fold_left] in F; [exact F|]. apply IH in F. now apply fadd_inv in F. }
  apply fadd_inv in FA as (_ & _ & ->). apply rnd_nonneg. pose proof (H q (or_introl eq_refl)). lra.
Qed.

Theorem variance_error m l n : fin m -> fins l -> length l = n -> (1 <= n)%nat -> (Z.of_nat n + 1 <= 2 ^ 50)%Z ->
  dev2 (val m) l <= bpow radix2 1021 -> (forall e, In e l -> Rabs (val e - val m) <= bpow radix2 1021) ->
  let v := fdiv (fsum (map (sqdev m) l)) (fofn n) in
  let r := dev2 (val m) l / IZR (Z.of_nat n) in
  fin v /\ 0 <= val v /\ Rabs (val v - r) <= gam (n + 4) * r + 3 * eta.
Proof.
  intros Fm F L N1 HN B1 B2 v r. destruct (sqdev_sum m l Fm F B1 B2) as (Fq & Pq & A & E). set (qs := map (sqdev m) l) in *.
  assert (Lq : length qs = n) by (unfold qs; rewrite map_length; exact L). rewrite L in E.
  pose proof (dev2_pos (val m) l) as D0. set (D := dev2 (val m) l) in *. set (k := IZR (Z.of_nat n)) in *.
  assert (K1 : 1 <= k) by (apply IZR_le; lia). pose proof (bpow_gt_0 radix2 (-1075)) as E0. pose proof bpow1021_big as B8.
  assert (KE : k * eta <= 1).
  { assert (k <= bpow radix2 50) by (change (bpow radix2 50) with (IZR (2 ^ 50)); apply IZR_le; lia).
    apply Rle_trans with (bpow radix2 50 * eta); [apply Rmult_le_compat_r; lra|]. rewrite <- bpow_plus. change 1 with (bpow radix2 0). apply bpow_le. lia. }
  assert (G3 : gam 3 <= / 4) by (apply gam_1; lia). pose proof (gam_pos 3) as G30.
  assert (RQ : rsum qs <= (1 + gam 3) * D + k * eta) by (apply Rabs_le_inv in E; lra).
  assert (RQ0 : 0 <= rsum qs) by (rewrite <- A; apply asum_pos).
  assert (G3D : gam 3 * D <= / 4 * D) by (apply Rmult_le_compat_r; lra).
  pose proof (gam_1 n ltac:(lia)) as Gn. pose proof (gam_pos n) as Gn0.
  destruct (fsum_error qs n Fq N1 ltac:(lia)) as [Fv Ev].
  { rewrite Lq, A, bpow1023. assert (gam n * rsum qs <= / 4 * rsum qs) by (apply Rmult_le_compat_r; lra). lra. }
  assert (Fs : fin (fsum qs)).
  { assert (FC : fin (tsum (chain (Leaf fzero) qs))).
    { apply tsum_error; rewrite chain_leaves; cbn [leaves app].
      - intros x [<-|Hx]; [reflexivity|now apply Fq].
      - rewrite chain_depth. cbn [depth Nat.add]. unfold asum. cbn [fold_right]. unfold fzero. cbn [B2R]. rewrite Rabs_R0, Rplus_0_l.
        fold (asum qs). rewrite Lq, A, bpow1023. assert (gam n * rsum qs <= / 4 * rsum qs) by (apply Rmult_le_compat_r; lra). lra. }
    rewrite chain_sum in FC. exact FC. }
  assert (Ps : 0 <= val (fsum qs)) by (apply fold_fadd_nonneg; [exact Fs|cbn; lra|exact Pq]).
  split; [exact Fv|]. split.
  { destruct (fofZ_val (Z.of_nat n) ltac:(lia)) as [Vn Fn].
    assert (NZ : val (fofZ (Z.of_nat n)) <> 0) by (rewrite Vn; fold k; lra).
    pose proof (Bdiv_correct 53 1024 _ _ mode_NE (fsum qs) (fofZ (Z.of_nat n)) NZ) as P. cbn [round_mode] in P. change (Bdiv mode_NE (fsum qs) (fofZ (Z.of_nat n))) with v in P.
    destruct (Rlt_bool _ _).
    - destruct P as (-> & _). apply rnd_nonneg. rewrite Vn. fold k. unfold Rdiv. apply Rmult_le_pos; [exact Ps|]. left. apply Rinv_0_lt_compat. lra.
    - exfalso. unfold fin in Fv. rewrite <- is_finite_SF_B2SF in Fv. change (fdiv (fsum qs) (fofn n)) with v in Fv. rewrite P in Fv. unfold binary_overflow, overflow_to_inf in Fv. destruct (xorb _ _); discriminate Fv. }
  rewrite Lq, A in Ev. fold v k in Ev.
  assert (KI : 0 < / k) by (apply Rinv_0_lt_compat; lra).
  assert (R0 : 0 <= r) by (unfold r, Rdiv; apply Rmult_le_pos; lra).
  assert (E' : Rabs (rsum qs / k - r) <= gam 3 * r + eta).
  { unfold r. replace (rsum qs / k - D / k) with ((rsum qs - D) / k) by (field; lra). unfold Rdiv at 1. rewrite Rabs_mult, (Rabs_pos_eq (/ k)) by lra.
    apply Rle_div_l; [lra|]. replace ((gam 3 * (D / k) + eta) * k) with (gam 3 * D + k * eta) by (field; lra). exact E. }
  assert (Q : rsum qs / k <= (1 + gam 3) * r + eta) by (apply Rabs_le_inv in E'; lra).
  pose proof (gam_pos (S n)) as GS0. pose proof (gam_1 (S n) ltac:(lia)) as GS1.
  assert (P : gam (S n) * (rsum qs / k) <= gam (S n) * ((1 + gam 3) * r + eta)) by (apply Rmult_le_compat_l; auto).
  assert (GP : gam (n + 4) = gam (S n) * (1 + gam 3) + gam 3).
  { unfold gam. replace (n + 4)%nat with (S n + 3)%nat by lia. rewrite pow_add. ring. }
  replace (val v - r) with ((val v - rsum qs / k) + (rsum qs / k - r)) by ring. eapply Rle_trans; [apply Rabs_triang|]. rewrite GP.
  assert (gam (S n) * eta <= eta) by nra. lra.
Qed.
