(** FloatPDPMean: means and standard deviations of lists of binary64 numbers, in any fixed order of summation. *)
From Coq Require Import Reals Permutation.
From Flocq Require Import Core.
From Flocq Require Import IEEE754.BinarySingleNaN Relative.
From Verif Require Import Base Numpy NumpyFacts FloatModel FloatFacts FloatGrid FloatBins FloatProofs FloatMean FloatAcc FloatVar FloatPDP FloatPDPSpec.
From Coq Require Import Lra.
Open Scope R_scope.

Lemma rsum_Rsum l : rsum l = Rsum (map val l).
Proof. unfold rsum, Rsum. induction l as [|x l IH]; cbn [fold_right map]; [reflexivity|]. now rewrite IH. Qed.
Lemma Rsum_app a b : Rsum (a ++ b) = Rsum a + Rsum b.
Proof. unfold Rsum. induction a as [|x a IH]; cbn [app fold_right]; [ring|]. rewrite IH. ring. Qed.
Lemma Rsum_lin {A} (k c : R) (f : A -> R) l : Rsum (map (fun v => k * f v + c) l) = k * Rsum (map f l) + INR (length l) * c.
Proof. unfold Rsum. induction l as [|x l IH]; cbn [map fold_right length]; [cbn; ring|]. rewrite IH, S_INR. ring. Qed.
Lemma Rsum_plus {A} (f g : A -> R) l : Rsum (map (fun v => f v + g v) l) = Rsum (map f l) + Rsum (map g l).
Proof. unfold Rsum. induction l as [|x l IH]; cbn [map fold_right]; [ring|]. rewrite IH. ring. Qed.
Lemma Rsum_scal {A} (k : R) (f : A -> R) l : Rsum (map (fun v => k * f v) l) = k * Rsum (map f l).
Proof. unfold Rsum. induction l as [|x l IH]; cbn [map fold_right]; [ring|]. rewrite IH. ring. Qed.
Lemma Rsum_const {A} (c : R) (l : list A) : Rsum (map (fun _ => c) l) = INR (length l) * c.
Proof. unfold Rsum. induction l as [|x l IH]; cbn [map fold_right length]; [cbn; ring|]. rewrite IH, S_INR. ring. Qed.
Lemma Rsum_ext {A} (f g : A -> R) l : (forall v, In v l -> f v = g v) -> Rsum (map f l) = Rsum (map g l).
Proof. intros H. f_equal. now apply map_ext_in. Qed.
Lemma Rsum_le {A} (f g : A -> R) l : (forall v, In v l -> f v <= g v) -> Rsum (map f l) <= Rsum (map g l).
Proof. unfold Rsum. induction l as [|x l IH]; intros H; cbn [map fold_right]; [lra|]. pose proof (H x (or_introl eq_refl)). pose proof (IH (fun v Hv => H v (or_intror Hv))). lra. Qed.
Lemma Rsum_abs {A} (f : A -> R) l : Rabs (Rsum (map f l)) <= Rsum (map (fun v => Rabs (f v)) l).
Proof. unfold Rsum. induction l as [|x l IH]; cbn [map fold_right]; [rewrite Rabs_R0; lra|]. eapply Rle_trans; [apply Rabs_triang|]. lra. Qed.
Lemma Rsum_swap {A B} (f : A -> B -> R) l l' : Rsum (map (fun a => Rsum (map (fun b => f a b) l')) l) = Rsum (map (fun b => Rsum (map (fun a => f a b) l)) l').
Proof.
  induction l as [|a l IH]; cbn [map].
  - unfold Rsum at 1. cbn [fold_right]. rewrite (Rsum_ext _ (fun _ => 0)) by reflexivity. rewrite Rsum_const. ring.
  - unfold Rsum at 1. cbn [fold_right]. fold (Rsum (map (fun a => Rsum (map (fun b => f a b) l')) l)). rewrite IH, <- Rsum_plus. apply Rsum_ext. intros b _. reflexivity.
Qed.
Lemma len_pos {A} (l : list A) : l <> [] -> 0 < INR (length l).
Proof. intros N. apply lt_0_INR. destruct l; [congruence|cbn; lia]. Qed.
Lemma Ravg_close {A} (f g : A -> R) l d : l <> [] -> (forall v, In v l -> Rabs (f v - g v) <= d) -> Rabs (Ravg (map f l) - Ravg (map g l)) <= d.
Proof.
  intros N H. unfold Ravg. rewrite !map_length. pose proof (len_pos l N) as P. replace (Rsum (map f l) / INR (length l) - Rsum (map g l) / INR (length l)) with (Rsum (map (fun v => f v - g v) l) / INR (length l)).
  2:{ rewrite (Rsum_ext (fun v => f v - g v) (fun v => f v + (-1) * g v)) by (intros; ring). rewrite Rsum_plus, Rsum_scal. field. lra. }
  unfold Rdiv. rewrite Rabs_mult, (Rabs_pos_eq (/ _)) by (left; now apply Rinv_0_lt_compat). apply Rle_div_l; [exact P|].
  eapply Rle_trans; [apply Rsum_abs|]. eapply Rle_trans; [apply (Rsum_le _ (fun _ => d)); exact H|]. rewrite Rsum_const. lra.
Qed.
Lemma Ravg_const {A} (c : R) (l : list A) : l <> [] -> Ravg (map (fun _ => c) l) = c.
Proof. intros N. unfold Ravg. rewrite map_length, Rsum_const. pose proof (len_pos l N). field. lra. Qed.
Lemma Ravg_bound {A} (f : A -> R) l M : l <> [] -> (forall v, In v l -> Rabs (f v) <= M) -> Rabs (Ravg (map f l)) <= M.
Proof. intros N H. pose proof (Ravg_close f (fun _ => 0) l M N) as C. rewrite Ravg_const, Rminus_0_r in C by exact N. apply C. intros v Hv. rewrite Rminus_0_r. now apply H. Qed.
Lemma Ravg_nonneg {A} (f : A -> R) l : (forall v, In v l -> 0 <= f v) -> 0 <= Ravg (map f l).
Proof.
  intros H. unfold Ravg. destruct l as [|a l]; [unfold Rsum; cbn [map fold_right length]; unfold Rdiv; lra|]. unfold Rdiv. apply Rmult_le_pos.
  - rewrite <- (Rmult_0_r (INR (length (a :: l)))), <- Rsum_const. now apply Rsum_le.
  - left. apply Rinv_0_lt_compat. rewrite map_length. apply len_pos. discriminate.
Qed.

(** Cauchy-Schwarz and Minkowski *)
Lemma cauchy {A} (f g : A -> R) l : Rsum (map (fun v => f v * g v) l) * Rsum (map (fun v => f v * g v) l) <= Rsum (map (fun v => f v * f v) l) * Rsum (map (fun v => g v * g v) l).
Proof.
  set (a := Rsum (map (fun v => f v * f v) l)). set (b := Rsum (map (fun v => g v * g v) l)). set (c := Rsum (map (fun v => f v * g v) l)).
  assert (P : forall t s, 0 <= t * t * a + 2 * t * s * c + s * s * b).
  { intros t s. replace (t * t * a + 2 * t * s * c + s * s * b) with (Rsum (map (fun v => (t * f v + s * g v) * (t * f v + s * g v)) l)).
    - rewrite <- (Rmult_0_r (INR (length l))), <- Rsum_const. apply Rsum_le. intros v _. apply Rle_0_sqr.
    - unfold a, b, c. rewrite <- !Rsum_scal, <- !Rsum_plus. apply Rsum_ext. intros v _. ring. }
  assert (A0 : 0 <= a) by (pose proof (P 1 0); lra). assert (B0 : 0 <= b) by (pose proof (P 0 1); lra).
  pose proof (P b (- c)) as Q. destruct (Rle_lt_or_eq_dec 0 b B0) as [BP|BZ].
  - assert (0 <= b * (a * b - c * c)) by lra. apply Rnot_lt_le. intros C. assert (b * (a * b - c * c) < b * 0) by (apply Rmult_lt_compat_l; lra). lra.
  - rewrite <- BZ in *. rewrite Rmult_0_r. assert (c = 0); [|subst; rewrite H; lra]. destruct (Rle_lt_or_eq_dec 0 a A0) as [AP|AZ].
    + pose proof (P (- c) a) as Q'. replace (- c * - c * a + 2 * - c * a * c + a * a * 0) with (- (a * (c * c))) in Q' by ring. assert (0 <= c * c) by apply Rle_0_sqr.
      assert (c * c <= 0). { apply Rnot_lt_le. intros C. assert (0 < a * (c * c)) by (apply Rmult_lt_0_compat; lra). lra. } apply Rsqr_0_uniq. unfold Rsqr. lra.
    + pose proof (P 1 1). pose proof (P 1 (-1)). lra.
Qed.
Lemma minkowski {A} (f g : A -> R) l : sqrt (Rsum (map (fun v => (f v + g v) * (f v + g v)) l)) <= sqrt (Rsum (map (fun v => f v * f v) l)) + sqrt (Rsum (map (fun v => g v * g v) l)).
Proof.
  set (a := Rsum (map (fun v => f v * f v) l)). set (b := Rsum (map (fun v => g v * g v) l)).
  assert (A0 : 0 <= a) by (unfold a; rewrite <- (Rmult_0_r (INR (length l))), <- Rsum_const; apply Rsum_le; intros v _; apply Rle_0_sqr).
  assert (B0 : 0 <= b) by (unfold b; rewrite <- (Rmult_0_r (INR (length l))), <- Rsum_const; apply Rsum_le; intros v _; apply Rle_0_sqr).
  pose proof (cauchy f g l) as C. fold a b in C. set (c := Rsum (map (fun v => f v * g v) l)) in C.
  assert (Ec : Rsum (map (fun v => (f v + g v) * (f v + g v)) l) = a + 2 * c + b).
  { unfold a, b, c. rewrite <- (Rsum_scal 2), <- !Rsum_plus. apply Rsum_ext. intros v _. ring. }
  rewrite Ec. pose proof (sqrt_pos a) as SA. pose proof (sqrt_pos b) as SB. pose proof (sqrt_sqrt a A0) as EA. pose proof (sqrt_sqrt b B0) as EB.
  assert (CB : c <= sqrt a * sqrt b).
  { apply Rnot_lt_le. intros L. assert (0 <= sqrt a * sqrt b) by (apply Rmult_le_pos; lra). assert ((sqrt a * sqrt b) * (sqrt a * sqrt b) < c * c) by (apply Rmult_le_0_lt_compat; lra).
    replace ((sqrt a * sqrt b) * (sqrt a * sqrt b)) with ((sqrt a * sqrt a) * (sqrt b * sqrt b)) in H0 by ring. rewrite EA, EB in H0. lra. }
  rewrite <- (sqrt_square (sqrt a + sqrt b)) by lra. apply sqrt_le_1_alt. nra.
Qed.
Lemma var_shift l m : l <> [] -> Ravg (map (fun v => (v - m) * (v - m)) l) = Ravg (map (fun v => (v - Ravg l) * (v - Ravg l)) l) + (m - Ravg l) * (m - Ravg l).
Proof.
  intros N. unfold Ravg at 1 2. rewrite !map_length. pose proof (len_pos l N) as P.
  assert (G : forall c, Rsum (map (fun v => (v - c) * (v - c)) l) = Rsum (map (fun v => v * v) l) - 2 * c * Rsum l + INR (length l) * (c * c)).
  { intros c. clear. unfold Rsum. induction l as [|e l IH]; cbn [fold_right map length]; [cbn; ring|]. rewrite S_INR, IH. ring. }
  rewrite (G m), (G (Ravg l)). unfold Ravg. field. lra.
Qed.
(** the standard deviation moves at most as much as the values do *)
Lemma sd_rms {A} (f : A -> R) l : l <> [] -> Rsd (map f l) <= sqrt (Ravg (map (fun v => f v * f v) l)).
Proof.
  intros N. unfold Rsd. assert (N' : map f l <> []) by (destruct l; [congruence|discriminate]). pose proof (var_shift (map f l) 0 N') as E. rewrite map_map in E.
  rewrite (map_ext (fun v => (f v - 0) * (f v - 0)) (fun v => f v * f v)) in E by (intros; ring). apply sqrt_le_1_alt. rewrite E. pose proof (Rle_0_sqr (0 - Ravg (map f l))) as S. unfold Rsqr in S. lra.
Qed.
Lemma rms_bound {A} (f : A -> R) l d : l <> [] -> 0 <= d -> (forall v, In v l -> Rabs (f v) <= d) -> sqrt (Ravg (map (fun v => f v * f v) l)) <= d.
Proof.
  intros N D H. rewrite <- (sqrt_square d) by exact D. apply sqrt_le_1_alt. apply Rle_trans with (Rabs (Ravg (map (fun v => f v * f v) l))); [apply Rle_abs|]. apply Ravg_bound; [exact N|].
  intros v Hv. rewrite Rabs_mult. apply Rmult_le_compat; auto using Rabs_pos.
Qed.
Lemma sd_le {A} (f g : A -> R) l d : l <> [] -> 0 <= d -> (forall v, In v l -> Rabs (f v - g v) <= d) -> Rsd (map f l) <= Rsd (map g l) + d.
Proof.
  intros N D H. pose proof (len_pos l N) as P. set (n := INR (length l)) in *.
  set (mf := Ravg (map f l)). set (mg := Ravg (map g l)).
  assert (Sq : forall h : A -> R, sqrt (Ravg (map h l)) = sqrt (Rsum (map h l)) / sqrt n).
  { intros h. unfold Ravg. rewrite map_length. fold n. now apply sqrt_div_alt. }
  assert (SN : 0 < sqrt n) by now apply sqrt_lt_R0.
  apply Rle_trans with (Rsd (map g l) + sqrt (Ravg (map (fun v => ((f v - g v) - (mf - mg)) * ((f v - g v) - (mf - mg))) l))).
  - unfold Rsd. fold mf mg. rewrite !map_map, !Sq. pose proof (minkowski (fun v => g v - mg) (fun v => (f v - g v) - (mf - mg)) l) as K.
    rewrite (map_ext (fun v => (g v - mg + (f v - g v - (mf - mg))) * (g v - mg + (f v - g v - (mf - mg)))) (fun v => (f v - mf) * (f v - mf))) in K by (intros; ring).
    unfold Rdiv. rewrite <- Rmult_plus_distr_r. apply Rmult_le_compat_r; [left; now apply Rinv_0_lt_compat|exact K].
  - apply Rplus_le_compat_l. eapply Rle_trans; [|apply (rms_bound (fun v => f v - g v) l d N D H)]. apply sqrt_le_1_alt.
    assert (N' : map (fun v => f v - g v) l <> []) by (destruct l; [congruence|discriminate]).
    pose proof (var_shift (map (fun v => f v - g v) l) 0 N') as E. rewrite !map_map in E.
    assert (EM : Ravg (map (fun v => f v - g v) l) = mf - mg).
    { unfold mf, mg, Ravg. rewrite !map_length. fold n. rewrite (Rsum_ext (fun v => f v - g v) (fun v => f v + (-1) * g v)) by (intros; ring). rewrite Rsum_plus, Rsum_scal. field. lra. }
    rewrite EM in E. rewrite (map_ext (fun v => (f v - g v - 0) * (f v - g v - 0)) (fun v => (f v - g v) * (f v - g v))) in E by (intros; ring). rewrite E. pose proof (Rle_0_sqr (0 - (mf - mg))) as S. unfold Rsqr in S. lra.
Qed.
Lemma sd_close {A} (f g : A -> R) l d : l <> [] -> 0 <= d -> (forall v, In v l -> Rabs (f v - g v) <= d) -> Rabs (Rsd (map f l) - Rsd (map g l)) <= d.
Proof.
  intros N D H. pose proof (sd_le f g l d N D H). pose proof (sd_le g f l d N D ltac:(intros v Hv; rewrite Rabs_minus_sym; now apply H)). apply Rabs_le. lra.
Qed.

(** ** orders of summation *)
Lemma laid_leaves o l : leaves (laid o l) = map (fun i => nth i l fzero) (places o).
Proof. induction o as [i|a IHa b IHb]; cbn [laid leaves places map]; [reflexivity|]. now rewrite IHa, IHb, map_app. Qed.
Lemma laid_depth o l : depth (laid o l) = steps o.
Proof. induction o as [i|a IHa b IHb]; cbn [laid depth steps]; [reflexivity|]. now rewrite IHa, IHb. Qed.
Lemma places_nonempty o : (1 <= length (places o))%nat. Proof. induction o; cbn [places length]; [lia|]. rewrite app_length. lia. Qed.
Lemma steps_places o : (steps o < length (places o))%nat.
Proof. induction o as [i|a IHa b IHb]; cbn [steps places length]; [lia|]. rewrite app_length. pose proof (places_nonempty a). pose proof (places_nonempty b). lia. Qed.
Lemma complete_steps o n : complete o -> (1 <= n)%nat -> (steps (o n) < n)%nat.
Proof. intros C N. pose proof (steps_places (o n)) as S. rewrite (Permutation_length (C n N)), seq_length in S. exact S. Qed.
Lemma map_nth_seq_b (l : list b64) : map (fun i => nth i l fzero) (seq 0 (length l)) = l.
Proof. induction l as [|a l IH]; [reflexivity|]. cbn [length seq map nth]. rewrite <- seq_shift, map_map. cbn [nth]. now rewrite IH. Qed.
Lemma laid_perm o l : complete o -> l <> [] -> Permutation (leaves (laid (o (length l)) l)) l.
Proof.
  intros C N. rewrite laid_leaves. eapply Permutation_trans; [apply Permutation_map, C|rewrite map_nth_seq_b; apply Permutation_refl]. destruct l; [congruence|cbn; lia].
Qed.

Lemma asum_bound l A : (forall x, In x l -> Rabs (val x) <= A) -> asum l <= INR (length l) * A.
Proof. unfold asum. induction l as [|x l IH]; intros H; cbn [fold_right length]; [cbn; lra|]. rewrite S_INR. pose proof (H x (or_introl eq_refl)). pose proof (IH (fun v Hv => H v (or_intror Hv))). lra. Qed.

Lemma small_len_pos {A} (l : list A) : small_len l -> (1 <= length l)%nat. Proof. intros [N _]. destruct l; [congruence|cbn; lia]. Qed.
Lemma INR_Z n : INR n = IZR (Z.of_nat n). Proof. apply INR_IZR_INZ. Qed.

(** the mean, with the relative error *)
Lemma mean64_close o l A : complete o -> small_len l -> fins l -> 0 <= A <= bpow radix2 900 -> (forall x, In x l -> Rabs (val x) <= A) ->
  fin (tsum (laid (o (length l)) l)) /\ fin (mean64 o l) /\
  val (mean64 o l) = rnd (val (tsum (laid (o (length l)) l)) / INR (length l)) /\
  Rabs (val (mean64 o l) - Ravg (map val l)) <= gam (S (steps (o (length l)))) * (asum l / INR (length l)) + eta /\
  asum l / INR (length l) <= A.
Proof.
  intros C SL F HA B. pose proof (small_len_pos l SL) as L1. destruct SL as [N L2]. pose proof (laid_perm o l C N) as P. destruct (rsum_perm _ _ P) as [R1 R2]. pose proof (complete_steps o (length l) C L1) as ST.
  pose proof (asum_bound l A B) as AB. pose proof (len_pos l N) as NP. pose proof (asum_pos l) as A0.
  assert (LB : INR (length l) <= bpow radix2 40) by (rewrite INR_Z; change (bpow radix2 40) with (IZR (2 ^ 40)); now apply IZR_le).
  assert (AB2 : asum l <= bpow radix2 940). { eapply Rle_trans; [exact AB|]. change 940%Z with (40 + 900)%Z. rewrite bpow_plus. apply Rmult_le_compat; lra. }
  pose proof (gam_1 (steps (o (length l))) ltac:(lia)) as G1. pose proof (gam_pos (steps (o (length l)))) as G0.
  assert (BB : (1 + gam (depth (laid (o (length l)) l))) * asum (leaves (laid (o (length l)) l)) <= bpow radix2 1023).
  { rewrite laid_depth, R2. apply Rle_trans with (2 * bpow radix2 940); [apply Rmult_le_compat; lra|]. change 2 with (bpow radix2 1). rewrite <- bpow_plus. apply bpow_le. lia. }
  assert (FL : fins (leaves (laid (o (length l)) l))) by (intros x Hx; apply F; eapply Permutation_in; eassumption).
  destruct (tsum_error _ FL BB) as [FT TE]. destruct (mean_error _ (length l) FL L1 ltac:(lia) BB) as [FM ME]. rewrite laid_depth, R1, R2 in ME. rewrite laid_depth, R1, R2 in TE. rewrite <- INR_Z in ME. fold (mean64 o l) in FM, ME.
  split; [exact FT|]. split; [exact FM|]. split; [|split].
  - destruct (fofZ_val (Z.of_nat (length l)) ltac:(lia)) as [Vn Fn]. unfold mean64, fofn.
    destruct (fdiv_val (tsum (laid (o (length l)) l)) (fofZ (Z.of_nat (length l))) FT Fn) as [E _].
    + rewrite Vn, <- INR_Z. lra.
    + rewrite Vn, <- INR_Z. assert (T : Rabs (val (tsum (laid (o (length l)) l))) <= 2 * bpow radix2 940).
      { replace (val (tsum (laid (o (length l)) l))) with ((val (tsum (laid (o (length l)) l)) - rsum l) + rsum l) by ring. eapply Rle_trans; [apply Rabs_triang|]. pose proof (rsum_asum l). assert (gam (steps (o (length l))) * asum l <= / 4 * asum l) by (apply Rmult_le_compat_r; lra). lra. }
      assert (I1 : 1 <= INR (length l)) by (change 1 with (INR 1); apply le_INR; exact L1).
      unfold Rdiv. rewrite Rabs_mult, (Rabs_pos_eq (/ _)) by (left; apply Rinv_0_lt_compat; lra). apply Rle_div_l; [lra|].
      apply Rle_trans with (bpow radix2 1023 * 1); [|apply Rmult_le_compat_l; [apply bpow_ge_0|exact I1]]. rewrite Rmult_1_r. eapply Rle_trans; [exact T|]. change 2 with (bpow radix2 1). rewrite <- bpow_plus. apply bpow_le. lia.
    + rewrite E, Vn, <- INR_Z. reflexivity.
  - unfold Ravg. rewrite map_length, <- rsum_Rsum. exact ME.
  - apply Rle_div_l; lra.
Qed.
