(** Prop_FloatMean: C101, the rounding error of the averages effector reports. *)
From Coq Require Import Reals Permutation.
From Flocq Require Import Core.
From Flocq Require Import IEEE754.BinarySingleNaN.
From Verif Require Import Base Numpy FloatModel FloatFacts FloatGrid FloatBins FloatProofs FloatMean.
From Coq Require Import Lra.
Open Scope R_scope.

(** [gam d = (1 + 2^-53)^d - 1], about d * 2^-53 *)
Remark gam_unfold d : gam d = (1 + bpow radix2 (-53)) ^ d - 1. Proof. reflexivity. Qed.

(** global_effect_pdp.py:476-483, 556-568 (pdp_1d_non_vectorized, pdp_1d_vectorized): the outputs averaged at a position x - every instance with the feature set to x -
    and the mean: np.mean adds the N outputs in some order [t] and divides by N. *)
Definition pdp_outputs64 (g : list b64 -> b64) (X : list (list b64)) (f : nat) (x : b64) : list b64 :=
  map (fun r => g (list_set r f x)) X.
Definition np_mean64 (t : tree) (n : nat) : b64 := fdiv (tsum t) (fofn n).

Lemma depth_leaves t : (depth t < length (leaves t))%nat.
Proof. induction t as [x|a IHa b IHb]; cbn [depth leaves]; [cbn; lia|]. rewrite app_length. lia. Qed.

(** Whatever the order of summation, the float64 PDP value is within ((1+2^-53)^(d+1) - 1) mean|y| of the exact mean of
    the outputs, d the depth of the order (at most N - 1, about log2 N for pairwise summation). *)
Theorem C101_pdp g X f x t :
  X <> [] -> (Z.of_nat (length X) <= 2 ^ 50)%Z ->
  Permutation (leaves t) (pdp_outputs64 g X f x) -> fins (pdp_outputs64 g X f x) ->
  asum (pdp_outputs64 g X f x) <= bpow radix2 1022 ->
  let ys := pdp_outputs64 g X f x in let N := IZR (Z.of_nat (length X)) in
  fin (np_mean64 t (length X)) /\
  Rabs (val (np_mean64 t (length X)) - rsum ys / N) <= gam (S (depth t)) * (asum ys / N) + bpow radix2 (-1075) /\
  (depth t < length X)%nat /\
  gam (S (depth t)) <= 2 * IZR (Z.of_nat (S (depth t))) * bpow radix2 (-53).
Proof.
  intros NX HN P F B ys N. assert (L : (1 <= length X)%nat) by (destruct X; [congruence|cbn; lia]).
  assert (Ll : length (leaves t) = length X) by (rewrite (Permutation_length P); apply map_length).
  pose proof (depth_leaves t) as DL. destruct (rsum_perm _ _ P) as [R1 R2].
  assert (G : gam (depth t) <= 1).
  { pose proof (gam_small (depth t) ltac:(lia)) as GS. assert (IZR (Z.of_nat (depth t)) <= bpow radix2 50). { change (bpow radix2 50) with (IZR (2 ^ 50)). apply IZR_le. lia. }
    assert (IZR (Z.of_nat (depth t)) * u53 <= bpow radix2 50 * u53) by (apply Rmult_le_compat_r; [apply bpow_ge_0|assumption]).
    rewrite <- bpow_plus in H0. change (50 + -53)%Z with (-3)%Z in H0. assert (bpow radix2 (-3) <= / 8) by (unfold bpow; cbn; lra). lra. }
  pose proof (gam_pos (depth t)) as GP. pose proof (asum_pos (pdp_outputs64 g X f x)) as AP.
  destruct (mean_error t (length X)) as [M1 M2]; [|exact L|lia| |].
  - intros y Hy. apply F. eapply Permutation_in; eauto.
  - rewrite R2. change 1023%Z with (1 + 1022)%Z. rewrite bpow_plus. change (bpow radix2 1) with 2. apply Rmult_le_compat; lra.
  - rewrite R1, R2 in M2. split; [exact M1|]. split; [exact M2|]. split; [lia|]. apply gam_small. lia.
Qed.

(** the instances of bin k of limits l' *)
Definition in_bin64 (l' : list b64) (k : nat) (x : b64) : bool := Bleb (nth k l' fnan) x && Bltb x (nth (S k) l' fnan).
Definition bin_members (l' : list b64) (k : nat) (xs es : list b64) : list b64 :=
  map snd (filter (fun p => in_bin64 l' k (fst p)) (combine xs es)).

Lemma in_bin_digitize l' k x : fins l' -> sorted64 l' -> fin x -> (S k < length l')%nat ->
  in_bin64 l' k x = Z.eqb (Z.of_nat k) (Z.of_nat (digitize64_1 l' x) - 1).
Proof.
  intros F So Fx Hk. pose proof (digitize64_iff l' x F So Fx k ltac:(lia)) as I1. pose proof (digitize64_iff l' x F So Fx (S k) Hk) as I2.
  unfold in_bin64. apply eq_true_iff_eq. rewrite andb_true_iff, fle_val, flt_val, Z.eqb_eq by (auto; apply fins_nth; auto; lia).
  split.
  - intros [H1 H2]. apply I1 in H1. assert (~ (S k < digitize64_1 l' x)%nat) by (rewrite I2; lra). lia.
  - intros E. split; [apply I1; lia|]. apply Rnot_le_lt. rewrite <- I2. lia.
Qed.

Lemma filter_combine_map {A B} (p : B -> bool) (q : A -> bool) (h : A -> B) (xs : list A) (es : list b64) :
  (forall x, In x xs -> p (h x) = q x) ->
  map snd (filter (fun z => p (fst z)) (combine (map h xs) es)) = map snd (filter (fun z => q (fst z)) (combine xs es)).
Proof.
  revert es. induction xs as [|x xs IH]; intros [|e es] H; try reflexivity. cbn [map combine filter fst].
  rewrite (H x) by now left. destruct (q x); cbn [map]; rewrite IH by (intros; apply H; now right); reflexivity.
Qed.

(** ALE / RHALE: the float64 effect of a bin is within ((1+2^-53)^(n+1) - 1) mean|effects| of the exact mean of the n
    effects of its instances, and NaN (to be interpolated) when it has none. The bin of an instance is the one with
    l'_k <= x < l'_{k+1}, l' the limits with the last one widened. *)
Theorem C101_bins xs es l be ppb k :
  fins xs -> fins (widen64 l) -> sorted64 (widen64 l) -> (S k < length l)%nat -> length xs = length es ->
  (Z.of_nat (length xs) <= 2 ^ 50)%Z ->
  compute_bin_effect64 xs es l = Ok (be, ppb) ->
  let ms := bin_members (widen64 l) k xs es in
  nth k ppb 0%nat = length ms /\
  (ms = [] -> is_nan (nth k be fnan) = true) /\
  (ms <> [] -> fins ms -> asum ms <= bpow radix2 1022 ->
     let n := IZR (Z.of_nat (length ms)) in
     fin (nth k be fnan) /\
     Rabs (val (nth k be fnan) - rsum ms / n) <= gam (S (length ms)) * (asum ms / n) + bpow radix2 (-1075)).
Proof.
  intros Fx F So Hk Le HN H ms. unfold compute_bin_effect64 in H. apply bind_ok in H as (idx & I & H). apply bind_ok in H as (agg & A & H). apply bind_ok in H as (pp & P & H).
  rewrite bin_indices64_eq in I by (auto; lia).
  assert (EI : idx = map (fun x => (Z.of_nat (digitize64_1 (widen64 l) x) - 1)%Z) xs) by congruence.
  assert (Ep : ppb = pp) by congruence. assert (Eb : be = divide_where64 (fun n => negb (Nat.eqb n 0)) agg pp) by congruence. subst ppb.
  unfold bincount_w64 in A. destruct (negb _); [discriminate|]. destruct (existsb _ _); [discriminate|].
  unfold bincount in P. destruct (existsb _ _); [discriminate|].
  set (W := bincount_len idx (length l - 1)) in *. assert (HW : (k < W)%nat) by (unfold W, bincount_len; lia).
  assert (Ha : agg = map (fun k => fsum (map snd (filter (fun p => Z.eqb (Z.of_nat k) (fst p)) (combine idx es)))) (seq 0 W)) by congruence.
  assert (Hp : pp = map (fun k => count (Z.eqb (Z.of_nat k)) idx) (seq 0 W)) by congruence.
  assert (Q : forall x, In x xs -> Z.eqb (Z.of_nat k) (Z.of_nat (digitize64_1 (widen64 l) x) - 1) = in_bin64 (widen64 l) k x).
  { intros x Hx. symmetry. apply in_bin_digitize; auto. rewrite widen64_length. exact Hk. }
  assert (Ms : map snd (filter (fun p => Z.eqb (Z.of_nat k) (fst p)) (combine idx es)) = ms).
  { rewrite EI. unfold ms, bin_members. apply filter_combine_map. exact Q. }
  assert (Ak : nth k agg fnan = fsum ms).
  { rewrite Ha. match goal with |- nth k (map ?h _) _ = _ => rewrite (nth_indep _ fnan (h 0%nat)) by (rewrite map_length, seq_length; exact HW); rewrite (map_nth h), seq_nth by exact HW end.
    cbn [Nat.add]. now rewrite Ms. }
  assert (Pk : nth k pp 0%nat = length ms).
  { rewrite Hp. match goal with |- nth k (map ?h _) _ = _ => rewrite (nth_indep _ 0%nat (h 0%nat)) by (rewrite map_length, seq_length; exact HW); rewrite (map_nth h), seq_nth by exact HW end.
    cbn [Nat.add]. rewrite <- Ms. unfold count. rewrite map_length. rewrite EI.
    clear - Le. revert es Le. induction xs as [|x xs IH]; intros [|e es] L; cbn in L; try lia; [reflexivity|]. cbn [map combine filter fst].
    destruct (Z.eqb _ _); cbn [length]; rewrite (IH es) by lia; reflexivity. }
  assert (Lm : (length ms <= length xs)%nat).
  { unfold ms, bin_members. rewrite map_length. eapply Nat.le_trans; [apply filter_length_le|]. rewrite combine_length. lia. }
  assert (Bk : nth k be fnan = if negb (Nat.eqb (length ms) 0) then fdiv (fsum ms) (fofn (length ms)) else fnan).
  { rewrite Eb. unfold divide_where64.
    match goal with |- nth k (map ?h _) _ = _ => rewrite (nth_indep _ fnan (h (fnan, 0%nat))) by (rewrite map_length, combine_length, Ha, Hp, !map_length, seq_length; lia); rewrite (map_nth h) end.
    rewrite combine_nth by (rewrite Ha, Hp, !map_length; reflexivity). cbn [fst snd]. now rewrite Ak, Pk. }
  split; [exact Pk|]. split.
  - intros E. rewrite Bk, E. reflexivity.
  - intros NE Fm Bm n. assert (L1 : (1 <= length ms)%nat) by (destruct ms; [congruence|cbn; lia]).
    rewrite Bk. destruct (Nat.eqb_spec (length ms) 0); [lia|]. cbn [negb]. apply fsum_error; auto; [lia|].
    assert (G : gam (length ms) <= 1).
    { pose proof (gam_small (length ms) ltac:(lia)) as GS. assert (IZR (Z.of_nat (length ms)) <= bpow radix2 50). { change (bpow radix2 50) with (IZR (2 ^ 50)). apply IZR_le. lia. }
      assert (IZR (Z.of_nat (length ms)) * u53 <= bpow radix2 50 * u53) by (apply Rmult_le_compat_r; [apply bpow_ge_0|assumption]).
      rewrite <- bpow_plus in H1. change (50 + -53)%Z with (-3)%Z in H1. assert (bpow radix2 (-3) <= / 8) by (unfold bpow; cbn; lra). lra. }
    pose proof (gam_pos (length ms)). pose proof (asum_pos ms). change 1023%Z with (1 + 1022)%Z. rewrite bpow_plus. change (bpow radix2 1) with 2. apply Rmult_le_compat; lra.
Qed.

Print Assumptions C101_pdp. Print Assumptions C101_bins.

(** a non-trivial case: nine instances whose outputs are 1 and eight times 2^-53, summed from left to right and pairwise:
    the two float64 results differ, and both are covered by the theorem *)
Definition nine_rows : list (list b64) := [fzero; fofZ 1] :: repeat [fzero; fdiv (fofZ 1) (fofZ (2 ^ 53))] 8.
Definition second (r : list b64) : b64 := nth 1 r fnan.
Fixpoint pairwise (fuel : nat) (l : list b64) : tree :=
  match fuel, l with
  | S fuel', _ :: _ :: _ => let h := Nat.div (length l) 2 in Plus (pairwise fuel' (firstn h l)) (pairwise fuel' (skipn h l))
  | _, x :: _ => Leaf x
  | _, [] => Leaf fnan
  end.
Definition outs := pdp_outputs64 second nine_rows 0 (fofZ 7).
Definition left_to_right := match outs with x :: l => chain (Leaf x) l | [] => Leaf fnan end.
Example orders_differ :
  Bltb (np_mean64 left_to_right 9) (np_mean64 (pairwise 10 outs) 9) = true
  /\ map (fun x => B2SF x) (leaves left_to_right) = map (fun x => B2SF x) outs
  /\ map (fun x => B2SF x) (leaves (pairwise 10 outs)) = map (fun x => B2SF x) outs
  /\ forallb is_finite outs = true /\ depth left_to_right = 8%nat /\ depth (pairwise 10 outs) = 4%nat.
Proof. vm_compute. repeat split; reflexivity. Qed.
