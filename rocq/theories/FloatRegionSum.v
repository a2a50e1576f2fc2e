(** FloatRegionSum: the weighted sums of one candidate split in binary64. *)
From Coq Require Import Reals Permutation.
From Flocq Require Import Core.
From Flocq Require Import IEEE754.BinarySingleNaN.
From Verif Require Import Base Numpy NumpyFacts Utils FloatModel FloatFacts FloatGrid FloatBins FloatMean FloatAcc FloatNan FloatDP FloatDPGrid FloatRegion FloatRegionProofs.
From Coq Require Import Lra.
Open Scope R_scope.

(** [rk n F] = F 0 + ... + F (n - 1) *)
Definition rk (n : nat) (F : nat -> R) : R := fold_right Rplus 0 (map F (seq 0 n)).
Lemma fold_Rplus_init l a : fold_right Rplus a l = fold_right Rplus 0 l + a.
Proof. induction l as [|x l IH]; cbn [fold_right]; [ring|]. rewrite IH. ring. Qed.
Lemma rk_S n F : rk (S n) F = rk n F + F n.
Proof. unfold rk. rewrite seq_S, map_app, fold_right_app. cbn [map fold_right Nat.add]. rewrite fold_Rplus_init. ring. Qed.
Lemma rk_shift n F : rk (S n) F = F 0%nat + rk n (fun k => F (S k)).
Proof. unfold rk. cbn [seq map fold_right]. now rewrite <- seq_shift, map_map. Qed.
Lemma rk_ext n F G : (forall k, (k < n)%nat -> F k = G k) -> rk n F = rk n G.
Proof. induction n as [|n IH]; intros H; [reflexivity|]. rewrite !rk_S, (H n) by lia. rewrite IH; [reflexivity|]. intros k Hk. apply H. lia. Qed.
Lemma rk_le n F G : (forall k, (k < n)%nat -> F k <= G k) -> rk n F <= rk n G.
Proof. induction n as [|n IH]; intros H; [apply Rle_refl|]. rewrite !rk_S. pose proof (H n ltac:(lia)). assert (rk n F <= rk n G) by (apply IH; intros k Hk; apply H; lia). lra. Qed.
Lemma rk_lin n a F b : rk n (fun k => a * F k + b) = a * rk n F + IZR (Z.of_nat n) * b.
Proof. induction n as [|n IH]; [unfold rk; cbn; ring|]. rewrite !rk_S, IH, Nat2Z.inj_succ, succ_IZR. ring. Qed.
Lemma rk_plus n F G : rk n (fun k => F k + G k) = rk n F + rk n G.
Proof. induction n as [|n IH]; [unfold rk; cbn; ring|]. rewrite !rk_S, IH. ring. Qed.
Lemma rk_abs n F : Rabs (rk n F) <= rk n (fun k => Rabs (F k)).
Proof. induction n as [|n IH]; [unfold rk; cbn; rewrite Rabs_R0; lra|]. rewrite !rk_S. eapply Rle_trans; [apply Rabs_triang|]. lra. Qed.

Lemma rsum_rk l : rsum l = rk (length l) (fun k => val (nth k l fnan)).
Proof. induction l as [|x l IH]; [reflexivity|]. cbn [length]. rewrite rk_shift. cbn [nth]. unfold rsum in *. cbn [fold_right]. now rewrite IH. Qed.
Lemma asum_rk l : asum l = rk (length l) (fun k => Rabs (val (nth k l fnan))).
Proof. induction l as [|x l IH]; [reflexivity|]. cbn [length]. rewrite rk_shift. cbn [nth]. unfold asum in *. cbn [fold_right]. now rewrite IH. Qed.

(** np.sum adds the entries in some order, any order *)
Definition sums (nsum : list b64 -> b64) : Prop := forall l, l <> [] -> exists t, Permutation (leaves t) l /\ nsum l = tsum t.
Lemma leaves_nonempty t : (1 <= length (leaves t))%nat. Proof. induction t; cbn [leaves length]; [lia|]. rewrite app_length. lia. Qed.
Lemma depth_leaves t : (depth t < length (leaves t))%nat.
Proof. induction t as [x|a IHa b IHb]; cbn [leaves depth length]; [lia|]. rewrite app_length. pose proof (leaves_nonempty a). pose proof (leaves_nonempty b). lia. Qed.
Lemma tsum_nan t : (exists x, In x (leaves t) /\ is_nan x = true) -> tsum t = fnan.
Proof.
  induction t as [x|a IHa b IHb]; intros (y & Hy & N); cbn [leaves tsum] in *.
  - destruct Hy as [->|[]]. now apply nan_eq.
  - apply in_app_or in Hy as [Hy|Hy]; [rewrite IHa by eauto; apply fadd_nan_l|rewrite IHb by eauto; apply fadd_nan_r].
Qed.
Lemma nsum_nan nsum l : sums nsum -> (exists x, In x l /\ is_nan x = true) -> nsum l = fnan.
Proof. intros S (x & Hx & N). destruct (S l) as (t & Lt & ->); [intros ->; destruct Hx|]. apply tsum_nan. exists x. split; [|exact N]. eapply Permutation_in; [apply Permutation_sym; exact Lt|exact Hx]. Qed.

(** a sum of products close to [W k * X k], where the weights W add up to one *)
Lemma gam_S' d : gam (S d) = gam d + u53 * (1 + gam d). Proof. apply gam_S. Qed.
Lemma wsum_error nsum ps n (W X : nat -> R) (H e : R) :
  sums nsum -> length ps = n -> (1 <= n)%nat -> (Z.of_nat n <= 2 ^ 40)%Z -> fins ps -> 0 <= e <= H -> H <= bpow radix2 950 ->
  (forall k, (k < n)%nat -> 0 <= W k /\ Rabs (X k) <= H /\ Rabs (val (nth k ps fnan) - W k * X k) <= e * W k + eta) -> rk n W = 1 ->
  fin (nsum ps) /\ Rabs (val (nsum ps) - rk n (fun k => W k * X k)) <= e + gam n * (H + e) + 2 * IZR (Z.of_nat n) * eta.
Proof.
  intros S L N1 N F He HH P SW. destruct (S ps) as (t & Lt & ->); [intros ->; cbn in L; lia|].
  assert (P0 : 0 < eta) by apply bpow_gt_0. assert (N0 : 0 <= IZR (Z.of_nat n)) by (apply IZR_le; lia).
  assert (A : asum ps <= (H + e) + IZR (Z.of_nat n) * eta).
  { rewrite asum_rk, L. eapply Rle_trans; [apply (rk_le n _ (fun k => (H + e) * W k + eta))|rewrite rk_lin, SW; lra].
    intros k Hk. destruct (P k Hk) as (P1 & P2 & P3). replace (val (nth k ps fnan)) with ((val (nth k ps fnan) - W k * X k) + W k * X k) by ring.
    eapply Rle_trans; [apply Rabs_triang|]. rewrite (Rabs_mult (W k)), (Rabs_pos_eq (W k)) by exact P1. pose proof (Rmult_le_compat_l (W k) _ _ P1 P2). lra. }
  assert (E : Rabs (rsum ps - rk n (fun k => W k * X k)) <= e + IZR (Z.of_nat n) * eta).
  { rewrite rsum_rk, L. replace (rk n (fun k => val (nth k ps fnan)) - rk n (fun k => W k * X k)) with (rk n (fun k => val (nth k ps fnan) - W k * X k)).
    2:{ rewrite <- (rk_ext n (fun k => (val (nth k ps fnan) - W k * X k) + W k * X k) (fun k => val (nth k ps fnan))) by (intros; ring). rewrite rk_plus. ring. }
    eapply Rle_trans; [apply rk_abs|]. eapply Rle_trans; [apply (rk_le n _ (fun k => e * W k + eta)); intros k Hk; apply (P k Hk)|]. rewrite rk_lin, SW. lra. }
  pose proof (depth_leaves t) as D. rewrite (Permutation_length Lt), L in D. destruct (rsum_perm _ _ Lt) as [PR PA]. pose proof (gam_le (depth t) n ltac:(lia)) as G. pose proof (gam_pos (depth t)) as G0. pose proof (gam_1 n ltac:(lia)) as G1. pose proof (gam_pos n) as Gn.
  assert (NE : IZR (Z.of_nat n) * eta <= 1). { apply Rle_trans with (bpow radix2 40 * eta); [apply Rmult_le_compat_r; [lra|]; change (bpow radix2 40) with (IZR (2 ^ 40)); now apply IZR_le|]. rewrite <- bpow_plus. change 1 with (bpow radix2 0). apply bpow_le. lia. }
  pose proof (asum_pos ps) as A0.
  assert (BIG : 8 * (bpow radix2 950 + 1) <= bpow radix2 1023). { assert (1 <= bpow radix2 950) by (change 1 with (bpow radix2 0); apply bpow_le; lia). apply Rle_trans with (bpow radix2 4 * bpow radix2 950); [change (bpow radix2 4) with 16; lra|]. rewrite <- bpow_plus. apply bpow_le. lia. }
  destruct (tsum_error t) as [Ft Et]; [intros y Hy; apply F; eapply Permutation_in; eassumption| |].
  { rewrite PA. apply Rle_trans with ((1 + / 4) * asum ps); [apply Rmult_le_compat_r; lra|]. lra. }
  split; [exact Ft|]. rewrite PR, PA in Et. replace (val (tsum t) - rk n (fun k => W k * X k)) with ((val (tsum t) - rsum ps) + (rsum ps - rk n (fun k => W k * X k))) by ring.
  eapply Rle_trans; [apply Rabs_triang|].
  assert (gam (depth t) * asum ps <= gam n * ((H + e) + IZR (Z.of_nat n) * eta)) by (apply Rmult_le_compat; lra).
  assert (gam n * (IZR (Z.of_nat n) * eta) <= IZR (Z.of_nat n) * eta) by (rewrite <- Rmult_1_l; apply Rmult_le_compat_r; [apply Rmult_le_pos; lra|lra]). lra.
Qed.

(** ** the weights *)
Definition total (ns : list nat) : nat := sumn (map (fun m => m + 1)%nat ns).
(** exact weight of the k-th subregion: its population plus one over the sum of those *)
Definition weight (ns : list nat) (k : nat) : R := IZR (Z.of_nat (nth k ns 0%nat + 1)) / IZR (Z.of_nat (total ns)).
Lemma total_ge ns k : (k < length ns)%nat -> (nth k ns 0 + 1 <= total ns)%nat.
Proof.
  unfold total, sumn. revert k. induction ns as [|n ns IH]; intros k H; [cbn in H; lia|]. cbn [map fold_right]. destruct k as [|k]; cbn [nth]; [lia|]. specialize (IH k ltac:(cbn in H; lia)). lia.
Qed.
Lemma total_pos ns : ns <> [] -> (1 <= total ns)%nat.
Proof. destruct ns as [|n ns]; [congruence|]. intros _. unfold total, sumn. cbn [map fold_right]. lia. Qed.
Lemma weight_sum ns : ns <> [] -> rk (length ns) (weight ns) = 1.
Proof.
  intros N. pose proof (total_pos ns N) as T. assert (T' : 1 <= IZR (Z.of_nat (total ns))) by (apply IZR_le; lia).
  assert (G : rk (length ns) (fun k => IZR (Z.of_nat (nth k ns 0%nat + 1))) = IZR (Z.of_nat (total ns))).
  { unfold total. clear. induction ns as [|n ns IH]; [reflexivity|]. cbn [length]. rewrite rk_shift. cbn [nth]. rewrite IH. unfold sumn. cbn [map fold_right]. rewrite !Nat2Z.inj_add, !plus_IZR. reflexivity. }
  rewrite (rk_ext _ _ (fun k => / IZR (Z.of_nat (total ns)) * IZR (Z.of_nat (nth k ns 0%nat + 1)) + 0)) by (intros k _; unfold weight, Rdiv; ring).
  rewrite rk_lin, G. field. lra.
Qed.
Lemma weights64_val ns k : (k < length ns)%nat -> (Z.of_nat (total ns) <= 2 ^ 53)%Z ->
  let w := nth k (weights64 ns) fnan in
  fin w /\ 0 < weight ns k <= 1 /\ 0 <= val w <= 1 /\ exists e, Rabs e <= u53 /\ val w = weight ns k * (1 + e).
Proof.
  intros Hk HT w. pose proof (total_ge ns k Hk) as G.
  assert (Ew : w = fdiv (fofn (nth k ns 0%nat + 1)) (fofn (total ns))).
  { unfold w, weights64. set (h := fun n => fdiv (fofn (n + 1)) (fofn (sumn (map (fun m => (m + 1)%nat) ns)))). rewrite (nth_indep _ _ (h 0%nat)) by (rewrite map_length; exact Hk). now rewrite (map_nth h). }
  destruct (fofZ_val (Z.of_nat (nth k ns 0%nat + 1)) ltac:(lia)) as [Va Fa]. destruct (fofZ_val (Z.of_nat (total ns)) ltac:(lia)) as [Vt Ft].
  assert (A1 : 1 <= IZR (Z.of_nat (nth k ns 0%nat + 1))) by (apply IZR_le; lia). assert (T1 : IZR (Z.of_nat (nth k ns 0%nat + 1)) <= IZR (Z.of_nat (total ns))) by (apply IZR_le; lia).
  assert (W : 0 < weight ns k <= 1). { unfold weight. split; [apply Rdiv_lt_0_compat; lra|]. apply Rmult_le_reg_r with (IZR (Z.of_nat (total ns))); [lra|]. unfold Rdiv. rewrite Rmult_assoc, Rinv_l by lra. lra. }
  destruct (fdiv_val (fofn (nth k ns 0%nat + 1)) (fofn (total ns)) Fa Ft) as [V F].
  { unfold fofn. rewrite Vt. apply Rgt_not_eq. lra. }
  { unfold fofn. rewrite Va, Vt. fold (weight ns k). rewrite Rabs_pos_eq by lra. apply Rle_trans with 1; [lra|]. change 1 with (bpow radix2 0). apply bpow_le. lia. }
  unfold fofn in V at 3 4. rewrite Va, Vt in V. fold (weight ns k) in V. rewrite <- Ew in V, F. split; [exact F|]. split; [exact W|]. rewrite V. split; [apply unit_rnd; lra|].
  apply rnd_rel. rewrite Rabs_pos_eq by lra. apply Rle_trans with (/ bpow radix2 53); [rewrite <- bpow_opp; apply bpow_le; lia|].
  unfold weight, Rdiv. assert (IZR (Z.of_nat (total ns)) <= bpow radix2 53) by (change (bpow radix2 53) with (IZR (2 ^ 53)); now apply IZR_le).
  apply Rle_trans with (1 * / IZR (Z.of_nat (total ns))); [rewrite Rmult_1_l; apply Rinv_le; lra|]. apply Rmult_le_compat_r; [apply Rlt_le, Rinv_0_lt_compat; lra|lra].
Qed.

(** ** the two cells *)
Definition tame (H : R) (x : b64) : Prop := fin x /\ Rabs (val x) <= H.
Lemma nth_map2 (h : b64 -> b64 -> b64) (a b : list b64) i : length a = length b -> (i < length a)%nat -> nth i (map (fun p => h (fst p) (snd p)) (combine a b)) fnan = h (nth i a fnan) (nth i b fnan).
Proof. intros L Hi. rewrite (nth_map_combine (fun p => h (fst p) (snd p))) by assumption. reflexivity. Qed.

Lemma pair_split k : (2 * (k / 2) + k mod 2 = k)%nat /\ (k mod 2 = 0 \/ k mod 2 = 1)%nat.
Proof. pose proof (Nat.div_mod k 2 ltac:(lia)). pose proof (Nat.mod_upper_bound k 2 ltac:(lia)). lia. Qed.
Lemma nth_concat_pairs : forall (ds : list (list b64)) k, (forall d, In d ds -> length d = 2%nat) -> (k < 2 * length ds)%nat -> nth k (concat ds) fnan = nth (k mod 2) (nth (k / 2) ds []) fnan.
Proof.
  induction ds as [|d ds IH]; intros k H Hk; [cbn in Hk; lia|]. cbn [concat]. assert (Ld : length d = 2%nat) by (apply H; now left).
  destruct (Nat.ltb_spec k 2).
  - rewrite app_nth1 by lia. rewrite Nat.mod_small, Nat.div_small by lia. reflexivity.
  - rewrite app_nth2 by lia. rewrite Ld, IH; [|intros; apply H; now right|cbn [length] in Hk; lia].
    assert (E : (k = (k - 2) + 1 * 2)%nat) by lia. set (q := (k - 2)%nat) in *. rewrite E. rewrite Nat.mod_add, Nat.div_add by lia. rewrite Nat.add_1_r. reflexivity.
Qed.
Lemma drops_spec before sub d : drops64 before sub = Ok d -> length d = (2 * length before)%nat /\ (2 * length before <= length sub)%nat /\
  forall k, (k < length d)%nat -> nth k d fnan = fsub (nth (k / 2) before fnan) (nth k sub fnan).
Proof.
  unfold drops64. intros H. apply bind_ok in H as (ds & H & E). injection E as <-.
  set (en := combine (seq 0 (length before)) before) in *. assert (Len : length en = length before) by (unfold en; rewrite combine_length, seq_length; lia).
  assert (Lds : length ds = length before) by (rewrite (mapM_length _ _ _ H); exact Len).
  assert (R : forall i, (i < length before)%nat -> (2 * i + 1 < length sub)%nat /\ nth i ds [] = [fsub (nth i before fnan) (nth (2 * i) sub fnan); fsub (nth i before fnan) (nth (2 * i + 1) sub fnan)]).
  { intros i Hi. pose proof (mapM_nth _ _ _ i (0%nat, fnan) [] H ltac:(lia)) as M. cbv beta in M. unfold en in M. rewrite combine_nth in M by apply seq_length. rewrite seq_nth in M by exact Hi. cbn [fst snd Nat.add] in M.
    apply bind_ok in M as (a & A & M). apply bind_ok in M as (b & B & M). injection M as M. rewrite <- M. destruct (getn_nth _ _ _ fnan A) as [A1 A2]. destruct (getn_nth _ _ _ fnan B) as [B1 B2].
    replace (i + (i + 0) + 1)%nat with (2 * i + 1)%nat in * by lia. replace (i + (i + 0))%nat with (2 * i)%nat in * by lia. rewrite A2, B2. split; [lia|reflexivity]. }
  assert (P : forall d, In d ds -> length d = 2%nat). { intros d Hd. apply (In_nth _ _ []) in Hd as (i & Hi & <-). rewrite Lds in Hi. now rewrite (proj2 (R i Hi)). }
  assert (LC : length (concat ds) = (2 * length ds)%nat). { clear - P. induction ds as [|d ds IH]; [reflexivity|]. cbn [concat length]. rewrite app_length, IH, (P d (or_introl eq_refl)) by (intros; apply P; now right). lia. }
  rewrite LC, Lds. split; [reflexivity|]. split.
  - destruct (length before) as [|n] eqn:Eb; [lia|]. destruct (R n ltac:(lia)). lia.
  - intros k Hk. rewrite nth_concat_pairs by (auto; lia). destruct (pair_split k) as [E1 E2]. assert (k / 2 < length before)%nat by lia. rewrite (proj2 (R (k / 2)%nat H0)).
    destruct E2 as [E2|E2]; rewrite E2; cbn [nth]; do 2 f_equal; lia.
Qed.

Lemma prod_error W e1 X e2 : 0 <= W <= 1 -> Rabs e1 <= u53 -> Rabs e2 <= u53 ->
  Rabs (rnd (X * (1 + e2) * (W * (1 + e1))) - W * X) <= gam 3 * Rabs X * W + eta.
Proof.
  intros HW E1 E2. pose proof (rnd_err (X * (1 + e2) * (W * (1 + e1)))) as R. set (y := X * (1 + e2) * (W * (1 + e1))) in *.
  pose proof u53_pos as U. replace (rnd y - W * X) with ((rnd y - y) + (y - W * X)) by ring. eapply Rle_trans; [apply Rabs_triang|].
  assert (Y : Rabs (y - W * X) <= (gam 2) * (Rabs X * W)).
  { replace (y - W * X) with ((X * W) * ((1 + e2) * (1 + e1) - 1)) by (unfold y; ring). rewrite Rabs_mult, (Rabs_mult X W), (Rabs_pos_eq W) by lra. rewrite Rmult_comm. apply Rmult_le_compat_r; [apply Rmult_le_pos; [apply Rabs_pos|lra]|].
    replace ((1 + e2) * (1 + e1) - 1) with (e2 + (e1 + e1 * e2)) by ring. eapply Rle_trans; [apply Rabs_triang|]. eapply Rle_trans; [apply Rplus_le_compat_l, Rabs_triang|]. rewrite Rabs_mult.
    pose proof (Rmult_le_compat _ _ _ _ (Rabs_pos e1) (Rabs_pos e2) E1 E2). unfold gam. cbn [pow]. lra. }
  assert (Y' : Rabs y <= (1 + gam 2) * (Rabs X * W)).
  { replace y with ((y - W * X) + W * X) by ring. eapply Rle_trans; [apply Rabs_triang|]. rewrite (Rabs_mult W X), (Rabs_pos_eq W) by lra. lra. }
  rewrite (gam_S 2). pose proof (Rmult_le_compat_l u53 _ _ (Rlt_le _ _ U) Y'). lra.
Qed.

Lemma gam3 : gam 3 <= bpow radix2 (-50). Proof. pose proof (gam_small 3 ltac:(cbn; lia)) as G. change (IZR (Z.of_nat 3)) with 3 in G. replace (bpow radix2 (-50)) with (8 * u53) by (change 8 with (bpow radix2 3); rewrite <- bpow_plus; reflexivity). pose proof u53_pos. lra. Qed.
Lemma small50 : bpow radix2 (-50) <= / 16. Proof. replace (/ 16) with (bpow radix2 (-4)) by (cbn; lra). apply bpow_le. lia. Qed.

Lemma fsub_nan_r x : fsub x fnan = fnan. Proof. destruct x; reflexivity. Qed.
Lemma fmul_nan_r x : fmul x fnan = fnan. Proof. destruct x; reflexivity. Qed.
Section Score.
Variables (nsum : list b64 -> b64) (before sub : list b64) (ns : list nat) (d w : b64).
Hypothesis SUM : sums nsum.
Hypothesis SC : score64 nsum before sub ns = Ok (d, w).
Hypothesis LB : length sub = (2 * length before)%nat.
Hypothesis LN : length ns = length sub.
Hypothesis B1 : (1 <= length before)%nat.

Lemma score_parts : exists wd wh, d = nsum wd /\ w = nsum wh /\ length wd = length sub /\ length wh = length sub /\
  (forall k, (k < length sub)%nat -> nth k wd fnan = fmul (fsub (nth (k / 2) before fnan) (nth k sub fnan)) (nth k (weights64 ns) fnan)) /\
  (forall k, (k < length sub)%nat -> nth k wh fnan = fmul (nth k (weights64 ns) fnan) (nth k sub fnan)).
Proof.
  unfold score64 in SC. pose proof SC as H. apply bind_ok in H as (ds & D & H). apply bind_ok in H as (wd & WD & H). apply bind_ok in H as (wh & WH & H). injection H as <- <-.
  destruct (drops_spec _ _ _ D) as (L1 & _ & E1). assert (LW : length (weights64 ns) = length sub) by (unfold weights64; now rewrite map_length).
  unfold vzip in WD, WH. rewrite L1, LW, LB, Nat.eqb_refl in WD. rewrite LW, Nat.eqb_refl in WH. injection WD as <-. injection WH as <-.
  exists (map (fun p => fmul (fst p) (snd p)) (combine ds (weights64 ns))), (map (fun p => fmul (fst p) (snd p)) (combine (weights64 ns) sub)).
  rewrite !map_length, !combine_length, L1, LW, LB, Nat.min_id. repeat split; auto.
  - intros k Hk. rewrite (nth_map2 fmul) by lia. now rewrite E1 by lia.
  - intros k Hk. now rewrite (nth_map2 fmul) by lia.
Qed.

(** a NaN heterogeneity makes both cells NaN *)
Lemma score_nan : (exists v, In v sub /\ is_nan v = true) -> is_nan d = true /\ is_nan w = true.
Proof.
  intros (v & Hv & N). apply (In_nth _ _ fnan) in Hv as (k & Hk & E). rewrite (nan_eq v N) in E. destruct score_parts as (wd & wh & -> & -> & L1 & L2 & E1 & E2).
  rewrite (nsum_nan nsum wd SUM), (nsum_nan nsum wh SUM); [split; reflexivity|exists (nth k wh fnan)|exists (nth k wd fnan)]; (split; [apply nth_In; lia|]).
  - rewrite E2 by exact Hk. rewrite E, fmul_nan_r. reflexivity.
  - rewrite E1 by exact Hk. rewrite E, fsub_nan_r, fmul_nan_l. reflexivity.
Qed.

(** the exact weighted drop and weighted heterogeneity *)
Definition exact_drop : R := rk (length sub) (fun k => weight ns k * (val (nth (k / 2) before fnan) - val (nth k sub fnan))).
Definition exact_wheter : R := rk (length sub) (fun k => weight ns k * val (nth k sub fnan)).

Variable H : R.
Hypothesis TB : forall x, In x before -> tame H x.
Hypothesis TS : forall x, In x sub -> tame H x.
Hypothesis HH : H <= bpow radix2 900.
Hypothesis NT : (Z.of_nat (total ns) <= 2 ^ 53)%Z.
Hypothesis NL : (Z.of_nat (length sub) <= 2 ^ 40)%Z.

Lemma H_pos : 0 <= H. Proof. destruct before as [|x l] eqn:E; [cbn in B1; lia|]. destruct (TB x (or_introl eq_refl)) as [_ T]. pose proof (Rabs_pos (val x)). lra. Qed.
Theorem score_error : fin d /\ fin w /\ Rabs (val d - exact_drop) <= gam 3 * (2 * H) + gam (length sub) * (1 + gam 3) * (2 * H) + 2 * IZR (Z.of_nat (length sub)) * eta /\ Rabs (val w - exact_wheter) <= gam 3 * H + gam (length sub) * (1 + gam 3) * H + 2 * IZR (Z.of_nat (length sub)) * eta.
Proof.
  pose proof H_pos as H0. pose proof gam3 as G3. pose proof small50 as S50. destruct score_parts as (wd & wh & -> & -> & L1 & L2 & E1 & E2). pose proof (gam_pos 3) as G3p.
  assert (NN : ns <> []) by (intros E; rewrite E in LN; cbn in LN; lia).
  assert (BP : 8 * bpow radix2 900 <= bpow radix2 950). { change 8 with (bpow radix2 3). rewrite <- bpow_plus. apply bpow_le. lia. }
  assert (B9 : forall x, x <= 2 * H -> x <= bpow radix2 1023) by (intros x Hx; apply Rle_trans with (bpow radix2 950); [lra|apply bpow_le; lia]).
  assert (D : forall k, (k < length sub)%nat -> let X := val (nth (k / 2) before fnan) - val (nth k sub fnan) in fin (nth k wd fnan) /\ Rabs X <= 2 * H /\ Rabs (val (nth k wd fnan) - weight ns k * X) <= gam 3 * (2 * H) * weight ns k + eta).
  { intros k Hk X. assert (Hb : (k / 2 < length before)%nat) by (pose proof (pair_split k); lia). destruct (TB _ (nth_In before fnan Hb)) as [Fb Tb]. destruct (TS _ (nth_In sub fnan Hk)) as [Fs Ts].
    assert (BX : Rabs X <= 2 * H). { unfold X. eapply Rle_trans; [apply Rabs_triang|]. rewrite Rabs_Ropp. lra. }
    destruct (fsub_val _ _ Fb Fs) as [V F]. { fold X. apply B9. exact BX. } fold X in V. destruct (rnd_minus_rel (nth (k / 2) before fnan) (nth k sub fnan)) as (e2 & He2 & E2'). fold X in E2'. rewrite E2' in V.
    destruct (weights64_val ns k ltac:(lia) NT) as (Fw & W & W01 & e1 & He1 & Vw).
    destruct (fmul_val _ _ F Fw) as [Vm Fm].
    { rewrite V, Rabs_mult, (Rabs_pos_eq (val (nth k (weights64 ns) fnan))) by lra. apply Rle_trans with (Rabs (X * (1 + e2)) * 1); [apply Rmult_le_compat_l; [apply Rabs_pos|lra]|]. rewrite Rmult_1_r, Rabs_mult.
      assert (Rabs (1 + e2) <= 2). { apply Rabs_le. apply Rabs_le_inv in He2. assert (u53 <= / 16) by (eapply Rle_trans; [|exact S50]; apply bpow_le; lia). lra. }
      apply Rle_trans with (2 * H * 2); [apply Rmult_le_compat; try apply Rabs_pos; lra|]. apply Rle_trans with (bpow radix2 950); [lra|apply bpow_le; lia]. }
    rewrite E1 by exact Hk. split; [exact Fm|]. split; [exact BX|]. rewrite Vm, V, Vw. eapply Rle_trans; [apply prod_error; [lra|assumption|assumption]|].
    assert (gam 3 * Rabs X * weight ns k <= gam 3 * (2 * H) * weight ns k); [|lra]. apply Rmult_le_compat_r; [lra|]. apply Rmult_le_compat_l; assumption. }
  assert (S : forall k, (k < length sub)%nat -> let X := val (nth k sub fnan) in fin (nth k wh fnan) /\ Rabs X <= H /\ Rabs (val (nth k wh fnan) - weight ns k * X) <= gam 3 * H * weight ns k + eta).
  { intros k Hk X. destruct (TS _ (nth_In sub fnan Hk)) as [Fs Ts]. fold X in Ts.
    destruct (weights64_val ns k ltac:(lia) NT) as (Fw & W & W01 & e1 & He1 & Vw).
    destruct (fmul_val _ _ Fw Fs) as [Vm Fm].
    { fold X. rewrite Rabs_mult, (Rabs_pos_eq (val (nth k (weights64 ns) fnan))) by lra. apply Rle_trans with (1 * Rabs X); [apply Rmult_le_compat_r; [apply Rabs_pos|lra]|]. apply B9. lra. }
    rewrite E2 by exact Hk. split; [exact Fm|]. split; [exact Ts|]. rewrite Vm. fold X. rewrite Vw. replace (weight ns k * (1 + e1) * X) with (X * (1 + 0) * (weight ns k * (1 + e1))) by ring. eapply Rle_trans; [apply prod_error; [lra|assumption|rewrite Rabs_R0; apply bpow_ge_0]|].
    assert (gam 3 * Rabs X * weight ns k <= gam 3 * H * weight ns k); [|lra]. apply Rmult_le_compat_r; [lra|]. apply Rmult_le_compat_l; assumption. }
  assert (SW : rk (length sub) (weight ns) = 1) by (rewrite <- LN; now apply weight_sum).
  assert (WP : forall k, (k < length sub)%nat -> 0 <= weight ns k). { intros k Hk. destruct (weights64_val ns k ltac:(lia) NT) as (_ & W & _). lra. }
  assert (Fd : fins wd). { intros x Hx. apply (In_nth _ _ fnan) in Hx as (k & Hk & <-). apply D. lia. }
  assert (Fh : fins wh). { intros x Hx. apply (In_nth _ _ fnan) in Hx as (k & Hk & <-). apply S. lia. }
  assert (G3H : gam 3 * H <= H) by (rewrite <- Rmult_1_l; apply Rmult_le_compat_r; lra). assert (G3P : 0 <= gam 3 * H) by (apply Rmult_le_pos; lra).
  destruct (wsum_error nsum wd (length sub) (weight ns) (fun k => val (nth (k / 2) before fnan) - val (nth k sub fnan)) (2 * H) (gam 3 * (2 * H)) SUM L1 ltac:(lia) NL Fd) as [D1 D2]; try lra.
  { intros k Hk. destruct (D k Hk) as (_ & D2 & D3). split; [now apply WP|]. split; assumption. }
  destruct (wsum_error nsum wh (length sub) (weight ns) (fun k => val (nth k sub fnan)) H (gam 3 * H) SUM L2 ltac:(lia) NL Fh) as [W1 W2]; try lra.
  { intros k Hk. destruct (S k Hk) as (_ & D2' & D3). split; [now apply WP|]. split; assumption. }
  split; [exact D1|]. split; [exact W1|]. unfold exact_drop, exact_wheter. split; lra.
Qed.

(** a cruder bound: (n + 4) 2^-51 times the size *)
Corollary score_close : fin d /\ fin w /\ Rabs (val d - exact_drop) <= IZR (Z.of_nat (length sub) + 4) * (bpow radix2 (-50) * H + bpow radix2 (-1074)) /\ Rabs (val w - exact_wheter) <= IZR (Z.of_nat (length sub) + 4) * (bpow radix2 (-51) * H + bpow radix2 (-1074)).
Proof.
  destruct score_error as (F1 & F2 & D & W). split; [exact F1|]. split; [exact F2|]. pose proof H_pos as H0. pose proof u53_pos as U.
  set (n := IZR (Z.of_nat (length sub))) in *. assert (N0 : 0 <= n) by (apply IZR_le; lia). rewrite plus_IZR. fold n.
  replace (bpow radix2 (-50)) with (8 * u53) by (change 8 with (bpow radix2 3); rewrite <- bpow_plus; reflexivity). replace (bpow radix2 (-51)) with (4 * u53) by (change 4 with (bpow radix2 2); rewrite <- bpow_plus; reflexivity).
  replace (bpow radix2 (-1074)) with (2 * eta) by (change 2 with (bpow radix2 1); rewrite <- bpow_plus; reflexivity).
  assert (G : gam 3 + gam (length sub) * (1 + gam 3) <= (n + 4) * (4 * u53)).
  { replace (gam 3 + gam (length sub) * (1 + gam 3)) with (gam (length sub + 3)) by (unfold gam; rewrite pow_add; ring). eapply Rle_trans; [apply gam_small; lia|]. rewrite Nat2Z.inj_add, plus_IZR. fold n. change (IZR (Z.of_nat 3)) with 3. assert (0 <= n * u53) by (apply Rmult_le_pos; lra). lra. }
  pose proof (Rmult_le_compat_r H _ _ H0 G) as GH. assert (E0 : 0 < eta) by apply bpow_gt_0. assert (0 <= n * eta) by (apply Rmult_le_pos; lra). assert (0 <= n * u53 * H) by (repeat apply Rmult_le_pos; lra). assert (0 <= u53 * H) by (apply Rmult_le_pos; lra).
  split; lra.
Qed.
End Score.
