(** FloatRegionALEDiff: data and models on which the bins of RegionalALE are good (Prop_FloatRegionALE.v). *)
From Coq Require Import Reals.
From Flocq Require Import Core.
From Flocq Require Import IEEE754.BinarySingleNaN.
From Verif Require Import Base Numpy NumpyFacts Utils FloatModel FloatFacts FloatGrid FloatBins FloatProofs FloatMean FloatAcc FloatFill FloatCat FloatAdapt FloatPDP FloatRegion FloatRegionMain FloatRegionGuard FloatRegionPDPProofs FloatRegionALE FloatRegionALEProofs FloatGrain FloatGood Prop_Float Prop_FloatAcc Prop_FloatCat Prop_FloatGreedy Prop_FloatRhale FloatVar Prop_FloatRegionALE FloatRegionALEGood.
From Coq Require Import Lra.
Open Scope R_scope.

(** the first categorical limit after the least value is at least a quarter of the gap above it *)
Lemma add_half_low a b : tame a -> tame b -> apart a b -> val a + (val b - val a) / 4 <= val (fadd a (fdiv (fsub b a) (fofZ 2))).
Proof.
  intros [Fa Ba] [Fb Bb] (G & GC & _). destruct (half_gap a b Fa Fb Ba Bb G) as [Fh Vh]. set (h := fdiv (fsub b a) (fofZ 2)) in *. set (m := fadd a h).
  set (g := val b - val a) in *. pose proof u53_pos as U. pose proof u53_small as US. pose proof (bpow_gt_0 radix2 (-1000)) as P. pose proof u53_50 as U50.
  assert (B0 : bpow radix2 1023 = 8388608 * bpow radix2 1000) by (change 1023%Z with (23 + 1000)%Z; rewrite bpow_plus; reflexivity). pose proof (bpow_gt_0 radix2 1000) as P1.
  assert (gu : g * bpow radix2 (-53) <= g * / 1000000) by (apply Rmult_le_compat_l; lra).
  assert (GB : g <= 2 * bpow radix2 1000) by (apply Rabs_le_inv in Ba; apply Rabs_le_inv in Bb; unfold g; lra).
  assert (AB : Rabs (val a + val h) <= Rabs (val a) + g). { eapply Rle_trans; [apply Rabs_triang|]. rewrite (Rabs_pos_eq (val h)) by nra. lra. }
  destruct (fadd_val a h Fa Fh) as [V F]; [lra|]. destruct (rnd_plus_rel a h) as (e & A & R). fold m in V, F. rewrite R in V.
  assert (EE : Rabs (val m - (val a + val h)) <= g / 8 + g / 1000000).
  { rewrite V. replace ((val a + val h) * (1 + e) - (val a + val h)) with ((val a + val h) * e) by ring. rewrite Rabs_mult.
    apply Rle_trans with ((Rabs (val a) + g) * bpow radix2 (-53)); [apply Rmult_le_compat; auto using Rabs_pos|].
    apply Rle_trans with ((bpow radix2 50 * g + g) * bpow radix2 (-53)); [apply Rmult_le_compat_r; lra|]. replace ((bpow radix2 50 * g + g) * bpow radix2 (-53)) with (bpow radix2 (-53) * bpow radix2 50 * g + g * bpow radix2 (-53)) by ring. rewrite U50. lra. }
  apply Rabs_le_inv in EE. lra.
Qed.

(** the first bin of Fixed is not narrow *)
Lemma first_width M gap xs lo hi n m cat l : scale M gap -> spaced M gap xs -> fin lo -> fin hi -> In lo xs -> In hi xs -> (forall x, In x xs -> val lo <= val x <= val hi) -> val lo < val hi ->
  (1 <= n)%nat -> (Z.of_nat n <= 2 ^ 48)%Z -> IZR (Z.of_nat (Nat.max n cat)) * M <= bpow radix2 46 * gap ->
  fixed_find64 xs lo hi n m cat = Ok (Some l) -> gap <= (val (nth 1 l fnan) - val (nth 0 l fnan)) * (4 * IZR (Z.of_nat (Nat.max n cat))).
Proof.
  intros SC SP Fl Fh Il Ih RG LT H1 H2 HK H. pose proof SC as (HM & HG & HMG). pose proof SP as [HB HS]. assert (F : fins xs) by (intros x Hx; now apply HB).
  destruct (unique64_spec xs F) as (I & I1 & U).
  assert (U2 : (2 <= length (unique64 xs))%nat). { destruct (U lo Il) as (a & Ia & Ea). destruct (U hi Ih) as (b & Ib & Eb). destruct (unique64 xs) as [|x [|y q]]; cbn; try lia; [destruct Ia|]. destruct Ia as [<-|[]]. destruct Ib as [<-|[]]. lra. }
  destruct (HB lo Il) as [_ Bl]. destruct (HB hi Ih) as [_ Bh]. assert (M0 : 0 <= M) by (pose proof (Rabs_pos (val lo)); lra).
  pose proof (bpow_gt_0 radix2 (-900)) as P9. set (k := Nat.max n cat) in *. assert (K1 : 1 <= IZR (Z.of_nat k)) by (apply IZR_le; lia). set (c := IZR (Z.of_nat k)) in *.
  unfold fixed_find64 in H. destruct (Nat.leb_spec (length (unique64 xs)) cat).
  - rewrite cat_limits_eq in H by exact U2. destruct (all_valid64 _ _ _); apply ok_inj in H; [|discriminate H]. assert (E : l = cat_lims (unique64 xs)) by congruence. rewrite E. clear H E. set (u := unique64 xs) in *.
    rewrite lims_0, lims_mid by (lia || exact U2).
    assert (J0 : In (nth 0 u fnan) xs) by (apply I1, nth_In; lia). assert (J1 : In (nth 1 u fnan) xs) by (apply I1, nth_In; lia).
    assert (G01 : val (nth 0 u fnan) < val (nth 1 u fnan)) by (apply incr_nth; auto). pose proof (HS _ _ J0 J1 G01) as G. destruct (HB _ J0) as [F0 B0]. destruct (HB _ J1) as [F1 B1]. set (a := nth 0 u fnan) in *. set (b := nth 1 u fnan) in *.
    assert (T : M <= bpow radix2 1000) by (eapply Rle_trans; [exact HM|apply bpow_le; lia]).
    assert (A : apart a b). { assert (bpow radix2 50 * gap <= bpow radix2 50 * (val b - val a)) by (apply Rmult_le_compat_l; [apply bpow_ge_0|exact G]). assert (bpow radix2 (-1000) <= bpow radix2 (-900)) by (apply bpow_le; lia). split; [lra|]. split; lra. }
    assert (Ta : tame a) by (split; [exact F0|lra]). assert (Tb : tame b) by (split; [exact F1|lra]).
    pose proof (add_half_low a b Ta Tb A) as L1. destruct (sub_half a b Ta Tb A) as [_ L0].
    set (p := val (fadd _ _)) in *. set (q := val (fsub _ _)) in *. assert (D : gap / 4 <= p - q) by lra. assert (gap / 4 * (4 * 1) <= (p - q) * (4 * c)) by (apply Rmult_le_compat; lra). lra.
  - cbv zeta in H. destruct (all_valid64 _ _ _); apply ok_inj in H; [|discriminate H]. assert (E : l = linspace64 lo hi (n + 1)) by congruence. rewrite E. clear H E.
    pose proof (HS lo hi Il Ih LT) as G. assert (BB : M <= bpow radix2 1021) by (eapply Rle_trans; [exact HM|apply bpow_le; lia]).
    destruct (C100_limits lo hi n M Fl Fh Bl Bh BB ltac:(lra) H1 H2) as (_ & _ & _ & _ & _ & CL & _). pose proof (CL 0%nat ltac:(lia)) as C0. pose proof (CL 1%nat H1) as C1. change (IZR (Z.of_nat 0)) with 0 in C0. change (IZR (Z.of_nat 1)) with 1 in C1.
    set (l1 := val (nth 1 _ fnan)) in *. set (l0 := val (nth 0 _ fnan)) in *. set (d := val hi - val lo) in *. assert (N1 : 1 <= IZR (Z.of_nat n)) by (apply IZR_le; lia). assert (Nk : IZR (Z.of_nat n) <= c) by (apply IZR_le; lia). set (N := IZR (Z.of_nat n)) in *.
    apply Rabs_le_inv in C0. apply Rabs_le_inv in C1. replace (0 / N * d) with 0 in C0 by (unfold Rdiv; rewrite !Rmult_0_l; reflexivity).
    assert (MG : M * bpow radix2 (-48) * c <= gap / 4). { apply Rmult_le_reg_r with (bpow radix2 48); [apply bpow_gt_0|]. replace (M * bpow radix2 (-48) * c * bpow radix2 48) with (c * M * (bpow radix2 (-48) * bpow radix2 48)) by ring. rewrite <- bpow_plus. change (bpow radix2 (-48 + 48)) with 1. replace (gap / 4 * bpow radix2 48) with (bpow radix2 46 * gap); [lra|]. change 48%Z with (2 + 46)%Z. rewrite bpow_plus. change (bpow radix2 2) with 4. field. }
    assert (M49 : bpow radix2 (-48) = 2 * bpow radix2 (-49)) by (change (-48)%Z with (1 + -49)%Z; rewrite bpow_plus; reflexivity).
    assert (MM : M * bpow radix2 (-48) = 2 * (M * bpow radix2 (-49))) by (rewrite M49; ring).
    assert (D : 1 / N * d - M * bpow radix2 (-48) <= l1 - l0) by lra.
    assert (D2 : d / c <= 1 / N * d). { unfold Rdiv. rewrite Rmult_1_l, (Rmult_comm d). apply Rmult_le_compat_r; [lra|]. apply Rinv_le; lra. }
    assert (D3 : (d / c - M * bpow radix2 (-48)) * (4 * c) <= (l1 - l0) * (4 * c)) by (apply Rmult_le_compat_r; lra).
    replace ((d / c - M * bpow radix2 (-48)) * (4 * c)) with (4 * d - 4 * (M * bpow radix2 (-48) * c)) in D3 by (field; lra). lra.
Qed.

Lemma widened M K xs l : 1 <= M <= bpow radix2 24 -> encloses M K xs l -> encloses (2 * M) K xs (widen64 l) /\ nth 0 (widen64 l) fnan = nth 0 l fnan /\ val (nth 1 l fnan) <= val (nth 1 (widen64 l) fnan).
Proof.
  intros [M1 M24] (F & So & L & C & B1 & B2). assert (B27 : bpow radix2 27 = 8 * bpow radix2 24) by (change 27%Z with (3 + 24)%Z; rewrite bpow_plus; reflexivity). pose proof (bpow_gt_0 radix2 24) as P.
  assert (LB : - bpow radix2 27 <= val (last64 l) < bpow radix2 27) by (apply Rabs_le_inv in B2; lra).
  destruct (widen64_sorted l ltac:(lia) F So LB) as (F' & So' & LL). assert (N0 : nth 0 (widen64 l) fnan = nth 0 l fnan) by (rewrite widen64_nth by lia; destruct (Nat.eqb_spec 0 (length l - 1)); [lia|reflexivity]).
  split; [|split; [exact N0|]].
  - split; [exact F'|]. split; [exact So'|]. split; [rewrite widen64_length; lia|]. unfold first64 in *. rewrite N0. split; [intros x Hx; specialize (C x Hx); lra|]. split; [lra|].
    assert (EL : last64 (widen64 l) = fadd (last64 l) EPS64) by (unfold last64 at 1; rewrite widen64_length, widen64_nth, Nat.eqb_refl by lia; reflexivity). rewrite EL.
    assert (Fx : fin (last64 l)) by (apply fins_nth; [exact F|lia]). destruct (fadd_val (last64 l) EPS64 Fx EPS64_fin) as [V _].
    { apply EPS_bound; [exact Fx|]. eapply Rle_trans; [exact B2|]. apply Rle_trans with (bpow radix2 27); [lra|apply bpow_le; lia]. }
    destruct (rnd_plus_rel (last64 l) EPS64) as (e & E1 & E2). rewrite V, E2, Rabs_mult. pose proof EPS64_bounds as [_ EB]. assert (E0 : 0 <= val EPS64) by (pose proof EPS64_bounds as [? _]; pose proof (bpow_gt_0 radix2 (-27)); lra).
    assert (bpow radix2 (-26) <= 1) by (change 1 with (bpow radix2 0); apply bpow_le; lia). pose proof u53_small. apply Rabs_le_inv in E1. apply Rabs_le_inv in B2.
    apply Rle_trans with (4 * M * (3 / 2)); [|lra]. apply Rmult_le_compat; auto using Rabs_pos; apply Rabs_le; lra.
  - assert (HL : (length l - 1 < length l)%nat) by (clear - L; lia). assert (Fx : fin (last64 l)) by exact (fins_nth l (length l - 1) F HL). rewrite widen64_nth by lia. destruct (Nat.eqb_spec 1 (length l - 1)) as [E|E]; [|lra]. assert (E1 : nth 1 l fnan = last64 l) by (unfold last64; rewrite <- E; reflexivity). rewrite E1. left. exact (proj1 (widen_small (last64 l) Fx LB)).
Qed.

(** ** the limits are 0 or at least 2^-133 *)
Lemma fsub_fin x y : fin (fsub x y) -> fin x /\ fin y.
Proof. intros F. destruct x as [s|s| |s m e B]; destruct y as [s'|s'| |s' m' e' B']; try (split; reflexivity); try discriminate F. cbn in F. destruct s, s'; discriminate F. Qed.
Lemma grain_fadd k x y : (-1074 <= k)%Z -> fin (fadd x y) -> grain k (val x) -> grain k (val y) -> grain k (val (fadd x y)).
Proof. intros Hk F Gx Gy. destruct (fadd_inv _ _ F) as (_ & _ & ->). apply grain_rnd; [exact Hk|now apply grain_plus]. Qed.
Lemma grain_fsub k x y : (-1074 <= k)%Z -> fin (fsub x y) -> grain k (val x) -> grain k (val y) -> grain k (val (fsub x y)).
Proof. intros Hk F Gx Gy. destruct (fsub_fin _ _ F) as [Fx Fy]. rewrite fsub_inv by assumption. apply grain_rnd; [exact Hk|]. apply grain_plus; [exact Gx|now apply grain_opp]. Qed.
Lemma grain_int k n x : grain k x -> grain k (IZR n * x).
Proof. intros [m ->]. exists (n * m)%Z. rewrite mult_IZR. ring. Qed.
Lemma grain_half k x : (-1073 <= k)%Z -> fin (fdiv x (fofZ 2)) -> grain k (val x) -> grain (k - 1) (val (fdiv x (fofZ 2))).
Proof.
  intros Hk F [n E]. destruct (fofZ_val 2 ltac:(lia)) as [V2 _]. rewrite fdiv_inv; [|rewrite V2; lra|exact F]. apply grain_rnd; [lia|]. exists n. rewrite V2, E. unfold Zminus. rewrite bpow_plus. change (bpow radix2 (-(1))) with (/ 2). unfold Rdiv. ring.
Qed.
Lemma grain_weak k k' x : (k' <= k)%Z -> grain k x -> grain k' x.
Proof. intros H [n ->]. exact (grain_F2R k' n k H). Qed.

Lemma limits_coarse M gap xs lo hi n m cat l : 1 <= M <= bpow radix2 24 -> bpow radix2 (-30) <= gap -> spaced M gap xs -> (forall x, In x xs -> coarse (-80) x) -> fin lo -> fin hi -> In lo xs -> In hi xs -> (forall x, In x xs -> val lo <= val x <= val hi) -> val lo < val hi ->
  (1 <= n)%nat -> (Z.of_nat n <= 2 ^ 48)%Z -> fixed_find64 xs lo hi n m cat = Ok (Some l) -> fins (widen64 l) -> forall v, In v (widen64 l) -> coarse (-133) v.
Proof.
  intros HM HG SP CO Fl Fh Il Ih RG LT H1 H2 H FW v Hv. assert (G30 : bpow radix2 (-900) <= bpow radix2 (-30)) by (apply bpow_le; lia). pose proof SP as [HB HS]. assert (F : fins xs) by (intros x Hx; now apply HB).
  assert (GX : forall x, In x xs -> grain (-132) (val x)) by (intros x Hx; exact (coarse_grain (-80) x ltac:(lia) (CO x Hx))).
  destruct (HB lo Il) as [_ Bl]. destruct (HB hi Ih) as [_ Bh]. assert (BB : M <= bpow radix2 1021) by (apply Rle_trans with (bpow radix2 24); [lra|apply bpow_le; lia]).
  enough (GL : length l <> 0%nat /\ forall i, (i < length l)%nat -> fin (nth i l fnan) -> grain (-133) (val (nth i l fnan))).
  { destruct GL as [NL GL]. assert (Fv : fin v) by now apply FW. split; [exact Fv|]. apply grain_coarse. destruct (In_nth _ _ fnan Hv) as (i & Hi & <-). rewrite widen64_length in Hi. rewrite widen64_nth in * by lia. destruct (Nat.eqb_spec i (length l - 1)) as [E|E]; [|now apply GL].
    apply grain_fadd; [lia|exact Fv| |].
    - apply GL; [exact Hi|]. now destruct (fadd_fin _ _ Fv).
    - apply (grain_weak (-79)); [lia|]. exists 6044629098073146%Z. apply EPS64_val. }
  unfold fixed_find64 in H. destruct (Nat.leb_spec (length (unique64 xs)) cat).
  - destruct (unique64_spec xs F) as (I & I1 & U).
    assert (U2 : (2 <= length (unique64 xs))%nat). { destruct (U lo Il) as (a & Ia & Ea). destruct (U hi Ih) as (b & Ib & Eb). destruct (unique64 xs) as [|x [|y q]]; cbn; try lia; [destruct Ia|]. destruct Ia as [<-|[]]. destruct Ib as [<-|[]]. lra. }
    rewrite cat_limits_eq in H by exact U2. destruct (all_valid64 _ _ _); apply ok_inj in H; [|discriminate H]. assert (E : l = cat_lims (unique64 xs)) by congruence. rewrite E. clear H E FW Hv. set (u := unique64 xs) in *. rewrite lims_length by exact U2. split; [lia|].
    assert (GU : forall i, (i < length u)%nat -> grain (-132) (val (nth i u fnan))) by (intros i Hi; apply GX, I1, nth_In; exact Hi).
    assert (GH : forall i, (S i < length u)%nat -> fin (fdiv (fsub (nth (S i) u fnan) (nth i u fnan)) (fofZ 2)) -> grain (-133) (val (fdiv (fsub (nth (S i) u fnan) (nth i u fnan)) (fofZ 2)))).
    { intros i Hi Fi. apply (grain_half (-132)); [lia|exact Fi|]. apply grain_fsub; [lia|exact (fdiv_fin _ _ Fi)|apply GU; lia|apply GU; lia]. }
    intros i Hi Fi. destruct i as [|i]; [|destruct (Nat.lt_ge_cases (S i) (length u)) as [L|L]].
    + rewrite lims_0 in * by exact U2. apply grain_fsub; [lia|exact Fi|apply (grain_weak (-132)); [lia|apply GU; lia]|apply GH; [lia|now destruct (fsub_fin _ _ Fi)]].
    + rewrite lims_mid in * by exact L. apply grain_fadd; [lia|exact Fi|apply (grain_weak (-132)); [lia|apply GU; lia]|apply GH; [lia|now destruct (fadd_fin _ _ Fi)]].
    + assert (Ei : exists q, length u = S (S q) /\ i = S q) by (exists (i - 1)%nat; lia). destruct Ei as (q & Lu & ->). rewrite (lims_last u q Lu) in *. apply grain_fadd; [lia|exact Fi|apply (grain_weak (-132)); [lia|apply GU; lia]|apply GH; [lia|now destruct (fadd_fin _ _ Fi)]].
  - cbv zeta in H. destruct (all_valid64 _ _ _); apply ok_inj in H; [|discriminate H]. assert (E : l = linspace64 lo hi (n + 1)) by congruence. rewrite E. clear H E FW Hv. pose proof (HS lo hi Il Ih LT) as G. assert (HD : bpow radix2 (-900) <= val hi - val lo) by lra.
    destruct (linspace64_facts lo hi n Fl Fh ltac:(lra) ltac:(lra) HD H1 H2) as (L & _). rewrite L. split; [lia|]. intros i Hi Fi. apply (grain_weak (-132)); [lia|].
    destruct (Nat.eq_dec i n) as [->|N]; [rewrite linspace_end by assumption; now apply GX|]. rewrite (linspace_at lo hi n M) in * by (assumption || lia).
    set (step := fdiv (fsub hi lo) (fofn n)) in *. unfold point in Fi |- *. apply grain_fadd; [lia|exact Fi| |now apply GX]. destruct (fadd_fin _ _ Fi) as [Fm _].
    change (fdiv (fsub hi lo) (fofn n)) with step.     rewrite (fmul_inv _ step) by exact Fm. destruct (fofn_val n H1 H2 i ltac:(lia)) as [Vi _]. rewrite Vi. apply grain_rnd; [lia|]. apply grain_int.
    change (-132)%Z with (-80 - 52)%Z. apply coarse_grain; [lia|]. destruct (step_val lo hi n M Fl Fh Bl Bh BB HD H1 H2) as (e & E1 & E2 & Fs). fold step in E2, Fs. split; [exact Fs|right].
    pose proof (delta_bounds lo hi M Fl Fh Bl Bh BB HD) as [D1 _]. destruct (kR_bounds n H1 H2) as [K1 K2]. set (k := IZR (Z.of_nat n)) in *. rewrite E2. set (d := val (fsub hi lo)) in *. pose proof u53_small. apply Rabs_le_inv in E1.
    pose proof (bpow_gt_0 radix2 (-30)) as P30. assert (D2 : 0 < d) by lra. assert (Q : 0 <= d / k) by (apply Rlt_le, Rdiv_lt_0_compat; lra).
    assert (A : bpow radix2 (-79) <= d / k). { apply Rle_trans with (d / bpow radix2 48); [|unfold Rdiv; apply Rmult_le_compat_l; [lra|apply Rinv_le; lra]]. unfold Rdiv. rewrite <- bpow_opp. change (-79)%Z with (-31 + - (48))%Z. rewrite bpow_plus. apply Rmult_le_compat_r; [apply bpow_ge_0|].
      assert (bpow radix2 (-30) = 2 * bpow radix2 (-31)) by (change (-30)%Z with (1 + -31)%Z; rewrite bpow_plus; reflexivity). lra. }
    assert (bpow radix2 (-79) = 2 * bpow radix2 (-80)) by (change (-79)%Z with (1 + -80)%Z; rewrite bpow_plus; reflexivity).
    assert (d / k * (/ 2) <= d / k * (1 + e)) by (apply Rmult_le_compat_l; lra). rewrite Rabs_pos_eq; [lra|]. apply Rmult_le_pos; lra.
Qed.

(** one finite difference *)
Lemma effect_good y1 y2 l0 l1 Y c gap T W : coarse (-150) y1 -> coarse (-150) y2 -> Rabs (val y1) <= Y -> Rabs (val y2) <= Y -> fin l0 -> fin l1 -> 0 < gap -> 1 <= c ->
  gap <= (val l1 - val l0) * (4 * c) -> val l1 - val l0 <= bpow radix2 28 -> bpow radix2 (-900) <= gap -> 10 * Y * c <= T * gap -> T <= bpow radix2 390 -> Y <= W -> W <= bpow radix2 900 ->
  coarse (-240) (fdiv (fsub y1 y2) (fsub l1 l0)) /\ Rabs (val (fdiv (fsub y1 y2) (fsub l1 l0))) <= T.
Proof.
  intros C1 C2 B1 B2 F0 F1 G0 c1 HW HU HG HT T390 YW W9. pose proof (proj1 C1) as Fy1. pose proof (proj1 C2) as Fy2. pose proof u53_small as US. pose proof u53_pos as UP.
  assert (Y0 : 0 <= Y) by (pose proof (Rabs_pos (val y1)); lra). assert (BY : Rabs (val y1 - val y2) <= 2 * Y) by (apply Rabs_le_inv in B1; apply Rabs_le_inv in B2; apply Rabs_le; lra).
  assert (D0 : 0 < val l1 - val l0). { apply Rmult_lt_reg_r with (4 * c); [lra|]. rewrite Rmult_0_l. lra. }
  set (w := val l1 - val l0) in *.
  assert (P2 : 2 * bpow radix2 900 <= bpow radix2 1023) by (change 2 with (bpow radix2 1); rewrite <- bpow_plus; apply bpow_le; lia).
  destruct (fsub_val y1 y2 Fy1 Fy2) as [V F]; [lra|]. destruct (fsub_val l1 l0 F1 F0) as [Vw Fw]; [rewrite Rabs_pos_eq by (unfold w in D0; lra); apply Rle_trans with (bpow radix2 28); [exact HU|apply bpow_le; lia]|].
  destruct (rnd_minus_rel y1 y2) as (e & E1 & E2). destruct (rnd_minus_rel l1 l0) as (t & T1 & T2). fold w in T2, Vw.
  assert (Gr : grain (-202) (val (fsub y1 y2))). { rewrite V. apply grain_rnd; [lia|]. apply grain_plus; [exact (coarse_grain (-150) y1 ltac:(lia) C1)|apply grain_opp; exact (coarse_grain (-150) y2 ltac:(lia) C2)]. }
  rewrite E2 in V. rewrite T2 in Vw. apply Rabs_le_inv in E1. apply Rabs_le_inv in T1. set (d := fsub y1 y2) in *. set (ww := fsub l1 l0) in *.
  assert (Bd : Rabs (val d) <= 201 / 100 * Y). { rewrite V, Rabs_mult. apply Rle_trans with (2 * Y * (201 / 200)); [|lra]. apply Rmult_le_compat; auto using Rabs_pos. apply Rabs_le. lra. }
  assert (Bw : 99 / 100 * w <= val ww <= 2 * w). { rewrite Vw. split; [rewrite (Rmult_comm w); apply Rmult_le_compat_r; lra|rewrite (Rmult_comm w); apply Rmult_le_compat_r; lra]. }
  assert (HQ : Rabs (val d / val ww) <= 9 / 10 * T).
  { unfold Rdiv. rewrite Rabs_mult, Rabs_inv, (Rabs_pos_eq (val ww)) by lra. apply Rmult_le_reg_r with (val ww); [lra|]. rewrite Rmult_assoc, Rinv_l, Rmult_1_r by lra.
    assert (A : 10 * Y * c <= T * (w * (4 * c))). { eapply Rle_trans; [exact HT|]. apply Rmult_le_compat_l; [|exact HW]. apply Rmult_le_reg_r with gap; [exact G0|]. rewrite Rmult_0_l. eapply Rle_trans; [|exact HT]. apply Rmult_le_pos; lra. }
    assert (A2 : 10 * Y <= 4 * (T * w)). { apply Rmult_le_reg_r with c; [lra|]. lra. }
    assert (A3 : T * (99 / 100 * w) <= T * val ww). { apply Rmult_le_compat_l; [|lra]. apply Rmult_le_reg_r with w; [exact D0|]. lra. }
    lra. }
  assert (T0 : 0 <= T) by (pose proof (Rabs_pos (val d / val ww)); lra).
  destruct (fdiv_val d ww F Fw) as [Vq Fq]; [apply Rgt_not_eq; lra|apply Rle_trans with (bpow radix2 390); [lra|apply bpow_le; lia]|]. rewrite Vq. split.
  - split; [exact Fq|]. rewrite Vq. destruct (grain_coarse _ _ Gr) as [Z|Bl]; [left; rewrite Z; unfold Rdiv; rewrite Rmult_0_l; apply rnd_0|right].
    apply Rle_trans with (bpow radix2 (-231)); [apply bpow_le; lia|]. apply rnd_ge; [lia|]. unfold Rdiv. rewrite Rabs_mult, Rabs_inv, (Rabs_pos_eq (val ww)) by lra.
    apply Rmult_le_reg_r with (val ww); [lra|]. rewrite Rmult_assoc, Rinv_l, Rmult_1_r by lra. eapply Rle_trans; [|exact Bl]. change (-202)%Z with (-231 + 29)%Z. rewrite bpow_plus. apply Rmult_le_compat_l; [apply bpow_ge_0|].
    change 29%Z with (1 + 28)%Z. rewrite bpow_plus. change (bpow radix2 1) with 2. lra.
  - destruct (Rle_or_lt (bpow radix2 (-1022)) (Rabs (val d / val ww))) as [Hn|Hn].
    + destruct (rnd_rel (val d / val ww) Hn) as (s & S1 & S2). rewrite S2, Rabs_mult. apply Rabs_le_inv in S1. apply Rle_trans with (9 / 10 * T * (11 / 10)); [|lra]. apply Rmult_le_compat; auto using Rabs_pos. apply Rabs_le. lra.
    + destruct (grain_coarse _ _ Gr) as [Z|Bl]; [rewrite Z; unfold Rdiv; rewrite Rmult_0_l, rnd_0, Rabs_R0; exact T0|exfalso].
      assert (bpow radix2 (-231) <= Rabs (val d / val ww)).
      { unfold Rdiv. rewrite Rabs_mult, Rabs_inv, (Rabs_pos_eq (val ww)) by lra. apply Rmult_le_reg_r with (val ww); [lra|]. rewrite Rmult_assoc, Rinv_l, Rmult_1_r by lra. eapply Rle_trans; [|exact Bl]. change (-202)%Z with (-231 + 29)%Z. rewrite bpow_plus. apply Rmult_le_compat_l; [apply bpow_ge_0|].
        change 29%Z with (1 + 28)%Z. rewrite bpow_plus. change (bpow radix2 1) with 2. lra. }
      assert (bpow radix2 (-1022) <= bpow radix2 (-231)) by (apply bpow_le; lia). lra.
Qed.

(** ** RegionalALE with a model that is applied to each row *)
(** The feature: finite, not -0.0, 0 or at least 2^-80, of size at most M, different values at least [gap] apart. The model's values on
    the rows with the feature replaced by a number that is 0 or between 2^-133 and 8M: 0 or at least 2^-150, at most Y. *)
Definition ale_rows (f : nat) (g : list b64 -> b64) (M gap Y : R) (rows : list row64) : Prop :=
  spaced M gap (map (feat64 f) rows) /\ (forall r, In r rows -> not_minus_zero (feat64 f r) /\ coarse (-80) (feat64 f r)) /\
  (forall r z, In r rows -> coarse (-133) z -> Rabs (val z) <= 8 * M -> coarse (-150) (g (list_set (fst r) f z)) /\ Rabs (val (g (list_set (fst r) f z))) <= Y).
Lemma ale_rows_part f g M gap Y rows x : ale_rows f g M gap Y rows -> incl x rows -> ale_rows f g M gap Y x.
Proof.
  intros ((H1 & H2) & H3 & H4) I. assert (IM : incl (map (feat64 f) x) (map (feat64 f) rows)) by (intros y Hy; apply in_map_iff in Hy as (r & <- & Hr); apply in_map, I, Hr).
  split; [split; [intros a Ha; apply H1, IM, Ha|intros a b Ha Hb; apply H2; now apply IM]|]. split; [intros r Hr; apply H3, I, Hr|intros r z Hr; apply H4, I, Hr].
Qed.
(** The scales: 1 <= M <= 2^24, gap >= 2^-30, K M <= 2^46 gap, 10 Y K <= T gap, 2^-400 <= T <= 2^390. *)
Definition ale_scale (M gap Y T : R) (K : nat) : Prop :=
  1 <= M <= bpow radix2 24 /\ bpow radix2 (-30) <= gap /\ IZR (Z.of_nat K) * M <= bpow radix2 46 * gap /\ 10 * Y * IZR (Z.of_nat K) <= T * gap /\ Y <= bpow radix2 900 /\ bpow radix2 (-400) <= T <= bpow radix2 390.

Lemma ale_good f g M gap Y T n m cat (x : list row64) lo hi p : ale_scale M gap Y T (Nat.max n cat) -> (1 <= n)%nat -> (Z.of_nat n <= 2 ^ 48)%Z -> (Z.of_nat cat <= 2 ^ 48)%Z -> ale_rows f g M gap Y x -> (Z.of_nat (length x) <= 2 ^ 40)%Z ->
  axis_limits64 (map fst x) f = Ok (lo, hi) -> val lo < val hi -> region_ale64 f (map g) n m cat x lo hi = Ok p -> good_bins p hi (Nat.max n cat) (84 * T * M).
Proof.
  intros (HM & HG30 & HKM & HY & Y9 & HT) H1 H2 H3 (SP & NZ & HE) HN EA LT H. destruct (region_limits f M gap x lo hi SP EA) as (EC & Fl & Fh & Il & Ih & RG).
  assert (F : fins (map (feat64 f) x)) by (intros a Ha; now apply (proj1 SP)). assert (K1 : 1 <= IZR (Z.of_nat (Nat.max n cat))) by (apply IZR_le; lia).
  assert (HG : bpow radix2 (-900) <= gap) by (apply Rle_trans with (bpow radix2 (-30)); [apply bpow_le; lia|exact HG30]).
  assert (SC : scale M gap). { split; [apply Rle_trans with (bpow radix2 24); [lra|apply bpow_le; lia]|]. split; [exact HG|]. pose proof (bpow_gt_0 radix2 (-900)).
    assert (1 * M <= IZR (Z.of_nat (Nat.max n cat)) * M) by (apply Rmult_le_compat_r; lra). assert (bpow radix2 46 * gap <= bpow radix2 50 * gap) by (apply Rmult_le_compat_r; [lra|apply bpow_le; lia]). lra. }
  unfold region_ale64, ale_fit_feature64 in H. cbv zeta in H.
  rewrite FloatProofs.kept_all in H; auto; [|rewrite EC; exact F|intros r Hr; apply RG; rewrite <- EC; exact (in_map (fun r => nth f r fnan) _ r Hr)].
  apply bind_ok in H as (r & FD & H). destruct r as [l|]; [|discriminate H]. rewrite EC in FD.
  pose proof (fixed_encloses M gap _ lo hi n m cat l SC SP Fl Fh Il Ih RG LT H1 H2 FD) as EN. pose proof (first_width M gap _ lo hi n m cat l SC SP Fl Fh Il Ih RG LT H1 H2 HKM FD) as WD.
  destruct (widened M _ _ l HM EN) as (EN' & N0 & N1). destruct EN as (Fll & So & L2 & C & B1 & B2).
  assert (B27 : bpow radix2 27 = 8 * bpow radix2 24) by (change 27%Z with (3 + 24)%Z; rewrite bpow_plus; reflexivity). pose proof (bpow_gt_0 radix2 24) as P24.
  assert (NE : map fst x <> []). { intros Z. apply map_eq_nil in Z. subst x. destruct Il. }
  assert (IC : forall r, In r (map fst x) -> In (nth f r fnan) (map (feat64 f) x)) by (intros r Hr; rewrite <- EC; exact (in_map (fun r => nth f r fnan) _ r Hr)).
  destruct (local_effects_small (map fst x) g l f) as [EL BN]; auto; [rewrite EC; exact F|lia|apply Rabs_le_inv in B2; lra|].
  rewrite EL in H. cbv iota in H. cbn [bind] in H. rewrite EC in H. set (es := map _ (map fst x)) in H. destruct EN' as (F' & So' & L2' & C' & B1' & B2').
  assert (LL : length (widen64 l) = length l) by apply widen64_length.
  assert (LB : forall i, (i < length l)%nat -> Rabs (val (nth i (widen64 l) fnan)) <= 8 * M).
  { intros i Hi. pose proof (sorted_le (widen64 l) 0 i So' ltac:(lia) ltac:(lia)) as S1. pose proof (sorted_le (widen64 l) i (length (widen64 l) - 1) So' ltac:(lia) ltac:(lia)) as S2. fold (first64 (widen64 l)) in S1. fold (last64 (widen64 l)) in S2. apply Rabs_le_inv in B1'. apply Rabs_le_inv in B2'. apply Rabs_le. lra. }
  assert (LC : forall i, (i < length l)%nat -> coarse (-133) (nth i (widen64 l) fnan)).
  { intros i Hi. apply (limits_coarse M gap (map (feat64 f) x) lo hi n m cat l); auto; [|apply nth_In; lia]. intros a Ha. apply in_map_iff in Ha as (r & <- & Hr). now apply NZ. }
  assert (HES : forall e, In e es -> coarse (-240) e /\ Rabs (val e) <= T).
  { intros e He. unfold es in He. rewrite map_map in He. apply in_map_iff in He as (r & <- & Hr). destruct (BN (fst r) (in_map fst x r Hr)) as [Bi _]. set (b := bin_of _ _) in *.
    destruct (HE r (nth (S b) (widen64 l) fnan) Hr (LC _ Bi) (LB _ Bi)) as [Y1 Y1']. destruct (HE r (nth b (widen64 l) fnan) Hr (LC b ltac:(lia)) (LB b ltac:(lia))) as [Y2 Y2'].
    apply (effect_good _ _ _ _ Y (IZR (Z.of_nat (Nat.max n cat))) gap T Y); auto; try lra.
    - apply fins_nth; [exact F'|lia].
    - apply fins_nth; [exact F'|lia].
    - pose proof (bpow_gt_0 radix2 (-900)); lra.
    - rewrite N0. eapply Rle_trans; [exact WD|]. apply Rmult_le_compat_r; lra.
    - pose proof (LB 0%nat ltac:(lia)) as Q0. pose proof (LB 1%nat ltac:(lia)) as Q1. apply Rabs_le_inv in Q0. apply Rabs_le_inv in Q1. change 28%Z with (4 + 24)%Z. rewrite bpow_plus. change (bpow radix2 4) with 16. lra. }
  destruct (proj1 SP hi Ih) as [_ Bh]. replace (84 * T * M) with (42 * T * (2 * M)) by ring.
  apply (good_of_effects (2 * M) (map (feat64 f) x) es (widen64 l)); auto; try lia.
  - split; [exact F'|]. split; [exact So'|]. split; [exact L2'|]. auto.
  - split; [lra|]. change 25%Z with (1 + 24)%Z. rewrite bpow_plus. change (bpow radix2 1) with 2. lra.
  - unfold es. now rewrite !map_length.
  - rewrite map_length. exact HN.
  - apply in_map_iff in Ih as (r & <- & Hr). now apply NZ.
  - lra.
Qed.
