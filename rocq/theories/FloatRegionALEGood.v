(** FloatRegionALEGood: data on which the bins of RegionalRHALE are good (Prop_FloatRegionALE.v). *)
From Coq Require Import Reals.
From Flocq Require Import Core.
From Flocq Require Import IEEE754.BinarySingleNaN.
From Verif Require Import Base Numpy NumpyFacts Utils FloatModel FloatFacts FloatGrid FloatBins FloatProofs FloatMean FloatAcc FloatFill FloatCat FloatAdapt FloatPDP FloatRegion FloatRegionMain FloatRegionGuard FloatRegionPDPProofs FloatRegionALE FloatRegionALEProofs FloatGrain FloatGood Prop_FloatAcc Prop_FloatCat Prop_FloatGreedy Prop_FloatRhale Prop_FloatRegionALE.
From Coq Require Import Lra.
Open Scope R_scope.

Lemma variation_le l d D : fins l -> sorted64 l -> (2 <= length l)%nat -> length d = (length l - 1)%nat -> (forall a, In a d -> plus64 a /\ val a <= D) ->
  variation l d (val (nth (length d) l fnan)) <= D * (val (last64 l) - val (first64 l)).
Proof.
  intros F So L2 Ld PD. unfold variation. set (x := val (nth (length d) l fnan)).
  assert (G : forall n, (n <= length d)%nat -> sumR n (fun i => Rabs (val (nth i d fnan)) * covered l x i) <= D * (val (nth n l fnan) - val (nth 0 l fnan))).
  { induction n as [|n IH]; intros Hn; cbn [sumR]; [lra|]. specialize (IH ltac:(lia)). destruct (PD _ (nth_In d fnan (n := n) ltac:(lia))) as [P B]. pose proof (plus_val _ P) as V. rewrite Rabs_pos_eq by exact V.
    assert (S1 : val (nth (S n) l fnan) <= x) by (apply (sorted_le l); auto; lia). pose proof (So n ltac:(lia)) as S2.
    assert (C : covered l x n = val (nth (S n) l fnan) - val (nth n l fnan)). { unfold covered. rewrite Rmin_right by exact S1. apply Rmax_right. lra. }
    rewrite C. assert (val (nth n d fnan) * (val (nth (S n) l fnan) - val (nth n l fnan)) <= D * (val (nth (S n) l fnan) - val (nth n l fnan))) by (apply Rmult_le_compat_r; lra). lra. }
  specialize (G (length d) (Nat.le_refl _)). unfold last64, first64. replace (length l - 1)%nat with (length d) by lia. exact G.
Qed.

Lemma good_of_effects M xs es l p K T hi : encloses M K xs l -> 0 <= M <= bpow radix2 25 -> (Z.of_nat K <= 2 ^ 48)%Z -> fins xs -> length xs = length es -> (Z.of_nat (length xs) <= 2 ^ 40)%Z ->
  (forall e, In e es -> coarse (-240) e /\ Rabs (val e) <= T) -> bpow radix2 (-400) <= T <= bpow radix2 390 ->
  compute_ale_params64 xs es l = Ok p -> fin hi -> not_minus_zero hi -> Rabs (val hi) <= M -> good_bins p hi K (42 * T * M).
Proof.
  intros (Fl & So & L2 & C & B1 & B2) HM HK Fx Le HN HE HT HP Fh NZ BH.
  assert (B27 : 4 * bpow radix2 25 = bpow radix2 27) by (change 4 with (bpow radix2 2); rewrite <- bpow_plus; reflexivity). pose proof (bpow_gt_0 radix2 25) as P25.
  destruct (params_good xs es l p T Fx Fl So ltac:(lia) Le HN ltac:(unfold idx64; lia) C) as (E1 & E2 & E3 & E4 & PV & PD); auto.
  { apply Rabs_le_inv in B2. lra. }
  assert (Ld : length (deviations p) = (length l - 1)%nat) by (unfold deviations; rewrite map_length; exact E4).
  assert (T0 : 0 <= T) by (pose proof (bpow_ge_0 radix2 (-400)); lra).
  assert (V : variation l (deviations p) (val (nth (length (deviations p)) l fnan)) <= 42 * T * M).
  { eapply Rle_trans; [apply (variation_le l (deviations p) (6 * T)); auto; lia|]. replace (42 * T * M) with (6 * T * (7 * M)) by ring. apply Rmult_le_compat_l; [lra|]. apply Rabs_le_inv in B1. apply Rabs_le_inv in B2. lra. }
  assert (TM : 42 * T * M <= bpow radix2 900). { apply Rle_trans with (bpow radix2 6 * bpow radix2 390 * bpow radix2 25); [apply Rmult_le_compat; try lra; [apply Rmult_le_compat; try lra; unfold bpow; cbn; lra]|]. rewrite <- !bpow_plus. apply bpow_le. lia. }
  assert (Bl : forall i, (i < length l)%nat -> Rabs (val (nth i l fnan)) <= bpow radix2 1021).
  { intros i Hi. pose proof (sorted_le l 0 i So ltac:(lia) Hi) as S1. pose proof (sorted_le l i (length l - 1) So ltac:(lia) ltac:(lia)) as S2. fold (first64 l) in S1. fold (last64 l) in S2. apply Rabs_le_inv in B1. apply Rabs_le_inv in B2.
    apply Rle_trans with (bpow radix2 27); [apply Rabs_le; lra|apply bpow_le; lia]. }
  unfold good_bins. rewrite E1. split; [exact E2|]. split; [exact E3|]. split; [exact PV|]. split.
  { split; [exact Fl|]. split; [exact So|]. split; [lia|]. split; [exact Ld|]. split; [intros a Ha; apply (PD a Ha)|]. split; [lia|]. split; [exact Bl|]. eapply Rle_trans; [exact V|]. eapply Rle_trans; [exact TM|]. apply bpow_le. lia. }
  split. { split; [exact Fh|]. split; [apply Rle_trans with (bpow radix2 25); [lra|apply bpow_le; lia]|]. right. apply Rabs_le_inv in BH. assert (bpow radix2 25 <= 100000000) by (unfold bpow; cbn; lra). lra. }
  split; [exact NZ|]. split; [lia|]. rewrite <- (map_length fsqrt (p64_var p)). exact V.
Qed.

(** ** RegionalRHALE *)
(** Equal or greedy bins. *)
Definition binning_size (b : binning64) : nat := match b with BFixed n _ cat | BGreedy n _ _ cat => Nat.max n cat | BDP K _ _ cat => Nat.max K cat end.
Definition equal_or_greedy (b : binning64) : Prop := match b with BFixed n _ cat | BGreedy n _ _ cat => (1 <= n)%nat /\ (Z.of_nat n <= 2 ^ 48)%Z /\ (Z.of_nat cat <= 2 ^ 48)%Z | BDP _ _ _ _ => False end.

Lemma find_encloses var M gap xs es lo hi b l : scale M gap -> spaced M gap xs -> fin lo -> fin hi -> In lo xs -> In hi xs -> (forall x, In x xs -> val lo <= val x <= val hi) -> val lo < val hi ->
  equal_or_greedy b -> find64 var xs es lo hi b = Ok (Some l) -> encloses M (binning_size b) xs l.
Proof.
  intros SC SP Fl Fh Il Ih RG LT HB H. destruct b as [n m cat|n d m cat|]; [| |destruct HB]; destruct HB as (H1 & H2 & H3); cbn [find64 binning_size] in *.
  - exact (fixed_encloses M gap xs lo hi n m cat l SC SP Fl Fh Il Ih RG LT H1 H2 H).
  - pose proof SC as (HM & HG & _). pose proof SP as [HBD HS]. assert (F : fins xs) by (intros x Hx; now apply HBD).
    assert (U2 : (2 <= length (unique64 xs))%nat). { destruct (unique64_spec xs F) as (_ & _ & U). destruct (U lo Il) as (a & Ia & Ea). destruct (U hi Ih) as (c & Ic & Ec). destruct (unique64 xs) as [|x [|y q]]; cbn; try lia; [destruct Ia|]. destruct Ia as [<-|[]]. destruct Ic as [<-|[]]. lra. }
    destruct (HBD lo Il) as [_ Bl]. destruct (HBD hi Ih) as [_ Bh]. assert (M0 : 0 <= M) by (pose proof (Rabs_pos (val lo)); lra). assert (BB : M <= bpow radix2 1021) by (eapply Rle_trans; [exact HM|apply bpow_le; lia]). pose proof (HS lo hi Il Ih LT) as G.
    destruct (Nat.le_gt_cases (length (unique64 xs)) cat) as [C|C].
    + unfold greedy_find64 in H. destruct (none_valid64 _ _); [discriminate H|]. rewrite (proj2 (Nat.leb_le _ _) C) in H. rewrite cat_limits_eq in H by exact U2. destruct (all_valid64 _ _ _); apply ok_inj in H; [|discriminate H].
      assert (E : l = cat_lims (unique64 xs)) by congruence. rewrite E. destruct (cat_bins M gap xs SC SP U2) as (A1 & A2 & A3 & A4). repeat split; auto; try apply A4; auto; try lia.
    + destruct (C109_greedy var xs es lo hi m d n cat F Fl Fh ltac:(lra) ltac:(lra) ltac:(lra) H1 H2 RG C U2) as (l' & js & E & _ & L2 & _ & _ & _ & V & E0 & E1 & So & _).
      rewrite E in H. destruct (Nat.ltb (length xs) m); apply ok_inj in H; [discriminate H|]. assert (El : l' = l) by congruence. subst l'.
      split; [intros x Hx; destruct (In_nth _ _ fnan Hx) as (i & Hi & <-); now apply V|]. split; [exact So|]. split; [lia|]. unfold first64, last64. rewrite E0, E1. split; [exact RG|]. split; lra.
Qed.

(** The feature: finite, not -0.0, different values at least [gap] apart, of size at most M. Its effects (the Jacobian): 0 or at least
    2^-240, at most T. *)
Definition rhale_rows (f : nat) (M gap T : R) (rows : list row64) : Prop :=
  spaced M gap (map (feat64 f) rows) /\ (forall r, In r rows -> not_minus_zero (feat64 f r)) /\
  (forall r, In r rows -> coarse (-240) (nth f (snd r) fnan) /\ Rabs (val (nth f (snd r) fnan)) <= T).
Lemma rhale_rows_part f M gap T rows x : rhale_rows f M gap T rows -> incl x rows -> rhale_rows f M gap T x.
Proof.
  intros ((H1 & H2) & H3 & H4) I. assert (IM : incl (map (feat64 f) x) (map (feat64 f) rows)) by (intros y Hy; apply in_map_iff in Hy as (r & <- & Hr); apply in_map, I, Hr).
  split; [split; [intros a Ha; apply H1, IM, Ha|intros a b Ha Hb; apply H2; now apply IM]|]. split; [intros r Hr; apply H3, I, Hr|intros r Hr; apply H4, I, Hr].
Qed.

Lemma region_limits f M gap (x : list row64) lo hi : spaced M gap (map (feat64 f) x) -> axis_limits64 (map fst x) f = Ok (lo, hi) ->
  col64 (map fst x) f = map (feat64 f) x /\ fin lo /\ fin hi /\ In lo (map (feat64 f) x) /\ In hi (map (feat64 f) x) /\ (forall a, In a (map (feat64 f) x) -> val lo <= val a <= val hi).
Proof.
  intros [HB _] E. assert (EC : col64 (map fst x) f = map (feat64 f) x) by (unfold col64; rewrite map_map; reflexivity). split; [exact EC|].
  assert (F : fins (map (feat64 f) x)) by (intros a Ha; now apply HB). unfold axis_limits64 in E. rewrite EC in E.
  assert (N : map (feat64 f) x <> []) by (intros Z; rewrite Z in E; discriminate E).
  destruct (np_min64_ok _ F N) as (lo' & El & Fl & Il & Ml). destruct (np_max64_ok _ F N) as (hi' & Eh & Fh & Ih & Mh). rewrite El, Eh in E. cbn [bind] in E. apply ok_inj in E. assert (lo = lo' /\ hi = hi') as [-> ->] by (split; congruence).
  repeat split; auto.
Qed.

Lemma rhale_good var f M gap T b (x : list row64) lo hi p : scale M gap -> bpow radix2 (-400) <= T <= bpow radix2 390 -> equal_or_greedy b -> rhale_rows f M gap T x -> (Z.of_nat (length x) <= 2 ^ 40)%Z ->
  axis_limits64 (map fst x) f = Ok (lo, hi) -> val lo < val hi -> region_rhale64 f var b x lo hi = Ok p -> good_bins p hi (binning_size b) (42 * T * M).
Proof.
  intros SC HT HB (SP & NZ & HE) HN EA LT H. destruct (region_limits f M gap x lo hi SP EA) as (EC & Fl & Fh & Il & Ih & RG).
  assert (F : fins (map (feat64 f) x)) by (intros a Ha; now apply (proj1 SP)).
  unfold region_rhale64, rhale_fit_feature64 in H. cbv zeta in H.
  assert (KA : filter (fun p => in_range64 lo hi f (fst p)) (combine (map fst x) (map snd x)) = combine (map fst x) (map snd x)).
  { apply combine_filter_all; [rewrite !map_length; lia|]. intros r Hr. assert (Ir : In (nth f r fnan) (map (feat64 f) x)) by (rewrite <- EC; exact (in_map (fun r => nth f r fnan) _ r Hr)). unfold in_range64. rewrite andb_true_iff, !fle_val by auto. split; now apply RG. }
  rewrite KA, combine_fst, combine_snd in H by (rewrite !map_length; lia). apply bind_ok in H as (r & FD & H). destruct r as [l|]; [|discriminate H]. rewrite EC in FD, H.
  pose proof (find_encloses var M gap (map (feat64 f) x) _ lo hi b l SC SP Fl Fh Il Ih RG LT HB FD) as EN. destruct (proj1 SP hi Ih) as [_ Bh]. destruct SC as (HM & _).
  assert (M0 : 0 <= M) by (pose proof (Rabs_pos (val hi)); lra).
  assert (BK : (Z.of_nat (binning_size b) <= 2 ^ 48)%Z) by (destruct b; [| |destruct HB]; cbn [binning_size]; destruct HB; lia).
  assert (LE : length (map (feat64 f) x) = length (col64 (map snd x) f)) by (unfold col64; now rewrite !map_length).
  assert (HE' : forall e, In e (col64 (map snd x) f) -> coarse (-240) e /\ Rabs (val e) <= T) by (intros e He; unfold col64 in He; rewrite map_map in He; apply in_map_iff in He as (r & <- & Hr); now apply HE).
  assert (NZh : not_minus_zero hi) by (apply in_map_iff in Ih as (r & <- & Hr); now apply NZ).
  apply (good_of_effects M (map (feat64 f) x) (col64 (map snd x) f) l); auto. rewrite map_length. exact HN.
Qed.
