(** C119: RegionalALE and RegionalRHALE in binary64 (see properties.jsonl). FloatRegionALE.v: the heterogeneity function. *)
From Coq Require Import Reals.
From Flocq Require Import Core.
From Flocq Require Import IEEE754.BinarySingleNaN.
From Verif Require Import Base Numpy NumpyFacts Utils FloatModel FloatFacts FloatGrid FloatBins FloatProofs FloatMean FloatAcc FloatCat FloatAdapt FloatPDP FloatRegion FloatRegionProofs FloatRegionSum FloatRegionTop FloatRegionMain FloatRegionGuard FloatRegionAll FloatRegionPDPProofs Prop_FloatRegion FloatRegionIdeal FloatRegionALE FloatRegionALEProofs Prop_Float Prop_FloatAcc Prop_FloatPDP Prop_FloatGreedy Prop_FloatRhale.
From Coq Require Import Lra.
Open Scope R_scope.

Lemma two_values xs lo hi : fins xs -> (2 <= length (unique64 xs))%nat -> (forall x, In x xs -> val lo <= val x <= val hi) -> val lo < val hi.
Proof.
  intros F U H. destruct (unique64_spec xs F) as (I & S1 & _). pose proof (incr_nth _ 0 1 I ltac:(lia) ltac:(lia)) as L.
  destruct (H _ (S1 _ (nth_In (unique64 xs) fnan (n := 0) ltac:(lia)))). destruct (H _ (S1 _ (nth_In (unique64 xs) fnan (n := 1) ltac:(lia)))). lra.
Qed.

(** A region whose values of the feature are finite numbers of size at most 2^1021, with more than [cat] and at least two distinct ones,
    one of them 2^27 = 134217728 or more. *)
Definition large_feature (f cat : nat) (data : list row64) : Prop :=
  fins (map (feat64 f) data) /\ (exists r, In r data /\ bpow radix2 27 <= val (feat64 f r)) /\ (forall r, In r data -> Rabs (val (feat64 f r)) <= bpow radix2 1021) /\
  (cat < length (unique64 (map (feat64 f) data)))%nat /\ (2 <= length (unique64 (map (feat64 f) data)))%nat.

Lemma large_limits f cat data : large_feature f cat data -> exists lo hi, axis_limits64 (map fst data) f = Ok (lo, hi) /\ col64 (map fst data) f = map (feat64 f) data /\
  fin lo /\ fin hi /\ (forall x, In x (map (feat64 f) data) -> val lo <= val x <= val hi) /\ In hi (map (feat64 f) data) /\ val lo < val hi /\ bpow radix2 27 <= val hi /\ Rabs (val lo) <= bpow radix2 1021 /\ val hi <= bpow radix2 1021.
Proof.
  intros (F & (r & Ir & Br) & B & U & U2). assert (EC : col64 (map fst data) f = map (feat64 f) data) by (unfold col64; rewrite map_map; reflexivity).
  assert (N : map (feat64 f) data <> []) by (destruct data; [destruct Ir|discriminate]).
  destruct (np_min64_ok _ F N) as (lo & El & Fl & Il & Ml). destruct (np_max64_ok _ F N) as (hi & Eh & Fh & Ih & Mh). exists lo, hi. unfold axis_limits64. rewrite EC, El, Eh.
  assert (RG : forall x, In x (map (feat64 f) data) -> val lo <= val x <= val hi) by (intros x Hx; split; [now apply Ml|now apply Mh]).
  split; [reflexivity|]. split; [reflexivity|]. split; [exact Fl|]. split; [exact Fh|]. split; [exact RG|]. split; [exact Ih|]. split; [exact (two_values _ lo hi F U2 RG)|].
  split; [pose proof (RG _ (in_map (feat64 f) _ _ Ir)); lra|]. apply in_map_iff in Il as (a & Ea & Ia). apply in_map_iff in Ih as (b & Eb & Ib). pose proof (B a Ia) as B1. pose proof (B b Ib) as B2. rewrite Ea in B1. rewrite Eb in B2.
  split; [exact B1|]. apply Rabs_le_inv in B2. lra.
Qed.

(** RegionalALE: such a region always gets the heterogeneity 1e8, whatever the model. *)
Theorem C119_ale_large c model K m cat data : r64_fit c = region_ale64 (r64_feature c) model K m cat ->
  large_feature (r64_feature c) cat data -> (1 <= K)%nat -> (Z.of_nat K <= 2 ^ 48)%Z ->
  ale_heter64 c data = Ok BIGM64.
Proof.
  intros EF L HK HK2. unfold ale_heter64. destruct (Nat.ltb _ _); [reflexivity|]. pose proof L as (F & _ & _ & U & _).
  destruct (large_limits _ _ _ L) as (lo & hi & EA & EC & _ & _ & _ & _ & LT & B & B1 & B2). rewrite EA. cbn [bind]. rewrite EF. unfold region_ale64.
  rewrite (ale_big (map fst data) model (r64_feature c) K m cat lo hi); rewrite ?EC; auto.
Qed.
(** Hence RegionalALE never reports a subregion for a feature that reaches 2^27, and says nothing about it. *)
Theorem C119_ale_refuted c g model K m cat ss : g64_heter g = ale_heter64 c -> r64_fit c = region_ale64 (r64_feature c) model K m cat ->
  large_feature (r64_feature c) cat (g64_rows g) -> (1 <= K)%nat -> (Z.of_nat K <= 2 ^ 48)%Z ->
  subregions64 g = Ok ss -> ss = [].
Proof.
  intros EH EF L HK HK2 H. pose proof (C119_ale_large c model K m cat _ EF L HK HK2) as BIG. rewrite <- EH in BIG. unfold subregions64 in H. apply bind_ok in H as (r & S & H). assert (E : ss = choose64 g r) by congruence. rewrite E.
  unfold search64 in S. assert (G : forall q, (passert (Nat.leb (g64_max_levels g) (length (g64_foc g))) ;; h0 <- g64_heter g (g64_rows g) ;; ss <- search_levels64 g (g64_max_levels g) [g64_rows g] [h0] ;; Ok (match ss with [] => None | _ => Some (h0, ss) end)) = Ok q -> choose64 g q = []).
  { intros q Q. apply bind_ok in Q as (_ & _ & Q). rewrite BIG in Q. cbn [bind] in Q. apply bind_ok in Q as (l & _ & Q). destruct l; apply ok_inj in Q; rewrite <- Q; reflexivity. }
  destruct (g64_type g), (g64_split_cat g); try now apply G. assert (E0 : r = None) by congruence. rewrite E0. reflexivity.
Qed.

(** RegionalRHALE, bins with exact ends: the fit of such a region either fails or finds bins that end at its largest value. *)
Definition fixed_or_greedy (b : binning64) (distinct : nat) : Prop :=
  match b with
  | BFixed n _ cat | BGreedy n _ _ cat => (1 <= n)%nat /\ (Z.of_nat n <= 2 ^ 48)%Z /\ (cat < distinct)%nat
  | BDP _ _ _ _ => False
  end.
Lemma rhale_ends var X J lo hi f b p : fixed_or_greedy b (length (unique64 (col64 X f))) ->
  fins (col64 X f) -> length J = length X -> fin lo -> fin hi -> (forall x, In x (col64 X f) -> val lo <= val x <= val hi) -> (2 <= length (unique64 (col64 X f)))%nat ->
  Rabs (val lo) <= bpow radix2 1021 -> Rabs (val hi) <= bpow radix2 1021 -> bpow radix2 (-900) <= val hi - val lo ->
  rhale_fit_feature64 var X J lo hi f b = Ok p ->
  exists l, compute_ale_params64 (col64 X f) (col64 J f) l = Ok p /\ fins l /\ sorted64 l /\ (2 <= length l)%nat /\ val (first64 l) = val lo /\ last64 l = hi.
Proof.
  intros HB F LJ Fl Fh RG U2 B1 B2 D H. unfold rhale_fit_feature64 in H. cbv zeta in H.
  assert (KA : filter (fun p => in_range64 lo hi f (fst p)) (combine X J) = combine X J).
  { apply combine_filter_all; [lia|]. intros r Hr. assert (Ir : In (nth f r fnan) (col64 X f)) by exact (in_map (fun r => nth f r fnan) X r Hr). unfold in_range64. rewrite andb_true_iff, !fle_val by auto. split; now apply RG. }
  rewrite KA, combine_fst, combine_snd in H by lia. apply bind_ok in H as (r & FD & H). destruct r as [l|]; [|discriminate H]. exists l. split; [exact H|].
  destruct b as [n m cat|n d m cat|]; cbn [find64] in FD; [| |destruct HB]; destruct HB as (H1 & H2 & H3).
  - destruct (linspace64_facts lo hi n Fl Fh B1 B2 D H1 H2) as (L & FF & So & E1 & E2). unfold fixed_find64 in FD. destruct (Nat.leb_spec (length (unique64 (col64 X f))) cat); [lia|]. cbv zeta in FD.
    destruct (all_valid64 (col64 X f) m (linspace64 lo hi (n + 1))) in FD; apply ok_inj in FD; [|discriminate FD]. assert (E : l = linspace64 lo hi (n + 1)) by (injection FD; auto). rewrite E. repeat split; auto. lia.
  - destruct (C109_greedy var (col64 X f) (col64 J f) lo hi m d n cat F Fl Fh B1 B2 D H1 H2 RG H3 U2) as (l' & js & E & _ & L2 & _ & _ & _ & V & E0 & E1 & So & _).
    rewrite E in FD. destruct (Nat.ltb (length (col64 X f)) m); apply ok_inj in FD; [discriminate FD|]. assert (El : l' = l) by congruence. subst l'.
    repeat split; auto; [|lia]. intros x Hx. destruct (In_nth _ _ fnan Hx) as (i & Hi & <-). now apply V.
Qed.

(** RegionalRHALE, equal or greedy bins: whenever such a region has at least min_points_per_subregion rows and the fit finds two or more
    bins for it, the heterogeneity function raises ValueError with the default centering=False, and gives 1e8 with centering. *)
Theorem C119_rhale_large c var b data lo hi p : r64_fit c = region_rhale64 (r64_feature c) var b ->
  large_feature (r64_feature c) 0 data -> fixed_or_greedy b (length (unique64 (map (feat64 (r64_feature c)) data))) ->
  (r64_min_points c <= length data)%nat -> axis_limits64 (map fst data) (r64_feature c) = Ok (lo, hi) ->
  r64_fit c data lo hi = Ok p -> (3 <= length (p64_limits p))%nat ->
  ale_heter64 c data = match r64_centering c with NoCentering => Raise ValueError | _ => Ok BIGM64 end.
Proof.
  intros EF L HB MP EA HF H3. destruct (large_limits _ _ _ L) as (lo' & hi' & EA' & EC & Fl & Fh & RG & Ih & LT & B & B1 & B2). rewrite EA in EA'. apply ok_inj in EA'. assert (lo' = lo /\ hi' = hi) as [-> ->] by (split; congruence).
  pose proof L as (F & _ & _ & _ & U2). pose proof (bpow_gt_0 radix2 27) as P27.
  rewrite EF in HF. unfold region_rhale64 in HF. destruct (rhale_ends var (map fst data) (map snd data) lo hi (r64_feature c) b p) as (l & HP & FF & So & L2 & E0 & E1); rewrite ?EC, ?map_length; auto.
  { rewrite Rabs_pos_eq; lra. }
  { eapply Rle_trans; [|exact (gap_above lo hi B LT)]. apply bpow_le. lia. }
  rewrite EC in HP. assert (EL : p64_limits p = l) by (destruct (ale_params64_shape _ _ _ _ HP) as (_ & _ & E & _); exact E). rewrite EL in H3.
  destruct (C98_rhale_refuted (map (feat64 (r64_feature c)) data) (col64 (map snd data) (r64_feature c)) l p F FF So H3) as [_ EV]; auto.
  { exists hi. split; [exact Ih|now rewrite E1]. }
  { left. rewrite E1. exact B. }
  unfold ale_heter64. rewrite (proj2 (Nat.ltb_ge _ _) MP), EA. cbn [bind]. rewrite EF. unfold region_rhale64. rewrite HF. cbn [bind]. unfold norm_const64, norm_start64. unfold eval_unnorm64. rewrite !EV.
  destruct (r64_centering c); [|reflexivity|reflexivity]. cbn [bind]. unfold eval_heter64. assert (LB : Bltb lo hi = true) by now apply flt_val. rewrite LB. cbn [assert_ bind]. unfold eval_unnorm64. rewrite EV. reflexivity.
Qed.
(** Hence RegionalRHALE.fit, with the default centering=False, raises ValueError on a feature that reaches 2^27 (unless its bins collapse
    to one or cannot be computed), and with centering it silently reports no subregion. *)
Theorem C119_rhale_refuted c g var b lo hi p : g64_heter g = ale_heter64 c -> r64_fit c = region_rhale64 (r64_feature c) var b ->
  large_feature (r64_feature c) 0 (g64_rows g) -> fixed_or_greedy b (length (unique64 (map (feat64 (r64_feature c)) (g64_rows g)))) ->
  (r64_min_points c <= length (g64_rows g))%nat -> axis_limits64 (map fst (g64_rows g)) (r64_feature c) = Ok (lo, hi) ->
  r64_fit c (g64_rows g) lo hi = Ok p -> (3 <= length (p64_limits p))%nat ->
  (g64_type g = Cont \/ g64_split_cat g = true) -> (g64_max_levels g <= length (g64_foc g))%nat ->
  match r64_centering c with NoCentering => subregions64 g = Raise ValueError | _ => forall ss, subregions64 g = Ok ss -> ss = [] end.
Proof.
  intros EH EF L HB MP EA HF H3 T LV. pose proof (C119_rhale_large c var b _ lo hi p EF L HB MP EA HF H3) as H. rewrite <- EH in H.
  assert (ES : search64 g = (h0 <- g64_heter g (g64_rows g) ;; ss <- search_levels64 g (g64_max_levels g) [g64_rows g] [h0] ;; Ok (match ss with [] => None | _ => Some (h0, ss) end))).
  { unfold search64. rewrite (proj2 (Nat.leb_le _ _) LV). destruct (g64_type g), (g64_split_cat g); try reflexivity. destruct T; discriminate. }
  rewrite H in ES. unfold subregions64. rewrite ES.
  assert (G : forall ss, (f <- (ss <- search_levels64 g (g64_max_levels g) [g64_rows g] [BIGM64] ;; Ok (match ss with [] => None | _ => Some (BIGM64, ss) end)) ;; Ok (choose64 g f)) = Ok ss -> ss = []).
  { intros ss Q. apply bind_ok in Q as (q & Q & E). apply bind_ok in Q as (l & _ & Q). apply ok_inj in E. apply ok_inj in Q. rewrite <- E, <- Q. destruct l; reflexivity. }
  destruct (r64_centering c); [reflexivity|exact G|exact G].
Qed.

(** ** Below 1e8 *)

(** The standard deviations of the bins, and their exact accumulation up to x: the sum over the bins of the standard deviation times
    the length of the part of the bin below x. *)
Definition deviations (p : params64) : list b64 := map fsqrt (p64_var p).
Definition accumulated (p : params64) (x : b64) : R := curve (p64_limits p) (deviations p) (val x).
(** Bins whose heterogeneity can be accumulated up to [hi]: at most K of them, one effect and one width each, variances finite with sign
    +, the total at most B, [hi] finite, not -0.0 and inside the bins or at most 1e8. *)
Definition good_bins (p : params64) (hi : b64) (K : nat) (B : R) : Prop :=
  p64_dx p = diffs64 (p64_limits p) /\ length (p64_effect p) = (length (p64_limits p) - 1)%nat /\ (forall v, In v (p64_var p) -> plus64 v) /\
  table (p64_limits p) (deviations p) /\ position (p64_limits p) hi /\ not_minus_zero hi /\
  (length (p64_var p) <= K)%nat /\ variation (p64_limits p) (deviations p) (val (nth (length (p64_var p)) (p64_limits p) fnan)) <= B.
(** ((1+2^-53)^(K+2) - 1) B + K 2^-1074 *)
Definition acc_error (K : nat) (B : R) : R := ((1 + bpow radix2 (-53)) ^ (K + 2) - 1) * B + IZR (Z.of_nat K) * bpow radix2 (-1074).

Lemma covered_le (l e : list b64) x i : sorted64 l -> length e = (length l - 1)%nat -> (i < length e)%nat -> 0 <= covered l x i <= covered l (val (nth (length e) l fnan)) i.
Proof.
  intros So Le Hi. pose proof (sorted_le l (S i) (length e) So ltac:(lia) ltac:(lia)). pose proof (sorted_le l i (S i) So ltac:(lia) ltac:(lia)). rewrite !covered_unfold.
  split; [apply Rmax_l|]. apply Rle_max_compat_l. apply Rplus_le_compat_r. rewrite (Rmin_right (val (nth (length e) l fnan))) by lra. apply Rmin_r.
Qed.
Lemma curve_range l e x B : sorted64 l -> length e = (length l - 1)%nat -> (forall a, In a e -> 0 <= val a) -> variation l e (val (nth (length e) l fnan)) <= B ->
  0 <= curve l e x /\ curve l e x <= variation l e x /\ variation l e x <= B.
Proof.
  intros So Le Pe HB. assert (P : forall i, (i < length e)%nat -> 0 <= val (nth i e fnan)) by (intros i Hi; apply Pe, nth_In, Hi). split; [|split].
  - apply sumR_pos. intros i Hi. pose proof (covered_le l e x i So Le Hi). apply Rmult_le_pos; [now apply P|lra].
  - apply Req_le. apply sumR_ext. intros i Hi. rewrite Rabs_pos_eq by now apply P. reflexivity.
  - eapply Rle_trans; [|exact HB]. unfold variation. assert (G : forall n f h, (forall i, (i < n)%nat -> f i <= h i) -> sumR n f <= sumR n h).
    { induction n as [|n IH]; intros f h Q; cbn [sumR]; [lra|]. specialize (IH f h ltac:(intros; apply Q; lia)). specialize (Q n ltac:(lia)). lra. }
    apply G. intros i Hi. pose proof (covered_le l e x i So Le Hi). apply Rmult_le_compat_l; [apply Rabs_pos|lra].
Qed.

Lemma heter_value c (data : list row64) lo hi p k K B : (r64_min_points c <= length data)%nat -> axis_limits64 (map fst data) (r64_feature c) = Ok (lo, hi) -> Bltb lo hi = true ->
  r64_fit c data lo hi = Ok p -> norm_const64 (r64_mean c) (r64_centering c) p lo hi = Ok k -> good_bins p hi K B ->
  exists z, ale_heter64 c data = Ok z /\ fin z /\ Bsign z = false /\ Rabs (val z - accumulated p hi) <= acc_error K B.
Proof.
  intros MP EA LT HF HN (ED & LE & PV & T & PO & NZ & HK & HB). exists (acc1 (p64_limits p) (deviations p) hi). unfold ale_heter64. rewrite (proj2 (Nat.ltb_ge _ _) MP), EA. cbn [bind]. rewrite HF. cbn [bind]. rewrite HN. cbn [bind].
  pose proof T as T0. destruct T as (Fl & So & L2 & Le & Fe & H50 & Bl & V). assert (LD : length (deviations p) = length (p64_var p)) by apply map_length.
  destruct PO as (Fx & Bx & HX). replace (length (p64_limits p) - 1)%nat with (length (deviations p)) in HX by lia.
  split. { unfold eval_heter64. rewrite LT. cbn [assert_ bind]. unfold eval_unnorm64, eval_std64. rewrite ED. rewrite (acc_eq (p64_limits p) (p64_effect p) Fl So L2 LE Bl [hi]). cbn [bind]. fold (deviations p). rewrite (acc_eq (p64_limits p) (deviations p) Fl So L2 Le Bl [hi]). reflexivity. }
  destruct (acc1_error (p64_limits p) (deviations p) Fl So Fe L2 Le H50 Bl (table_total _ _ T0) hi Fx Bx HX) as [FZ EZ].
  assert (PD : forall a, In a (deviations p) -> plus64 a) by (intros a Ha; apply in_map_iff in Ha as (v & <- & Hv); now apply fsqrt_plus, PV).
  destruct (acc1_plus (p64_limits p) (deviations p) hi Fl So Fe L2 Le H50 Bl (table_total _ _ T0) PD Fx NZ Bx FZ) as [_ SZ].
  split; [exact FZ|]. split; [exact SZ|]. unfold accumulated, acc_error. rewrite <- LD in HB. destruct (curve_range (p64_limits p) (deviations p) (val hi) B So Le ltac:(intros a Ha; now apply plus_val, PD) HB) as (C0 & C1 & C2).
  eapply Rle_trans; [exact EZ|]. change (sumR (length (deviations p)) (fun i => Rabs (val (nth i (deviations p) fnan)) * covered (p64_limits p) (val hi) i)) with (variation (p64_limits p) (deviations p) (val hi)).
  pose proof (gam_le (length (deviations p) + 2) (K + 2) ltac:(lia)) as G. change ((1 + bpow radix2 (-53)) ^ (K + 2) - 1) with (gam (K + 2)). pose proof (gam_pos (length (deviations p) + 2)) as G0.
  apply Rplus_le_compat; [apply Rmult_le_compat; [exact G0|lra|exact G|exact C2]|]. apply Rmult_le_compat_r; [apply bpow_ge_0|]. apply IZR_le. lia.
Qed.
Lemma norm_runs mean m p lo hi K B : good_bins p hi K B -> exists k, norm_const64 mean m p lo hi = Ok k.
Proof.
  intros (ED & LE & _ & T & _). destruct T as (Fl & So & L2 & _ & _ & _ & Bl & _).
  assert (E : forall xs, eval_unnorm64 p xs = Ok (map (acc1 (p64_limits p) (p64_effect p)) xs)) by (intros xs; unfold eval_unnorm64; rewrite ED; exact (acc_eq (p64_limits p) (p64_effect p) Fl So L2 LE Bl xs)).
  destruct m; unfold norm_const64; [eauto| |].
  - rewrite E. cbn [bind]. eauto.
  - unfold norm_start64. rewrite E. cbn [bind map]. unfold getn. cbn [nth_error bind]. eauto.
Qed.
(** The heterogeneity of one region whose fit succeeds, for every centering: finite, sign +, and within [acc_error] of the exact
    accumulation, up to the largest value of the feature in the region, of the standard deviations of the bins. *)
Theorem C119_heter_partial c (data : list row64) lo hi p K B : (r64_min_points c <= length data)%nat -> axis_limits64 (map fst data) (r64_feature c) = Ok (lo, hi) -> Bltb lo hi = true ->
  r64_fit c data lo hi = Ok p -> good_bins p hi K B ->
  exists z, ale_heter64 c data = Ok z /\ fin z /\ Bsign z = false /\ Rabs (val z - accumulated p hi) <= acc_error K B.
Proof.
  intros MP EA LT HF GB. destruct (norm_runs (r64_mean c) (r64_centering c) p lo hi K B GB) as [k HN]. exact (heter_value c data lo hi p k K B MP EA LT HF HN GB).
Qed.

(** ** The whole search *)

(** What the heterogeneity of a region should be, given its bins: the exact accumulation of their standard deviations up to the largest
    value; 1e8 for a region with too few rows or without bins. *)
Definition accumulated_heter (c : aleheter64) (data : list row64) : R :=
  if Nat.ltb (length data) (r64_min_points c) then 100000000
  else match axis_limits64 (map fst data) (r64_feature c) with
       | Ok (lo, hi) => match p <- r64_fit c data lo hi ;; k <- norm_const64 (r64_mean c) (r64_centering c) p lo hi ;; Ok p with Ok p => accumulated p hi | Raise _ => 100000000 end
       | Raise _ => 0
       end.
(** A RegionalALE or RegionalRHALE object and its search, whose parts of the data that can be fitted have good bins. *)
Definition regional_ale64 (c : aleheter64) (g : regions64) (K : nat) (B : R) : Prop :=
  g64_heter g = ale_heter64 c /\ sums (g64_sum g) /\ FloatRegionTop.roomy g /\
  (forall x lo hi p, part_of (g64_rows g) x -> (r64_min_points c <= length x)%nat -> axis_limits64 (map fst x) (r64_feature c) = Ok (lo, hi) -> Bltb lo hi = true -> r64_fit c x lo hi = Ok p -> good_bins p hi K B) /\
  0 <= B <= bpow radix2 890 /\ (Z.of_nat K + 2 <= 2 ^ 50)%Z.

Lemma acc_error_small K B : (Z.of_nat K + 2 <= 2 ^ 50)%Z -> 0 <= B -> 0 <= acc_error K B <= B + 1.
Proof.
  intros HK HB. unfold acc_error. change ((1 + bpow radix2 (-53)) ^ (K + 2) - 1) with (gam (K + 2)). pose proof (gam_pos (K + 2)) as G0. pose proof (gam_small (K + 2) ltac:(lia)) as G1.
  assert (K0 : 0 <= IZR (Z.of_nat K)) by (apply IZR_le; lia). pose proof (bpow_ge_0 radix2 (-1074)) as E0.
  assert (G2 : gam (K + 2) <= 1). { eapply Rle_trans; [exact G1|]. assert (Q : IZR (Z.of_nat (K + 2)) <= bpow radix2 50) by (change (bpow radix2 50) with (IZR (2 ^ 50)); apply IZR_le; lia).
    apply Rle_trans with (2 * bpow radix2 50 * bpow radix2 (-53)); [apply Rmult_le_compat_r; [apply bpow_ge_0|lra]|]. rewrite Rmult_assoc, <- bpow_plus. unfold bpow. cbn. lra. }
  assert (P : IZR (Z.of_nat K) * bpow radix2 (-1074) <= 1). { apply Rle_trans with (bpow radix2 50 * bpow radix2 (-1074)); [apply Rmult_le_compat_r; [exact E0|]; change (bpow radix2 50) with (IZR (2 ^ 50)); apply IZR_le; lia|]. rewrite <- bpow_plus. change 1 with (bpow radix2 0). apply bpow_le. lia. }
  assert (0 <= gam (K + 2) * B <= 1 * B) by (split; [apply Rmult_le_pos; lra|apply Rmult_le_compat_r; lra]). assert (0 <= IZR (Z.of_nat K) * bpow radix2 (-1074)) by (apply Rmult_le_pos; lra). lra.
Qed.
Theorem C119_regions_partial c g K B x v : regional_ale64 c g K B -> part_of (g64_rows g) x -> g64_heter g x = Ok v ->
  fin v /\ Bsign v = false /\ Rabs (val v - accumulated_heter c x) <= acc_error K B /\ val v <= 100000000 + 2 * B + 1.
Proof.
  intros (EH & _ & _ & GB & HB & HK) P E. rewrite EH in E. destruct (acc_error_small K B HK ltac:(lra)) as [A0 A1]. destruct bigm_ok as [BV BF].
  assert (BIG : v = BIGM64 -> accumulated_heter c x = 100000000 -> fin v /\ Bsign v = false /\ Rabs (val v - accumulated_heter c x) <= acc_error K B /\ val v <= 100000000 + 2 * B + 1).
  { intros -> ->. rewrite BV, Rminus_diag_eq by reflexivity. rewrite Rabs_R0. repeat split; auto; try lra. }
  unfold ale_heter64 in E. unfold accumulated_heter in *. destruct (Nat.ltb (length x) (r64_min_points c)) eqn:MP; [apply ok_inj in E; symmetry in E; now apply BIG|]. apply Nat.ltb_ge in MP.
  destruct (axis_limits64 (map fst x) (r64_feature c)) as [[lo hi]|] eqn:EA; [|discriminate E]. cbn [bind] in E.
  destruct (r64_fit c x lo hi) as [p|] eqn:EF; [|cbn [bind] in *; apply ok_inj in E; symmetry in E; now apply BIG]. cbn [bind] in *.
  destruct (norm_const64 (r64_mean c) (r64_centering c) p lo hi) as [k|] eqn:EN; [|cbn [bind] in *; apply ok_inj in E; symmetry in E; now apply BIG]. cbn [bind] in *.
  destruct (Bltb lo hi) eqn:LT; [|unfold eval_heter64 in E; rewrite LT in E; discriminate E].
  pose proof (GB x lo hi p P MP EA LT EF) as GD. destruct (C119_heter_partial c x lo hi p K B MP EA LT EF GD) as (z & EZ & FZ & SZ & DZ). unfold ale_heter64 in EZ. rewrite (proj2 (Nat.ltb_ge _ _) MP), EA in EZ. cbn [bind] in EZ. rewrite EF in EZ. cbn [bind] in EZ. rewrite EN in EZ. cbn [bind] in EZ.
  rewrite E in EZ. apply ok_inj in EZ. subst z. repeat split; auto. destruct GD as (_ & _ & PV & T & _ & _ & _ & VB). destruct T as (_ & So & _ & Le & _). rewrite <- (map_length fsqrt) in VB. fold (deviations p) in VB.
  destruct (curve_range (p64_limits p) (deviations p) (val hi) B So Le) as (C0 & C1 & C2); [|exact VB|].
  { intros a Ha. apply in_map_iff in Ha as (w & <- & Hw). now apply plus_val, fsqrt_plus, PV. }
  unfold accumulated in DZ. apply Rabs_le_inv in DZ. lra.
Qed.
Lemma regional_ale_finite c g K B : regional_ale64 c g K B -> heter_finite g.
Proof.
  intros R x v P E. destruct (C119_regions_partial c g K B x v R P E) as (F & S & _ & H). split; [exact F|]. split; [exact S|]. eapply Rle_trans; [exact H|]. destruct R as (_ & _ & _ & _ & HB & _).
  assert (100000000 + 1 <= bpow radix2 890) by (apply Rle_trans with (bpow radix2 30); [unfold bpow; cbn; lra|apply bpow_le; lia]).
  apply Rle_trans with (bpow radix2 2 * bpow radix2 890); [change (bpow radix2 2) with 4; lra|]. rewrite <- bpow_plus. apply bpow_le. lia.
Qed.
(** what rounding may cost at a level of n regions *)
Definition ale_search_error (K n : nat) (B : R) : R := 4 * acc_error K B + 2 * (IZR (Z.of_nat n + 4) * (bpow radix2 (-50) * (100000000 + 2 * B + 1) + bpow radix2 (-1074))).
(** The split chosen at each level is, for the exact accumulation, as good as any candidate up to [ale_search_error]. *)
Theorem C119_search_partial c g K B h0 ss pre s post f t pos : regional_ale64 c g K B ->
  search64 g = Ok (Some (h0, ss)) -> ss = pre ++ s :: post -> candidate64 g f t pos ->
  ideal_drop (accumulated_heter c) (regions_after g pre) (split_all64 (regions_after g pre) f pos t) <=
  ideal_drop (accumulated_heter c) (regions_after g pre) (split_all64 (regions_after g pre) (s64_feature s) (s64_pos s) (s64_type s)) + ale_search_error K (2 ^ S (length pre)) B.
Proof.
  intros R SE AT CA. pose proof (regional_ale_finite c g K B R) as HF. assert (SUM : sums (g64_sum g)) by apply R. assert (ROOM : FloatRegionTop.roomy g) by apply R. assert (HB : 0 <= B <= bpow radix2 890) by apply R.
  pose proof (ideal_near g (accumulated_heter c) (acc_error K B) (100000000 + 2 * B + 1) h0 ss pre s post f t pos SUM ROOM HF) as N. unfold ale_search_error. rewrite Nat2Z.inj_pow. change (Z.of_nat 2) with 2%Z.
  eapply Rle_trans; [apply N; auto|lra].
  - intros x v P E. destruct (C119_regions_partial c g K B x v R P E) as (F & S & A & H). auto.
  - assert (100000000 + 1 <= bpow radix2 890) by (apply Rle_trans with (bpow radix2 30); [unfold bpow; cbn; lra|apply bpow_le; lia]).
    apply Rle_trans with (bpow radix2 2 * bpow radix2 890); [change (bpow radix2 2) with 4; lra|]. rewrite <- bpow_plus. apply bpow_le. lia.
Qed.

(** ** Examples *)
Definition to_params (r : res params64) : nat := match r with Ok p => length (p64_limits p) | Raise _ => 0%nat end.
(** a feature that takes the values 2^27 .. 2^27 + 20, a second one 0 or 1; the model is their product *)
Definition big_row (i : nat) : row64 := ([fofZ (2 ^ 27 + Z.of_nat i); fofn (i mod 2)], [fofn (i mod 2); fofZ (2 ^ 27 + Z.of_nat i)]).
Definition big_rows : list row64 := map big_row (seq 0 21).
Lemma all_by {A} (P : A -> Prop) (q : A -> bool) l : (forall x, q x = true -> P x) -> forallb q l = true -> forall x, In x l -> P x.
Proof. intros H Q x Hx. rewrite forallb_forall in Q. auto. Qed.
Example big_large : large_feature 0 10 big_rows.
Proof.
  split; [|split; [|split; [|split]]].
  - intros x Hx. apply (all_by (fun x => is_finite x = true) is_finite (map (feat64 0) big_rows)); [auto| |exact Hx]. vm_compute. reflexivity.
  - exists (big_row 0). split; [now left|]. change (feat64 0 (big_row 0)) with (fofZ (2 ^ 27)). destruct (fofZ_val (2 ^ 27) ltac:(lia)) as [-> _]. change (bpow radix2 27) with (IZR (2 ^ 27)). apply Rle_refl.
  - intros r Hr. apply in_map_iff in Hr as (i & <- & Hi). apply in_seq in Hi. change (feat64 0 (big_row i)) with (fofZ (2 ^ 27 + Z.of_nat i)). destruct (fofZ_val (2 ^ 27 + Z.of_nat i) ltac:(lia)) as [-> _].
    rewrite Rabs_pos_eq by (apply IZR_le; lia). apply Rle_trans with (bpow radix2 28); [change (bpow radix2 28) with (IZR (2 ^ 28)); apply IZR_le; lia|apply bpow_le; lia].
  - apply Nat.ltb_lt. vm_compute. reflexivity.
  - apply Nat.leb_le. vm_compute. reflexivity.
Qed.
Definition big_ale : aleheter64 := mk_aleheter64 0 10 (region_ale64 0 (map (fun r => fmul (nth 0 r fnan) (nth 1 r fnan))) 20 10 10) NoCentering one_by_one.
Definition big_rhale (c : centering64) : aleheter64 := mk_aleheter64 0 10 (region_rhale64 0 var_seq (BFixed 10 0 10)) c one_by_one.
Definition big (c : aleheter64) : regions64 := mkRegions64 (ale_heter64 c) sum_left big_rows Cont [1]%nat [Cat] 10 2 3 1 thres8 small8 false.
(** C119_ale_refuted: no subregion, although the second feature decides the effect *)
Example big_ale_none : show (subregions64 (big big_ale)) = [].
Proof. vm_compute. reflexivity. Qed.
(** C119_rhale_refuted: the hypotheses hold *)
Example big_rhale_meets c : exists lo hi p, axis_limits64 (map fst big_rows) 0 = Ok (lo, hi) /\ r64_fit (big_rhale c) big_rows lo hi = Ok p /\ (3 <= length (p64_limits p))%nat.
Proof.
  assert (A : Nat.leb 3 (match axis_limits64 (map fst big_rows) 0 with Ok (lo, hi) => to_params (r64_fit (big_rhale c) big_rows lo hi) | Raise _ => 0%nat end) = true) by (vm_compute; reflexivity).
  destruct (axis_limits64 (map fst big_rows) 0) as [[lo hi]|]; [|discriminate A]. destruct (r64_fit (big_rhale c) big_rows lo hi) as [p|] eqn:E; [|discriminate A]. apply Nat.leb_le in A. exists lo, hi, p. auto.
Qed.
Example big_rhale_raises : subregions64 (big (big_rhale NoCentering)) = Raise ValueError.
Proof.
  destruct (big_rhale_meets NoCentering) as (lo & hi & p & EA & EF & H3). refine (C119_rhale_refuted (big_rhale NoCentering) (big (big_rhale NoCentering)) var_seq (BFixed 10 0 10) lo hi p eq_refl eq_refl _ _ _ EA EF H3 _ _).
  - destruct big_large as (H1 & H2 & H4 & _ & H5). split; [exact H1|split; [exact H2|split; [exact H4|split; [|exact H5]]]]. eapply Nat.lt_le_trans; [|exact H5]. lia.
  - split; [lia|split; [lia|]]. apply big_large.
  - apply Nat.leb_le. vm_compute. reflexivity.
  - now left.
  - apply Nat.leb_le. reflexivity.
Qed.

Print Assumptions C119_ale_large. Print Assumptions C119_ale_refuted. Print Assumptions C119_rhale_large. Print Assumptions C119_rhale_refuted.
Print Assumptions C119_heter_partial. Print Assumptions C119_regions_partial. Print Assumptions C119_search_partial.
