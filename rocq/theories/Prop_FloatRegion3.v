(** C114 (continued), C120: in binary64 the fit of a regional object returns (see properties.jsonl). *)
From Coq Require Import Reals.
From Flocq Require Import Core.
From Flocq Require Import IEEE754.BinarySingleNaN.
From Verif Require Import Base Numpy NumpyFacts Utils FloatModel FloatFacts FloatGrid FloatBins FloatProofs FloatAcc FloatCat FloatAdapt FloatPDP FloatRegion FloatRegionProofs FloatRegionSum FloatRegionTop FloatRegionMain FloatRegionGuard FloatRegionPDP FloatRegionPDPProofs Prop_FloatRegion Prop_FloatRegion2 FloatRegionIdeal FloatRegionALE FloatRegionALEProofs FloatGrain FloatGood Prop_FloatAcc Prop_FloatPDP Prop_FloatGreedy Prop_FloatRegionPDP Prop_FloatRegionALE FloatRegionALEGood FloatRegionALEDiff Prop_FloatRegionALE2 Prop_FloatRegionALE3 FloatRegionExt.
From Coq Require Import Lra.
Open Scope R_scope.

(** What fit is called with: as many types as conditioning features, at least one of them, at least one row, at least one candidate
    position, no more levels than conditioning features, and at most max(nof_splits, cat_limit) positions for a categorical feature. *)
Definition fit_arguments (g : regions64) : Prop :=
  length (g64_foc_types g) = length (g64_foc g) /\ g64_foc g <> [] /\ g64_rows g <> [] /\ (1 <= g64_nof_splits g)%nat /\ (g64_max_levels g <= length (g64_foc g))%nat /\
  (forall f ps, In (f, Cat) (combine (g64_foc g) (g64_foc_types g)) -> positions64 g f Cat = Ok ps -> (length ps <= Nat.max (g64_nof_splits g) (g64_cat_limit g))%nat).

(** As C114_partial, but heter_func only has to return a number in [0, 1e8] for lists of at most as many rows as the data, all of them rows of
    the data. *)
Theorem C114_parts_partial g h0 : sums (g64_sum g) -> FloatRegionTop.roomy g ->
  (forall x, part_of (g64_rows g) x -> exists v, g64_heter g x = Ok v /\ fin v /\ Bsign v = false /\ val v <= 100000000) ->
  fit_arguments g -> g64_heter g (g64_rows g) = Ok h0 -> bpow radix2 (-20) <= val h0 -> exists acc, subregions64 g = Ok acc.
Proof.
  intros SUM ROOM HT (LT & NF & NR & NS & ML & CAT) H0 B. set (h := fun x => if part (g64_rows g) x then g64_heter g x else Ok fzero).
  rewrite <- (search_same g h) by (intros x P; unfold h; now rewrite (proj2 (part_spec _ _) P)).
  apply (C114_partial (with_heter g h) h0); auto; cbn [with_heter g64_heter].
  - intros x. unfold h. destruct (part (g64_rows g) x) eqn:P; [apply HT; now apply part_spec|]. exists fzero. split; [reflexivity|]. split; [reflexivity|]. split; [reflexivity|]. change (val fzero) with 0. lra.
  - change (h (g64_rows g) = Ok h0). unfold h. rewrite (proj2 (part_spec _ _) (part_refl (g64_rows g))). exact H0.
Qed.

(** ** RegionalPDP and RegionalDerPDP *)
(** Fit returns unless the heterogeneity of the whole dataset is below 2^-20, for models whose values are at most about 1e8. *)
Theorem C120_pdp_partial c g M D : regional_pdp64 c g M D -> M + heter_error D M <= 100000000 -> fit_arguments g ->
  exists h0, g64_heter g (g64_rows g) = Ok h0 /\ fin h0 /\ (bpow radix2 (-20) <= val h0 -> exists acc, subregions64 g = Ok acc).
Proof.
  intros R HM FA. assert (HT : forall x, part_of (g64_rows g) x -> exists v, g64_heter g x = Ok v /\ fin v /\ Bsign v = false /\ val v <= 100000000).
  { intros x P. destruct (region_all c g M D x R P) as (v & E & F & S & A & _). exists v. split; [exact E|]. split; [exact F|]. split; [exact S|].
    destruct (Nat.lt_ge_cases (length x) (h64_min_points c)) as [Q|Q].
    - destruct R as (_ & EH & _). rewrite EH in E. destruct (C118_few c x Q) as (w & W & V & _). rewrite W in E. apply ok_inj in E. subst w. lra.
    - pose proof (exact_heter_range c g M D x R P Q) as [_ X]. apply Rabs_le_inv in A. lra. }
  destruct (HT (g64_rows g) (part_refl _)) as (h0 & E & F & S & B). exists h0. split; [exact E|]. split; [exact F|]. intros L. apply (C114_parts_partial g h0); auto; apply R.
Qed.

(** ** RegionalALE and RegionalRHALE *)
(** The heterogeneity function returns for every part of the data, unless the values of the feature coincide and bins exist. *)
Lemma heter_returns c g K B x : regional_ale64 c g K B -> part_of (g64_rows g) x -> (1 <= r64_min_points c)%nat -> fins (map (feat64 (r64_feature c)) (g64_rows g)) ->
  (forall y lo hi, part_of (g64_rows g) y -> axis_limits64 (map fst y) (r64_feature c) = Ok (lo, hi) -> (forall a, In a (map (feat64 (r64_feature c)) y) -> val a = val lo) -> exists e, r64_fit c y lo hi = Raise e) ->
  exists v, g64_heter g x = Ok v.
Proof.
  intros R P MP F CO. destruct R as (EH & _ & _ & GB & HB & HK). rewrite EH. unfold ale_heter64. destruct (Nat.ltb (length x) (r64_min_points c)) eqn:Q; [eauto|]. apply Nat.ltb_ge in Q.
  assert (N : x <> []) by (intros ->; cbn in Q; lia). assert (EC : col64 (map fst x) (r64_feature c) = map (feat64 (r64_feature c)) x) by (unfold col64; rewrite map_map; reflexivity).
  assert (Fx : fins (map (feat64 (r64_feature c)) x)) by (intros a Ha; apply in_map_iff in Ha as (r & <- & Hr); apply F, in_map, (proj1 P), Hr).
  assert (Nx : map (feat64 (r64_feature c)) x <> []) by (intros Z; apply map_eq_nil in Z; congruence).
  destruct (np_min64_ok _ Fx Nx) as (lo & El & Fl & Il & Ml). destruct (np_max64_ok _ Fx Nx) as (hi & Eh & Fh & Ih & Mh).
  assert (EA : axis_limits64 (map fst x) (r64_feature c) = Ok (lo, hi)) by (unfold axis_limits64; rewrite EC, El, Eh; reflexivity).
  rewrite EA. cbn [bind]. destruct (r64_fit c x lo hi) as [p|e] eqn:EF; [|cbn [bind]; eauto]. cbn [bind].
  destruct (norm_const64 (r64_mean c) (r64_centering c) p lo hi) as [k|e] eqn:EN; [|cbn [bind]; eauto]. cbn [bind].
  destruct (Bltb lo hi) eqn:LT.
  - destruct (C119_heter_partial c x lo hi p K B Q EA LT EF (GB x lo hi p P Q EA LT EF)) as (z & EZ & _). unfold ale_heter64 in EZ. rewrite (proj2 (Nat.ltb_ge _ _) Q), EA in EZ. cbn [bind] in EZ. rewrite EF in EZ. cbn [bind] in EZ. rewrite EN in EZ. cbn [bind] in EZ. eauto.
  - exfalso. destruct (CO x lo hi P EA) as [e E]; [|congruence]. intros a Ha. assert (NL : ~ val lo < val hi) by (intros L; apply (flt_val lo hi Fl Fh) in L; congruence). specialize (Ml a Ha). specialize (Mh a Ha). lra.
Qed.
Lemma heter_small c g K B x v : regional_ale64 c g K B -> 2 * B + 1 <= 100000000 -> part_of (g64_rows g) x -> g64_heter g x = Ok v -> fin v /\ Bsign v = false /\ val v <= 100000000.
Proof.
  intros R HB P E. pose proof R as (EH & _ & _ & GB & B0 & HK). destruct (C119_regions_partial c g K B x v R P E) as (F & S & A & _). split; [exact F|]. split; [exact S|].
  destruct bigm_ok as [BV BF]. destruct (acc_error_small K B HK ltac:(lra)) as [_ A1]. rewrite EH in E. unfold ale_heter64 in E. unfold accumulated_heter in A.
  destruct (Nat.ltb (length x) (r64_min_points c)) eqn:MP; [apply ok_inj in E; rewrite <- E, BV; lra|]. apply Nat.ltb_ge in MP. destruct (axis_limits64 (map fst x) (r64_feature c)) as [[lo hi]|] eqn:EA; [|discriminate E]. cbn [bind] in E.
  destruct (r64_fit c x lo hi) as [p|] eqn:EF; [|cbn [bind] in *; apply ok_inj in E; rewrite <- E, BV; lra]. cbn [bind] in *.
  destruct (norm_const64 (r64_mean c) (r64_centering c) p lo hi) as [k|] eqn:EN; [|cbn [bind] in *; apply ok_inj in E; rewrite <- E, BV; lra]. cbn [bind] in *.
  destruct (Bltb lo hi) eqn:LT; [|unfold eval_heter64 in E; rewrite LT in E; discriminate E].
  pose proof (GB x lo hi p P MP EA LT EF) as (_ & _ & PV & T & _ & _ & _ & VB). destruct T as (_ & So & _ & Le & _). rewrite <- (map_length fsqrt) in VB. fold (deviations p) in VB.
  destruct (curve_range (p64_limits p) (deviations p) (val hi) B So Le) as (C0 & C1 & C2); [|exact VB|].
  { intros a Ha. apply in_map_iff in Ha as (w & <- & Hw). now apply plus_val, fsqrt_plus, PV. }
  unfold accumulated in A. apply Rabs_le_inv in A. lra.
Qed.
Lemma ale_returns c g K B : regional_ale64 c g K B -> 2 * B + 1 <= 100000000 -> (1 <= r64_min_points c)%nat -> fins (map (feat64 (r64_feature c)) (g64_rows g)) ->
  (forall y lo hi, part_of (g64_rows g) y -> axis_limits64 (map fst y) (r64_feature c) = Ok (lo, hi) -> (forall a, In a (map (feat64 (r64_feature c)) y) -> val a = val lo) -> exists e, r64_fit c y lo hi = Raise e) ->
  fit_arguments g -> exists h0, g64_heter g (g64_rows g) = Ok h0 /\ fin h0 /\ (bpow radix2 (-20) <= val h0 -> exists acc, subregions64 g = Ok acc).
Proof.
  intros R HB MP F CO FA. assert (HT : forall x, part_of (g64_rows g) x -> exists v, g64_heter g x = Ok v /\ fin v /\ Bsign v = false /\ val v <= 100000000).
  { intros x P. destruct (heter_returns c g K B x R P MP F CO) as [v E]. exists v. split; [exact E|]. exact (heter_small c g K B x v R HB P E). }
  destruct (HT (g64_rows g) (part_refl _)) as (h0 & E & Fh & S & _). exists h0. split; [exact E|]. split; [exact Fh|]. intros L. apply (C114_parts_partial g h0); auto; apply R.
Qed.
(** The data of C119 (regional_ale_data64, regional_rhale64), a categorical limit of at least 1, at least one row per subregion and
    accumulated deviations below 1e8: fit returns unless the heterogeneity of the whole dataset is below 2^-20. *)
Theorem C120_ale_partial m n mp cat c g M gap Y T : regional_ale_data64 m n mp cat c g M gap Y T -> (1 <= cat)%nat -> (1 <= r64_min_points c)%nat -> 168 * T * M + 1 <= 100000000 -> fit_arguments g ->
  exists h0, g64_heter g (g64_rows g) = Ok h0 /\ fin h0 /\ (bpow radix2 (-20) <= val h0 -> exists acc, subregions64 g = Ok acc).
Proof.
  intros H HC MP HB FA. pose proof H as (_ & EF & _ & _ & _ & _ & _ & RR & _). apply (ale_returns c g _ _ (C119_ale_data _ _ _ _ _ _ _ _ _ _ H)); auto; [lra| |].
  - intros a Ha. now apply (proj1 (proj1 RR)).
  - intros y lo hi P EA CO. rewrite EF. unfold region_ale64. assert (EC : col64 (map fst y) (r64_feature c) = map (feat64 (r64_feature c)) y) by (unfold col64; rewrite map_map; reflexivity). apply ale_const; [|rewrite EC; exact CO|exact HC].
    rewrite EC. intros a Ha. apply (proj1 (proj1 RR)). apply in_map_iff in Ha as (r & <- & Hr). apply in_map, (proj1 P), Hr.
Qed.
Theorem C120_rhale_partial var c b g M gap T : regional_rhale64 var c b g M gap T -> (1 <= binning_cat b)%nat -> (1 <= r64_min_points c)%nat -> 84 * T * M + 1 <= 100000000 -> fit_arguments g ->
  exists h0, g64_heter g (g64_rows g) = Ok h0 /\ fin h0 /\ (bpow radix2 (-20) <= val h0 -> exists acc, subregions64 g = Ok acc).
Proof.
  intros H HC MP HB FA. pose proof H as (_ & EF & _ & _ & _ & RR & _). apply (ale_returns c g _ _ (C119_rhale_data _ _ _ _ _ _ _ H)); auto; [lra| |].
  - intros a Ha. now apply (proj1 (proj1 RR)).
  - intros y lo hi P EA CO. rewrite EF. unfold region_rhale64. assert (EC : col64 (map fst y) (r64_feature c) = map (feat64 (r64_feature c)) y) by (unfold col64; rewrite map_map; reflexivity). apply rhale_const; [|rewrite EC; exact CO|exact HC].
    rewrite EC. intros a Ha. apply (proj1 (proj1 RR)). apply in_map_iff in Ha as (r & <- & Hr). apply in_map, (proj1 P), Hr.
Qed.

(** ** the hypotheses are met: flip (RegionalPDP), mix (RegionalRHALE) and prod (RegionalALE) *)
Lemma at_least h0 z : fin h0 -> Bleb (fofZ z) h0 = true -> (1 <= z <= 1000)%Z -> bpow radix2 (-20) <= val h0.
Proof. intros F L Z. destruct (fofZ_val z ltac:(lia)) as [V Fz]. apply (fle_val _ _ Fz F) in L. rewrite V in L. apply Rle_trans with (bpow radix2 0); [apply bpow_le; lia|]. apply Rle_trans with (IZR z); [apply (IZR_le 1); lia|exact L]. Qed.
Example flip_fit : 2 + heter_error 8 2 <= 100000000 /\ fit_arguments flip /\ match g64_heter flip (g64_rows flip) with Ok h0 => Bleb (fofZ 1) h0 | _ => false end = true.
Proof.
  split; [|split; [|vm_compute; reflexivity]].
  - pose proof flip_room as L. assert (0 <= search_error 8 2 2 - heter_error 8 2 + 98). { unfold search_error, heter_error. change (Z.of_nat 8) with 8%Z. change (Z.of_nat 2) with 2%Z. unfold bpow. cbn. lra. }
    change (length (g64_rows flip) + 2)%nat with 10%nat in L. rewrite INR_IZR_INZ in L. change (IZR (Z.of_nat 10)) with 10 in L. lra.
  - split; [reflexivity|]. split; [discriminate|]. split; [discriminate|]. split; [cbn; lia|]. split; [cbn; lia|]. intros f ps [E|[]]. discriminate E.
Qed.
Example mix_fit : 84 * 3 * 8 + 1 <= 100000000 /\ (1 <= binning_cat mix_bins)%nat /\ (1 <= r64_min_points mix_heter)%nat /\ fit_arguments mix /\ match g64_heter mix (g64_rows mix) with Ok h0 => Bleb (fofZ 10) h0 | _ => false end = true.
Proof.
  split; [lra|]. split; [cbn; lia|]. split; [cbn; lia|]. split; [|vm_compute; reflexivity]. split; [reflexivity|]. split; [discriminate|]. split; [discriminate|]. split; [cbn; lia|]. split; [cbn; lia|].
  intros f ps [E|[]] P. assert (f = 1%nat) by congruence. subst f. unfold positions64 in P. assert (ps = find_positions_cat64 (map (feat64 1) (g64_rows mix))) by congruence. subst ps.
  change (Nat.max (g64_nof_splits mix) (g64_cat_limit mix)) with 10%nat. apply Nat.leb_le. vm_compute. reflexivity.
Qed.
Example prod_fit : 168 * 8000 * 8 + 1 <= 100000000 /\ (1 <= 2)%nat /\ (1 <= r64_min_points prod_heter)%nat /\ fit_arguments prod /\ match g64_heter prod (g64_rows prod) with Ok h0 => Bleb (fofZ 10) h0 | _ => false end = true.
Proof.
  split; [lra|]. split; [lia|]. split; [cbn; lia|]. split; [|vm_compute; reflexivity]. split; [reflexivity|]. split; [discriminate|]. split; [discriminate|]. split; [cbn; lia|]. split; [cbn; lia|].
  intros f ps [E|[]] P. assert (f = 1%nat) by congruence. subst f. unfold positions64 in P. assert (ps = find_positions_cat64 (map (feat64 1) (g64_rows prod))) by congruence. subst ps.
  change (Nat.max (g64_nof_splits prod) (g64_cat_limit prod)) with 10%nat. apply Nat.leb_le. vm_compute. reflexivity.
Qed.
Example all_return : (exists acc, subregions64 flip = Ok acc) /\ (exists acc, subregions64 mix = Ok acc) /\ (exists acc, subregions64 prod = Ok acc).
Proof.
  split; [|split].
  - destruct flip_fit as (A & B & C). destruct (C120_pdp_partial _ _ _ _ flip_meets A B) as (h0 & E & F & K). rewrite E in C. apply K, (at_least h0 1); auto; lia.
  - destruct mix_fit as (A & B & B' & B'' & C). destruct (C120_rhale_partial _ _ _ _ _ _ _ mix_meets B B' A B'') as (h0 & E & F & K). rewrite E in C. apply K, (at_least h0 10); auto; lia.
  - destruct prod_fit as (A & B & B' & B'' & C). destruct (C120_ale_partial _ _ _ _ _ _ _ _ _ _ prod_meets B B' A B'') as (h0 & E & F & K). rewrite E in C. apply K, (at_least h0 10); auto; lia.
Qed.

(** ** C120 as stated is false *)
(** Rows with a first feature in 0..7 and a first effect in 0..3 meet C120_rhale_partial's conditions on the data. *)
Lemma small_rows rows : (forall r, In r rows -> exists a b x y, (a < 8)%nat /\ (b < 4)%nat /\ r = ([fofn a; x], [fofn b; y])) -> rhale_rows 0 8 1 3 rows.
Proof.
  intros FI. assert (V : forall a, (a < 8)%nat -> val (fofn a) = IZR (Z.of_nat a) /\ fin (fofn a)) by (intros a Ha; apply fofZ_val; lia). split; [split|split].
  - intros z Hz. apply in_map_iff in Hz as (r & <- & Hr). destruct (FI r Hr) as (a & b & x & y & Ha & Hb & ->). change (fin (fofn a) /\ Rabs (val (fofn a)) <= 8). destruct (V a Ha) as [-> F]. split; [exact F|]. rewrite Rabs_pos_eq by (apply IZR_le; lia). apply IZR_le. lia.
  - intros z w Hx Hy. apply in_map_iff in Hx as (r & <- & Hr). apply in_map_iff in Hy as (q & <- & Hq). destruct (FI r Hr) as (a & b & x & y & Ha & Hb & ->). destruct (FI q Hq) as (a' & b' & x' & y' & Ha' & Hb' & ->).
    change (val (fofn a) < val (fofn a') -> 1 <= val (fofn a') - val (fofn a)). destruct (V a Ha) as [-> _]. destruct (V a' Ha') as [-> _]. intros L. apply lt_IZR in L. rewrite <- minus_IZR. apply IZR_le. lia.
  - intros r Hr. destruct (FI r Hr) as (a & b & x & y & Ha & Hb & ->). change (not_minus_zero (fofn a)). clear - Ha. intros E. do 8 (destruct a as [|a]; [vm_compute in E; discriminate E|]). lia.
  - intros r Hr. destruct (FI r Hr) as (a & b & x & y & Ha & Hb & ->). change (coarse (-240) (fofn b) /\ Rabs (val (fofn b)) <= 3). destruct (V b ltac:(lia)) as [Eb Fb]. split; [split; [exact Fb|]|]; rewrite Eb.
    + destruct (Nat.eq_dec b 0) as [->|N]; [left; reflexivity|right]. rewrite Rabs_pos_eq by (apply IZR_le; lia). apply Rle_trans with (bpow radix2 0); [apply bpow_le; lia|apply IZR_le; lia].
    + rewrite Rabs_pos_eq by (apply IZR_le; lia). apply IZR_le. lia.
Qed.
Lemma small_meets cat_limit min_points nof_splits mp n b m : equal_or_greedy b -> (n <= 100)%nat -> forall row : nat -> row64, (forall i, exists a b x y, (a < 8)%nat /\ (b < 4)%nat /\ row i = ([fofn a; x], [fofn b; y])) ->
  regional_rhale64 var_seq (mk_aleheter64 0 mp (region_rhale64 0 var_seq b) NoCentering m) b
    (mkRegions64 (ale_heter64 (mk_aleheter64 0 mp (region_rhale64 0 var_seq b) NoCentering m)) sum_left (map row (seq 0 n)) Cont [1]%nat [Cat] cat_limit min_points nof_splits 1 thres8 small8 false) 8 1 3.
Proof.
  intros HB Hn row FI. assert (B8 : 8 = bpow radix2 3) by reflexivity. assert (LEN : (length (map row (seq 0 n)) <= 100)%nat) by (rewrite map_length, seq_length; exact Hn).
  split; [reflexivity|]. split; [reflexivity|]. split; [exact HB|]. split; [exact sum_left_sums|]. split; [unfold FloatRegionTop.roomy; cbn [g64_rows g64_foc g64_max_levels length]; cbn; lia|]. split; [|split; [|split; [|split; [lra|]]]].
  - apply small_rows. intros r Hr. cbn [g64_rows] in Hr. apply in_map_iff in Hr as (i & <- & _). apply FI.
  - cbn [g64_rows]. lia.
  - split; [rewrite B8; apply bpow_le; lia|]. split; [change 1 with (bpow radix2 0); apply bpow_le; lia|]. rewrite Rmult_1_r, B8. apply bpow_le. lia.
  - split; [apply Rle_trans with (bpow radix2 0); [apply bpow_le; lia|change (bpow radix2 0) with 1; lra]|]. apply Rle_trans with (bpow radix2 2); [change (bpow radix2 2) with 4; lra|apply bpow_le; lia].
Qed.
(** (1) binning_methods.Fixed with cat_limit=0: where x1 = 0 the feature x0 is constant, and eval's assertion that the grid starts below its
    end escapes from the search. The heterogeneity of the whole dataset is at least 1. *)
Definition still_row (i : nat) : row64 := ([(if Nat.ltb i 12 then fofn 5 else fofn (i mod 8)); (if Nat.ltb i 12 then fzero else fofn 1)], [fofn (3 * (i mod 2)); fzero]).
Definition still_bins : binning64 := BFixed 4 0 0.
Definition still_heter : aleheter64 := mk_aleheter64 0 4 (region_rhale64 0 var_seq still_bins) NoCentering one_by_one.
Definition still : regions64 := mkRegions64 (ale_heter64 still_heter) sum_left (map still_row (seq 0 32)) Cont [1]%nat [Cat] 10 2 3 1 thres8 small8 false.
Theorem C120_refuted : exists c b g, regional_rhale64 var_seq c b g 8 1 3 /\ (1 <= r64_min_points c)%nat /\ fit_arguments g /\
  (exists h0, g64_heter g (g64_rows g) = Ok h0 /\ bpow radix2 (-20) <= val h0) /\ subregions64 g = Raise AssertionError.
Proof.
  exists still_heter, still_bins, still.
  assert (ME : regional_rhale64 var_seq still_heter still_bins still 8 1 3).
  { apply (small_meets 10 2 3 4 32 still_bins one_by_one); [cbn; lia|lia|]. intros i. exists (if Nat.ltb i 12 then 5%nat else (i mod 8)%nat), (3 * (i mod 2))%nat, (if Nat.ltb i 12 then fzero else fofn 1), fzero.
    pose proof (Nat.mod_upper_bound i 8 ltac:(lia)). pose proof (Nat.mod_upper_bound i 2 ltac:(lia)). split; [destruct (Nat.ltb i 12); lia|]. split; [lia|]. unfold still_row. destruct (Nat.ltb i 12); reflexivity. }
  split; [exact ME|]. split; [cbn; lia|]. split; [|split].
  - split; [reflexivity|]. split; [discriminate|]. split; [discriminate|]. split; [cbn; lia|]. split; [cbn; lia|].
    intros f ps [E|[]] P. assert (f = 1%nat) by congruence. subst f. unfold positions64 in P. assert (ps = find_positions_cat64 (map (feat64 1) (g64_rows still))) by congruence. subst ps.
    change (Nat.max (g64_nof_splits still) (g64_cat_limit still)) with 10%nat. apply Nat.leb_le. vm_compute. reflexivity.
  - assert (A : match g64_heter still (g64_rows still) with Ok h0 => Bleb (fofZ 1) h0 | _ => false end = true) by (vm_compute; reflexivity).
    destruct (g64_heter still (g64_rows still)) as [h0|] eqn:E; [|discriminate A]. exists h0. split; [reflexivity|]. apply (at_least h0 1); [|exact A|lia].
    apply (C119_regions_partial still_heter still _ _ _ _ (C119_rhale_data _ _ _ _ _ _ _ ME) (part_refl _) E).
  - assert (A : match subregions64 still with Raise AssertionError => true | _ => false end = true) by (vm_compute; reflexivity). destruct (subregions64 still) as [|[]]; try discriminate A. reflexivity.
Qed.
(** (2) A flat effect with binning_methods.Fixed(nof_bins=20, min_points_per_bin=2, cat_limit=10): ten rows, x1 = 1, 0, ..., 0, min_points of 10. The
    heterogeneity is 0, and the only candidate leaves nine rows, whose weighted heterogeneity is -BIG_M: no split is found and fit
    indexes an empty list. *)
Definition flat_row (i : nat) : row64 := ([fofn (i mod 5); (if Nat.eqb i 0 then fofn 1 else fzero)], [fofn 1; fofn 1]).
Definition flat_bins : binning64 := BFixed 20 2 10.
Definition flat_heter : aleheter64 := mk_aleheter64 0 10 (region_rhale64 0 var_seq flat_bins) NoCentering one_by_one.
Definition flat : regions64 := mkRegions64 (ale_heter64 flat_heter) sum_left (map flat_row (seq 0 10)) Cont [1]%nat [Cat] 10 10 20 1 thres8 small8 false.
Theorem C120_flat_refuted : exists c b g h0, regional_rhale64 var_seq c b g 8 1 3 /\ (1 <= binning_cat b)%nat /\ (1 <= r64_min_points c)%nat /\ fit_arguments g /\
  g64_heter g (g64_rows g) = Ok h0 /\ val h0 = 0 /\ subregions64 g = Raise IndexError.
Proof.
  exists flat_heter, flat_bins, flat, fzero.
  split. { apply (small_meets 10 10 20 10 10 flat_bins one_by_one); [cbn; lia|lia|]. intros i. exists (i mod 5)%nat, 1%nat, (if Nat.eqb i 0 then fofn 1 else fzero), (fofn 1).
    pose proof (Nat.mod_upper_bound i 5 ltac:(lia)). split; [lia|]. split; [lia|]. reflexivity. }
  split; [cbn; lia|]. split; [cbn; lia|]. split; [|split; [|split]].
  - split; [reflexivity|]. split; [discriminate|]. split; [discriminate|]. split; [cbn; lia|]. split; [cbn; lia|].
    intros f ps [E|[]] P. assert (f = 1%nat) by congruence. subst f. unfold positions64 in P. assert (ps = find_positions_cat64 (map (feat64 1) (g64_rows flat))) by congruence. subst ps.
    change (Nat.max (g64_nof_splits flat) (g64_cat_limit flat)) with 20%nat. apply Nat.leb_le. vm_compute. reflexivity.
  - assert (A : match g64_heter flat (g64_rows flat) with Ok (B754_zero false) => true | _ => false end = true) by (vm_compute; reflexivity). destruct (g64_heter flat (g64_rows flat)) as [[[]| | |]|]; try discriminate A. reflexivity.
  - reflexivity.
  - assert (A : match subregions64 flat with Raise IndexError => true | _ => false end = true) by (vm_compute; reflexivity). destruct (subregions64 flat) as [|[]]; try discriminate A. reflexivity.
Qed.

Print Assumptions C114_parts_partial. Print Assumptions C120_pdp_partial. Print Assumptions C120_ale_partial. Print Assumptions C120_rhale_partial. Print Assumptions C120_refuted. Print Assumptions C120_flat_refuted.
