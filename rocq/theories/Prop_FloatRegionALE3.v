(** C119 for RegionalALE, from the data and the model (see properties.jsonl). *)
From Coq Require Import Reals.
From Flocq Require Import Core.
From Flocq Require Import IEEE754.BinarySingleNaN.
From Verif Require Import Base Numpy NumpyFacts Utils FloatModel FloatFacts FloatGrid FloatBins FloatProofs FloatAcc FloatCat FloatAdapt FloatPDP FloatRegion FloatRegionProofs FloatRegionSum FloatRegionTop FloatRegionMain FloatRegionGuard FloatRegionAll FloatRegionPDPProofs Prop_FloatRegion FloatRegionIdeal FloatRegionALE FloatRegionALEProofs FloatGrain FloatGood Prop_FloatAcc Prop_FloatPDP Prop_FloatGreedy Prop_FloatRegionALE FloatRegionALEGood FloatRegionALEDiff.
From Coq Require Import Lra.
Open Scope R_scope.

(** A RegionalALE object (n equal bins, the categorical rule up to [cat] values) and its search, the model applied to each row: the
    values of the feature are finite, not -0.0, 0 or at least 2^-80, of size at most M, different ones at least [gap] apart; on every row
    of the data with the feature replaced by a number that is 0 or between 2^-133 and 8M the model gives 0 or at least 2^-150, and at
    most Y; 1 <= M <= 2^24, gap >= 2^-30, K M <= 2^46 gap and 10 Y K <= T gap for K = max n cat (ale_rows, ale_scale: FloatRegionALEDiff). *)
Definition regional_ale_data64 (m : list b64 -> b64) (n mp cat : nat) (c : aleheter64) (g : regions64) (M gap Y T : R) : Prop :=
  g64_heter g = ale_heter64 c /\ r64_fit c = region_ale64 (r64_feature c) (map m) n mp cat /\ (1 <= n)%nat /\ (Z.of_nat n <= 2 ^ 48)%Z /\ (Z.of_nat cat <= 2 ^ 48)%Z /\
  sums (g64_sum g) /\ FloatRegionTop.roomy g /\ ale_rows (r64_feature c) m M gap Y (g64_rows g) /\ (Z.of_nat (length (g64_rows g)) <= 2 ^ 40)%Z /\ ale_scale M gap Y T (Nat.max n cat).
Theorem C119_ale_data m n mp cat c g M gap Y T : regional_ale_data64 m n mp cat c g M gap Y T -> regional_ale64 c g (Nat.max n cat) (84 * T * M).
Proof.
  intros (EH & EF & H1 & H2 & H3 & SU & RO & RR & HN & SC). pose proof SC as (HM & _ & _ & _ & _ & HT). assert (T0 : 0 <= T) by (pose proof (bpow_ge_0 radix2 (-400)); lra). split; [exact EH|]. split; [exact SU|]. split; [exact RO|]. split; [|split].
  - intros x lo hi p [I L] MP EA LT E. rewrite EF in E. pose proof (ale_rows_part _ _ _ _ _ _ x RR I) as RX. destruct (region_limits _ _ _ x lo hi (proj1 RX) EA) as (_ & Fl & Fh & _).
    apply (ale_good (r64_feature c) m M gap Y T n mp cat x lo hi p); auto; [lia|]. now apply flt_val in LT.
  - split; [apply Rmult_le_pos; lra|]. apply Rle_trans with (bpow radix2 7 * bpow radix2 390 * bpow radix2 24).
    + apply Rmult_le_compat; try lra. apply Rmult_le_compat; try lra. unfold bpow. cbn. lra.
    + rewrite <- !bpow_plus. apply bpow_le. lia.
  - lia.
Qed.

(** The heterogeneity of any part of the data: 1e8, or within acc_error of the exact accumulation of the bins' standard deviations. *)
Theorem C119_ale_heter_partial m n mp cat c g M gap Y T x v : regional_ale_data64 m n mp cat c g M gap Y T -> part_of (g64_rows g) x -> g64_heter g x = Ok v ->
  fin v /\ Bsign v = false /\ Rabs (val v - accumulated_heter c x) <= acc_error (Nat.max n cat) (84 * T * M).
Proof. intros H P E. destruct (C119_regions_partial c g _ _ x v (C119_ale_data _ _ _ _ _ _ _ _ _ _ H) P E) as (A1 & A2 & A3 & _). auto. Qed.
(** The split chosen at each level is, for the exact accumulation, as good as any candidate up to [ale_search_error]. *)
Theorem C119_ale_search_partial m n mp cat c g M gap Y T h0 ss pre s post f t pos : regional_ale_data64 m n mp cat c g M gap Y T ->
  search64 g = Ok (Some (h0, ss)) -> ss = pre ++ s :: post -> candidate64 g f t pos ->
  ideal_drop (accumulated_heter c) (regions_after g pre) (split_all64 (regions_after g pre) f pos t) <=
  ideal_drop (accumulated_heter c) (regions_after g pre) (split_all64 (regions_after g pre) (s64_feature s) (s64_pos s) (s64_type s)) + ale_search_error (Nat.max n cat) (2 ^ S (length pre)) (84 * T * M).
Proof. intros H. apply (C119_search_partial c g). exact (C119_ale_data _ _ _ _ _ _ _ _ _ _ H). Qed.

(** ** A concrete case: the model 3 x0 x1 on x0 = 0..7, x1 = 0 or 1 *)
Definition prod_model (r : list b64) : b64 := fmul (fmul (fofn 3) (nth 0 r fnan)) (nth 1 r fnan).
Definition prod_rows : list row64 := map (fun i => ([fofn (i mod 8); fofn (i / 8 mod 2)], [])) (seq 0 32).
Definition prod_heter : aleheter64 := mk_aleheter64 0 4 (region_ale64 0 (map prod_model) 4 0 2) NoCentering one_by_one.
Definition prod : regions64 := mkRegions64 (ale_heter64 prod_heter) sum_left prod_rows Cont [1]%nat [Cat] 10 2 3 1 thres8 small8 false.
Example prod_meets : regional_ale_data64 prod_model 4 0 2 prod_heter prod 8 1 200 8000.
Proof.
  assert (B8 : 8 = bpow radix2 3) by reflexivity. split; [reflexivity|]. split; [reflexivity|]. split; [lia|]. split; [lia|]. split; [lia|]. split; [exact sum_left_sums|]. split; [unfold FloatRegionTop.roomy; cbn; lia|]. split; [|split].
  - assert (FI : forall r, In r prod_rows -> exists a b, (a < 8)%nat /\ (b < 2)%nat /\ r = ([fofn a; fofn b], [])).
    { intros r Hr. apply in_map_iff in Hr as (i & <- & _). exists (i mod 8)%nat, (i / 8 mod 2)%nat. split; [apply Nat.mod_upper_bound; lia|]. split; [apply Nat.mod_upper_bound; lia|]. reflexivity. }
    assert (V : forall a, (a < 8)%nat -> val (fofn a) = IZR (Z.of_nat a) /\ fin (fofn a)) by (intros a Ha; apply fofZ_val; lia).
    split; [split|split].
    + intros x Hx. apply in_map_iff in Hx as (r & <- & Hr). destruct (FI r Hr) as (a & b & Ha & Hb & ->). change (fin (fofn a) /\ Rabs (val (fofn a)) <= 8). destruct (V a Ha) as [-> F]. split; [exact F|]. rewrite Rabs_pos_eq by (apply IZR_le; lia). apply IZR_le. lia.
    + intros x y Hx Hy. apply in_map_iff in Hx as (r & <- & Hr). apply in_map_iff in Hy as (q & <- & Hq). destruct (FI r Hr) as (a & b & Ha & Hb & ->). destruct (FI q Hq) as (a' & b' & Ha' & Hb' & ->).
      change (val (fofn a) < val (fofn a') -> 1 <= val (fofn a') - val (fofn a)). destruct (V a Ha) as [-> _]. destruct (V a' Ha') as [-> _]. intros L. apply lt_IZR in L. rewrite <- minus_IZR. apply IZR_le. lia.
    + intros r Hr. split.
      * assert (A : forallb (fun r => negb (Bsign (feat64 0 r))) prod_rows = true) by (vm_compute; reflexivity). rewrite forallb_forall in A. specialize (A r Hr). intros S. change (r64_feature prod_heter) with 0%nat in S. rewrite S in A. discriminate A.
      * destruct (FI r Hr) as (a & b & Ha & Hb & ->). change (coarse (-80) (fofn a)). destruct (V a Ha) as [Ea Fa]. split; [exact Fa|]. rewrite Ea. destruct (Nat.eq_dec a 0) as [->|N]; [left; reflexivity|right]. rewrite Rabs_pos_eq by (apply IZR_le; lia).
        apply Rle_trans with (bpow radix2 0); [apply bpow_le; lia|apply IZR_le; lia].
    + intros r z Hr [Fz Cz] Bz. destruct (FI r Hr) as (a & b & Ha & Hb & ->). change (list_set (fst ([fofn a; fofn b], @nil b64)) (r64_feature prod_heter) z) with [z; fofn b]. change (prod_model [z; fofn b]) with (fmul (fmul (fofn 3) z) (fofn b)).
      destruct (V 3%nat ltac:(lia)) as [V3 F3]. destruct (V b ltac:(lia)) as [Vb Fb]. change (IZR (Z.of_nat 3)) with 3 in V3. assert (P8 : bpow radix2 8 <= bpow radix2 1023) by (apply bpow_le; lia). change (bpow radix2 8) with 256 in P8.
      assert (B1 : Rabs (3 * val z) <= 192) by (apply Rabs_le; apply Rabs_le_inv in Bz; lra).
      destruct (fmul_val (fofn 3) z F3 Fz) as [M1 Fm]; [rewrite V3; lra|]. rewrite V3 in M1. set (w := fmul (fofn 3) z) in *.
      assert (Bw : Rabs (val w) <= 192). { rewrite M1. apply abs_round_le_generic; [typeclasses eauto|typeclasses eauto| |exact B1]. replace 192 with (val (fofZ 192)) by (destruct (fofZ_val 192 ltac:(lia)) as [-> _]; reflexivity). apply val_fmt. }
      assert (Cw : val w = 0 \/ bpow radix2 (-150) <= Rabs (val w)).
      { rewrite M1. destruct Cz as [Z|Cz]; [left; rewrite Z, Rmult_0_r; apply rnd_0|right]. apply rnd_ge; [lia|]. rewrite Rabs_mult, (Rabs_pos_eq 3) by lra. assert (bpow radix2 (-150) <= bpow radix2 (-133)) by (apply bpow_le; lia). pose proof (bpow_ge_0 radix2 (-133)). lra. }
      destruct (fmul_val w (fofn b) Fm Fb) as [M2 F2]. { rewrite Vb, Rabs_mult. destruct b as [|[|b]]; [change (IZR (Z.of_nat 0)) with 0; rewrite Rabs_R0; lra|change (IZR (Z.of_nat 1)) with 1; rewrite Rabs_R1; lra|lia]. }
      assert (E : val (fmul w (fofn b)) = 0 \/ val (fmul w (fofn b)) = val w). { rewrite M2, Vb. destruct b as [|[|b]]; [left; change (IZR (Z.of_nat 0)) with 0; rewrite Rmult_0_r; apply rnd_0|right; change (IZR (Z.of_nat 1)) with 1; rewrite Rmult_1_r; apply rnd_val|lia]. }
      split; [split; [exact F2|]|]; destruct E as [-> | ->]; auto; try lra. rewrite Rabs_R0. lra.
  - cbn [prod g64_rows]. unfold prod_rows. rewrite map_length, seq_length. lia.
  - unfold ale_scale. change (Nat.max 4 2) with 4%nat. change (IZR (Z.of_nat 4)) with 4. assert (B24 : 16 <= bpow radix2 24) by (change 16 with (bpow radix2 4); apply bpow_le; lia). assert (B46 : 64 <= bpow radix2 46) by (change 64 with (bpow radix2 6); apply bpow_le; lia).
    assert (B9 : 256 <= bpow radix2 900) by (change 256 with (bpow radix2 8); apply bpow_le; lia). assert (B39 : 8192 <= bpow radix2 390) by (change 8192 with (bpow radix2 13); apply bpow_le; lia). assert (B4 : bpow radix2 (-400) <= 1) by (change 1 with (bpow radix2 0); apply bpow_le; lia).
    split; [lra|]. split; [change 1 with (bpow radix2 0); apply bpow_le; lia|]. repeat split; lra.
Qed.
(** the search splits on x1; both subregions have one effect in each bin, up to rounding *)
Example prod_search : exists h0 s, search64 prod = Ok (Some (h0, [s])) /\ s64_feature s = 1%nat /\ s64_nof s = [16; 16]%nat /\ Bltb (fofZ 10) h0 = true /\ Bltb (s64_wheter s) (fdiv (fofZ 1) (fofZ 1000000)) = true.
Proof.
  assert (A : match search64 prod with Ok (Some (h0, [s])) => Nat.eqb (s64_feature s) 1 && (if list_eq_dec Nat.eq_dec (s64_nof s) [16; 16]%nat then true else false) && Bltb (fofZ 10) h0 && Bltb (s64_wheter s) (fdiv (fofZ 1) (fofZ 1000000)) | _ => false end = true) by (vm_compute; reflexivity).
  destruct (search64 prod) as [[[h0 [|s [|]]]|]|]; try discriminate A. exists h0, s. apply andb_true_iff in A as [A A2]. apply andb_true_iff in A as [A A1]. apply andb_true_iff in A as [A0 A]. apply Nat.eqb_eq in A0. destruct (list_eq_dec _ _ _); [|discriminate A]. auto 6.
Qed.

Print Assumptions C119_ale_data. Print Assumptions C119_ale_heter_partial. Print Assumptions C119_ale_search_partial.
