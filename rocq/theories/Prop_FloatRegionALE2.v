(** C119 for RegionalRHALE, from the data (see properties.jsonl). *)
From Coq Require Import Reals.
From Flocq Require Import Core.
From Flocq Require Import IEEE754.BinarySingleNaN.
From Verif Require Import Base Numpy NumpyFacts Utils FloatModel FloatFacts FloatGrid FloatBins FloatProofs FloatAcc FloatCat FloatAdapt FloatPDP FloatRegion FloatRegionProofs FloatRegionSum FloatRegionTop FloatRegionMain FloatRegionGuard FloatRegionAll FloatRegionPDPProofs Prop_FloatRegion FloatRegionIdeal FloatRegionALE FloatRegionALEProofs FloatGrain FloatGood Prop_FloatAcc Prop_FloatPDP Prop_FloatGreedy Prop_FloatRegionALE FloatRegionALEGood.
From Coq Require Import Lra.
Open Scope R_scope.

(** A RegionalRHALE object with equal or greedy bins and its search: the values of the feature are finite, not -0.0, of size at most
    M <= 2^25, different ones at least [gap] apart (gap >= 2^-900, gap >= 2^-50 M); the effects (the Jacobian) are 0 or at least 2^-240,
    and at most T. *)
Definition regional_rhale64 (var : list b64 -> b64) (c : aleheter64) (b : binning64) (g : regions64) (M gap T : R) : Prop :=
  g64_heter g = ale_heter64 c /\ r64_fit c = region_rhale64 (r64_feature c) var b /\ equal_or_greedy b /\ sums (g64_sum g) /\ FloatRegionTop.roomy g /\
  rhale_rows (r64_feature c) M gap T (g64_rows g) /\ (Z.of_nat (length (g64_rows g)) <= 2 ^ 40)%Z /\ scale M gap /\ 0 <= M /\ bpow radix2 (-400) <= T <= bpow radix2 390.
Theorem C119_rhale_data var c b g M gap T : regional_rhale64 var c b g M gap T -> regional_ale64 c g (binning_size b) (42 * T * M).
Proof.
  intros (EH & EF & HB & SU & RO & RR & HN & SC & M0 & HT). assert (T0 : 0 <= T) by (pose proof (bpow_ge_0 radix2 (-400)); lra). pose proof SC as (HM & _). split; [exact EH|]. split; [exact SU|]. split; [exact RO|]. split; [|split].
  - intros x lo hi p [I L] MP EA LT E. rewrite EF in E. pose proof (rhale_rows_part _ _ _ _ _ x RR I) as RX. destruct (region_limits _ _ _ x lo hi (proj1 RX) EA) as (_ & Fl & Fh & _).
    apply (rhale_good var (r64_feature c) M gap T b x lo hi p); auto; [lia|]. now apply flt_val in LT.
  - split; [apply Rmult_le_pos; lra|]. apply Rle_trans with (bpow radix2 6 * bpow radix2 390 * bpow radix2 25).
    + apply Rmult_le_compat; try lra. apply Rmult_le_compat; try lra. unfold bpow. cbn. lra.
    + rewrite <- !bpow_plus. apply bpow_le. lia.
  - destruct b; [| |destruct HB]; cbn [binning_size]; destruct HB; lia.
Qed.

(** The heterogeneity of any part of the data: 1e8, or within acc_error of the exact accumulation of the bins' standard deviations. *)
Theorem C119_rhale_heter_partial var c b g M gap T x v : regional_rhale64 var c b g M gap T -> part_of (g64_rows g) x -> g64_heter g x = Ok v ->
  fin v /\ Bsign v = false /\ Rabs (val v - accumulated_heter c x) <= acc_error (binning_size b) (42 * T * M).
Proof. intros H P E. destruct (C119_regions_partial c g _ _ x v (C119_rhale_data _ _ _ _ _ _ _ H) P E) as (A1 & A2 & A3 & _). auto. Qed.
(** The split chosen at each level is, for the exact accumulation, as good as any candidate up to [ale_search_error]. *)
Theorem C119_rhale_search_partial var c b g M gap T h0 ss pre s post f t pos : regional_rhale64 var c b g M gap T ->
  search64 g = Ok (Some (h0, ss)) -> ss = pre ++ s :: post -> candidate64 g f t pos ->
  ideal_drop (accumulated_heter c) (regions_after g pre) (split_all64 (regions_after g pre) f pos t) <=
  ideal_drop (accumulated_heter c) (regions_after g pre) (split_all64 (regions_after g pre) (s64_feature s) (s64_pos s) (s64_type s)) + ale_search_error (binning_size b) (2 ^ S (length pre)) (42 * T * M).
Proof. intros H. apply (C119_search_partial c g). exact (C119_rhale_data _ _ _ _ _ _ _ H). Qed.

(** ** A concrete case: the feature takes the values 0..7, the effect is 0 when the second feature is 0 and 3 when it is 1 *)
Definition mix_row (i : nat) : row64 := ([fofn (i mod 8); fofn (i / 8 mod 2)], [fofn (3 * (i / 8 mod 2)); fzero]).
Definition mix_rows : list row64 := map mix_row (seq 0 32).
Definition mix_bins : binning64 := BFixed 4 0 2.
Definition mix_heter : aleheter64 := mk_aleheter64 0 4 (region_rhale64 0 var_seq mix_bins) NoCentering one_by_one.
Definition mix : regions64 := mkRegions64 (ale_heter64 mix_heter) sum_left mix_rows Cont [1]%nat [Cat] 10 2 3 1 thres8 small8 false.
Example mix_meets : regional_rhale64 var_seq mix_heter mix_bins mix 8 1 3.
Proof.
  assert (B8 : 8 = bpow radix2 3) by reflexivity. split; [reflexivity|]. split; [reflexivity|]. split; [cbn; lia|]. split; [exact sum_left_sums|]. split; [unfold FloatRegionTop.roomy; cbn; lia|]. split; [|split; [|split; [|split; [lra|]]]].
  - assert (FI : forall r, In r mix_rows -> exists a b, (a < 8)%nat /\ (b < 2)%nat /\ r = ([fofn a; fofn b], [fofn (3 * b); fzero])).
    { intros r Hr. apply in_map_iff in Hr as (i & <- & _). exists (i mod 8)%nat, (i / 8 mod 2)%nat. split; [apply Nat.mod_upper_bound; lia|]. split; [apply Nat.mod_upper_bound; lia|]. reflexivity. }
    assert (V : forall a, (a < 8)%nat -> val (fofn a) = IZR (Z.of_nat a) /\ fin (fofn a)) by (intros a Ha; apply fofZ_val; lia).
    split; [split|split].
    + intros x Hx. apply in_map_iff in Hx as (r & <- & Hr). destruct (FI r Hr) as (a & b & Ha & Hb & ->). change (fin (fofn a) /\ Rabs (val (fofn a)) <= 8). destruct (V a Ha) as [-> F]. split; [exact F|]. rewrite Rabs_pos_eq by (apply IZR_le; lia). apply IZR_le. lia.
    + intros x y Hx Hy. apply in_map_iff in Hx as (r & <- & Hr). apply in_map_iff in Hy as (q & <- & Hq). destruct (FI r Hr) as (a & b & Ha & Hb & ->). destruct (FI q Hq) as (a' & b' & Ha' & Hb' & ->).
      change (val (fofn a) < val (fofn a') -> 1 <= val (fofn a') - val (fofn a)). destruct (V a Ha) as [-> _]. destruct (V a' Ha') as [-> _]. intros L. apply lt_IZR in L. rewrite <- minus_IZR. apply IZR_le. lia.
    + intros r Hr. assert (A : forallb (fun r => negb (Bsign (feat64 0 r))) mix_rows = true) by (vm_compute; reflexivity). rewrite forallb_forall in A. specialize (A r Hr). intros S. change (r64_feature mix_heter) with 0%nat in S. rewrite S in A. discriminate A.
    + intros r Hr. destruct (FI r Hr) as (a & b & Ha & Hb & ->). change (coarse (-240) (fofn (3 * b)) /\ Rabs (val (fofn (3 * b))) <= 3). destruct (V (3 * b)%nat ltac:(lia)) as [Eb Fb]. split; [split; [exact Fb|]|]; rewrite Eb.
      * destruct b as [|[|b]]; [left; reflexivity|right|lia]. change (Z.of_nat (3 * 1)) with 3%Z. rewrite Rabs_pos_eq by lra. apply Rle_trans with (bpow radix2 0); [apply bpow_le; lia|change (bpow radix2 0) with 1; lra].
      * rewrite Rabs_pos_eq by (apply IZR_le; lia). apply IZR_le. lia.
  - cbn [mix g64_rows]. unfold mix_rows. rewrite map_length, seq_length. lia.
  - split; [rewrite B8; apply bpow_le; lia|]. split; [change 1 with (bpow radix2 0); apply bpow_le; lia|]. rewrite Rmult_1_r, B8. apply bpow_le. lia.
  - split; [apply Rle_trans with (bpow radix2 0); [apply bpow_le; lia|change (bpow radix2 0) with 1; lra]|]. apply Rle_trans with (bpow radix2 2); [change (bpow radix2 2) with 4; lra|apply bpow_le; lia].
Qed.
(** the search splits on the second feature; the heterogeneity falls from 7 * 1.5 to 0 *)
Example mix_search : exists h0 s, search64 mix = Ok (Some (h0, [s])) /\ s64_nof s = [16; 16]%nat /\ Beqb h0 (fdiv (fofZ 21) (fofZ 2)) = true /\ Beqb (s64_wheter s) fzero = true.
Proof.
  assert (A : match search64 mix with Ok (Some (h0, [s])) => (if list_eq_dec Nat.eq_dec (s64_nof s) [16; 16]%nat then true else false) && Beqb h0 (fdiv (fofZ 21) (fofZ 2)) && Beqb (s64_wheter s) fzero | _ => false end = true) by (vm_compute; reflexivity).
  destruct (search64 mix) as [[[h0 [|s [|]]]|]|]; try discriminate A. exists h0, s. destruct (list_eq_dec _ _ _); [|discriminate A]. apply andb_true_iff in A as [A1 A2]. auto.
Qed.

Print Assumptions C119_rhale_data. Print Assumptions C119_rhale_heter_partial. Print Assumptions C119_rhale_search_partial.
