(** FloatRegionNan: missing values in the split search, and the candidate positions of a numerical feature. *)
From Coq Require Import Reals.
From Flocq Require Import Core.
From Flocq Require Import IEEE754.BinarySingleNaN.
From Verif Require Import Base Numpy NumpyFacts Utils FloatModel FloatFacts FloatGrid FloatBins FloatMean FloatAcc FloatNan FloatDP FloatDPGrid FloatRegion FloatRegionProofs FloatRegionSum FloatRegionTop FloatRegionMain.
From Coq Require Import Lra SpecFloat.
Open Scope R_scope.

Lemma prefix_at {A} (acc rest pre post : list A) s : acc ++ rest = pre ++ s :: post -> (length pre < length acc)%nat -> exists post', acc = pre ++ s :: post'.
Proof.
  revert acc. induction pre as [|p pre IH]; intros acc E L.
  - destruct acc as [|a acc]; [cbn in L; lia|]. cbn [app] in E. injection E as -> E. now exists acc.
  - destruct acc as [|a acc]; [cbn in L; lia|]. cbn [app] in E. injection E as -> E. destruct (IH acc E ltac:(cbn in L; lia)) as (p' & ->). now exists p'.
Qed.

(** a NaN heterogeneity anywhere in the search of a level ends the list of accepted splits before it *)
Theorem nan_stops g h0 ss pre s post f t pos sub v :
  sums (g64_sum g) -> roomy g -> (forall x v, g64_heter g x = Ok v -> is_nan v = true \/ tame (bpow radix2 900) v) ->
  search64 g = Ok (Some (h0, ss)) -> ss = pre ++ s :: post -> candidate64 g f t pos ->
  mapM (g64_heter g) (split_all64 (regions_after g pre) f pos t) = Ok sub -> In v sub -> is_nan v = true ->
  (length (choose64 g (Some (h0, ss))) <= length pre)%nat.
Proof.
  intros SUM ROOM HV SEARCH AT CAND MM Hv N. destruct (choose_spec g h0 ss _ eq_refl) as (rest & E & A). set (acc := choose64 g (Some (h0, ss))) in *.
  destruct (Nat.leb_spec (length acc) (length pre)) as [|L]; [assumption|exfalso]. rewrite E in AT. destruct (prefix_at acc rest pre post s AT L) as (post' & Eacc).
  destruct (A pre s post' Eacc) as (_ & _ & V). apply valid_nan in V as [Na Nb]. rewrite <- E in AT.
  destruct (level_at g h0 ss pre post s SEARCH AT) as (_ & _ & S). apply single_level_spec in S as (_ & Es & _ & Best).
  destruct (Best f t pos CAND) as (sub' & d & w & Ed & ND & _). destruct (evaluate_parts _ _ _ _ _ _ _ _ _ Ed) as (M' & _). rewrite MM in M'. injection M' as <-.
  destruct (candidate_nan g h0 ss pre post s SUM ROOM SEARCH AT f pos t sub d w v Ed Hv N) as [Nd _]. specialize (ND Nd).
  assert (NN : forall pre s post, ss = pre ++ s :: post -> is_nan (s64_wheter s) = false -> forall x, In x (s64_heter s) -> tame (bpow radix2 900) x).
  { clear - SUM ROOM HV SEARCH. intros pre s post AT Nw x Hx. destruct (level_at g h0 ss pre post s SEARCH AT) as (_ & _ & S). apply single_level_spec in S as (_ & Es & _ & _).
    destruct (evaluate_parts _ _ _ _ _ _ _ _ _ Es) as (M & _). destruct (In_nth _ _ fnan Hx) as (k & Hk & Ek). pose proof (mapM_nth _ _ _ k [] fnan M) as Q. rewrite <- (mapM_length _ _ _ M) in Q. specialize (Q Hk). rewrite Ek in Q.
    destruct (HV _ _ Q) as [Nx|T]; [exfalso|exact T]. destruct (candidate_nan g h0 ss pre post s SUM ROOM SEARCH AT _ _ _ _ _ _ x Es Hx Nx) as [_ C]. congruence. }
  assert (TS : forall x, In x (s64_heter s) -> tame (bpow radix2 900) x) by (eapply NN; eauto).
  assert (TB : forall x, In x (heter_after h0 pre) -> tame (bpow radix2 900) x).
  { destruct (rev pre) as [|p q] eqn:R.
    - assert (pre = []) by (apply (f_equal (@rev _)) in R; now rewrite rev_involutive in R). subst pre. intros x [<-|[]]. destruct (level_at g h0 ss [] post s SEARCH AT) as (H0 & _). destruct (HV _ _ H0) as [C|T]; [|exact T]. change (is_nan h0 = false) in Na. congruence.
    - assert (P : pre = rev q ++ [p]) by (apply (f_equal (@rev _)) in R; rewrite rev_involutive in R; exact R). rewrite P in AT, Na |- *. rewrite <- app_assoc in AT. unfold heter_after. unfold wheter_after in Na. rewrite map_app in Na |- *. cbn [map] in Na |- *. rewrite last_snoc in Na. rewrite last_snoc. exact (NN (rev q) p (s :: post) AT Na). }
  destruct (candidate_cells g h0 ss pre post s (bpow radix2 900) SUM ROOM SEARCH AT (Rle_refl _) _ _ _ _ _ _ TB TS Es) as (_ & Fd & _).
  unfold fin in Fd. destruct (s64_drop s); try discriminate ND; discriminate Fd.
Qed.
Lemma root_nan g h0 ss : is_nan h0 = true -> choose64 g (Some (h0, ss)) = [].
Proof.
  intros N. destruct (choose_spec g h0 ss _ eq_refl) as (rest & E & A). destruct (choose64 g (Some (h0, ss))) as [|s acc]; [reflexivity|]. destruct (A [] s acc eq_refl) as (_ & _ & V). apply valid_nan in V as [V _]. cbn in V. congruence.
Qed.

(** ** a missing value in a numerical conditioning feature *)
Lemma fmin_fold_nan l : forall a, (is_nan a = true \/ exists x, In x l /\ is_nan x = true) -> is_nan (fold_left fmin l a) = true.
Proof.
  induction l as [|b l IH]; intros a H; cbn [fold_left]; [destruct H as [H|(x & [] & _)]; exact H|]. apply IH. unfold fmin. destruct (is_nan a) eqn:Na; [now left|].
  destruct H as [H|(x & [->|Hx] & N)]; [congruence| |right; eauto]. left. now rewrite N.
Qed.
Lemma positions_nan c K ps : (exists x, In x c /\ is_nan x = true) -> find_positions_cont64 c K = Ok ps -> forall p, In p ps -> p = fnan.
Proof.
  intros NC H p Hp. unfold find_positions_cont64 in H. apply bind_ok in H as (hi & _ & H). apply bind_ok in H as (lo & L & H). injection H as <-. apply in_map_iff in Hp as (i & <- & _).
  assert (N : is_nan lo = true). { destruct c as [|a c]; [discriminate L|]. cbn [np_min64] in L. injection L as <-. apply fmin_fold_nan. destruct NC as (x & [->|Hx] & N); [now left|right; eauto]. }
  rewrite (nan_eq lo N). apply fadd_nan_l.
Qed.
Lemma cut_nan x f : split_dataset64 x f fnan Cont = ([], []).
Proof. unfold split_dataset64. f_equal; induction x as [|r x IH]; cbn [filter]; auto; cbn [goes_left64 goes_right64]; destruct (feat64 f r); exact IH. Qed.
Lemma cut_all_nan xs f : split_all64 xs f fnan Cont = repeat [] (2 * length xs).
Proof. unfold split_all64. induction xs as [|x xs IH]; [reflexivity|]. cbn [flat_map length]. rewrite cut_nan, IH. replace (2 * S (length xs))%nat with (S (S (2 * length xs))) by lia. reflexivity. Qed.

Lemma wheter_chain g h0 ss : sums (g64_sum g) -> roomy g -> search64 g = Ok (Some (h0, ss)) -> (forall x v, g64_heter g x = Ok v -> plus64 v /\ val v <= bpow radix2 900) ->
  fin (g64_thres g) -> 0 <= val (g64_thres g) ->
  forall pre s post, choose64 g (Some (h0, ss)) = pre ++ s :: post ->
  plus64 (wheter_after h0 pre) /\ val (s64_wheter s) < val (wheter_after h0 pre) /\ val (s64_wheter s) <= (1 - val (g64_thres g) / (1 + u53)) * val (wheter_after h0 pre).
Proof.
  intros SUM ROOM SEARCH HV Ft T pre s post E. destruct (choose_spec g h0 ss _ E) as (rest & Ess & A). destruct (A pre s post eq_refl) as (_ & _ & V).
  assert (BP : bpow radix2 950 <= bpow radix2 1000) by (apply bpow_le; lia). assert (BQ : bpow radix2 900 <= bpow radix2 1000) by (apply bpow_le; lia).
  assert (Ess' : ss = pre ++ s :: (post ++ rest)) by (rewrite Ess, <- app_assoc; reflexivity).
  destruct (wheter_plus g h0 ss pre (post ++ rest) s SUM ROOM SEARCH Ess' HV) as [Pb Bb].
  assert (PA : plus64 (wheter_after h0 pre) /\ val (wheter_after h0 pre) <= bpow radix2 1000).
  { destruct (rev pre) as [|p q] eqn:R.
    - assert (pre = []) by (apply (f_equal (@rev _)) in R; now rewrite rev_involutive in R). subst pre. destruct (level_at g h0 ss [] _ s SEARCH Ess') as (H0 & _). destruct (HV _ _ H0). split; [assumption|]. change (val h0 <= bpow radix2 1000). lra.
    - assert (P : pre = rev q ++ [p]) by (apply (f_equal (@rev _)) in R; rewrite rev_involutive in R; exact R). rewrite P in Ess' |- *. rewrite <- app_assoc in Ess'. destruct (wheter_plus g h0 ss (rev q) _ p SUM ROOM SEARCH Ess' HV) as [Pp Bp]. unfold wheter_after. rewrite map_app. cbn [map]. rewrite last_snoc. split; [assumption|lra]. }
  destruct PA as [Pa Ba]. pose proof (plus_val _ Pa). pose proof (plus_val _ Pb).
  destruct (valid_reduces (g64_thres g) (wheter_after h0 pre) (s64_wheter s) Ft T (proj1 Pa) (proj2 Pa) (proj1 Pb) ltac:(lra) ltac:(lra) V) as (V1 & V2 & V3). auto.
Qed.
Lemma wheter_geometric g h0 ss : sums (g64_sum g) -> roomy g -> search64 g = Ok (Some (h0, ss)) -> (forall x v, g64_heter g x = Ok v -> plus64 v /\ val v <= bpow radix2 900) ->
  fin (g64_thres g) -> 0 <= val (g64_thres g) ->
  forall pre post, choose64 g (Some (h0, ss)) = pre ++ post -> val (wheter_after h0 pre) <= (1 - val (g64_thres g) / (1 + u53)) ^ length pre * val h0.
Proof.
  intros SUM ROOM SEARCH HV Ft T pre. induction pre as [|s pre IH] using rev_ind; intros post E; [change (val (wheter_after h0 [])) with (val h0); cbn [length pow]; lra|].
  rewrite <- app_assoc in E. cbn [app] in E. specialize (IH _ E). destruct (wheter_chain g h0 ss SUM ROOM SEARCH HV Ft T pre s post E) as (P & L & C).
  unfold wheter_after at 1. rewrite map_app. cbn [map]. rewrite last_snoc, app_length, Nat.add_1_r. cbn [pow]. set (c := 1 - val (g64_thres g) / (1 + u53)) in *.
  assert (S0 : 0 <= val (s64_wheter s)).
  { destruct (choose_spec g h0 ss _ E) as (rest & Ess & _). rewrite <- app_assoc in Ess. cbn [app] in Ess. apply plus_val. eapply (wheter_plus g h0 ss pre); eauto. }
  assert (C0 : 0 <= c). { destruct (Rle_lt_dec 0 c) as [|N]; [assumption|exfalso]. assert (0 < val (wheter_after h0 pre)) by lra. pose proof (Rmult_lt_compat_r _ _ _ H N). lra. }
  eapply Rle_trans; [exact C|]. rewrite Rmult_assoc. apply Rmult_le_compat_l; assumption.
Qed.

Theorem missing_never g h0 ss acc s : sums (g64_sum g) -> roomy g -> search64 g = Ok (Some (h0, ss)) -> (forall x v, g64_heter g x = Ok v -> plus64 v /\ val v <= bpow radix2 900) ->
  g64_heter g [] = Ok BIGM64 -> val h0 <= 100000000 -> fin (g64_thres g) -> bpow radix2 (-8) <= val (g64_thres g) ->
  choose64 g (Some (h0, ss)) = acc -> In s acc -> s64_type s = Cont -> forall r, In r (g64_rows g) -> is_nan (feat64 (s64_feature s) r) = false.
Proof.
  intros SUM ROOM SEARCH HV HE B0 Ft T EA Hs ST r Hr. destruct (is_nan (feat64 (s64_feature s) r)) eqn:N; [exfalso|reflexivity].
  apply in_split in Hs as (pre & post & ->). destruct (choose_spec g h0 ss _ EA) as (rest & Ess & _). rewrite <- app_assoc in Ess. cbn [app] in Ess.
  assert (T0 : 0 <= val (g64_thres g)) by (pose proof (bpow_ge_0 radix2 (-8)); lra).
  destruct (wheter_chain g h0 ss SUM ROOM SEARCH HV Ft T0 pre s post EA) as (P & L & C).
  assert (WA : val (wheter_after h0 pre) <= 100000000).
  { clear - SUM ROOM SEARCH HV Ft T0 EA B0. assert (G : forall pre post, choose64 g (Some (h0, ss)) = pre ++ post -> val (wheter_after h0 pre) <= 100000000); [|eapply G; exact EA].
    intros q. induction q as [|p q IH] using rev_ind; intros post' E; [exact B0|]. rewrite <- app_assoc in E. cbn [app] in E. specialize (IH _ E). destruct (wheter_chain g h0 ss SUM ROOM SEARCH HV Ft T0 q p post' E) as (_ & L & _). unfold wheter_after at 1. rewrite map_app. cbn [map]. rewrite last_snoc. lra. }
  destruct (level_at g h0 ss pre _ s SEARCH Ess) as (_ & Lp & S). apply single_level_spec in S as (CA & Es & _ & _). destruct CA as [_ (ps & PS & HP)]. rewrite ST in PS. unfold positions64 in PS.
  assert (EP : s64_pos s = fnan). { eapply positions_nan; [|exact PS|exact HP]. exists (feat64 (s64_feature s) r). split; [now apply in_map|exact N]. }
  rewrite EP, ST in Es. destruct (evaluate_parts _ _ _ _ _ _ _ _ _ Es) as (M & LS & SC). destruct bigm_fits as [BF BV]. rewrite cut_all_nan in M.
  assert (SB : forall x, In x (s64_heter s) -> x = BIGM64).
  { intros x Hx. apply (In_nth _ _ fnan) in Hx as (k & Hk & <-). pose proof (mapM_nth _ _ _ k [] fnan M) as Q. rewrite <- (mapM_length _ _ _ M) in Q. specialize (Q Hk). rewrite nth_repeat in Q. rewrite HE in Q. now injection Q. }
  assert (TV : forall x v, g64_heter g x = Ok v -> tame (bpow radix2 900) v). { intros x v Hx. destruct (HV x v Hx) as [PV PB]. split; [apply PV|]. rewrite Rabs_pos_eq by now apply plus_val. exact PB. }
  (* the weighted heterogeneity is BIG_M up to rounding: use the bound with H = BIG_M on this side only *)
  set (ns := map (@length row64) (split_all64 (regions_after g pre) (s64_feature s) fnan Cont)) in *.
  destruct (level_sizes g pre (s64_feature s) fnan Cont ROOM Lp) as (S1 & S2 & S3 & S4). fold ns in S1, S3, S4. pose proof (before_length g h0 ss pre _ s SEARCH Ess) as BL.
  destruct (score_parts (g64_sum g) (heter_after h0 pre) (s64_heter s) ns _ _ SC ltac:(lia) ltac:(lia) ltac:(lia)) as (_ & wh & _ & EW & _ & Lh & _ & Eh).
  assert (NB : forall k, (k < length (s64_heter s))%nat -> nth k (s64_heter s) fnan = BIGM64) by (intros k Hk; apply SB, nth_In; exact Hk).
  assert (W8 : forall k, (k < length (s64_heter s))%nat -> fin (nth k wh fnan) /\ 0 <= weight ns k /\ Rabs (val (nth k wh fnan) - weight ns k * 100000000) <= gam 3 * 100000000 * weight ns k + eta).
  { intros k Hk. rewrite Eh, NB by exact Hk. destruct (weights64_val ns k ltac:(lia) S4) as (Fk & W0 & W01 & e & He & Vk).
    destruct (fmul_val (nth k (weights64 ns) fnan) BIGM64 Fk (proj1 BF)) as [Vm Fm].
    { rewrite BV, Rabs_pos_eq by (apply Rmult_le_pos; lra). apply Rle_trans with (bpow radix2 27); [change (bpow radix2 27) with 134217728; lra|apply bpow_le; lia]. }
    split; [exact Fm|]. split; [lra|]. rewrite Vm, BV, Vk. replace (weight ns k * (1 + e) * 100000000) with (100000000 * (1 + 0) * (weight ns k * (1 + e))) by ring.
    eapply Rle_trans; [apply prod_error; [lra|exact He|rewrite Rabs_R0; apply bpow_ge_0]|]. rewrite Rabs_pos_eq by lra. lra. }
  pose proof gam3 as G3. pose proof (gam_pos 3) as G3p. pose proof small50 as S50.
  destruct (wsum_error (g64_sum g) wh (length (s64_heter s)) (weight ns) (fun _ => 100000000) 100000000 (gam 3 * 100000000) SUM Lh ltac:(lia) ltac:(lia)) as [_ WE]; try lra.
  { intros x Hx. apply (In_nth _ _ fnan) in Hx as (k & Hk & <-). apply W8. lia. }
  { apply Rle_trans with (bpow radix2 27); [change (bpow radix2 27) with 134217728; lra|apply bpow_le; lia]. }
  { intros k Hk. destruct (W8 k Hk) as (_ & Wa & Wb). split; [exact Wa|]. split; [rewrite Rabs_pos_eq; lra|exact Wb]. }
  { replace (length (s64_heter s)) with (length ns) by lia. apply weight_sum. intros E0. rewrite E0 in S1. cbn in S1. lia. }
  rewrite (rk_ext _ (fun k => weight ns k * 100000000) (fun k => 100000000 * weight ns k + 0)) in WE by (intros; ring). rewrite rk_lin in WE. replace (length (s64_heter s)) with (length ns) in WE at 1 by lia. rewrite weight_sum in WE by (intros E0; rewrite E0 in S1; cbn in S1; lia).
  rewrite <- EW in WE. set (n := length (s64_heter s)) in *. apply Rabs_le_inv in WE.
  assert (Gn : gam n <= bpow radix2 (-11)).
  { eapply Rle_trans; [apply gam_small; lia|]. apply Rle_trans with (2 * bpow radix2 40 * u53); [|change 2 with (bpow radix2 1); rewrite <- !bpow_plus; apply bpow_le; lia].
    apply Rmult_le_compat_r; [apply bpow_ge_0|]. apply Rmult_le_compat_l; [lra|]. change (bpow radix2 40) with (IZR (2 ^ 40)). apply IZR_le. lia. }
  pose proof (gam_pos n) as Gp. assert (NE : 2 * IZR (Z.of_nat n) * eta <= bpow radix2 (-11)).
  { apply Rle_trans with (bpow radix2 1 * bpow radix2 40 * eta); [|rewrite <- !bpow_plus; apply bpow_le; lia]. apply Rmult_le_compat_r; [apply bpow_ge_0|]. change (bpow radix2 1) with 2. apply Rmult_le_compat_l; [lra|]. change (bpow radix2 40) with (IZR (2 ^ 40)). apply IZR_le. lia. }
  assert (P11 : bpow radix2 (-11) = / 2048) by (cbn; lra). assert (P8 : bpow radix2 (-8) = / 256) by (cbn; lra). assert (P50 : bpow radix2 (-50) <= / 2048) by (rewrite <- P11; apply bpow_le; lia).
  assert (GG : gam n * (100000000 + gam 3 * 100000000) <= / 2048 * (100000000 + / 16 * 100000000)) by (apply Rmult_le_compat; lra).
  assert (U : u53 <= / 16) by (eapply Rle_trans; [|exact S50]; apply bpow_le; lia). pose proof u53_pos as UP.
  assert (TT : / 256 * (/ 2) <= val (g64_thres g) / (1 + u53)). { unfold Rdiv. apply Rmult_le_compat; try lra. apply Rinv_le; lra. }
  set (q := val (g64_thres g) / (1 + u53)) in *. assert (0 <= val (wheter_after h0 pre)) by (now apply plus_val).
  assert ((1 - q) * val (wheter_after h0 pre) <= (1 - / 512) * 100000000). { apply Rle_trans with ((1 - / 512) * val (wheter_after h0 pre)); [apply Rmult_le_compat_r; lra|apply Rmult_le_compat_l; lra]. }
  lra.
Qed.
