(** FloatRegionAll: the search for subregions in binary64 when heter_func is tame on every list of rows; Prop_FloatRegion.v
    asks it of the parts of the data only. *)
From Coq Require Import Reals Permutation.
From Flocq Require Import Core.
From Flocq Require Import IEEE754.BinarySingleNaN.
From Verif Require Import Base Numpy NumpyFacts Utils FloatModel FloatFacts FloatGrid FloatBins FloatMean FloatAcc FloatNan FloatDPGrid FloatAdapt FloatRegion FloatRegionProofs FloatRegionSum FloatRegionTop FloatRegionMain FloatRegionNan FloatRegionPos.
From Coq Require Import Lra.
Open Scope R_scope.

Definition heter_all (g : regions64) : Prop := forall x v, g64_heter g x = Ok v -> fin v /\ Bsign v = false /\ val v <= bpow radix2 900.
Lemma heter_all_plus g : heter_all g -> forall x v, g64_heter g x = Ok v -> plus64 v /\ val v <= bpow radix2 900.
Proof. intros H x v E. destruct (H x v E) as (A & B & C). repeat split; auto. Qed.

(** The split of each level is one of the candidates, the numbers reported with it are those computed for it, and its
    weighted heterogeneity drop, as computed, is at least that of every other candidate. *)
Lemma best_all g h0 ss pre s post : sums (g64_sum g) -> roomy g -> heter_all g ->
  search64 g = Ok (Some (h0, ss)) -> ss = pre ++ s :: post ->
  candidate64 g (s64_feature s) (s64_type s) (s64_pos s) /\
  mapM (g64_heter g) (split_all64 (regions_after g pre) (s64_feature s) (s64_pos s) (s64_type s)) = Ok (s64_heter s) /\
  s64_nof s = map (@length row64) (split_all64 (regions_after g pre) (s64_feature s) (s64_pos s) (s64_type s)) /\
  forall f t pos, candidate64 g f t pos -> exists sub d w,
    evaluate64 g (regions_after g pre) (heter_after h0 pre) f pos t = Ok (sub, (d, w)) /\ val d <= val (s64_drop s).
Proof.
  intros SUM ROOM HF SEARCH AT. destruct (level_at g h0 ss pre post s SEARCH AT) as (_ & L & S). pose proof (heter_all_plus g HF) as HP.
  apply single_level_spec in S as (C & E & NO & B). split; [exact C|]. split; [apply (evaluate_parts _ _ _ _ _ _ _ _ _ E)|]. split; [exact NO|].
  assert (TV : forall x v, g64_heter g x = Ok v -> tame (bpow radix2 900) v). { intros x v Hx. destruct (HP x v Hx) as [P PB]. split; [apply P|]. rewrite Rabs_pos_eq by now apply plus_val. exact PB. }
  assert (TB : forall x, In x (heter_after h0 pre) -> tame (bpow radix2 900) x). { intros x Hx. destruct (heter_after_from g h0 ss pre s post x SEARCH AT Hx) as (y & Hy). eapply TV; exact Hy. }
  assert (FIN : forall f pos t sub d w, evaluate64 g (regions_after g pre) (heter_after h0 pre) f pos t = Ok (sub, (d, w)) -> fin d).
  { intros f pos t sub d w Ed. destruct (evaluate_parts _ _ _ _ _ _ _ _ _ Ed) as (M & _). eapply (candidate_cells g h0 ss pre post s (bpow radix2 900) SUM ROOM SEARCH AT (Rle_refl _) f pos t sub d w TB); [|exact Ed].
    intros x Hx. apply (In_nth _ _ fnan) in Hx as (k & Hk & <-). eapply TV. eapply (mapM_nth _ _ _ k [] fnan M). rewrite <- (mapM_length _ _ _ M). exact Hk. }
  intros f t pos CA. destruct (B f t pos CA) as (sub & d & w & Ed & _ & Bd). exists sub, d, w. split; [exact Ed|]. pose proof (FIN _ _ _ _ _ _ E) as F1. pose proof (FIN _ _ _ _ _ _ Ed) as F2.
  apply fle_val; auto. apply Bd. unfold fin in F1. destruct (s64_drop s); try discriminate F1; reflexivity.
Qed.

(** In exact arithmetic: the weighted drop of the chosen split falls short of that of any candidate by at most
    2 (n + 4) (2^-50 H + 2^-1074), n being the number of subregions and H a bound on the heterogeneities of the level. *)
Lemma near_optimal_all g h0 ss pre s post H f t pos sub d w : sums (g64_sum g) -> roomy g -> heter_all g ->
  search64 g = Ok (Some (h0, ss)) -> ss = pre ++ s :: post -> candidate64 g f t pos ->
  evaluate64 g (regions_after g pre) (heter_after h0 pre) f pos t = Ok (sub, (d, w)) ->
  H <= bpow radix2 900 -> (forall x, In x (heter_after h0 pre) \/ In x sub \/ In x (s64_heter s) -> val x <= H) ->
  exact_drop (heter_after h0 pre) sub (map (@length row64) (split_all64 (regions_after g pre) f pos t)) <=
  exact_drop (heter_after h0 pre) (s64_heter s) (map (@length row64) (split_all64 (regions_after g pre) (s64_feature s) (s64_pos s) (s64_type s)))
  + 2 * (IZR (2 ^ Z.of_nat (S (length pre)) + 4) * (bpow radix2 (-50) * H + bpow radix2 (-1074))).
Proof.
  intros SUM ROOM HF SEARCH AT CA Ed HH HB. pose proof (heter_all_plus g HF) as HP. destruct (best_all g h0 ss pre s post SUM ROOM HF SEARCH AT) as (_ & _ & _ & B). destruct (B f t pos CA) as (sub' & d' & w' & Ed' & Le). rewrite Ed in Ed'. injection Ed' as <- <- <-.
  destruct (level_at g h0 ss pre post s SEARCH AT) as (_ & L & S). apply single_level_spec in S as (_ & E & _ & _).
  assert (TM : forall f pos t sub d w, evaluate64 g (regions_after g pre) (heter_after h0 pre) f pos t = Ok (sub, (d, w)) -> (forall x, In x sub -> val x <= H) -> forall x, In x sub -> tame H x).
  { intros f' pos' t' sub' d' w' E' BB x Hx. destruct (evaluate_parts _ _ _ _ _ _ _ _ _ E') as (M & _). pose proof (BB x Hx) as BX. apply (In_nth _ _ fnan) in Hx as (k & Hk & <-). pose proof (mapM_nth _ _ _ k [] fnan M) as Q. rewrite <- (mapM_length _ _ _ M) in Q. destruct (HP _ _ (Q Hk)) as [P _]. split; [apply P|]. rewrite Rabs_pos_eq by now apply plus_val. exact BX. }
  assert (TB : forall x, In x (heter_after h0 pre) -> tame H x). { intros x Hx. destruct (heter_after_from g h0 ss pre s post x SEARCH AT Hx) as (y & Hy). destruct (HP _ _ Hy) as [P _]. split; [apply P|]. rewrite Rabs_pos_eq by now apply plus_val. apply HB. auto. }
  destruct (candidate_cells g h0 ss pre post s H SUM ROOM SEARCH AT HH _ _ _ _ _ _ TB (TM _ _ _ _ _ _ Ed ltac:(auto)) Ed) as (_ & _ & _ & D1 & _).
  destruct (candidate_cells g h0 ss pre post s H SUM ROOM SEARCH AT HH _ _ _ _ _ _ TB (TM _ _ _ _ _ _ E ltac:(auto)) E) as (_ & _ & _ & D2 & _).
  apply Rabs_le_inv in D1, D2. lra.
Qed.

(** The reported weighted heterogeneity and drop are the exact ones up to rounding. *)
Lemma reported_all g h0 ss pre s post H : sums (g64_sum g) -> roomy g -> heter_all g ->
  search64 g = Ok (Some (h0, ss)) -> ss = pre ++ s :: post -> H <= bpow radix2 900 -> (forall x, In x (heter_after h0 pre) \/ In x (s64_heter s) -> val x <= H) ->
  Rabs (val (s64_drop s) - exact_drop (heter_after h0 pre) (s64_heter s) (s64_nof s)) <= IZR (2 ^ Z.of_nat (S (length pre)) + 4) * (bpow radix2 (-50) * H + bpow radix2 (-1074)) /\
  Rabs (val (s64_wheter s) - exact_wheter (s64_heter s) (s64_nof s)) <= IZR (2 ^ Z.of_nat (S (length pre)) + 4) * (bpow radix2 (-51) * H + bpow radix2 (-1074)).
Proof.
  intros SUM ROOM HF SEARCH AT HH HB. pose proof (heter_all_plus g HF) as HP. destruct (level_at g h0 ss pre post s SEARCH AT) as (_ & L & S). apply single_level_spec in S as (_ & E & NO & _). rewrite NO.
  destruct (evaluate_parts _ _ _ _ _ _ _ _ _ E) as (M & _).
  apply (candidate_cells g h0 ss pre post s H SUM ROOM SEARCH AT HH _ _ _ _ _ _) with (3 := E).
  - intros x Hx. destruct (heter_after_from g h0 ss pre s post x SEARCH AT Hx) as (y & Hy). destruct (HP _ _ Hy) as [P _]. split; [apply P|]. rewrite Rabs_pos_eq by now apply plus_val. apply HB. auto.
  - intros x Hx. pose proof (HB x (or_intror Hx)) as BX. apply (In_nth _ _ fnan) in Hx as (k & Hk & <-). pose proof (mapM_nth _ _ _ k [] fnan M) as Q. rewrite <- (mapM_length _ _ _ M) in Q. destruct (HP _ _ (Q Hk)) as [P _]. split; [apply P|]. rewrite Rabs_pos_eq by now apply plus_val. exact BX.
Qed.

(** Every reported split lowers the weighted heterogeneity, by the threshold up to one rounding, so k reported levels
    lower it geometrically. *)
Lemma accepted_all g h0 ss : sums (g64_sum g) -> roomy g -> heter_all g -> fin (g64_thres g) -> 0 <= val (g64_thres g) ->
  search64 g = Ok (Some (h0, ss)) ->
  (forall pre s post, choose64 g (Some (h0, ss)) = pre ++ s :: post ->
     val (s64_wheter s) < val (wheter_after h0 pre) /\
     val (s64_wheter s) <= (1 - val (g64_thres g) / (1 + bpow radix2 (-53))) * val (wheter_after h0 pre)) /\
  val (wheter_after h0 (choose64 g (Some (h0, ss)))) <= (1 - val (g64_thres g) / (1 + bpow radix2 (-53))) ^ length (choose64 g (Some (h0, ss))) * val h0.
Proof.
  intros SUM ROOM HF Ft T SEARCH. pose proof (heter_all_plus g HF) as HP. split.
  - intros pre s post E. apply (wheter_chain g h0 ss SUM ROOM SEARCH HP Ft T pre s post E).
  - eapply (wheter_geometric g h0 ss SUM ROOM SEARCH HP Ft T _ []). symmetry. apply app_nil_r.
Qed.

Lemma nan_all g h0 ss pre s post f t pos x v : sums (g64_sum g) -> roomy g ->
  (forall x v, g64_heter g x = Ok v -> is_nan v = true \/ (fin v /\ Rabs (val v) <= bpow radix2 900)) ->
  search64 g = Ok (Some (h0, ss)) -> ss = pre ++ s :: post -> candidate64 g f t pos ->
  In x (split_all64 (regions_after g pre) f pos t) -> g64_heter g x = Ok v -> is_nan v = true ->
  (length (choose64 g (Some (h0, ss))) <= length pre)%nat.
Proof.
  intros SUM ROOM HV SEARCH AT CA Hx Ex N. destruct (level_at g h0 ss pre post s SEARCH AT) as (_ & _ & S). apply single_level_spec in S as (_ & _ & _ & B). destruct (B f t pos CA) as (sub & d & w & Ed & _).
  destruct (evaluate_parts _ _ _ _ _ _ _ _ _ Ed) as (M & _). apply (nan_stops g h0 ss pre s post f t pos sub v SUM ROOM HV SEARCH AT CA M); [|exact N].
  apply (In_nth _ _ []) in Hx as (k & Hk & Ek). pose proof (mapM_nth _ _ _ k [] fnan M Hk) as Q. rewrite Ek, Ex in Q. injection Q as Q. rewrite Q. apply nth_In. rewrite (mapM_length _ _ _ M). exact Hk.
Qed.
Lemma missing_all g acc s : sums (g64_sum g) -> roomy g -> heter_all g ->
  g64_heter g [] = Ok BIGM64 -> (forall v, g64_heter g (g64_rows g) = Ok v -> val v <= 100000000) -> fin (g64_thres g) -> bpow radix2 (-8) <= val (g64_thres g) ->
  subregions64 g = Ok acc -> In s acc -> s64_type s = Cont -> forall r, In r (g64_rows g) -> is_nan (feat64 (s64_feature s) r) = false.
Proof.
  intros SUM ROOM HF HE H0 Ft T A Hs ST r Hr. unfold subregions64 in A. apply bind_ok in A as (fo & S & A). injection A as <-. destruct fo as [[h ss]|]; [|destruct Hs].
  destruct ss as [|s0 ss]; [cbn [choose64] in Hs; destruct (Beqb h BIGM64), (Bltb h (g64_small g)); destruct Hs|].
  destruct (search_at g h (s0 :: ss) [] s0 ss S eq_refl) as (H' & _).
  exact (missing_never g h (s0 :: ss) _ s SUM ROOM S (heter_all_plus g HF) HE (H0 h H') Ft T eq_refl Hs ST r Hr).
Qed.
