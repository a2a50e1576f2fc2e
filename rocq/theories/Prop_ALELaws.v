(** Properties C71 (the definition determines the result), C73, C75-C78: laws of the ALE and RHALE curves.
    [c] is an object, [ks] any history of fit/eval calls on it, [rt] stands for np.sqrt. *)
From Verif Require Import Base Numpy Spec ALESpec NumpyFacts Utils UtilsProofs FillProofs AccProofs LocalProofs ParamsProofs
  Helpers Integrate HelpersProofs Binning BinProofs GreedyProofs DPProofs LimitsProofs GlobalALE ALEState ALEHist ALEFit ALEProps ALESuccess ALECurves
  ALESpecFacts ALEDefProofs LawsProofs Prop_GlobalALE Prop_ALEDef.
Open Scope Qc_scope.
Open Scope list_scope.

(** * C71  The definition determines the curve and the heterogeneity *)
Theorem C71_definition_unique : forall c g rt n cl f ce xs het y h y2 h2,
  ale_effect c g rt n cl f ce xs het y h -> ale_effect c g rt n cl f ce xs het y2 h2 -> y = y2 /\ h = h2.
Proof.
  intros c g rt n cl f ce xs het y h y2 h2 (l & l' & be & bv & FB & W & _ & M & V & -> & ->) (k & k' & be2 & bv2 & FB2 & W2 & _ & M2 & V2 & -> & ->).
  rewrite <- (fixed_binning_unique _ _ _ _ _ _ l k (fun x => conj (fun H => H) (fun H => H)) FB FB2) in W2.
  rewrite <- (widened_unique l l' k' W W2) in *.
  assert (be = be2) as <- by exact (filled_unique _ _ _ M M2). assert (bv = bv2) as <- by exact (filled_unique _ _ _ V V2). auto.
Qed.
Print Assumptions C71_definition_unique.

(** * C73  ALE is linear in the model *)
(** Three objects on the same data and axis limits, the third model being [al * g1 + be * g2]; each object has any history, then
    a fit of the feature with the same Fixed options; the curves combine in the same way. *)
Theorem C73_linear : forall c1 c2 c3 g1 g2 al be rt ks1 ks2 ks3 f n mp cl cv cv' s1 s2 s3 t1 t2 t3 xs het y1 y2 y3 h1 h2 h3,
  c_kind c1 = KALE -> c_kind c2 = KALE -> c_kind c3 = KALE ->
  c_model c1 = map g1 -> c_model c2 = map g2 -> c_model c3 = map (fun r => al * g1 r + be * g2 r) ->
  c_data c2 = c_data c1 -> c_mins c2 = c_mins c1 -> c_maxs c2 = c_maxs c1 ->
  c_data c3 = c_data c1 -> c_mins c3 = c_mins c1 -> c_maxs c3 = c_maxs c1 -> (1 <= n)%nat ->
  fit c1 (run c1 rt (fresh None) ks1) [f] (MFixed n mp cl) cv = (s1, Ok tt) ->
  fit c2 (run c2 rt (fresh None) ks2) [f] (MFixed n mp cl) cv = (s2, Ok tt) ->
  fit c3 (run c3 rt (fresh None) ks3) [f] (MFixed n mp cl) cv = (s3, Ok tt) -> cv' = cv \/ cv' = PyBool false ->
  eval c1 rt s1 f xs het cv' = (t1, Ok (y1, h1)) -> eval c2 rt s2 f xs het cv' = (t2, Ok (y2, h2)) -> eval c3 rt s3 f xs het cv' = (t3, Ok (y3, h3)) ->
  (c_maxs c1)@f <= Q2Qc 100000000 -> (forall x, In x xs -> x <= Q2Qc 100000000) ->
  length y3 = length xs /\ forall i, (i < length xs)%nat -> y3@i = al * y1@i + be * y2@i.
Proof.
  intros c1 c2 c3 g1 g2 al be rt ks1 ks2 ks3 f n mp cl cv cv' s1 s2 s3 t1 t2 t3 xs het y1 y2 y3 h1 h2 h3
    K1 K2 K3 M1 M2 M3 D2 Mi2 Ma2 D3 Mi3 Ma3 Hn F1 F2 F3 Hcv E1 E2 E3 HB HX.
  assert (HB2 : (c_maxs c2)@f <= Q2Qc 100000000) by (rewrite Ma2; exact HB).
  assert (HB3 : (c_maxs c3)@f <= Q2Qc 100000000) by (rewrite Ma3; exact HB).
  destruct (C71_ale_requested_bins c1 g1 rt ks1 f n mp cl cv cv' s1 xs het t1 y1 h1 K1 M1 Hn F1 Hcv E1 HB HX) as (ce1 & R1 & A1).
  destruct (C71_ale_requested_bins c2 g2 rt ks2 f n mp cl cv cv' s2 xs het t2 y2 h2 K2 M2 Hn F2 Hcv E2 HB2 HX) as (ce2 & R2 & A2).
  destruct (C71_ale_requested_bins c3 _ rt ks3 f n mp cl cv cv' s3 xs het t3 y3 h3 K3 M3 Hn F3 Hcv E3 HB3 HX) as (ce3 & R3 & A3).
  assert (RU : forall a b, requested cv' a -> requested cv' b -> a = b) by (unfold requested; intuition congruence).
  rewrite (RU ce2 ce1 R2 R1) in A2. rewrite (RU ce3 ce1 R3 R1) in A3.
  destruct A1 as (l & l' & b1 & v1 & FB & W & _ & MM1 & _ & -> & _).
  destruct A2 as (k & k' & b2 & v2 & FB2 & W2 & _ & MM2 & _ & -> & _). rewrite D2, Mi2, Ma2 in *.
  destruct A3 as (q & q' & b3 & v3 & FB3 & W3 & _ & MM3 & _ & -> & _). rewrite D3, Mi3, Ma3 in *.
  rewrite <- (fixed_binning_unique _ _ _ _ _ _ l k (fun x => conj (fun H => H) (fun H => H)) FB FB2) in W2. rewrite <- (widened_unique l l' k' W W2) in *.
  rewrite <- (fixed_binning_unique _ _ _ _ _ _ l q (fun x => conj (fun H => H) (fun H => H)) FB FB3) in W3. rewrite <- (widened_unique l l' q' W W3) in *.
  set (Z := inside_range _ _ _ _) in *. set (d := dt (c_data c1)) in *.
  assert (BL : forall i, (i < length l' - 1)%nat -> b3@i = al * b1@i + be * b2@i).
  { apply (bin_means_linear al be l' (bin_of l' f Z) (slope d g1 f l') (slope d g2 f l') (fun k => slope d (fun r => al * g1 r + be * g2 r) f l' k)); auto.
    intros k0 r _. unfold slope, Qcdiv. ring. }
  split; [apply map_length|]. intros i Hi. rewrite !map_nth0 by exact Hi.
  rewrite (offset_linear ce1 _ _ al be (step_integral l' b1) (step_integral l' b2)) by (intros x; now apply step_integral_linear).
  rewrite (step_integral_linear l' al be b1 b2 b3 xs@i BL). ring.
Qed.
Print Assumptions C73_linear.

(** RHALE with Fixed bins: the effect matrices combine, so do the curves. *)
Theorem C73_rhale_linear : forall c1 c2 c3 j1 j2 j3 U1 U2 U3 E1 E2 E3 al be rt ks1 ks2 ks3 f n mp cl cv cv' s1 s2 s3 t1 t2 t3 xs het y1 y2 y3 h1 h2 h3,
  c_kind c1 = KRHALE j1 -> c_kind c2 = KRHALE j2 -> c_kind c3 = KRHALE j3 ->
  match U1 with Some e => Ok e | None => compile c1 j1 end = Ok E1 ->
  match U2 with Some e => Ok e | None => compile c2 j2 end = Ok E2 ->
  match U3 with Some e => Ok e | None => compile c3 j3 end = Ok E3 ->
  (forall i, (i < length (rows (c_data c1)))%nat -> (nth i E3 [])@f = al * (nth i E1 [])@f + be * (nth i E2 [])@f) ->
  c_data c2 = c_data c1 -> c_mins c2 = c_mins c1 -> c_maxs c2 = c_maxs c1 ->
  c_data c3 = c_data c1 -> c_mins c3 = c_mins c1 -> c_maxs c3 = c_maxs c1 -> (1 <= n)%nat ->
  fit c1 (run c1 rt (fresh U1) ks1) [f] (MFixed n mp cl) cv = (s1, Ok tt) ->
  fit c2 (run c2 rt (fresh U2) ks2) [f] (MFixed n mp cl) cv = (s2, Ok tt) ->
  fit c3 (run c3 rt (fresh U3) ks3) [f] (MFixed n mp cl) cv = (s3, Ok tt) -> cv' = cv \/ cv' = PyBool false ->
  eval c1 rt s1 f xs het cv' = (t1, Ok (y1, h1)) -> eval c2 rt s2 f xs het cv' = (t2, Ok (y2, h2)) -> eval c3 rt s3 f xs het cv' = (t3, Ok (y3, h3)) ->
  (c_maxs c1)@f <= Q2Qc 100000000 -> (forall x, In x xs -> x <= Q2Qc 100000000) ->
  length y3 = length xs /\ forall i, (i < length xs)%nat -> y3@i = al * y1@i + be * y2@i.
Proof.
  intros c1 c2 c3 j1 j2 j3 U1 U2 U3 E1 E2 E3 al be rt ks1 ks2 ks3 f n mp cl cv cv' s1 s2 s3 t1 t2 t3 xs het y1 y2 y3 h1 h2 h3
    K1 K2 K3 Q1 Q2 Q3 HE D2 Mi2 Ma2 D3 Mi3 Ma3 Hn F1 F2 F3 Hcv V1 V2 V3 HB HX.
  assert (HB2 : (c_maxs c2)@f <= Q2Qc 100000000) by (rewrite Ma2; exact HB).
  assert (HB3 : (c_maxs c3)@f <= Q2Qc 100000000) by (rewrite Ma3; exact HB).
  destruct (C72_rhale_requested_bins c1 j1 U1 E1 rt ks1 f (MFixed n mp cl) cv cv' s1 xs het t1 y1 h1 K1 Q1 Hn F1 Hcv V1 HB HX) as (L1 & ce1 & R1 & A1).
  destruct (C72_rhale_requested_bins c2 j2 U2 E2 rt ks2 f (MFixed n mp cl) cv cv' s2 xs het t2 y2 h2 K2 Q2 Hn F2 Hcv V2 HB2 HX) as (L2 & ce2 & R2 & A2).
  destruct (C72_rhale_requested_bins c3 j3 U3 E3 rt ks3 f (MFixed n mp cl) cv cv' s3 xs het t3 y3 h3 K3 Q3 Hn F3 Hcv V3 HB3 HX) as (L3 & ce3 & R3 & A3).
  assert (RU : forall a b, requested cv' a -> requested cv' b -> a = b) by (unfold requested; intuition congruence).
  rewrite (RU ce2 ce1 R2 R1) in A2. rewrite (RU ce3 ce1 R3 R1) in A3.
  destruct A1 as (l & b1 & v1 & FB & _ & MM1 & _ & -> & _).
  destruct A2 as (k & b2 & v2 & FB2 & _ & MM2 & _ & -> & _). rewrite D2, Mi2, Ma2 in *.
  destruct A3 as (q & b3 & v3 & FB3 & _ & MM3 & _ & -> & _). rewrite D3, Mi3, Ma3 in *.
  set (p := fun r : list Qc => ((c_mins c1)@f <=? r@f) && (r@f <=? (c_maxs c1)@f)).
  set (X := rows (c_data c1)) in *.
  pose proof (fst_idx X E1 f p L1) as P1. pose proof (fst_idx X E2 f p L2) as P2. pose proof (fst_idx X E3 f p L3) as P3. unfold p in P1, P2, P3.
  rewrite P1 in FB. rewrite P2 in FB2. rewrite P3 in FB3.
  cbn [find_limits_b] in FB, FB2, FB3.
  apply fixed_find_binning in FB; [|exact Hn]. apply fixed_find_binning in FB2; [|exact Hn]. apply fixed_find_binning in FB3; [|exact Hn]. cbn [b_xs b_lo b_hi] in FB, FB2, FB3.
  rewrite <- (fixed_binning_unique _ _ _ _ _ _ l k (fun x => conj (fun H => H) (fun H => H)) FB FB2) in *.
  rewrite <- (fixed_binning_unique _ _ _ _ _ _ l q (fun x => conj (fun H => H) (fun H => H)) FB FB3) in *.
  assert (BL : forall i, (i < length l - 1)%nat -> b3@i = al * b1@i + be * b2@i).
  { set (N := filter (fun i => p (nth i X [])) (seq 0 (length X))).
    set (B := fun k => filter (fun i => in_bin l k (nth i X [])@f) N).
    apply (bin_means_linear al be l B (fun _ i => (nth i E1 [])@f) (fun _ i => (nth i E2 [])@f) (fun _ i => (nth i E3 [])@f)).
    - intros k0 i Hi. apply HE. unfold B, N in Hi. apply filter_In in Hi as (Hi & _). apply filter_In in Hi as (Hi & _). apply in_seq in Hi. lia.
    - unfold bin_means in *. refine (eq_ind _ (fun z => filled z b1) MM1 _ _). apply map_ext. intros k0. f_equal. exact (pairs_idx X E1 f p l k0 L1).
    - unfold bin_means in *. refine (eq_ind _ (fun z => filled z b2) MM2 _ _). apply map_ext. intros k0. f_equal. exact (pairs_idx X E2 f p l k0 L2).
    - unfold bin_means in *. refine (eq_ind _ (fun z => filled z b3) MM3 _ _). apply map_ext. intros k0. f_equal. exact (pairs_idx X E3 f p l k0 L3). }
  split; [apply map_length|]. intros i Hi. rewrite !map_nth0 by exact Hi.
  rewrite (offset_linear ce1 _ _ al be (step_integral l b1) (step_integral l b2)) by (intros x; now apply step_integral_linear).
  rewrite (step_integral_linear l al be b1 b2 b3 xs@i BL). ring.
Qed.
Print Assumptions C73_rhale_linear.

(** * C75  A feature that does not interact with the others *)
(** The change of the model when the feature [f] moves from [w] to [v] is the same for every instance: [a v - a w]. *)
Definition no_interaction (g : list Qc -> Qc) (f : nat) (X : list (list Qc)) (a : Qc -> Qc) : Prop :=
  forall r v w, In r X -> g (with_feature r f v) - g (with_feature r f w) = a v - a w.
(** Then ALE reports no heterogeneity, whatever the history. *)
Theorem C75_no_heterogeneity : forall c g a rt ks f xs cv st' y h,
  c_kind c = KALE -> c_model c = map g -> no_interaction g f (rows (c_data c)) a -> rt 0 = 0 -> Forall positive_bins ks ->
  eval c rt (run c rt (fresh None) ks) f xs true cv = (st', Ok (y, Some h)) -> length h = length xs /\ forall v, In v h -> v = 0.
Proof.
  intros c g a rt ks f xs cv st' y h K Hm NI R F H.
  destruct (eval_ale_parts c g rt ks f xs true cv st' y (Some h) K Hm (positive_bins_ok ks F) H) as (LH & Hf & n & cl & l & l' & ce & be & bv & FB & W & I & L2 & Hn & PC & (BM & BV) & Ey & Eh).
  injection Eh as ->. split; [apply map_length|]. intros v Hv. apply in_map_iff in Hv as (x & <- & _). apply acc_curve_zero; auto.
  intros k Hk. pose proof (bin_variances_length _ _ _ BV) as LV. rewrite map_nth0 by lia. replace (bv@k) with 0; [exact R|]. symmetry.
  refine (bin_variances_zero _ _ _ BV _ k Hk). intros j Hj. exists ((a (store (dt (c_data c)) l'@(S j)) - a (store (dt (c_data c)) l'@j)) / (l'@1 - l'@0)).
  intros v Hv. apply slopes_in in Hv as (r & Hr & ->). unfold slope. now rewrite NI.
Qed.
Print Assumptions C75_no_heterogeneity.

(** * C76  A feature the model ignores *)
Theorem C76_ale : forall c g rt ks f xs het cv st' y h,
  c_kind c = KALE -> c_model c = map g -> (forall r v w, In r (rows (c_data c)) -> g (with_feature r f v) = g (with_feature r f w)) ->
  rt 0 = 0 -> Forall positive_bins ks ->
  eval c rt (run c rt (fresh None) ks) f xs het cv = (st', Ok (y, h)) ->
  y = map (fun _ => 0) xs /\ h = if het then Some (map (fun _ => 0) xs) else None.
Proof.
  intros c g rt ks f xs het cv st' y h K Hm NI R F H.
  destruct (eval_ale_parts c g rt ks f xs het cv st' y h K Hm (positive_bins_ok ks F) H) as (LH & Hf & n & cl & l & l' & ce & be & bv & FB & W & I & L2 & Hn & PC & (BM & BV) & Ey & Eh).
  assert (SZ : forall k v, In v (map (slope (dt (c_data c)) g f l' k) (bin_of l' f (rows (kept c (lo_of c f) (hi_of c f) f)) k)) -> v = 0).
  { intros k v Hv. apply slopes_in in Hv as (r & Hr & ->). unfold slope. rewrite (NI r _ (store (dt (c_data c)) l'@k) Hr). unfold Qcdiv. ring. }
  assert (AZ : forall x, acc_curve l' be x = 0).
  { intros x. apply acc_curve_zero; auto. apply (bin_means_const _ _ _ 0 BM). intros k _. apply SZ. }
  split.
  - rewrite Ey. apply map_ext. intros x. rewrite (offset_shift_zero c f ce _ AZ), AZ. ring.
  - rewrite Eh. destruct het; [|reflexivity]. f_equal. apply map_ext. intros x. apply acc_curve_zero; auto.
    intros k Hk. pose proof (bin_variances_length _ _ _ BV) as LV. rewrite map_nth0 by lia. replace (bv@k) with 0; [exact R|]. symmetry.
    refine (bin_variances_zero _ _ _ BV _ k Hk). intros j Hj. exists 0. apply SZ.
Qed.
Print Assumptions C76_ale.
Theorem C76_rhale : forall c jac E0 E rt ks f xs het cv st' y h,
  c_kind c = KRHALE jac -> match E0 with Some e => Ok e | None => compile c jac end = Ok E -> (forall e, In e E -> e@f = 0) ->
  rt 0 = 0 -> Forall positive_bins ks ->
  eval c rt (run c rt (fresh E0) ks) f xs het cv = (st', Ok (y, h)) ->
  y = map (fun _ => 0) xs /\ h = if het then Some (map (fun _ => 0) xs) else None.
Proof.
  intros c jac E0 E rt ks f xs het cv st' y h K HE NI R F H.
  destruct (eval_rhale_parts c jac E0 E rt ks f xs het cv st' y h K HE (positive_bins_ok ks F) H) as (LH & Hf & l & ce & be & bv & I & L2 & PC & (BM & BV) & Ey & Eh).
  assert (SZ : forall k v, In v (map (fun q => (snd q)@f) (bin_pairs l f (filter (fun q => in_range (lo_of c f) (hi_of c f) f (fst q)) (combine (rows (c_data c)) E)) k)) -> v = 0).
  { intros k v Hv. apply slopes_pairs_in in Hv as (e & He & ->). now apply NI. }
  assert (AZ : forall x, acc_curve l be x = 0).
  { intros x. apply acc_curve_zero; auto. apply (bin_means_const _ _ _ 0 BM). intros k _. apply SZ. }
  split.
  - rewrite Ey. apply map_ext. intros x. rewrite (offset_shift_zero c f ce _ AZ), AZ. ring.
  - rewrite Eh. destruct het; [|reflexivity]. f_equal. apply map_ext. intros x. apply acc_curve_zero; auto.
    intros k Hk. pose proof (bin_variances_length _ _ _ BV) as LV. rewrite map_nth0 by lia. replace (bv@k) with 0; [exact R|]. symmetry.
    refine (bin_variances_zero _ _ _ BV _ k Hk). intros j Hj. exists 0. apply SZ.
Qed.
Print Assumptions C76_rhale.

(** * C77  Monotone models have monotone curves *)
Theorem C77_ale : forall c g rt ks f xs het cv st' y h,
  c_kind c = KALE -> c_model c = map g ->
  (forall r v w, In r (rows (c_data c)) -> v <= w -> g (with_feature r f v) <= g (with_feature r f w)) -> Forall positive_bins ks ->
  eval c rt (run c rt (fresh None) ks) f xs het cv = (st', Ok (y, h)) ->
  length y = length xs /\ forall i j, (i < length xs)%nat -> (j < length xs)%nat -> xs@i <= xs@j -> y@i <= y@j.
Proof.
  intros c g rt ks f xs het cv st' y h K Hm MO F H.
  destruct (eval_ale_parts c g rt ks f xs het cv st' y h K Hm (positive_bins_ok ks F) H) as (LH & Hf & n & cl & l & l' & ce & be & bv & FB & W & I & L2 & Hn & PC & (BM & BV) & Ey & Eh).
  rewrite Ey. split; [apply map_length|]. intros i j Hi Hj X. rewrite !map_nth0 by assumption.
  apply curve_mono; auto; [exact (bin_means_length _ _ _ BM)|]. apply (bin_means_above _ _ _ 0 BM). intros k Hk v Hv.
  apply slopes_in in Hv as (r & Hr & ->). unfold slope.
  assert (L01 : l'@0 < l'@1) by (apply I; lia). assert (LK : l'@k < l'@(S k)) by (apply I; lia).
  pose proof (MO r _ _ Hr (store_mono (dt (c_data c)) _ _ (Qclt_le_weak _ _ LK))) as Q.
  unfold Qcdiv. apply Qcmult_le_0; [qlra|]. apply Qclt_le_weak, Qcinv_pos. qlra.
Qed.
Print Assumptions C77_ale.
Theorem C77_rhale : forall c jac E0 E rt ks f xs het cv st' y h,
  c_kind c = KRHALE jac -> match E0 with Some e => Ok e | None => compile c jac end = Ok E -> (forall e, In e E -> 0 <= e@f) -> Forall positive_bins ks ->
  eval c rt (run c rt (fresh E0) ks) f xs het cv = (st', Ok (y, h)) ->
  length y = length xs /\ forall i j, (i < length xs)%nat -> (j < length xs)%nat -> xs@i <= xs@j -> y@i <= y@j.
Proof.
  intros c jac E0 E rt ks f xs het cv st' y h K HE MO F H.
  destruct (eval_rhale_parts c jac E0 E rt ks f xs het cv st' y h K HE (positive_bins_ok ks F) H) as (LH & Hf & l & ce & be & bv & I & L2 & PC & (BM & BV) & Ey & Eh).
  rewrite Ey. split; [apply map_length|]. intros i j Hi Hj X. rewrite !map_nth0 by assumption.
  apply curve_mono; auto; [exact (bin_means_length _ _ _ BM)|]. apply (bin_means_above _ _ _ 0 BM). intros k Hk v Hv.
  apply slopes_pairs_in in Hv as (e & He & ->). now apply MO.
Qed.
Print Assumptions C77_rhale.

(** * C78  A bound on the derivative bounds the steepness of the curve *)
Theorem C78_rhale : forall c jac E0 E rt ks f xs het cv st' y h M,
  c_kind c = KRHALE jac -> match E0 with Some e => Ok e | None => compile c jac end = Ok E ->
  (forall e, In e E -> - M <= e@f <= M) -> Forall positive_bins ks ->
  eval c rt (run c rt (fresh E0) ks) f xs het cv = (st', Ok (y, h)) -> (forall x, In x xs -> x <= Q2Qc 100000000) ->
  length y = length xs /\ forall i j, (i < length xs)%nat -> (j < length xs)%nat -> xs@i <= xs@j -> Qcabs (y@j - y@i) <= M * (xs@j - xs@i).
Proof.
  intros c jac E0 E rt ks f xs het cv st' y h M K HE MO F H HX.
  destruct (eval_rhale_parts c jac E0 E rt ks f xs het cv st' y h K HE (positive_bins_ok ks F) H) as (LH & Hf & l & ce & be & bv & I & L2 & PC & (BM & BV) & Ey & Eh).
  rewrite Ey. split; [apply map_length|]. intros i j Hi Hj X. rewrite !map_nth0 by assumption.
  rewrite !acc_curve_inside by (left; apply HX; now apply nth_In).
  match goal with |- Qcabs (?p - ?s - (?q - ?s)) <= _ => replace (p - s - (q - s)) with (p - q) by ring end.
  pose proof (bin_means_length _ _ _ BM) as LB.
  apply step_integral_lipschitz; auto. intros e He. apply (In_nth _ _ 0) in He as (k & Hk & <-).
  assert (Q : - M <= be@k <= M).
  { apply (bin_means_between _ _ _ (-M) M BM); [|lia]. intros q Hq v Hv. apply slopes_pairs_in in Hv as (e & He & ->). now apply MO. }
  apply Qcabs_nonneg_le; apply Q.
Qed.
Print Assumptions C78_rhale.

(** Lipschitz models, equal-width bins (the last bin is 1e-8 wider than the first one). *)
Theorem C78_ale_partial : forall c g rt ks f n mp cl cv cv' st1 xs het st' y h M,
  c_kind c = KALE -> c_model c = map g -> dt (c_data c) = Float64 ->
  (forall r v w, In r (rows (c_data c)) -> w <= v -> Qcabs (g (with_feature r f v) - g (with_feature r f w)) <= M * (v - w)) -> 0 <= M -> (1 <= n)%nat ->
  (cl < length (unique (values_in_range c f)))%nat ->
  fit c (run c rt (fresh None) ks) [f] (MFixed n mp cl) cv = (st1, Ok tt) -> cv' = cv \/ cv' = PyBool false ->
  eval c rt st1 f xs het cv' = (st', Ok (y, h)) ->
  (c_maxs c)@f <= Q2Qc 100000000 -> (forall x, In x xs -> x <= Q2Qc 100000000) ->
  length y = length xs /\ forall i j, (i < length xs)%nat -> (j < length xs)%nat -> xs@i <= xs@j ->
    Qcabs (y@j - y@i) <= M * (1 + Q2Qc (1 # 100000000) * qn n / ((c_maxs c)@f - (c_mins c)@f)) * (xs@j - xs@i).
Proof.
  intros c g rt ks f n mp cl cv cv' st1 xs het st' y h M K Hm Dt ML M0 Hn CN HF Hcv H HB HX.
  destruct (fit_eval_curves c None rt ks f (MFixed n mp cl) cv cv' xs het st1 st' y h HF Hcv H) as (LH & _).
  destruct (C71_ale_requested_bins c g rt ks f n mp cl cv cv' st1 xs het st' y h K Hm Hn HF Hcv H HB HX) as (ce & RQ & l & l' & be & bv & FB & W & _ & BM & _ & -> & _).
  set (lo := (c_mins c)@f) in *. set (hi := (c_maxs c)@f) in *. change (lo_of c f) with lo in LH. change (hi_of c f) with hi in LH.
  destruct FB as (u & DU & [(LU & _)|(LU & EW)]).
  { exfalso. assert (u = unique (values_in_range c f)) as ->; [|lia]. apply (distinct_unique (values_in_range c f)).
    - unfold values_in_range. rewrite filter_map_comm. exact DU.
    - split; [apply unique_increasing|]. intros x. apply unique_in. }
  destruct (grid_incr lo hi n l l' LH Hn EW W) as (I & LL & A & B).
  split; [apply map_length|]. intros i j Hi Hj X. rewrite !map_nth0 by assumption.
  match goal with |- Qcabs (?p - ?s - (?q - ?s)) <= _ => replace (p - s - (q - s)) with (p - q) by ring end.
  pose proof (bin_means_length _ _ _ BM) as LB. set (eps := Q2Qc (1 # 100000000)) in *. assert (EP : 0 < eps) by reflexivity. clearbody eps.
  set (w := (hi - lo) / qn n). assert (NP : 0 < qn n) by (apply qn_pos; lia). assert (NZ : qn n <> 0) by (intros E; rewrite E in NP; discriminate).
  assert (D0 : 0 < hi - lo) by qlra. assert (DZ : hi - lo <> 0) by (intros E; rewrite E in D0; discriminate).
  assert (WP : 0 < w) by (unfold w, Qcdiv; apply Qcmult_lt_0; [exact D0|now apply Qcinv_pos]).
  assert (WZ : w <> 0) by (intros E; rewrite E in WP; discriminate).
  replace (1 + eps * qn n / (hi - lo)) with ((w + eps) / w) by (unfold w; field; auto).
  apply step_integral_lipschitz; auto; [lia|]. intros e He. apply (In_nth _ _ 0) in He as (k & Hk & <-).
  set (T := M * ((w + eps) / w)).
  assert (W1 : w <= l'@1 - l'@0).
  { destruct (Nat.eq_dec n 1) as [->|N1]; [|rewrite !A by lia; rewrite grid_width by lia; apply Qcle_refl].
    rewrite B, (A 0%nat) by lia. rewrite grid_0. unfold w. rewrite qn_1. replace ((hi - lo) / 1) with (hi - lo) by (unfold Qcdiv; replace (/ 1) with 1 by (apply Qc_is_canon; reflexivity); ring). qlra. }
  assert (Q : - T <= be@k <= T).
  { apply (bin_means_between _ _ _ (-T) T BM); [|lia]. intros q Hq v Hv. apply in_map_iff in Hv as (r & <- & Hr).
    unfold bin_of, inside_range in Hr. apply filter_In in Hr as (Hr & _). apply filter_In in Hr as (Hr & _).
    unfold slope. rewrite Dt. cbn [store].
    assert (LQ : l'@q < l'@(S q)) by (apply I; lia).
    pose proof (ML r l'@(S q) l'@q Hr (Qclt_le_weak _ _ LQ)) as Q.
    assert (WQ : l'@(S q) - l'@q <= w + eps).
    { destruct (Nat.eq_dec (S q) n) as [EQ|NQ].
      - rewrite EQ, B, A by lia. pose proof (grid_width lo hi n q Hn) as GW. rewrite EQ, grid_K in GW by lia. fold w in GW. qlra.
      - rewrite !A by lia. rewrite grid_width by lia. fold w. qlra. }
    set (D := g _ - g _) in *. clearbody D. pose proof (Qcabs_bounds D) as QB.
    pose proof (Qcmul_le_compat_l _ _ M M0 WQ) as Q3.
    assert (B1 : D <= M * (w + eps)) by qlra. assert (B2 : - (M * (w + eps)) <= D) by qlra.
    set (z := l'@1 - l'@0) in *. assert (ZP : 0 < z) by qlra. assert (ZZ : z <> 0) by (intros E; rewrite E in ZP; discriminate).
    assert (IZ : / z <= / w). { 
      apply (Qcmult_lt_0_le_reg_r _ _ (z * w)); [now apply Qcmult_lt_0|]. replace (/ z * (z * w)) with w by (field; exact ZZ). replace (/ w * (z * w)) with z by (field; exact WZ). exact W1. }
    assert (IP : 0 < / z) by now apply Qcinv_pos.
    assert (P0 : 0 <= M * (w + eps)) by (apply Qcmult_le_0; qlra).
    pose proof (Qcmul_le_compat_l _ _ _ P0 IZ) as C1.
    pose proof (Qcmult_le_compat_r _ _ _ B1 (Qclt_le_weak _ _ IP)) as C2. pose proof (Qcmult_le_compat_r _ _ _ B2 (Qclt_le_weak _ _ IP)) as C3.
    unfold T, Qcdiv. rewrite Qcmult_assoc. replace (- (M * (w + eps)) * / z) with (- (M * (w + eps) * / z)) in C3 by ring. split; qlra. }
  apply Qcabs_nonneg_le; apply Q.
Qed.
Print Assumptions C78_ale_partial.

(** ** C75: the curve of a feature without interactions is [a] itself at the bin limits *)
(** Equal-width bins, none of them empty: at the limits the curve is [a], up to a constant - except that the last limit, [hi],
    stands for [hi + 1e-8]. *)
Definition limit_value (lo hi : Qc) (n p : nat) : Qc := if Nat.eqb p n then hi + Q2Qc (1 # 100000000) else grid lo hi n p.
Theorem C75_curve : forall c g a rt ks f n mp cl cv cv' st1 xs het st' y h,
  c_kind c = KALE -> c_model c = map g -> dt (c_data c) = Float64 -> no_interaction g f (rows (c_data c)) a -> (2 <= n)%nat ->
  (cl < length (unique (values_in_range c f)))%nat ->
  (forall k, (k < n)%nat -> exists v, In v (values_in_range c f) /\ grid (c_mins c)@f (c_maxs c)@f n k <= v /\
     (v < grid (c_mins c)@f (c_maxs c)@f n (S k) \/ S k = n)) ->
  fit c (run c rt (fresh None) ks) [f] (MFixed n mp cl) cv = (st1, Ok tt) -> cv' = cv \/ cv' = PyBool false ->
  eval c rt st1 f xs het cv' = (st', Ok (y, h)) ->
  (c_maxs c)@f <= Q2Qc 100000000 -> (forall x, In x xs -> x <= Q2Qc 100000000) ->
  forall i j p q, (i < length xs)%nat -> (j < length xs)%nat -> (p <= n)%nat -> (q <= n)%nat ->
    xs@i = grid (c_mins c)@f (c_maxs c)@f n p -> xs@j = grid (c_mins c)@f (c_maxs c)@f n q ->
    y@i - y@j = a (limit_value (c_mins c)@f (c_maxs c)@f n p) - a (limit_value (c_mins c)@f (c_maxs c)@f n q).
Proof.
  intros c g a rt ks f n mp cl cv cv' st1 xs het st' y h K Hm Dt NI Hn CN NE HF Hcv H HB HX i j p q Hi Hj Hp Hq Xi Xj.
  destruct (fit_eval_curves c None rt ks f (MFixed n mp cl) cv cv' xs het st1 st' y h HF Hcv H) as (LH & _).
  destruct (C71_ale_requested_bins c g rt ks f n mp cl cv cv' st1 xs het st' y h K Hm ltac:(lia) HF Hcv H HB HX) as (ce & RQ & l & l' & be & bv & FB & W & _ & BM & _ & -> & _).
  set (lo := (c_mins c)@f) in *. set (hi := (c_maxs c)@f) in *. change (lo_of c f) with lo in LH. change (hi_of c f) with hi in LH.
  destruct FB as (u & DU & [(LU & _)|(LU & EW)]).
  { exfalso. assert (u = unique (values_in_range c f)) as ->; [|lia]. apply (distinct_unique (values_in_range c f)).
    - unfold values_in_range. rewrite filter_map_comm. exact DU.
    - split; [apply unique_increasing|]. intros x. apply unique_in. }
  destruct (grid_incr lo hi n l l' LH ltac:(lia) EW W) as (I & LL & A & B).
  assert (NB : forall k, (k < n)%nat -> bin_of l' f (inside_range lo hi f (rows (c_data c))) k <> []).
  { intros k Hk E. destruct (NE k Hk) as (v & Hv & V1 & V2). unfold values_in_range in Hv. rewrite filter_map_comm in Hv.
    apply in_map_iff in Hv as (r & <- & Hr). apply (in_nil (a := r)). rewrite <- E. unfold bin_of. apply filter_In. split; [exact Hr|].
    apply filter_In in Hr as (_ & Hr). apply andb_true_iff in Hr as (R1 & R2). fold lo hi in R1, R2.
    unfold in_bin. rewrite (A k Hk). apply andb_true_iff. split; [now apply Qcleb_le|]. apply orb_true_iff. left. apply Qcltb_lt.
    apply Qcleb_le in R2. assert (EP : 0 < Q2Qc (1 # 100000000)) by reflexivity.
    destruct (Nat.eq_dec (S k) n) as [EQ|NQ]; [rewrite EQ, B; qlra|]. rewrite A by lia. destruct V2 as [V2|V2]; [exact V2|lia]. }
  assert (BE : forall k, (k < n)%nat -> be@k = (a l'@(S k) - a l'@k) / (l'@1 - l'@0)).
  { intros k Hk. assert (N : map (slope (dt (c_data c)) g f l' k) (bin_of l' f (inside_range lo hi f (rows (c_data c))) k) <> []) by (intros E; apply map_eq_nil in E; now apply (NB k Hk)).
    rewrite (bin_means_known _ _ _ k BM); [|lia|exact N]. apply mean_const; [exact N|].
    intros v Hv. apply in_map_iff in Hv as (r & <- & Hr). unfold bin_of, inside_range in Hr. apply filter_In in Hr as (Hr & _). apply filter_In in Hr as (Hr & _).
    unfold slope. rewrite Dt. cbn [store]. now rewrite NI. }
  assert (LV : forall m, (m <= n)%nat -> limit_value lo hi n m = l'@m).
  { intros m Hm'. unfold limit_value. destruct (Nat.eqb_spec m n) as [->|N]; [now rewrite B|now rewrite A by lia]. }
  rewrite !map_nth0 by assumption. rewrite Xi, Xj, !LV by assumption.
  rewrite !(grid_integral lo hi n l l' be a LH Hn EW W BE) by assumption. ring.
Qed.
Print Assumptions C75_curve.

(** ** Examples *)
(** 8 instances on [0, 4], 2 bins; models x0*x1 and x0^2 (no interaction: a v = v^2) and a combination of them. *)
Definition ex75X := mkData Float64 2 [qs [0; 5]; qs [0; 7]; qs [1; 1]; qs [1; 3]; qs [3; 0]; qs [3; 4]; qs [4; 4]; qs [4; 2]].
Definition ex75 (g : list Qc -> Qc) := mkCfg KALE ex75X (map g) (qs [0; 0]) (qs [4; 7]).
Definition ex75run (g : list Qc -> Qc) :=
  let st := fst (fit (ex75 g) (fresh None) [0%nat] (MFixed 2 (Some 0%nat) 2) (PyStr "zero_start")) in
  rmap (fun p => (show (fst p), option_map show (snd p))) (snd (eval (ex75 g) (fun v => v) st 0 (qs [0; 1; 2; 4]) true (PyStr "zero_start"))).
Example C73_instance :
  ex75run (fun r => r@0 * r@1) = Ok ([0; 4; 8; 520000001#40000000]%Q, Some [0; 5; 10; 1240000004400000011#80000000000000000]%Q) /\
  ex75run (fun r => r@0 * r@0) = Ok ([0; 2; 4; 160000000800000001#10000000000000000]%Q, Some [0; 0; 0; 0]%Q) /\
  rmap fst (ex75run (fun r => Q2Qc 2 * (r@0 * r@1) + - Q2Qc 3 * (r@0 * r@0))) = Ok [0; 2; 4; - (220000001900000003#10000000000000000)]%Q.
Proof. repeat split; vm_compute; reflexivity. Qed.
(** The second run above is an instance of C75: [a v = v * v], no heterogeneity, the values 0, 4 and (4 + 1e-8)^2 at the limits 0, 2, 4. *)
Definition ex75g (r : list Qc) : Qc := r@0 * r@0 + r@1.
Example C75_instance : no_interaction ex75g 0 (rows ex75X) (fun v => v * v) /\
  rmap fst (ex75run ex75g) = Ok [0; 2; 4; 160000000800000001#10000000000000000]%Q /\
  (2 < length (unique (values_in_range (ex75 ex75g) 0)))%nat.
Proof.
  split; [|split; [vm_compute; reflexivity|vm_compute; lia]]. intros r v w Hr.
  repeat (destruct Hr as [<-|Hr]; [unfold ex75g, with_feature, qs; simpl; ring|]). destruct Hr.
Qed.
Example C76_instance : ex75run (fun r => r@1 * r@1) = Ok ([0; 0; 0; 0]%Q, Some [0; 0; 0; 0]%Q).
Proof. vm_compute. reflexivity. Qed.
(** C78 is false for the bins around the values of a categorical feature: the model x_0 has slope 1 everywhere, the curve of a
    feature with the values 0, 1 and 11 climbs by 20 from 6 to 8 - every finite difference is divided by the width of the first bin. *)
Definition ex78 := mkCfg KALE (mkData Float64 2 [qs [0; 5]; qs [0; 7]; qs [1; 1]; qs [1; 3]; qs [11; 0]; qs [11; 4]]) (map (fun r => r@0)) (qs [0; 0]) (qs [11; 7]).
Theorem C78_ale_refuted : exists y h, snd (eval ex78 (fun v => v) (fresh None) 0 (qs [6; 8]) true (PyBool false)) = Ok (y, h) /\
  (forall r v w, In r (rows (c_data ex78)) -> w <= v -> Qcabs ((with_feature r 0 v)@0 - (with_feature r 0 w)@0) <= 1 * (v - w)) /\ y@1 - y@0 > Q2Qc 20.
Proof.
  eexists. eexists. split; [vm_compute; reflexivity|]. split; [|vm_compute; reflexivity].
  intros r v w Hr H. assert (E : (with_feature r 0 v)@0 - (with_feature r 0 w)@0 = v - w).
  { repeat (destruct Hr as [<-|Hr]; [unfold with_feature, qs; reflexivity|]). destruct Hr. }
  rewrite E. apply Qcabs_nonneg_le; qlra.
Qed.
Print Assumptions C78_ale_refuted.
(** The hypotheses of C77 and C78 for RHALE: the derivative of x_0 * x_1 with respect to x_0 is x_1, between 0 and 9. *)
Definition ex77 := mkCfg (KRHALE None) (mkData Float64 2 [qs [0; 5]; qs [0; 7]; qs [1; 1]; qs [1; 2]; qs [3; 0]; qs [3; 9]]) (map (fun r => r@0 * r@1)) (qs [0; 0]) (qs [3; 9]).
Example C77_instance : rmap (map show) (compile ex77 None) = Ok [[5; 0]; [7; 0]; [1; 1]; [2; 1]; [0; 3]; [9; 3]]%Q /\
  rmap (fun p => show (fst p)) (snd (eval ex77 (fun v => v) (fresh None) 0 (qs [0; 1; 2; 3]) true (PyBool false))) = Ok [3; 27#4; 33#4; 51#4]%Q.
Proof. split; vm_compute; reflexivity. Qed.
