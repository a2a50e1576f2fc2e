(** C112 (continued), C114: what the regions, levels and candidates of the binary64 search are, and when the search
    returns at all (see properties.jsonl). *)
From Coq Require Import Reals.
From Flocq Require Import Core.
From Flocq Require Import IEEE754.BinarySingleNaN.
From Verif Require Import Base Numpy NumpyFacts Utils FloatModel FloatFacts FloatGrid FloatBins FloatMean FloatAcc FloatNan FloatCat FloatDPGrid FloatAdapt FloatRegion FloatRegionProofs FloatRegionSum FloatRegionTop FloatRegionMain FloatRegionPos FloatRegionMore FloatRegionTotal Prop_FloatRegion.
From Coq Require Import Lra.
Open Scope R_scope.

(** ** C112 *)
(** The subregions of a level are the instances that take the same turns at all splits up to it (left before right, the
    last split varying fastest); the populations and heterogeneities reported with a split are those of its level. *)
Theorem C112_regions g h0 ss pre s post : search64 g = Ok (Some (h0, ss)) -> ss = pre ++ s :: post ->
  regions_after g pre = map (fun p => filter (follows pre p) (g64_rows g)) (paths (length pre)) /\
  s64_nof s = map (fun p => count (follows (pre ++ [s]) p) (g64_rows g)) (paths (S (length pre))) /\
  mapM (g64_heter g) (map (fun p => filter (follows (pre ++ [s]) p) (g64_rows g)) (paths (S (length pre)))) = Ok (s64_heter s).
Proof.
  intros S0 AT. split; [apply regions_paths|]. destruct (search_at _ _ _ _ _ _ S0 AT) as (_ & _ & SL). destruct (single_level_spec _ _ _ _ SL) as (_ & E & N & _). destruct (evaluate_parts _ _ _ _ _ _ _ _ _ E) as (M & _).
  assert (R : split_all64 (regions_after g pre) (s64_feature s) (s64_pos s) (s64_type s) = map (fun p => filter (follows (pre ++ [s]) p) (g64_rows g)) (paths (S (length pre)))).
  { replace (S (length pre)) with (length (pre ++ [s])) by (rewrite app_length; cbn; lia). rewrite <- regions_paths. unfold regions_after. rewrite fold_left_app. reflexivity. }
  rewrite R in N, M. split; [rewrite N, map_map; reflexivity|exact M].
Qed.

(** A level is searched exactly while there are levels left and every subregion has min_points instances. *)
Theorem C112_levels g h0 ss : search64 g = Ok (Some (h0, ss)) ->
  g64_heter g (g64_rows g) = Ok h0 /\ (1 <= length ss <= g64_max_levels g)%nat /\
  (forall pre s post, ss = pre ++ s :: post -> forall x, In x (regions_after g pre) -> (g64_min_points g <= length x)%nat) /\
  ((length ss < g64_max_levels g)%nat -> exists x, In x (regions_after g ss) /\ (length x < g64_min_points g)%nat).
Proof.
  unfold search64. intros H.
  assert (G : (passert (Nat.leb (g64_max_levels g) (length (g64_foc g))) ;; h0 <- g64_heter g (g64_rows g) ;; ss <- search_levels64 g (g64_max_levels g) [g64_rows g] [h0] ;; Ok (match ss with [] => None | _ => Some (h0, ss) end)) = Ok (Some (h0, ss))) by (destruct (g64_type g), (g64_split_cat g); try discriminate H; exact H).
  clear H. apply bind_ok in G as (u & _ & G). apply bind_ok in G as (h & Hh & G). apply bind_ok in G as (l & L & G). destruct l as [|x l]; [discriminate G|]. injection G as -> <-.
  destruct (levels_spec _ _ _ _ _ L) as (L1 & L2 & L3). split; [exact Hh|]. split; [cbn [length] in *; lia|]. split; assumption.
Qed.
(** and nothing is found exactly when the feature of interest is categorical and categorical features are not to be
    split, no level is allowed, or the whole data set has fewer than min_points instances *)
Theorem C112_none g o : search64 g = Ok o ->
  (o = None <-> (g64_type g = Cat /\ g64_split_cat g = false) \/ g64_max_levels g = 0%nat \/ (length (g64_rows g) < g64_min_points g)%nat).
Proof.
  unfold search64. intros H. assert (D : (g64_type g = Cat /\ g64_split_cat g = false) \/ ~ (g64_type g = Cat /\ g64_split_cat g = false)) by (destruct (g64_type g), (g64_split_cat g); (left; split; reflexivity) || (right; intros [A B]; discriminate A || discriminate B)).
  destruct D as [[D1 D2]|D]; [rewrite D1, D2 in *; injection H as <-; tauto|].
  assert (G : (passert (Nat.leb (g64_max_levels g) (length (g64_foc g))) ;; h0 <- g64_heter g (g64_rows g) ;; ss <- search_levels64 g (g64_max_levels g) [g64_rows g] [h0] ;; Ok (match ss with [] => None | _ => Some (h0, ss) end)) = Ok o) by (destruct (g64_type g), (g64_split_cat g); try exact H; exfalso; apply D; split; reflexivity).
  clear H. apply bind_ok in G as (u & _ & G). apply bind_ok in G as (h & Hh & G). apply bind_ok in G as (l & L & G). destruct (levels_spec _ _ _ _ _ L) as (L1 & L2 & L3).
  destruct l as [|x l]; injection G as <-; split; intros X; try discriminate X.
  - right. cbn [length] in L3. destruct (Nat.eq_dec (g64_max_levels g) 0) as [|N]; [now left|right]. destruct (L3 ltac:(lia)) as (y & [<-|[]] & Y). exact Y.
  - reflexivity.
  - exfalso. destruct X as [X|[X|X]]; [tauto|cbn in L1; lia|]. specialize (L2 [] x l eq_refl (g64_rows g) (or_introl eq_refl)). lia.
Qed.

(** Which splits are reported: none if the heterogeneity of the whole data set is BIG_M or below heter_small_enough,
    else the longest prefix of the found ones in which each lowers the weighted heterogeneity by more than the
    threshold, relative to the level before. *)
Theorem C112_chosen g h0 ss : let acc := choose64 g (Some (h0, ss)) in
  ((Beqb h0 BIGM64 = true \/ Bltb h0 (g64_small g) = true) -> acc = []) /\
  (Beqb h0 BIGM64 = false -> Bltb h0 (g64_small g) = false -> exists rest, ss = acc ++ rest /\
     (forall pre s post, acc = pre ++ s :: post -> Bltb (g64_thres g) (fdiv (fsub (wheter_after h0 pre) (s64_wheter s)) (wheter_after h0 pre)) = true) /\
     (forall s post, rest = s :: post -> Bltb (g64_thres g) (fdiv (fsub (wheter_after h0 acc) (s64_wheter s)) (wheter_after h0 acc)) = false)).
Proof.
  cbv zeta. cbn [choose64]. split.
  - intros [->| ->]; [reflexivity|]. destruct (Beqb h0 BIGM64); reflexivity.
  - intros -> ->. destruct (prefix_spec _ _ _ _ (eq_refl (valid_prefix64 (g64_thres g) h0 ss))) as (rest & E & A & B). exists rest. split; [exact E|]. split; [exact A|]. intros s post R. rewrite R in B. exact B.
Qed.

(** Of several candidates with the largest drop the first one is taken, features in the given order and positions from
    left to right. *)
Theorem C112_first g h0 ss pre s post : search64 g = Ok (Some (h0, ss)) -> ss = pre ++ s :: post -> is_nan (s64_drop s) = false ->
  exists i j, candidate_at g i j (s64_feature s) (s64_type s) (s64_pos s) /\
  forall i' j' f t pos, candidate_at g i' j' f t pos -> (i' < i \/ i' = i /\ j' < j)%nat ->
    exists sub d w, evaluate64 g (regions_after g pre) (heter_after h0 pre) f pos t = Ok (sub, (d, w)) /\ Bltb d (s64_drop s) = true.
Proof. intros S0 AT NN. destruct (search_at _ _ _ _ _ _ S0 AT) as (_ & _ & SL). exact (single_level_first _ _ _ _ SL NN). Qed.

(** The candidate positions of a numerical feature are the midpoints of nof_splits equal cells between its extremes, up
    to rounding. *)
Theorem C112_midpoints g f ps M lo hi i : fins (map (feat64 f) (g64_rows g)) -> positions64 g f Cont = Ok ps -> (i < g64_nof_splits g)%nat -> (Z.of_nat (g64_nof_splits g) <= 2 ^ 48)%Z ->
  M <= bpow radix2 1000 -> (forall r, In r (g64_rows g) -> Rabs (val (feat64 f r)) <= M) ->
  (exists r, In r (g64_rows g) /\ val (feat64 f r) = lo) -> (forall r, In r (g64_rows g) -> lo <= val (feat64 f r)) ->
  (exists r, In r (g64_rows g) /\ val (feat64 f r) = hi) -> (forall r, In r (g64_rows g) -> val (feat64 f r) <= hi) -> bpow radix2 (-900) <= hi - lo ->
  length ps = g64_nof_splits g /\ Rabs (val (nth i ps fnan) - (lo + (IZR (Z.of_nat i) + / 2) / IZR (Z.of_nat (g64_nof_splits g)) * (hi - lo))) <= bpow radix2 (-49) * M.
Proof.
  intros F P K1 K2 HM B (rl & Irl & Erl) Lo (rh & Irh & Erh) Hi D1. unfold positions64 in P. set (c := map (feat64 f) (g64_rows g)) in *.
  assert (NC : c <> []) by (unfold c; destruct (g64_rows g); [destruct Irl|discriminate]).
  destruct (np_min64_ok c F NC) as (l & El & Fl & Il & Ml). destruct (np_max64_ok c F NC) as (h & Eh & Fh & Ih & Mh).
  assert (VL : val l = lo). { apply in_map_iff in Il as (r & <- & Ir). apply Rle_antisym; [|apply Lo, Ir]. rewrite <- Erl. apply Ml, in_map, Irl. }
  assert (VH : val h = hi). { apply in_map_iff in Ih as (r & <- & Ir). apply Rle_antisym; [apply Hi, Ir|]. rewrite <- Erh. apply Mh, in_map, Irh. }
  rewrite (positions_cont_cand _ _ _ _ _ Eh El P). split; [now rewrite map_length, seq_length|].
  rewrite (nth_indep _ fnan (cand l h (g64_nof_splits g) 0%nat)) by (rewrite map_length, seq_length; exact K1). rewrite map_nth, seq_nth by exact K1. cbn [Nat.add].
  assert (Bl : Rabs (val l) <= M) by (rewrite VL, <- Erl; apply B, Irl). assert (Bh : Rabs (val h) <= M) by (rewrite VH, <- Erh; apply B, Irh). assert (DD : bpow radix2 (-900) <= val h - val l) by (rewrite VL, VH; exact D1).
  destruct (offset_ok l h (g64_nof_splits g) M Fl Fh Bl Bh HM ltac:(lia) K2 DD i K1) as (Fv & e & He & Vv). destruct (cand_range l h (g64_nof_splits g) M Fl Fh Bl Bh HM ltac:(lia) K2 DD i K1) as (Fc & [R1 R2] & _).
  set (v := fmul (fadd (fofn i) half64) (fdiv (fsub h l) (fofn (g64_nof_splits g)))) in *. rewrite VL, VH in *.
  set (K := IZR (Z.of_nat (g64_nof_splits g))) in *. set (q := (IZR (Z.of_nat i) + / 2) / K) in *.
  assert (K0 : 1 <= K) by (unfold K; apply IZR_le; lia). assert (Q : 0 <= q <= 1).
  { unfold q. assert (0 <= IZR (Z.of_nat i)) by (apply IZR_le; lia). assert (IZR (Z.of_nat i) + 1 <= K) by (unfold K; rewrite <- plus_IZR; apply IZR_le; lia). split; [apply Rmult_le_pos; [lra|apply Rlt_le, Rinv_0_lt_compat; lra]|]. apply Rmult_le_reg_r with K; [lra|]. unfold Rdiv. rewrite Rmult_assoc, Rinv_l by lra. lra. }
  assert (DM : 0 < hi - lo <= 2 * M) by (pose proof (bpow_gt_0 radix2 (-900)); apply Rabs_le_inv in Bl, Bh; split; lra).
  pose proof (gam3_small 1 ltac:(lia)) as G3. pose proof u53_pos as U.
  assert (EV : Rabs (val v - q * (hi - lo)) <= 14 * u53 * M).
  { rewrite Vv. replace (q * (hi - lo) * (1 + e) - q * (hi - lo)) with (q * (hi - lo) * e) by ring. rewrite Rabs_mult, (Rabs_pos_eq (q * (hi - lo))) by (apply Rmult_le_pos; lra).
    apply Rle_trans with (1 * (2 * M) * (7 * u53)); [|lra]. apply Rmult_le_compat; [apply Rmult_le_pos; lra|apply Rabs_pos|apply Rmult_le_compat; lra|lra]. }
  assert (B2 : Rabs (lo + val v) <= 2 * M).
  { assert (Y : Rabs (lo + q * (hi - lo)) <= M). { replace (lo + q * (hi - lo)) with ((1 - q) * lo + q * hi) by ring. apply Rabs_le_inv in Bl, Bh. apply Rabs_le.
      assert ((1 - q) * - M <= (1 - q) * lo <= (1 - q) * M) by (split; apply Rmult_le_compat_l; lra). assert (q * - M <= q * hi <= q * M) by (split; apply Rmult_le_compat_l; lra). lra. }
    replace (lo + val v) with ((lo + q * (hi - lo)) + (val v - q * (hi - lo))) by ring. eapply Rle_trans; [apply Rabs_triang|]. assert (14 * u53 <= 1) by (pose proof small50; replace (bpow radix2 (-50)) with (8 * u53) in * by (change 8 with (bpow radix2 3); rewrite <- bpow_plus; reflexivity); lra).
    assert (14 * u53 * M <= 1 * M) by (apply Rmult_le_compat_r; lra). lra. }
  assert (V : val (cand l h (g64_nof_splits g) i) = rnd (lo + val v)).
  { destruct (fadd_val l v Fl Fv) as [V _]; [rewrite VL; eapply Rle_trans; [exact B2|]; apply Rle_trans with (2 * bpow radix2 1000); [lra|]; change 2 with (bpow radix2 1); rewrite <- bpow_plus; apply bpow_le; lia|]. rewrite VL in V. exact V. }
  destruct (rnd_plus_rel l v) as (e4 & H4 & E4). rewrite VL in E4. rewrite V, E4.
  replace ((lo + val v) * (1 + e4) - (lo + q * (hi - lo))) with ((val v - q * (hi - lo)) + (lo + val v) * e4) by ring. eapply Rle_trans; [apply Rabs_triang|]. rewrite Rabs_mult.
  assert (Rabs (lo + val v) * Rabs e4 <= 2 * M * u53) by (apply Rmult_le_compat; try apply Rabs_pos; assumption).
  replace (bpow radix2 (-49)) with (16 * u53) by (change 16 with (bpow radix2 4); rewrite <- bpow_plus; reflexivity). lra.
Qed.
(** Those of a categorical one are its distinct values in increasing order, with NaN last if it occurs. *)
Theorem C112_categories g f ps : (forall r, In r (g64_rows g) -> is_nan (feat64 f r) = true \/ fin (feat64 f r)) -> positions64 g f Cat = Ok ps ->
  exists us, ps = us ++ (if existsb (fun r => is_nan (feat64 f r)) (g64_rows g) then [fnan] else []) /\ incr64 us /\
  (forall u, In u us -> fin u /\ exists r, In r (g64_rows g) /\ feat64 f r = u) /\ (forall r, In r (g64_rows g) -> is_nan (feat64 f r) = false -> exists u, In u us /\ val u = val (feat64 f r)).
Proof.
  intros F P. unfold positions64, find_positions_cat64 in P. injection P as <-. set (c := filter (fun v : b64 => negb (is_nan v)) (map (feat64 f) (g64_rows g))). exists (unique64 c).
  assert (EX : existsb is_nan (map (feat64 f) (g64_rows g)) = existsb (fun r => is_nan (feat64 f r)) (g64_rows g)) by (generalize (g64_rows g); intros l; induction l as [|a l IH]; [reflexivity|]; cbn [map existsb]; now rewrite IH). split; [now rewrite EX|].
  assert (FC : fins c). { intros x Hx. apply filter_In in Hx as [Hx N]. apply in_map_iff in Hx as (r & <- & Hr). destruct (F r Hr) as [X|X]; [rewrite X in N; discriminate N|exact X]. }
  destruct (unique64_spec c FC) as (U1 & U2 & U3). split; [exact U1|]. split.
  - intros u Hu. apply U2 in Hu. split; [now apply FC|]. apply filter_In in Hu as [Hu _]. apply in_map_iff in Hu as (r & E & Hr). eauto.
  - intros r Hr N. apply U3. apply filter_In. split; [now apply in_map|now rewrite N].
Qed.

(** ** C114 *)
(** The search returns, whatever the data: heter_func returns numbers in [0, BIG_M], the categorical features have at
    most max(nof_splits, cat_limit) values, and the heterogeneity of the whole data set is at least 2^-20. *)
Theorem C114_partial g h0 : sums (g64_sum g) -> roomy g ->
  (forall x, exists v, g64_heter g x = Ok v /\ fin v /\ Bsign v = false /\ val v <= 100000000) ->
  length (g64_foc_types g) = length (g64_foc g) -> g64_foc g <> [] -> g64_rows g <> [] -> (1 <= g64_nof_splits g)%nat -> (g64_max_levels g <= length (g64_foc g))%nat ->
  (forall f ps, In (f, Cat) (combine (g64_foc g) (g64_foc_types g)) -> positions64 g f Cat = Ok ps -> (length ps <= Nat.max (g64_nof_splits g) (g64_cat_limit g))%nat) ->
  g64_heter g (g64_rows g) = Ok h0 -> bpow radix2 (-20) <= val h0 -> exists acc, subregions64 g = Ok acc.
Proof.
  intros SUM ROOM HT LT NF NR NS ML CAT H0 B. destruct (search_total g SUM ROOM HT LT NF NR NS) with (h0 := h0) as [o O]; auto.
  { intros f Hf. exact (CAT f _ Hf eq_refl). }
  unfold subregions64. rewrite O. cbn [bind]. eauto.
Qed.
(** Below that it may crash although exact arithmetic does not (C47): ten instances, the default min_points 10,
    nof_splits 20 and cat_limit 10, one conditioning feature with the values 1, 0, ..., 0, and an effect without
    heterogeneity. Both parts of every split are penalised with BIG_M = 1e8, the weights 2/12 and 10/12 are rounded, the
    weighted drop comes out as -1e8 - 2^-26, below the filler -1e8, and the chosen cell holds no candidate. *)
Definition row10 (i : nat) : row64 := ([fofn i; if Nat.eqb i 0 then fofZ 1 else fofZ 0], []).
Definition heter10 (x : list row64) : res b64 := if Nat.ltb (length x) 10 then Ok BIGM64 else Ok fzero.
Definition g10 : regions64 := mkRegions64 heter10 sum_left (map row10 (seq 0 10)) Cont [1]%nat [Cat] 10 10 20 1 thres8 small8 false.
Theorem C114_refuted : exists g, sums (g64_sum g) /\ roomy g /\ (forall x, exists v, g64_heter g x = Ok v /\ fin v /\ Bsign v = false /\ val v <= 100000000) /\
  length (g64_foc_types g) = length (g64_foc g) /\ g64_foc g <> [] /\ g64_rows g <> [] /\ (1 <= g64_nof_splits g)%nat /\ (g64_max_levels g <= length (g64_foc g))%nat /\
  (forall f ps, In (f, Cat) (combine (g64_foc g) (g64_foc_types g)) -> positions64 g f Cat = Ok ps -> (length ps <= Nat.max (g64_nof_splits g) (g64_cat_limit g))%nat) /\
  g64_min_points g = 10%nat /\ length (g64_rows g) = 10%nat /\ g64_heter g (g64_rows g) = Ok fzero /\ subregions64 g = Raise IndexError.
Proof.
  exists g10. split; [exact sum_left_sums|]. split; [unfold roomy; cbn; lia|]. split.
  { intros x. change (g64_heter g10) with heter10. unfold heter10. destruct bigm_fits as [[F _] V]. destruct (Nat.ltb _ _); eexists; (split; [reflexivity|]).
    - split; [exact F|]. split; [reflexivity|]. rewrite V. lra.
    - split; [reflexivity|]. split; [reflexivity|]. change (val fzero) with 0. lra. }
  split; [reflexivity|]. split; [discriminate|]. split; [discriminate|]. split; [cbn; lia|]. split; [cbn; lia|]. split.
  { intros f ps [E|[]] P. assert (f = 1%nat) by congruence. subst f. unfold positions64 in P. assert (ps = find_positions_cat64 (map (feat64 1) (g64_rows g10))) by congruence. subst ps.
    change (Nat.max (g64_nof_splits g10) (g64_cat_limit g10)) with 20%nat. apply Nat.leb_le. vm_compute. reflexivity. }
  split; [reflexivity|]. split; [reflexivity|]. split; [reflexivity|].
  assert (X : match subregions64 g10 with Raise IndexError => true | _ => false end = true) by (vm_compute; reflexivity).
  destruct (subregions64 g10) as [|[]]; try discriminate X. reflexivity.
Qed.

(** ** examples *)
(** g8 of Prop_FloatRegion meets the hypotheses of C114_partial with h0 = 2; its search finds two levels, the first of
    which is reported *)
Example total8 : forall x, exists v, g64_heter (g8 heter8' 99 99) x = Ok v /\ fin v /\ Bsign v = false /\ val v <= 100000000.
Proof.
  intros x. change (g64_heter (g8 heter8' 99 99)) with heter8'. unfold heter8'. destruct bigm_fits as [[F _] V]. destruct (fofZ_val 2 ltac:(lia)) as [V2 F2].
  destruct (Nat.ltb _ _); [eexists; split; [reflexivity|]; split; [exact F|]; split; [reflexivity|rewrite V; lra]|]. destruct (forallb _ _); eexists; (split; [reflexivity|]).
  - split; [reflexivity|]. split; [reflexivity|]. change (val fzero) with 0. lra.
  - split; [exact F2|]. split; [reflexivity|rewrite V2; lra].
Qed.
Example total8' : (exists h0, g64_heter (g8 heter8' 99 99) (g64_rows (g8 heter8' 99 99)) = Ok h0 /\ bpow radix2 (-20) <= val h0) /\
  match search64 (g8 heter8' 99 99) with Ok (Some (_, ss)) => map s64_nof ss | _ => [] end = [[4; 4]; [2; 2; 2; 2]]%nat.
Proof.
  split; [|vm_compute; reflexivity]. exists (fofZ 2). split; [reflexivity|]. destruct (fofZ_val 2 ltac:(lia)) as [-> _]. apply Rle_trans with (bpow radix2 0); [apply bpow_le; lia|cbn; lra].
Qed.

Print Assumptions C112_regions. Print Assumptions C112_levels. Print Assumptions C112_none. Print Assumptions C112_chosen. Print Assumptions C112_first. Print Assumptions C112_midpoints. Print Assumptions C112_categories.
Print Assumptions C114_partial. Print Assumptions C114_refuted.
