(** C121: in binary64, multiplying the model's output by a power of two multiplies the curves by exactly that power (see properties.jsonl). *)
From Coq Require Import Reals.
From Flocq Require Import Core.
From Flocq Require Import IEEE754.BinarySingleNaN.
From Verif Require Import Base Numpy NumpyFacts FloatModel FloatFacts FloatGrid FloatBins FloatProofs FloatMean FloatAcc FloatVar FloatDer FloatPDP FloatPDPSpec FloatPDPMean FloatPDPStd FloatPDPProofs FloatPDPMore FloatRegion FloatRegionPDP FloatRegionPDPProofs FloatGrain FloatRegionALEDiff Prop_FloatPDP Prop_FloatRegionPDP FloatScale.
From Coq Require Import Lra.
Open Scope R_scope.

(** the same PDP object with another model *)
Definition with_target (p : pdp64) (t : target64) : pdp64 := mk_pdp64 t (p64_rows p) (p64_feature p) (p64_lo p) (p64_hi p) (p64_points p) (p64_axis0 p) (p64_axis1 p).
(** the second number is the first one times 2^k; the first is 0 or of size 2^e to M *)
Definition times (k e : Z) (M : R) (a b : b64) : Prop := fin a /\ (val a = 0 \/ bpow radix2 e <= Rabs (val a)) /\ Rabs (val a) <= M /\ fin b /\ val b = bpow radix2 k * val a.

Lemma scale_eval p p' k M c xs ys ss ys' ss' t : sized p -> (-100 <= k <= 100)%Z -> 0 <= M <= bpow radix2 250 ->
  p64_rows p' = p64_rows p /\ p64_feature p' = p64_feature p /\ p64_lo p' = p64_lo p /\ p64_hi p' = p64_hi p /\ p64_points p' = p64_points p /\ p64_axis0 p' = p64_axis0 p /\ p64_axis1 p' = p64_axis1 p ->
  pdp_eval64 p c xs = Ok (ys, ss) -> pdp_eval64 p' c xs = Ok (ys', ss') -> (t < length xs)%nat -> (forall b, b = nth t xs fnan \/ In b (base_points p c) -> scaled_at p p' k M b) ->
  fin (nth t ys' fnan) /\ val (nth t ys' fnan) = bpow radix2 k * val (nth t ys fnan) /\ fin (nth t ss' fnan) /\ val (nth t ss' fnan) = bpow radix2 k * val (nth t ss fnan).
Proof.
  intros SZ HK HM SAME E E' Ht H. destruct (eval_entries p c xs ys ss E) as (_ & _ & _ & EE). destruct (eval_entries p' c xs ys' ss' E') as (_ & _ & _ & EE'). destruct (EE t Ht) as [-> ->]. destruct (EE' t Ht) as [-> ->].
  destruct (curve_scale p p' SZ k M HK HM SAME c (nth t xs fnan) (H _ (or_introl eq_refl)) (fun b Hb => H b (or_intror Hb))) as ((A & B) & C & D). auto.
Qed.
(** PDP: when at every position the model is asked about the outputs of the second model are those of the first times 2^k, so are the curve and
    the heterogeneity, exactly, with any centering. *)
Theorem C121_pdp p g g' k M c xs ys ss ys' ss' t : sized p -> (-100 <= k <= 100)%Z -> 0 <= M <= bpow radix2 250 ->
  pdp_eval64 (with_target p (Outputs g)) c xs = Ok (ys, ss) -> pdp_eval64 (with_target p (Outputs g')) c xs = Ok (ys', ss') -> (t < length xs)%nat ->
  (forall b r, b = nth t xs fnan \/ In b (base_points p c) -> In r (kept64 p) -> let y := list_set r (p64_feature p) b in times k (-80) M (g y) (g' y)) ->
  fin (nth t ys' fnan) /\ val (nth t ys' fnan) = bpow radix2 k * val (nth t ys fnan) /\ fin (nth t ss' fnan) /\ val (nth t ss' fnan) = bpow radix2 k * val (nth t ss fnan).
Proof.
  intros SZ HK HM E E' Ht H. apply (scale_eval (with_target p (Outputs g)) (with_target p (Outputs g')) k M c xs ys ss ys' ss' t SZ HK HM ltac:(repeat split) E E' Ht). intros b Hb r Hr. destruct (H b r Hb Hr) as (A & B & C & D & F). split; [split; assumption|]. split; [exact C|]. split; [exact D|exact F].
Qed.
(** d-PDP with central differences: the same, when the outputs at x + 1e-6 and x - 1e-6 are 0 or of size at least 2^-40. *)
Theorem C121_dpdp p g g' k M c xs ys ss ys' ss' t : sized p -> (-100 <= k <= 100)%Z -> 0 <= M <= bpow radix2 200 ->
  pdp_eval64 (with_target p (Differences g)) c xs = Ok (ys, ss) -> pdp_eval64 (with_target p (Differences g')) c xs = Ok (ys', ss') -> (t < length xs)%nat ->
  (forall b z r, b = nth t xs fnan \/ In b (base_points p c) -> z = fadd b H64 \/ z = fsub b H64 -> In r (kept64 p) -> let y := list_set r (p64_feature p) z in times k (-40) M (g y) (g' y)) ->
  fin (nth t ys' fnan) /\ val (nth t ys' fnan) = bpow radix2 k * val (nth t ys fnan) /\ fin (nth t ss' fnan) /\ val (nth t ss' fnan) = bpow radix2 k * val (nth t ss fnan).
Proof.
  intros SZ HK HM E E' Ht H. assert (HM' : 0 <= bpow radix2 222 <= bpow radix2 250) by (split; [apply bpow_ge_0|apply bpow_le; lia]).
  apply (scale_eval (with_target p (Differences g)) (with_target p (Differences g')) k (bpow radix2 222) c xs ys ss ys' ss' t SZ HK HM' ltac:(repeat split) E E' Ht). intros b Hb r Hr. pose proof (H b _ r Hb (or_introl eq_refl) Hr) as (F1 & C1 & B1 & F1' & S1). pose proof (H b _ r Hb (or_intror eq_refl) Hr) as (F2 & C2 & B2 & F2' & S2).
  cbn [with_target p64_target p64_feature ice64]. set (u := g (list_set r (p64_feature p) (fadd b H64))) in *. set (v := g (list_set r (p64_feature p) (fsub b H64))) in *. set (u' := g' (list_set r (p64_feature p) (fadd b H64))) in *. set (v' := g' (list_set r (p64_feature p) (fsub b H64))) in *.
  assert (B3 : bpow radix2 301 <= bpow radix2 1023) by (apply bpow_le; lia). assert (K1 : bpow radix2 k <= bpow radix2 100) by (apply bpow_le; lia). pose proof (bpow_ge_0 radix2 k) as K0.
  assert (BU : Rabs (val u - val v) <= bpow radix2 201). { change 201%Z with (1 + 200)%Z. rewrite bpow_plus. change (bpow radix2 1) with 2. apply Rabs_le_inv in B1. apply Rabs_le_inv in B2. apply Rabs_le. lra. }
  assert (BU' : Rabs (val u' - val v') <= bpow radix2 301). { rewrite S1, S2, <- Rmult_minus_distr_l, Rabs_mult, (Rabs_pos_eq _ K0). change 301%Z with (100 + 201)%Z. rewrite bpow_plus. apply Rmult_le_compat; auto using Rabs_pos. }
  assert (B2' : bpow radix2 201 <= bpow radix2 1023) by (apply bpow_le; lia).
  destruct (sub_scale k (-92) u v u' v' ltac:(lia) ltac:(lia)) as ([ED GD] & Fd & Fd'); auto; try lra.
  { split; [exact S1|]. exact (coarse_grain (-40) u ltac:(lia) (conj F1 C1)). } { split; [exact S2|]. exact (coarse_grain (-40) v ltac:(lia) (conj F2 C2)). }
  destruct (fsub_val u v F1 F2 ltac:(lra)) as [VD _]. destruct (fsub_val u' v' F1' F2' ltac:(lra)) as [VD' _]. pose proof (rnd_abs_le _ 201 ltac:(lia) BU) as RD. rewrite <- VD in RD. pose proof (rnd_abs_le _ 301 ltac:(lia) BU') as RD'. rewrite <- VD' in RD'.
  set (d := fsub u v) in *. set (d' := fsub u' v') in *. destruct HH64_val as [VH FH]. pose proof H64_bounds as [HL HU].
  assert (IH : 0 < / val HH64 <= bpow radix2 20 /\ bpow radix2 18 <= / val HH64).
  { rewrite VH. change (bpow radix2 (-19)) with (/ 524288) in HU. change (bpow radix2 (-20)) with (/ 1048576) in HL. change (bpow radix2 20) with 1048576. change (bpow radix2 18) with 262144. split; [split|].
    - apply Rinv_0_lt_compat. lra.
    - rewrite <- (Rinv_inv 1048576). apply Rinv_le; lra.
    - rewrite <- (Rinv_inv 262144). apply Rinv_le; lra. }
  assert (HN : val HH64 <> 0). { intros Z. rewrite VH in Z. pose proof (bpow_gt_0 radix2 (-20)). lra. }
  assert (QB : forall e x, Rabs x <= bpow radix2 e -> Rabs (x / val HH64) <= bpow radix2 (e + 20)). { intros e x Hx. unfold Rdiv. rewrite Rabs_mult, (Rabs_pos_eq (/ val HH64)) by lra. rewrite bpow_plus. apply Rmult_le_compat; auto using Rabs_pos; lra. }
  assert (B5 : bpow radix2 (201 + 20) <= bpow radix2 1023) by (apply bpow_le; lia). assert (B6 : bpow radix2 (301 + 20) <= bpow radix2 1023) by (apply bpow_le; lia). pose proof (QB _ _ RD) as Q1. pose proof (QB _ _ RD') as Q1'.
  destruct (fdiv_val d HH64 Fd FH HN ltac:(lra)) as [VQ FQ]. destruct (fdiv_val d' HH64 Fd' FH HN ltac:(lra)) as [VQ' FQ'].
  assert (LQ : val d / val HH64 = 0 \/ bpow radix2 (-74) <= Rabs (val d / val HH64)).
  { destruct (grain_coarse _ _ GD) as [Z|L]; [left; rewrite Z; unfold Rdiv; ring|right]. unfold Rdiv. rewrite Rabs_mult, (Rabs_pos_eq (/ val HH64)) by lra. change (-74)%Z with (-92 + 18)%Z. rewrite bpow_plus. apply Rmult_le_compat; auto using bpow_ge_0; lra. }
  assert (Q3 : Rabs (val (fdiv d HH64)) <= bpow radix2 222) by (rewrite VQ; apply rnd_abs_le; [lia|]; eapply Rle_trans; [exact Q1|apply bpow_le; lia]).
  assert (C3 : val (fdiv d HH64) = 0 \/ bpow radix2 (-80) <= Rabs (val (fdiv d HH64))).
  { rewrite VQ. destruct LQ as [Z|L]; [left; rewrite Z; apply rnd_0|right]. apply rnd_ge; [lia|]. eapply Rle_trans; [|exact L]. apply bpow_le. lia. }
  split; [split; [exact FQ|exact C3]|]. split; [exact Q3|]. split; [exact FQ'|]. rewrite VQ', VQ, ED. unfold Rdiv. rewrite Rmult_assoc. apply rnd_scale; [lia|]. destruct LQ as [Z|L]; [now left|right]. eapply Rle_trans; [|exact L]. apply bpow_le. lia.
Qed.

(** The heterogeneity RegionalPDP gives to a region with enough rows: the same. *)
Definition with_model (c : pdpheter64) (g : list b64 -> b64) : pdpheter64 := mk_pdpheter64 (Outputs g) (h64_feature c) (h64_lo c) (h64_hi c) (h64_min_points c) (h64_axis1 c) (h64_mean c).
Theorem C121_heter c g g' k M data : heter_setup c -> (h64_min_points c <= length data)%nat -> (Z.of_nat (length data) <= 2 ^ 40)%Z -> within_limits c data -> (-100 <= k <= 100)%Z -> 0 <= M <= bpow radix2 250 ->
  (forall xs x r, region_points64 c data = Ok xs -> In x xs -> In r data -> let y := list_set (fst r) (h64_feature c) x in times k (-80) M (g y) (g' y)) ->
  exists v v', pdp_heter64 (with_model c g) data = Ok v /\ pdp_heter64 (with_model c g') data = Ok v' /\ fin v /\ fin v' /\ val v' = bpow radix2 k * val v.
Proof.
  intros (C1 & C2 & MP & LO) LM LD W HK HM T. assert (ND : data <> []) by (intros ->; cbn in LM; lia).
  destruct (region_points64 c data) as [xs|e] eqn:EX; cycle 1.
  { exfalso. unfold region_points64 in EX. assert (NC : map (feat64 (h64_feature c)) data <> []) by (destruct data; [congruence|discriminate]). destruct (map (feat64 (h64_feature c)) data) as [|a l]; [congruence|]. cbn [np_min64 np_max64 bind] in EX. discriminate EX. }
  specialize (fun x r => T xs x r eq_refl). assert (LX : length xs = 10%nat). { unfold region_points64 in EX. apply bind_ok in EX as (mn & _ & EX). apply bind_ok in EX as (mx & _ & EX). apply ok_inj in EX. rewrite <- EX. apply points_length. }
  set (ices := fun (m : list b64 -> b64) x => map (fun r : row64 => m (list_set (fst r) (h64_feature c) x)) data).
  assert (HV : forall m, pdp_heter64 (with_model c m) data = Ok (mean64 (h64_mean c) (map (fun x => std64 (h64_axis1 c) (ices m x)) xs))).
  { intros m. unfold pdp_heter64. change (h64_min_points (with_model c m)) with (h64_min_points c). rewrite (proj2 (Nat.ltb_ge _ _) LM). change (region_points64 (with_model c m) data) with (region_points64 c data). rewrite EX. cbn [bind]. rewrite eval_region by assumption. reflexivity. }
  assert (P : forall x, In x xs -> (scaled k (-446) (std64 (h64_axis1 c) (ices g x)) (std64 (h64_axis1 c) (ices g' x)) /\ fin (std64 (h64_axis1 c) (ices g' x))) /\ fin (std64 (h64_axis1 c) (ices g x)) /\
    Rabs (val (std64 (h64_axis1 c) (ices g x))) <= bpow radix2 410 /\ Rabs (val (std64 (h64_axis1 c) (ices g' x))) <= bpow radix2 410).
  { intros x Hx. assert (HA : 0 <= bpow radix2 350 <= bpow radix2 400) by (split; [apply bpow_ge_0|apply bpow_le; lia]). destruct (M_bounds k M HK HM) as [MA MB].
    assert (I : forall r, In r data -> times k (-80) M (g (list_set (fst r) (h64_feature c) x)) (g' (list_set (fst r) (h64_feature c) x))) by (intros r Hr; now apply T).
    destruct (std_scale k (-132) (h64_axis1 c) (ices g x) (ices g' x) (bpow radix2 350) (bpow radix2 350) HK ltac:(lia) C1) as ((E & F') & (F & G) & B & B').
    - unfold ices. split; [destruct data; [congruence|discriminate]|now rewrite map_length].
    - unfold ices. rewrite !map_length. reflexivity.
    - intros y Hy. apply in_map_iff in Hy as (r & <- & Hr). now apply I.
    - intros y Hy. apply in_map_iff in Hy as (r & <- & Hr). now apply I.
    - exact HA.
    - exact HA.
    - intros y Hy. apply in_map_iff in Hy as (r & <- & Hr). destruct (I r Hr) as (_ & _ & B & _). lra.
    - intros y Hy. apply in_map_iff in Hy as (r & <- & Hr). destruct (I r Hr) as (_ & _ & B & _ & E). rewrite E, Rabs_mult, (Rabs_pos_eq (bpow radix2 k)) by apply bpow_ge_0.
      apply Rle_trans with (bpow radix2 k * M); [apply Rmult_le_compat_l; [apply bpow_ge_0|exact B]|]. apply MB.
    - intros i. apply (nth_map_pair (fun r : row64 => g (list_set (fst r) (h64_feature c) x)) (fun r => g' (list_set (fst r) (h64_feature c) x)) data (scaled k (-132))); [split; [cbn; ring|apply grain_0]|].
      intros r Hr. destruct (I r Hr) as (Fr & Cr & _ & _ & Er). split; [exact Er|]. exact (coarse_grain (-80) _ ltac:(lia) (conj Fr Cr)).
    - auto 7. split; [split; [split; assumption|exact F']|]. auto. }
  assert (HB : 0 <= bpow radix2 410 <= bpow radix2 900) by (split; [apply bpow_ge_0|apply bpow_le; lia]).
  destruct (mean_scale k (-446) (h64_mean c) (map (fun x => std64 (h64_axis1 c) (ices g x)) xs) (map (fun x => std64 (h64_axis1 c) (ices g' x)) xs) (bpow radix2 410) (bpow radix2 410) ltac:(lia) ltac:(lia) C2) as ((E & _) & F' & F).
  - split; [destruct xs; [discriminate LX|discriminate]|rewrite map_length, LX; lia].
  - rewrite !map_length. reflexivity.
  - intros y Hy. apply in_map_iff in Hy as (x & <- & Hx). destruct (P x Hx) as (_ & Z & _). exact Z.
  - intros y Hy. apply in_map_iff in Hy as (x & <- & Hx). destruct (P x Hx) as ((_ & Z) & _). exact Z.
  - exact HB.
  - exact HB.
  - intros y Hy. apply in_map_iff in Hy as (x & <- & Hx). destruct (P x Hx) as (_ & _ & Z & _). exact Z.
  - intros y Hy. apply in_map_iff in Hy as (x & <- & Hx). destruct (P x Hx) as (_ & _ & _ & Z). exact Z.
  - intros i. apply (nth_map_pair (fun x => std64 (h64_axis1 c) (ices g x)) (fun x => std64 (h64_axis1 c) (ices g' x)) xs (scaled k (-446))); [split; [cbn; ring|apply grain_0]|]. intros x Hx. destruct (P x Hx) as ((Z & _) & _). exact Z.
  - eexists. eexists. split; [apply HV|]. split; [apply HV|]. split; [exact F|]. split; [exact F'|exact E].
Qed.

(** A model whose output is multiplied by 2^k in float64 meets the hypotheses. *)
Lemma times_mul k e M (c a : b64) : (-100 <= k <= 100)%Z -> (-800 <= e)%Z -> 0 <= M <= bpow radix2 250 -> fin c -> val c = bpow radix2 k -> fin a -> val a = 0 \/ bpow radix2 e <= Rabs (val a) -> Rabs (val a) <= M -> times k e M a (fmul c a).
Proof.
  intros HK He HM Fc Vc Fa Ca Ba. destruct (M_bounds k M HK HM) as [_ MB]. assert (B : Rabs (val c * val a) <= bpow radix2 1023).
  { rewrite Vc, Rabs_mult, (Rabs_pos_eq (bpow radix2 k)) by apply bpow_ge_0. apply Rle_trans with (bpow radix2 k * M); [apply Rmult_le_compat_l; [apply bpow_ge_0|exact Ba]|]. apply Rle_trans with (bpow radix2 350); [apply MB|apply bpow_le; lia]. }
  destruct (fmul_val c a Fc Fa B) as [V F]. split; [exact Fa|]. split; [exact Ca|]. split; [exact Ba|]. split; [exact F|]. rewrite V, Vc. rewrite rnd_scale; [now rewrite rnd_val|lia|]. destruct Ca as [Z|Ca]; [now left|right]. eapply Rle_trans; [apply bpow_le, He|exact Ca].
Qed.

(** ** q3 of Prop_FloatPDP (x0 + 2 x1 on three instances, 100 centering points) and its output times 8 *)
Definition eight (r : list b64) : b64 := fmul (fofZ 8) (g3 r).
Definition reasonable (x : b64) : bool := is_finite x && (Beqb x fzero || Bleb (fdiv (fofZ 1) (fofZ 1024)) x) && Bleb x (fofZ 16).
Lemma reasonable_ok x e : (e <= -10)%Z -> reasonable x = true -> fin x /\ (val x = 0 \/ bpow radix2 e <= Rabs (val x)) /\ Rabs (val x) <= 16.
Proof.
  intros He H. unfold reasonable in H. apply andb_true_iff in H as [H H2]. apply andb_true_iff in H as [F H1]. split; [exact F|]. destruct (fofZ_val 16 ltac:(lia)) as [V16 F16]. destruct (fofZ_val 1024 ltac:(lia)) as [VK FK]. destruct (fofZ_val 1 ltac:(lia)) as [V1 F1].
  apply (fle_val _ _ F F16) in H2. rewrite V16 in H2. destruct (fdiv_val (fofZ 1) (fofZ 1024) F1 FK ltac:(rewrite VK; lra)) as [VD FD]; [rewrite V1, VK; apply Rle_trans with (bpow radix2 0); [apply Rabs_le; unfold bpow; lra|apply bpow_le; lia]|].
  assert (ED : val (fdiv (fofZ 1) (fofZ 1024)) = bpow radix2 (-10)). { rewrite VD, V1, VK. replace (1 / 1024) with (bpow radix2 (-10)) by (unfold bpow; cbn; lra). apply round_generic; [typeclasses eauto|]. apply generic_format_bpow. rewrite fexp64_eq. lia. }
  apply orb_true_iff in H1 as [H1|H1].
  - assert (Z : val x = 0). { pose proof (Beqb_correct 53 1024 x fzero F eq_refl) as Q. rewrite H1 in Q. symmetry in Q. destruct (Req_bool_spec (B2R x) (B2R fzero)) as [E|E]; [exact E|discriminate Q]. }
    split; [now left|]. rewrite Z, Rabs_R0. lra.
  - apply (fle_val _ _ FD F) in H1. rewrite ED in H1. pose proof (bpow_gt_0 radix2 (-10)). rewrite Rabs_pos_eq by lra. split; [right|lra]. eapply Rle_trans; [apply bpow_le, He|exact H1].
Qed.
Example q3_times : forall b r, In b (grid64 q3) -> In r (kept64 q3) -> times 3 (-80) 16 (g3 (list_set r 0 b)) (eight (list_set r 0 b)).
Proof.
  assert (A : forallb (fun b => forallb (fun r => reasonable (g3 (list_set r 0 b))) (p64_rows q3)) (grid64 q3) = true) by (vm_compute; reflexivity).
  intros b r Hb Hr. rewrite q3_kept in Hr. rewrite forallb_forall in A. specialize (A b Hb). rewrite forallb_forall in A. specialize (A r Hr). destruct (reasonable_ok _ (-80) ltac:(lia) A) as (F & C & B).
  destruct (fofZ_val 8 ltac:(lia)) as [V8 F8]. assert (HM : 0 <= 16 <= bpow radix2 250) by (split; [lra|change 16 with (bpow radix2 4); apply bpow_le; lia]). assert (E8 : val (fofZ 8) = bpow radix2 3) by (rewrite V8; reflexivity).
  exact (times_mul 3 (-80) 16 (fofZ 8) _ ltac:(lia) ltac:(lia) HM F8 E8 F C B).
Qed.
Example q3_scaled : exists ys ss ys' ss', pdp_eval64 q3 ZeroIntegral (grid64 q3) = Ok (ys, ss) /\ pdp_eval64 (with_target q3 (Outputs eight)) ZeroIntegral (grid64 q3) = Ok (ys', ss') /\
  forall t, (t < length (grid64 q3))%nat -> val (nth t ys' fnan) = bpow radix2 3 * val (nth t ys fnan) /\ val (nth t ss' fnan) = bpow radix2 3 * val (nth t ss fnan).
Proof.
  destruct (proj2 (C115_shape q3 ZeroIntegral (grid64 q3)) ltac:(reflexivity)) as (ys & ss & E & _). destruct (proj2 (C115_shape (with_target q3 (Outputs eight)) ZeroIntegral (grid64 q3)) ltac:(reflexivity)) as (ys' & ss' & E' & _).
  exists ys, ss, ys', ss'. split; [exact E|]. split; [exact E'|]. intros t Ht. assert (HM : 0 <= 16 <= bpow radix2 250) by (split; [lra|change 16 with (bpow radix2 4); apply bpow_le; lia]).
  destruct (C121_pdp q3 g3 eight 3 16 ZeroIntegral (grid64 q3) ys ss ys' ss' t q3_sized ltac:(lia) HM E E' Ht) as (_ & A & _ & B); [|auto]. intros b r Hb Hr. apply q3_times; [|exact Hr]. destruct Hb as [->|Hb]; [now apply nth_In|exact Hb].
Qed.
(** The exactness is special to powers of two: the model that always returns 0.1 against 10 times it (which is 1) on three instances *)
Definition ten_times (r : list b64) : b64 := fmul (fofZ 10) tenth.
Example other_factors : exists y y', pdp_eval64 p3 NoCentering [fofZ 1] = Ok ([y], [std64 (p64_axis1 p3) [tenth; tenth; tenth]]) /\
  (exists s', pdp_eval64 (with_target p3 (Outputs ten_times)) NoCentering [fofZ 1] = Ok ([y'], [s'])) /\ Beqb y' (fofZ 1) = true /\ Bltb (fofZ 1) (fmul (fofZ 10) y) = true.
Proof. do 2 eexists. split; [reflexivity|]. split; [eexists; reflexivity|]. split; vm_compute; reflexivity. Qed.

Print Assumptions C121_pdp. Print Assumptions C121_dpdp. Print Assumptions C121_heter.
