(** FloatLine: when all instance effects are close to one slope, the binary64 ALE / RHALE curve is close to a line. *)
From Coq Require Import Reals.
From Flocq Require Import Core.
From Flocq Require Import IEEE754.BinarySingleNaN Relative.
From Verif Require Import Base Numpy NumpyFacts FloatModel FloatFacts FloatGrid FloatBins FloatProofs FloatMean FloatAcc FloatVar FloatFill.
From Coq Require Import Lra.
Open Scope R_scope.

Definition near (A t : R) (v : b64) : Prop := fin v /\ Rabs (val v - A) <= t.

Lemma near_le A t t' v : near A t v -> t <= t' -> near A t' v.
Proof. intros [F H] L. split; [exact F|lra]. Qed.

(** ** fill_nans keeps every entry close *)
Lemma step_close a b i f0 f1 A t : (a < i)%nat -> (i < b)%nat -> idx64 b -> near A t f0 -> near A t f1 -> Rabs A + t <= bpow radix2 1000 ->
  near A (2 * t + 2 * u53 * Rabs A + bpow radix2 (-1000)) (interp_step64 (fofn a) f0 (fofn b) f1 (fofn i)).
Proof.
  intros Hai Hib Hb [F0 N0] [F1 N1] BA. unfold idx64 in Hb.
  destruct (fofn_sub b a Hb ltac:(lia)) as [Vn Fn]. destruct (fofn_sub i a ltac:(unfold idx64; lia) ltac:(lia)) as [Vt Ft].
  destruct (fofn_idx a ltac:(unfold idx64; lia)) as [Va Fa]. destruct (fofn_idx i ltac:(unfold idx64; lia)) as [Vi Fi].
  pose proof u53_pos as U. pose proof u53_small as US. pose proof (Rabs_pos A) as A0. assert (T0 : 0 <= t) by (eapply Rle_trans; [apply Rabs_pos|exact N0]).
  assert (B23 : bpow radix2 1023 = 8388608 * bpow radix2 1000) by (change 1023%Z with (23 + 1000)%Z; rewrite bpow_plus; reflexivity). pose proof (bpow_gt_0 radix2 1000) as P1000.
  assert (P1 : 1 <= bpow radix2 1000) by (change 1 with (bpow radix2 0); apply bpow_le; lia).
  pose proof (bpow_gt_0 radix2 (-1075)) as E0.
  unfold interp_step64. rewrite Beqb_correct by assumption. rewrite Va, Vi. rewrite Req_bool_false by (intros E; apply eq_IZR in E; lia).
  set (n := (b - a)%nat) in *. set (s := (i - a)%nat) in *. assert (Hs : (1 <= s < n)%nat) by (unfold n, s; lia).
  assert (K1 : 2 <= IZR (Z.of_nat n)) by (apply IZR_le; lia). assert (S1 : 1 <= IZR (Z.of_nat s)) by (apply IZR_le; lia).
  assert (NB : IZR (Z.of_nat n) <= bpow radix2 50) by (change (bpow radix2 50) with (IZR (2 ^ 50)); apply IZR_le; unfold n; lia).
  assert (SN : IZR (Z.of_nat s) <= IZR (Z.of_nat n)) by (apply IZR_le; lia).
  set (k := IZR (Z.of_nat n)) in *. set (q := IZR (Z.of_nat s)) in *.
  assert (EK : k * eta <= bpow radix2 (-1025)). { apply Rle_trans with (bpow radix2 50 * eta); [apply Rmult_le_compat_r; lra|]. rewrite <- bpow_plus. apply Rle_refl. }
  assert (E25 : bpow radix2 (-1025) <= bpow radix2 (-1000) * / 1000000). { apply Rle_trans with (bpow radix2 (-1000) * bpow radix2 (-20)); [rewrite <- bpow_plus; apply bpow_le; lia|]. apply Rmult_le_compat_l; [apply bpow_ge_0|]. unfold bpow. cbn. lra. }
  assert (E75 : eta <= bpow radix2 (-1025)) by (apply bpow_le; lia).
  assert (Pm : bpow radix2 (-1000) <= 1) by (change 1 with (bpow radix2 0); apply bpow_le; lia). pose proof (bpow_gt_0 radix2 (-1000)) as Pm0.
  set (d := val f1 - val f0). assert (DB : Rabs d <= 2 * t). { unfold d. replace (val f1 - val f0) with ((val f1 - A) - (val f0 - A)) by ring. unfold Rminus at 1. eapply Rle_trans; [apply Rabs_triang|]. rewrite Rabs_Ropp. lra. }
  destruct (fsub_val f1 f0 F1 F0) as [VD FD]. { fold d. lra. }
  destruct (rnd_minus_rel f1 f0) as (e1 & A1 & R1). rewrite R1 in VD. fold d in VD. set (D := fsub f1 f0) in *.
  assert (DE : Rabs (val D - d) <= 2 * t * u53). { rewrite VD. replace (d * (1 + e1) - d) with (d * e1) by ring. rewrite Rabs_mult. apply Rmult_le_compat; auto using Rabs_pos. }
  assert (tu : t * u53 <= t * / 1000000) by (apply Rmult_le_compat_l; lra).
  assert (DA : Rabs (val D) <= 3 * t). { replace (val D) with ((val D - d) + d) by ring. eapply Rle_trans; [apply Rabs_triang|]. lra. }
  assert (KI : 0 < / k) by (apply Rinv_0_lt_compat; lra). assert (KI1 : / k <= 1) by (rewrite <- Rinv_1; apply Rinv_le; lra).
  assert (DK : Rabs (val D / k) = Rabs (val D) / k) by (unfold Rdiv; rewrite Rabs_mult, (Rabs_pos_eq (/ k)); lra).
  assert (DK1 : Rabs (val D) / k <= Rabs (val D)). { unfold Rdiv. pose proof (Rabs_pos (val D)). assert (Rabs (val D) * / k <= Rabs (val D) * 1) by (apply Rmult_le_compat_l; lra). lra. }
  destruct (fdiv_val D (fsub (fofn b) (fofn a)) FD Fn) as [VS FS]; [rewrite Vn; lra|rewrite Vn, DK; lra|].
  set (sl := fdiv D (fsub (fofn b) (fofn a))) in *. rewrite Vn in VS.
  pose proof (rnd_err (val D / k)) as RS. rewrite <- VS, DK in RS.
  (* sl * q against D q / k *)
  assert (SE : Rabs (val sl * q - val D * (q / k)) <= 3 * t * u53 + bpow radix2 (-1025)).
  { replace (val sl * q - val D * (q / k)) with ((val sl - val D / k) * q) by (field; lra). rewrite Rabs_mult, (Rabs_pos_eq q) by lra.
    apply Rle_trans with ((u53 * (Rabs (val D) / k) + eta) * k); [apply Rmult_le_compat; auto using Rabs_pos; lra|].
    replace ((u53 * (Rabs (val D) / k) + eta) * k) with (Rabs (val D) * u53 + k * eta) by (field; lra).
    assert (Rabs (val D) * u53 <= 3 * t * u53) by (apply Rmult_le_compat_r; lra). lra. }
  assert (QK : 0 <= q / k <= 1). { split; [unfold Rdiv; apply Rmult_le_pos; lra|]. apply Rle_div_l; lra. }
  assert (DQ : Rabs (val D * (q / k)) <= 3 * t). { rewrite Rabs_mult, (Rabs_pos_eq (q / k)) by lra. apply Rle_trans with (3 * t * 1); [apply Rmult_le_compat; auto using Rabs_pos; lra|lra]. }
  assert (SQ : Rabs (val sl * q) <= 4 * t + bpow radix2 (-1025)). { replace (val sl * q) with ((val sl * q - val D * (q / k)) + val D * (q / k)) by ring. eapply Rle_trans; [apply Rabs_triang|]. lra. }
  destruct (fmul_val sl (fsub (fofn i) (fofn a)) FS Ft) as [VP FP]. { rewrite Vt. lra. }
  set (p := fmul sl (fsub (fofn i) (fofn a))) in *. rewrite Vt in VP. pose proof (rnd_err (val sl * q)) as RP. rewrite <- VP in RP.
  assert (RP2 : Rabs (val p - val sl * q) <= 4 * t * u53 + 2 * bpow radix2 (-1025)).
  { eapply Rle_trans; [exact RP|]. assert (u53 * Rabs (val sl * q) <= u53 * (4 * t + bpow radix2 (-1025))) by (apply Rmult_le_compat_l; lra).
    assert (u53 * bpow radix2 (-1025) <= 1 * bpow radix2 (-1025)) by (apply Rmult_le_compat_r; [apply bpow_ge_0|lra]). lra. }
  (* p + f0 against the convex combination *)
  set (c := val f0 + d * (q / k)). assert (CA : Rabs (c - A) <= t).
  { replace (c - A) with ((1 - q / k) * (val f0 - A) + (q / k) * (val f1 - A)) by (unfold c, d; ring). eapply Rle_trans; [apply Rabs_triang|].
    rewrite !Rabs_mult, (Rabs_pos_eq (q / k)), (Rabs_pos_eq (1 - q / k)) by lra.
    assert ((1 - q / k) * Rabs (val f0 - A) <= (1 - q / k) * t) by (apply Rmult_le_compat_l; lra). assert (q / k * Rabs (val f1 - A) <= q / k * t) by (apply Rmult_le_compat_l; lra). lra. }
  assert (PC : Rabs (val p + val f0 - c) <= 9 * t * u53 + 3 * bpow radix2 (-1025)).
  { replace (val p + val f0 - c) with ((val p - val sl * q) + ((val sl * q - val D * (q / k)) + (val D - d) * (q / k))) by (unfold c; ring).
    eapply Rle_trans; [apply Rabs_triang|]. assert (Rabs ((val sl * q - val D * (q / k)) + (val D - d) * (q / k)) <= 3 * t * u53 + bpow radix2 (-1025) + 2 * t * u53); [|lra].
    eapply Rle_trans; [apply Rabs_triang|]. apply Rplus_le_compat; [exact SE|]. rewrite Rabs_mult, (Rabs_pos_eq (q / k)) by lra.
    apply Rle_trans with (2 * t * u53 * 1); [apply Rmult_le_compat; auto using Rabs_pos; lra|lra]. }
  assert (PA : Rabs (val p + val f0 - A) <= (1 + / 1000) * t + 3 * bpow radix2 (-1025)).
  { replace (val p + val f0 - A) with ((val p + val f0 - c) + (c - A)) by ring. eapply Rle_trans; [apply Rabs_triang|]. lra. }
  assert (PB : Rabs (val p + val f0) <= Rabs A + ((1 + / 1000) * t + 3 * bpow radix2 (-1025))).
  { replace (val p + val f0) with (A + (val p + val f0 - A)) by ring. eapply Rle_trans; [apply Rabs_triang|]. lra. }
  destruct (fadd_val p f0 FP F0) as [VR FR]; [lra|]. destruct (rnd_plus_rel p f0) as (e4 & A4 & R4). rewrite R4 in VR.
  assert (NN : is_nan (fadd p f0) = false). { unfold fin in FR. destruct (fadd p f0); cbn in FR |- *; congruence. }
  rewrite NN. split; [exact FR|]. rewrite VR. replace ((val p + val f0) * (1 + e4) - A) with ((val p + val f0 - A) + (val p + val f0) * e4) by ring.
  eapply Rle_trans; [apply Rabs_triang|]. rewrite Rabs_mult.
  assert (Rabs (val p + val f0) * Rabs e4 <= (Rabs A + ((1 + / 1000) * t + 3 * bpow radix2 (-1025))) * u53) by (apply Rmult_le_compat; auto using Rabs_pos).
  assert (bpow radix2 (-1025) * u53 <= bpow radix2 (-1025) * 1) by (apply Rmult_le_compat_l; [apply bpow_ge_0|lra]).
  assert (0 <= Rabs A * u53) by (apply Rmult_le_pos; lra). lra.
Qed.

(** an invariant of fill_nans *)
Lemma fill_inv (P Q : b64 -> Prop) :
  (forall v, P v -> Q v) ->
  (forall a b i f0 f1, (a < i)%nat -> (i < b)%nat -> idx64 b -> P f0 -> P f1 -> Q (interp_step64 (fofn a) f0 (fofn b) f1 (fofn i))) ->
  forall x y, idx64 (length x) -> (forall v, In v x -> is_nan v = true \/ P v) -> fill_nans64 x = Ok y ->
  length y = length x /\ forall i, (i < length x)%nat -> Q (nth i y fnan).
Proof.
  intros PQ ST x y Hx HE H. unfold fill_nans64 in H. destruct (valid_points64 0 x) as [|[q0 g0] pts] eqn:EP; [discriminate|].
  assert (VS : forall q f, In (q, f) ((q0, g0) :: pts) -> exists j, (j < length x)%nat /\ q = fofn j /\ f = nth j x fnan /\ is_nan f = false).
  { intros q f Hq. rewrite <- EP in Hq. destruct (valid_points_spec x 0 q f Hq) as (j & Hj & -> & -> & N). exists j. rewrite Nat.sub_0_r in *. split; [lia|]. split; [reflexivity|]. split; [reflexivity|exact N]. }
  assert (IF : forall pts a f0 i, P f0 -> (a < i)%nat -> idx64 i -> (forall x f, In (x, f) pts -> P f /\ exists j, x = fofn j /\ idx64 j /\ j <> i) -> Q (interp_from64 (fofn a) f0 pts (fofn i))).
  { clear - PQ ST. induction pts as [|[x1 f1] pts IH]; intros a f0 i P0 Hai Hi H; cbn [interp_from64]; [now apply PQ|].
    destruct (H x1 f1 (or_introl eq_refl)) as (P1 & j & -> & Hj & Nj). destruct (fofn_idx i Hi) as [Vi Fi]. destruct (fofn_idx j Hj) as [Vj Fj].
    destruct (Bltb (fofn i) (fofn j)) eqn:E.
    - apply flt_val in E; auto. rewrite Vi, Vj in E. apply lt_IZR in E. apply ST; auto. lia.
    - apply IH; auto; [|intros x f Hx; apply H; now right]. assert (L : ~ (IZR (Z.of_nat i) < IZR (Z.of_nat j))). { rewrite <- Vi, <- Vj, <- flt_val by assumption. congruence. }
      apply Rnot_lt_le in L. apply le_IZR in L. lia. }
  pose proof (mapM_length _ _ _ H) as L. rewrite combine_length, seq_length, Nat.min_id in L. split; [exact L|]. intros i Hi.
  assert (G : (if is_nan (nth i x fnan) then interp64 ((q0, g0) :: pts) (fofn i) else Ok (nth i x fnan)) = Ok (nth i y fnan)).
  { pose proof (mapM_at _ _ _ i (0%nat, fnan) fnan H ltac:(rewrite combine_length, seq_length, Nat.min_id; exact Hi)) as G.
    rewrite combine_nth in G by apply seq_length. rewrite seq_nth in G by exact Hi. cbn [fst snd Nat.add] in G. exact G. }
  assert (VP : forall j, (j < length x)%nat -> is_nan (nth j x fnan) = false -> P (nth j x fnan)). { intros j Hj N. destruct (HE _ (nth_In x fnan Hj)); [congruence|assumption]. }
  destruct (is_nan (nth i x fnan)) eqn:NE.
  - unfold interp64 in G. destruct (VS q0 g0 (or_introl eq_refl)) as (j0 & Hj0 & E0 & Eg & Ng). subst q0. assert (P0 : P g0) by (rewrite Eg in Ng |- *; now apply VP).
    destruct (Bltb (fofn i) (fofn j0)) eqn:E.
    + assert (Ey : nth i y fnan = g0) by congruence. rewrite Ey. now apply PQ.
    + assert (Ey : nth i y fnan = interp_from64 (fofn j0) g0 pts (fofn i)) by congruence. rewrite Ey.
      destruct (fofn_idx i ltac:(unfold idx64 in *; lia)) as [Vi Fi]. destruct (fofn_idx j0 ltac:(unfold idx64 in *; lia)) as [Vj Fj].
      assert (GE : ~ (IZR (Z.of_nat i) < IZR (Z.of_nat j0))) by (rewrite <- Vi, <- Vj, <- flt_val by assumption; congruence).
      apply Rnot_lt_le in GE. apply le_IZR in GE. assert (NJ : j0 <> i) by (intros ->; congruence).
      apply IF; [exact P0|lia|unfold idx64 in *; lia|]. intros q f Hq. destruct (VS q f (or_intror Hq)) as (j & Hj & -> & Ef & Nf).
      split; [rewrite Ef in Nf |- *; now apply VP|]. exists j. split; [reflexivity|]. split; [unfold idx64 in *; lia|intros ->; congruence].
  - assert (Ey : nth i y fnan = nth i x fnan) by congruence. rewrite Ey. now apply PQ, VP.
Qed.

Lemma fill_close A t x y : Rabs A + t <= bpow radix2 1000 -> idx64 (length x) -> (forall v, In v x -> is_nan v = true \/ near A t v) -> fill_nans64 x = Ok y ->
  length y = length x /\ forall i, (i < length x)%nat -> near A (2 * t + 2 * u53 * Rabs A + bpow radix2 (-1000)) (nth i y fnan).
Proof.
  intros B. apply fill_inv.
  - intros v Hv. apply (near_le A t); [exact Hv|]. destruct Hv as [_ Hv]. pose proof (Rabs_pos (val v - A)). pose proof (bpow_ge_0 radix2 (-1000)). pose proof (Rabs_pos A). pose proof u53_pos.
    assert (0 <= u53 * Rabs A) by (apply Rmult_le_pos; lra). lra.
  - intros. now apply step_close.
Qed.
