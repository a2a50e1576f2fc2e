(** Prop_FloatRhale: C110, RHALE from the Jacobian to the curve in binary64, for a model that is linear in the feature. *)
From Coq Require Import Reals.
From Flocq Require Import Core.
From Flocq Require Import IEEE754.BinarySingleNaN.
From Verif Require Import Base Numpy NumpyFacts FloatModel FloatFacts FloatGrid FloatBins FloatProofs FloatJac FloatMean FloatFill FloatAcc FloatLine FloatLine2 FloatLine3 FloatFit
  FloatAdapt FloatGreedy Prop_Float Prop_FloatMean Prop_FloatVar Prop_FloatAcc Prop_FloatLine Prop_FloatGreedy.
From Coq Require Import Lra.
Open Scope R_scope.

(** Fewer bins than instances: equal bins without a min_points demand, or Greedy with at most as many points demanded as there are. *)
Definition roomy (b : binning64) (N distinct : nat) : Prop :=
  match b with
  | BFixed n m cat => m = 0%nat /\ (1 <= n < N)%nat /\ (cat < distinct)%nat
  | BGreedy n _ m cat => (m <= N)%nat /\ (1 <= n < N)%nat /\ (cat < distinct)%nat
  | BDP _ _ _ _ => False
  end.
Definition bins_of (b : binning64) : nat := match b with BFixed n _ _ => n | BGreedy n _ _ _ => n | BDP K _ _ _ => K end.

(** The heterogeneity of effects within t of each other is at most [heter_err]. *)
Definition heter_err (N : nat) (a t : R) : R := 2 * var_err N a t + bpow radix2 (-1000).
Remark heter_err_unfold N a t : let s := t + ((1 + bpow radix2 (-53)) ^ (S N) - 1) * (Rabs a + t) + bpow radix2 (-1075) in
  heter_err N a t = 2 * (2 * ((t + s) * (t + s)) + 3 * bpow radix2 (-1075)) + bpow radix2 (-1000).
Proof. reflexivity. Qed.

Lemma line_err_le K K' a T d : (K <= K')%nat -> 0 <= T -> 0 <= d -> line_err K a T d <= line_err K' a T d.
Proof.
  intros H T0 D0. unfold line_err. pose proof (gam_le (K + 2) (K' + 2) ltac:(lia)) as G. unfold gam in G. pose proof (Rabs_pos a). pose proof (bpow_ge_0 radix2 (-1074)) as E.
  assert (IZR (Z.of_nat K) <= IZR (Z.of_nat K')) by (apply IZR_le; lia). apply Rplus_le_compat; [|now apply Rmult_le_compat_r]. apply Rmult_le_compat_r; [exact D0|]. apply Rplus_le_compat_l. apply Rmult_le_compat_r; lra.
Qed.

(** The bins, in both cases. *)
Lemma bins_found var xs es lo hi b :
  fins xs -> fin lo -> fin hi -> Rabs (val lo) <= bpow radix2 26 -> Rabs (val hi) <= bpow radix2 26 -> bpow radix2 (-900) <= val hi - val lo ->
  (forall x, In x xs -> val lo <= val x <= val hi) -> (Z.of_nat (length xs) <= 2 ^ 48)%Z -> (2 <= length (unique64 xs))%nat -> roomy b (length xs) (length (unique64 xs)) ->
  exists l, find64 var xs es lo hi b = Ok (Some l) /\ fins l /\ sorted64 l /\ (2 <= length l <= bins_of b + 1)%nat /\ val (first64 l) = val lo /\ last64 l = hi.
Proof.
  intros FX Flo Fhi Blo Bhi HD RX HN U2 HR. assert (P : bpow radix2 26 <= bpow radix2 1021) by (apply bpow_le; lia).
  destruct b as [n m cat|n d m cat|]; cbn [roomy] in HR; [| |destruct HR]; destruct HR as (H1 & H2 & H3); cbn [find64 bins_of].
  - subst m. destruct (linspace64_facts lo hi n Flo Fhi ltac:(lra) ltac:(lra) HD ltac:(lia) ltac:(lia)) as (L & F & So & E1 & E2). exists (linspace64 lo hi (n + 1)).
    unfold fixed_find64. destruct (Nat.leb_spec (length (unique64 xs)) cat); [lia|]. rewrite all_valid64_0. split; [reflexivity|]. repeat split; auto; lia.
  - destruct (C109_greedy var xs es lo hi m d n cat FX Flo Fhi ltac:(lra) ltac:(lra) HD ltac:(lia) ltac:(lia) RX H3 U2) as (l & js & E & L1 & L2 & _ & _ & _ & V & E0 & E1 & So & _).
    destruct (Nat.ltb_spec (length xs) m); [lia|]. exists l. split; [exact E|]. split; [|repeat split; auto; lia].
    intros x Hx. destruct (In_nth _ _ fnan Hx) as (i & Hi & <-). now apply V.
Qed.

Lemma combine_filter_all {A B} (p : A -> bool) (X : list A) (E : list B) : length X = length E -> (forall r, In r X -> p r = true) -> filter (fun z => p (fst z)) (combine X E) = combine X E.
Proof.
  revert E. induction X as [|r X IH]; intros [|e E] L H; cbn in L; try lia; [reflexivity|]. cbn [combine filter fst]. rewrite H by now left. f_equal. apply IH; [lia|intros; apply H; now right].
Qed.
Lemma combine_fst {A B} (X : list A) (E : list B) : length X = length E -> map fst (combine X E) = X.
Proof. revert E. induction X as [|r X IH]; intros [|e E] L; cbn in L; try lia; [reflexivity|]. cbn. f_equal. apply IH. lia. Qed.
Lemma combine_snd {A B} (X : list A) (E : list B) : length X = length E -> map snd (combine X E) = E.
Proof. revert E. induction X as [|r X IH]; intros [|e E] L; cbn in L; try lia; [reflexivity|]. cbn. f_equal. apply IH. lia. Qed.

(** RHALE with equal or greedy bins, default axis limits, and a Jacobian whose entries for the feature are all within t of a slope a: the
    fit succeeds; every bin effect is within [slope_err] of a, every heterogeneity value is at most [heter_err]; and the curve at every
    position in the data range is the line a (x - lo), within [line_err]. *)
Theorem C110_rhale var X J f lo hi b a t :
  fins (col64 X f) -> axis_limits64 X f = Ok (lo, hi) -> length J = length X -> (Z.of_nat (length X) + 1 <= 2 ^ 48)%Z ->
  Rabs (val lo) <= bpow radix2 26 -> Rabs (val hi) <= bpow radix2 26 -> bpow radix2 (-900) <= val hi - val lo ->
  (2 <= length (unique64 (col64 X f)))%nat -> roomy b (length X) (length (unique64 (col64 X f))) ->
  (forall r, In r J -> near a t (nth f r fnan)) -> 0 <= t -> Rabs a + t <= bpow radix2 400 ->
  let T := slope_err (length X) a t in
  exists p, rhale_fit_feature64 var X J lo hi f b = Ok p /\
    (1 <= length (p64_effect p) <= bins_of b)%nat /\
    (forall e, In e (p64_effect p) -> near a T e) /\
    (forall v, In v (p64_var p) -> near 0 (heter_err (length X) a t) v) /\
    (forall ps, (forall x, In x ps -> fin x /\ val lo <= val x <= val hi) ->
     exists ys, eval_unnorm64 p ps = Ok ys /\ length ys = length ps /\
       forall i, (i < length ps)%nat -> let x := val (nth i ps fnan) in near (a * (x - val lo)) (line_err (bins_of b) a T (x - val lo)) (nth i ys fnan)).
Proof.
  intros FX HA LJ HN Blo Bhi HD U2 HR HJ T0 BA T. destruct (axis_limits64_ok X f lo hi FX HA) as (NX & Flo & Fhi & _ & RX).
  assert (Lc : length (col64 X f) = length X) by apply map_length.
  assert (RX' : forall x, In x (col64 X f) -> val lo <= val x <= val hi) by (intros x Hx; apply in_map_iff in Hx as (r & <- & Hr); now apply RX).
  assert (KA : filter (fun p => in_range64 lo hi f (fst p)) (combine X J) = combine X J).
  { apply combine_filter_all; [lia|]. intros r Hr. assert (Fr : fin (nth f r fnan)) by (apply FX, (in_map (fun r => nth f r fnan) X r Hr)). unfold in_range64. rewrite andb_true_iff, !fle_val by assumption. split; now apply RX. }
  assert (HE : forall e, In e (col64 J f) -> near a t e) by (intros e He; apply in_map_iff in He as (r & <- & Hr); now apply HJ).
  assert (LJ' : length (col64 X f) = length (col64 J f)) by (unfold col64; rewrite !map_length; lia).
  destruct (bins_found var (col64 X f) (col64 J f) lo hi b FX Flo Fhi Blo Bhi HD RX' ltac:(lia) U2 ltac:(rewrite Lc; exact HR)) as (l & FL & F & So & LL & E0 & E1).
  assert (BN : (bins_of b < length X)%nat) by (destruct b; cbn [roomy bins_of] in *; lia).
  assert (P26 : bpow radix2 26 < bpow radix2 27) by (apply bpow_lt; lia). apply Rabs_le_inv in Blo. apply Rabs_le_inv in Bhi.
  destruct (params_near (col64 X f) (col64 J f) l a t) as (p & HP & L1 & L2 & L3 & N1 & N2); auto; try lia.
  { intros x Hx. rewrite E0, E1. now apply RX'. }
  { rewrite E1. lra. }
  rewrite Lc in N1, N2. exists p. split.
  { unfold rhale_fit_feature64. rewrite KA, combine_fst, combine_snd by lia. rewrite FL. exact HP. }
  split; [lia|]. split; [exact N1|]. split; [intros v Hv; apply N2; now left|]. intros ps Hps.
  destruct (C108_slopes (col64 X f) (col64 J f) l p ps a t) as (_ & _ & Y); auto; try lia.
  { intros x Hx. rewrite E0, E1. now apply RX'. }
  { rewrite E0. lra. }
  { rewrite E1. lra. }
  { eapply Rle_trans; [exact BA|]. apply bpow_le. lia. }
  assert (P1e8 : bpow radix2 26 <= 100000000) by (unfold bpow; cbn; lra).
  destruct Y as (ys & Y1 & Y2 & Y3).
  { intros x Hx. destruct (Hps x Hx) as [Fx Rx]. rewrite E0, E1. repeat split; auto; try lra. apply Rabs_le. assert (bpow radix2 26 <= bpow radix2 1021) by (apply bpow_le; lia). lra. }
  exists ys. split; [exact Y1|]. split; [exact Y2|]. intros i Hi x. specialize (Y3 i Hi). fold x in Y3. rewrite E0, Lc in Y3. apply (near_le _ _ _ _ Y3).
  destruct (Hps _ (nth_In ps fnan Hi)) as [_ Rx]. fold x in Rx. apply line_err_le; [lia|apply slope_err_pos; exact T0|lra].
Qed.

(** The numerical Jacobian of a model whose outputs, with the feature set to z, are within delta of a z + b_r: every entry is within
    [jac_err] of a, i.e. 2 (2^-53 |a| (M + 1) + 2 delta) / 1e-8 + 4 * 2^-53 |a| + 2^-1074, when the values are at most M. *)
Definition jac_err (M a delta : R) : R := 2 * (bpow radix2 (-53) * Rabs a * (M + 1) + 2 * delta) / val EPS64 + 4 * bpow radix2 (-53) * Rabs a + bpow radix2 (-1074).

Lemma quotient_near x (g0 g1 : b64) M a b delta : fin x -> Rabs (val x) <= M -> M <= bpow radix2 26 -> 0 <= delta <= bpow radix2 300 -> Rabs a <= bpow radix2 300 ->
  near (a * val x + b) delta g0 -> near (a * val (fadd x EPS64) + b) delta g1 -> near a (jac_err M a delta) (fdiv (fsub g1 g0) EPS64).
Proof.
  intros Fx Bx HM [D0 D1] BA [F0 N0] [F1 N1]. pose proof EPS64_bounds as [H1 H2]. set (h := val EPS64) in *. pose proof (bpow_gt_0 radix2 (-27)) as P27. pose proof u53_pos as U. pose proof u53_small as US. pose proof (Rabs_pos a) as A0.
  assert (P26 : bpow radix2 (-26) <= 1) by (change 1 with (bpow radix2 0); apply bpow_le; lia).
  destruct (fadd_val x EPS64 Fx EPS64_fin) as [V F']. { apply EPS_bound; auto. eapply Rle_trans; [exact Bx|]. eapply Rle_trans; [exact HM|]. apply bpow_le. lia. }
  destruct (rnd_plus_rel x EPS64) as (e & E1 & E2). fold h in V, E2. rewrite E2 in V. set (x' := val (fadd x EPS64)) in *.
  assert (XD : Rabs (x' - val x - h) <= u53 * (M + 1)). { rewrite V. replace ((val x + h) * (1 + e) - val x - h) with ((val x + h) * e) by ring. rewrite Rabs_mult, Rmult_comm. apply Rmult_le_compat; auto using Rabs_pos.
    eapply Rle_trans; [apply Rabs_triang|]. rewrite (Rabs_pos_eq h); lra. }
  set (D := val g1 - val g0). set (s := u53 * Rabs a * (M + 1) + 2 * delta). assert (M0 : 0 <= M) by (eapply Rle_trans; [apply Rabs_pos|exact Bx]).
  assert (UA : 0 <= u53 * Rabs a * (M + 1)) by (apply Rmult_le_pos; [apply Rmult_le_pos; lra|lra]).
  assert (S0 : 0 <= s) by (unfold s; lra).
  assert (SD : Rabs (D - a * h) <= s).
  { unfold D. replace (val g1 - val g0 - a * h) with ((val g1 - (a * x' + b)) + - (val g0 - (a * val x + b)) + a * (x' - val x - h)) by ring.
    eapply Rle_trans; [apply Rabs_triang|]. eapply Rle_trans; [apply Rplus_le_compat_r, Rabs_triang|]. rewrite Rabs_Ropp, (Rabs_mult a). unfold s.
    assert (Rabs a * Rabs (x' - val x - h) <= Rabs a * (u53 * (M + 1))) by (apply Rmult_le_compat_l; lra). lra. }
  assert (BM : M + 1 <= bpow radix2 27). { assert (Q : bpow radix2 (1 + 26) = 2 * bpow radix2 26) by (rewrite bpow_plus; reflexivity). change (1 + 26)%Z with 27%Z in Q. assert (1 <= bpow radix2 26) by (change 1 with (bpow radix2 0); apply bpow_le; lia). lra. }
  assert (SB : s <= 3 * bpow radix2 300).
  { unfold s. assert (u53 * (M + 1) <= 1). { apply Rle_trans with (u53 * bpow radix2 27); [apply Rmult_le_compat_l; lra|]. rewrite <- bpow_plus. change 1 with (bpow radix2 0). apply bpow_le. lia. }
    assert (Rabs a * (u53 * (M + 1)) <= Rabs a * 1) by (apply Rmult_le_compat_l; lra). lra. }
  assert (AH : Rabs (a * h) <= bpow radix2 300). { rewrite Rabs_mult, (Rabs_pos_eq h) by lra. assert (Rabs a * h <= Rabs a * 1) by (apply Rmult_le_compat_l; lra). lra. }
  assert (DA : Rabs D <= Rabs a * h + s). { replace D with ((D - a * h) + a * h) by ring. eapply Rle_trans; [apply Rabs_triang|]. rewrite (Rabs_mult a h), (Rabs_pos_eq h) by lra. lra. }
  assert (DB : Rabs D <= 4 * bpow radix2 300). { rewrite Rabs_mult, (Rabs_pos_eq h) in AH by lra. lra. }
  assert (Q302 : bpow radix2 (2 + 300) = 4 * bpow radix2 300) by (rewrite bpow_plus; reflexivity). change (2 + 300)%Z with 302%Z in Q302.
  destruct (fsub_val g1 g0 F1 F0) as [VS FS]; [fold D; eapply Rle_trans; [exact DB|]; rewrite <- Q302; apply bpow_le; lia|]. destruct (rnd_minus_rel g1 g0) as (d & G1 & G2). rewrite G2 in VS. fold D in VS.
  set (q := val (fsub g1 g0) / h). assert (IH : 0 < / h) by (apply Rinv_0_lt_compat; lra).
  assert (ih : / h <= bpow radix2 27). { replace (bpow radix2 27) with (/ bpow radix2 (-27)) by (rewrite <- bpow_opp; reflexivity). apply Rinv_le; lra. }
  assert (QA : Rabs (q - a) <= (s + u53 * (Rabs a * h + s)) * / h).
  { unfold q. rewrite VS. replace (D * (1 + d) / h - a) with ((D - a * h + D * d) * / h) by (field; lra). rewrite Rabs_mult, (Rabs_pos_eq (/ h)) by lra. apply Rmult_le_compat_r; [lra|].
    eapply Rle_trans; [apply Rabs_triang|]. rewrite (Rabs_mult D d). apply Rplus_le_compat; [exact SD|]. rewrite Rmult_comm. apply Rmult_le_compat; auto using Rabs_pos. }
  assert (QE : (s + u53 * (Rabs a * h + s)) * / h = s * / h + u53 * Rabs a + u53 * (s * / h)) by (field; lra).
  set (w := s * / h) in *. assert (W0 : 0 <= w) by (unfold w; apply Rmult_le_pos; lra). assert (uw : u53 * w <= / 1000000 * w) by (apply Rmult_le_compat_r; lra). assert (uw0 : 0 <= u53 * w) by (apply Rmult_le_pos; lra).
  assert (ua : u53 * Rabs a <= / 1000000 * Rabs a) by (apply Rmult_le_compat_r; lra). assert (ua0 : 0 <= u53 * Rabs a) by (apply Rmult_le_pos; lra).
  assert (QB : Rabs q <= 2 * Rabs a + 2 * w). { replace q with ((q - a) + a) by ring. eapply Rle_trans; [apply Rabs_triang|]. lra. }
  assert (QB2 : Rabs q <= (1 + 2 * / 1000000) * Rabs a + (1 + 2 * / 1000000) * w). { replace q with ((q - a) + a) by ring. eapply Rle_trans; [apply Rabs_triang|]. lra. }
  assert (WB : w <= bpow radix2 329). { unfold w. apply Rle_trans with (4 * bpow radix2 300 * bpow radix2 27); [pose proof (bpow_ge_0 radix2 300); apply Rmult_le_compat; lra|]. rewrite <- Q302, <- bpow_plus. apply bpow_le. lia. }
  assert (QBig : Rabs q <= bpow radix2 1023). { eapply Rle_trans; [exact QB|]. assert (Q4 : bpow radix2 (2 + 329) = 4 * bpow radix2 329) by (rewrite bpow_plus; reflexivity). assert (bpow radix2 300 <= bpow radix2 329) by (apply bpow_le; lia). assert (bpow radix2 (2 + 329) <= bpow radix2 1023) by (apply bpow_le; lia). lra. }
  destruct (fdiv_val (fsub g1 g0) EPS64 FS EPS64_fin) as [VQ FQ]; [fold h; apply Rgt_not_eq; lra|fold h; fold q; exact QBig|]. fold h in VQ. fold q in VQ. split; [exact FQ|]. rewrite VQ.
  pose proof (rnd_err q) as RE. replace (rnd q - a) with ((rnd q - q) + (q - a)) by ring. eapply Rle_trans; [apply Rabs_triang|].
  assert (UQ : u53 * Rabs q <= u53 * (2 * Rabs a + 2 * w)) by (apply Rmult_le_compat_l; lra).
  unfold jac_err. fold h. replace (2 * (u53 * Rabs a * (M + 1) + 2 * delta) / h) with (2 * w) by (unfold w, s, Rdiv; ring).
  assert (bpow radix2 (-1075) <= bpow radix2 (-1074)) by (apply bpow_le; lia). lra.
Qed.

Theorem C110_jacobian var X g dim J f lo hi b M a c delta :
  fins (col64 X f) -> axis_limits64 X f = Ok (lo, hi) -> (forall r, In r X -> (f < length r)%nat) -> (f < dim)%nat -> (Z.of_nat (length X) + 1 <= 2 ^ 48)%Z ->
  Rabs (val lo) <= M -> Rabs (val hi) <= M -> M <= bpow radix2 26 -> bpow radix2 (-900) <= val hi - val lo ->
  (2 <= length (unique64 (col64 X f)))%nat -> roomy b (length X) (length (unique64 (col64 X f))) ->
  0 <= delta <= bpow radix2 300 -> Rabs a <= bpow radix2 300 ->
  (forall r z, In r X -> fin z -> Rabs (val z) <= M + 1 -> near (a * val z + c r) delta (g (list_set r f z))) ->
  compute_jacobian64 (map g) dim X EPS64 = Ok J ->
  let t := jac_err M a delta in let T := slope_err (length X) a t in
  (forall r, In r J -> near a t (nth f r fnan)) /\
  exists p, rhale_fit_feature64 var X J lo hi f b = Ok p /\
    (forall e, In e (p64_effect p) -> near a T e) /\
    (forall v, In v (p64_var p) -> near 0 (heter_err (length X) a t) v) /\
    (forall ps, (forall x, In x ps -> fin x /\ val lo <= val x <= val hi) ->
     exists ys, eval_unnorm64 p ps = Ok ys /\ length ys = length ps /\
       forall i, (i < length ps)%nat -> let x := val (nth i ps fnan) in near (a * (x - val lo)) (line_err (bins_of b) a T (x - val lo)) (nth i ys fnan)).
Proof.
  intros FX HA Hf Hd HN Blo Bhi HM HD U2 HR HDl BA HG HJ t T. destruct (axis_limits64_ok X f lo hi FX HA) as (NX & Flo & Fhi & _ & RX).
  rewrite jacobian64_rows in HJ. assert (EJ : J = map (fun r => map (fun f => fdiv (fsub (g (list_updn r f (fun v => fadd v EPS64))) (g r)) EPS64) (seq 0 dim)) X) by congruence.
  assert (M0 : 0 <= M) by (eapply Rle_trans; [apply Rabs_pos|exact Blo]).
  assert (NJ : forall r, In r J -> near a t (nth f r fnan)).
  { intros r' Hr'. rewrite EJ in Hr'. apply in_map_iff in Hr' as (r & <- & Hr).
    match goal with |- context [nth f (map ?h (seq 0 dim)) fnan] => rewrite (nth_indep _ fnan (h 0%nat)) by (rewrite map_length, seq_length; exact Hd); rewrite (map_nth h), seq_nth by exact Hd end. cbn [Nat.add].
    assert (Fr : fin (nth f r fnan)) by (apply FX, (in_map (fun r => nth f r fnan) X r Hr)). set (x := nth f r fnan) in *. destruct (RX r Hr) as [R1 R2]. fold x in R1, R2.
    assert (Bx : Rabs (val x) <= M) by (apply Rabs_le; apply Rabs_le_inv in Blo; apply Rabs_le_inv in Bhi; lra).
    assert (E1 : g r = g (list_set r f x)). { f_equal. unfold list_set. symmetry. now apply (list_updn_id r f (fun _ => x) fnan). }
    assert (E2 : list_updn r f (fun v => fadd v EPS64) = list_set r f (fadd x EPS64)).
    { apply (list_ext fnan); [rewrite list_updn_length, list_set_length; reflexivity|]. intros j _. rewrite list_updn_nth, list_set_nth by now apply Hf. reflexivity. }
    rewrite E1, E2. pose proof EPS64_bounds as [H1 H2]. assert (P26 : bpow radix2 (-26) <= / 1000) by (unfold bpow; cbn; lra).
    destruct (fadd_val x EPS64 Fr EPS64_fin) as [V F']. { apply EPS_bound; auto. eapply Rle_trans; [exact Bx|]. eapply Rle_trans; [exact HM|]. apply bpow_le. lia. }
    apply (quotient_near x _ _ M a (c r) delta); auto; apply HG; auto; try lra.
    destruct (rnd_plus_rel x EPS64) as (e & X1 & X2). rewrite V, X2. set (y := val x + val EPS64) in *.
    assert (Rabs y <= M + / 1000). { unfold y. eapply Rle_trans; [apply Rabs_triang|]. pose proof (bpow_gt_0 radix2 (-27)). rewrite (Rabs_pos_eq (val EPS64)); lra. }
    rewrite Rabs_mult. assert (Rabs (1 + e) <= 1 + u53). { eapply Rle_trans; [apply Rabs_triang|]. rewrite Rabs_R1. lra. }
    pose proof (Rabs_pos y). apply Rle_trans with ((M + / 1000) * (1 + u53)); [apply Rmult_le_compat; auto using Rabs_pos|].
    assert (UM : u53 * M <= / 1000). { apply Rle_trans with (u53 * bpow radix2 26); [apply Rmult_le_compat_l; [apply Rlt_le, u53_pos|exact HM]|]. rewrite <- bpow_plus. unfold bpow. cbn. lra. }
    pose proof u53_small. lra. }
  split; [exact NJ|]. pose proof EPS64_bounds as [H1 H2]. pose proof (bpow_gt_0 radix2 (-27)) as P27. pose proof (Rabs_pos a) as A0. pose proof u53_pos as U. pose proof u53_small as US.
  assert (ih : 0 < / val EPS64 <= bpow radix2 27). { split; [apply Rinv_0_lt_compat; lra|]. replace (bpow radix2 27) with (/ bpow radix2 (-27)) by (rewrite <- bpow_opp; reflexivity). apply Rinv_le; lra. }
  assert (BM : M + 1 <= bpow radix2 27). { assert (Q : bpow radix2 (1 + 26) = 2 * bpow radix2 26) by (rewrite bpow_plus; reflexivity). change (1 + 26)%Z with 27%Z in Q. assert (1 <= bpow radix2 26) by (change 1 with (bpow radix2 0); apply bpow_le; lia). lra. }
  assert (uM : 0 <= u53 * (M + 1) <= 1). { split; [apply Rmult_le_pos; lra|]. apply Rle_trans with (u53 * bpow radix2 27); [apply Rmult_le_compat_l; lra|]. rewrite <- bpow_plus. change 1 with (bpow radix2 0). apply bpow_le. lia. }
  assert (s3 : 0 <= u53 * Rabs a * (M + 1) + 2 * delta <= 3 * bpow radix2 300). { assert (0 <= Rabs a * (u53 * (M + 1)) <= Rabs a * 1) by (split; [apply Rmult_le_pos; lra|apply Rmult_le_compat_l; lra]). lra. }
  assert (E74 : 0 <= bpow radix2 (-1074) <= bpow radix2 300) by (split; [apply bpow_ge_0|apply bpow_le; lia]).
  assert (T0 : 0 <= t <= 8 * bpow radix2 300 * bpow radix2 27).
  { unfold t, jac_err, Rdiv. set (s := u53 * Rabs a * (M + 1) + 2 * delta) in *. assert (Q1 : 0 <= 2 * s * / val EPS64) by (apply Rmult_le_pos; lra). assert (Q2 : 2 * s * / val EPS64 <= 6 * bpow radix2 300 * bpow radix2 27) by (apply Rmult_le_compat; lra).
    assert (0 <= u53 * Rabs a) by (apply Rmult_le_pos; lra). assert (u53 * Rabs a <= / 1000000 * Rabs a) by (apply Rmult_le_compat_r; lra).
    assert (bpow radix2 300 * 2 <= bpow radix2 300 * bpow radix2 27). { apply Rmult_le_compat_l; [apply bpow_ge_0|]. change 2 with (bpow radix2 1). apply bpow_le. lia. }
    split; lra. }
  destruct (C110_rhale var X J f lo hi b a t) as (p & HP & _ & P1 & P2 & P3); auto; try lra.
  { rewrite EJ, map_length. reflexivity. }
  { change 8 with (bpow radix2 3) in T0. rewrite <- !bpow_plus in T0. change (3 + 300 + 27)%Z with 330%Z in T0. assert (Q4 : bpow radix2 (1 + 330) = 2 * bpow radix2 330) by (rewrite bpow_plus; reflexivity).
    assert (bpow radix2 300 <= bpow radix2 330) by (apply bpow_le; lia). assert (bpow radix2 (1 + 330) <= bpow radix2 400) by (apply bpow_le; lia). lra. }
  exists p. auto.
Qed.

Print Assumptions C110_rhale. Print Assumptions C110_jacobian.

(** * Concrete case *)

(** The model x_0 on the instances 0, 1, ..., 16 (twice each), RHALE with its numerical Jacobian and the greedy binning (20 initial bins,
    discount 0.3, min_points 2), whatever np.var computes: the fit succeeds, every heterogeneity value is below 1e-11 and at
    every float position in [0, 16] the curve is within 2e-6 x (and 20 subnormal units) of x. *)
Definition rhale17 (var : list b64 -> b64) (X : list (list b64)) : res params64 :=
  '(lo, hi) <- axis_limits64 X 0 ;; J <- compute_jacobian64 (map (fun r => nth 0 r fnan)) 1 X EPS64 ;; rhale_fit_feature64 var X J lo hi 0 (BGreedy 20 f03 2 15).
Lemma rhale17_eq var X lo hi J : axis_limits64 X 0 = Ok (lo, hi) -> compute_jacobian64 (map (fun r => nth 0 r fnan)) 1 X EPS64 = Ok J ->
  rhale17 var X = rhale_fit_feature64 var X J lo hi 0 (BGreedy 20 f03 2 15).
Proof. intros A E. unfold rhale17. rewrite A. cbn [bind]. rewrite E. reflexivity. Qed.
Lemma rhale_line var X lo hi :
  length X = 34%nat -> fins (col64 X 0) -> (15 < length (unique64 (col64 X 0)))%nat -> (forall r, In r X -> length r = 1%nat) ->
  axis_limits64 X 0 = Ok (lo, hi) -> val lo = 0 -> val hi = 16 ->
  exists p, rhale17 var X = Ok p /\ (forall v, In v (p64_var p) -> near 0 (1 / 100000000000) v) /\
    forall x, fin x -> 0 <= val x <= 16 -> exists y, eval_unnorm64 p [x] = Ok [y] /\ near (val x) (2 / 1000000 * val x + 20 * bpow radix2 (-1074)) y.
Proof.
  intros LX FX UX RX A V0 V1.
  assert (EJ : exists J, compute_jacobian64 (map (fun r => nth 0 r fnan)) 1 X EPS64 = Ok J) by (rewrite jacobian64_rows; eauto). destruct EJ as (J & EJ). rewrite (rhale17_eq var X lo hi J A EJ).
  assert (P53 : u53 <= 12 / 100000000000000000) by (unfold bpow; cbn; lra). pose proof u53_pos as U.
  destruct (C110_jacobian var X (fun r => nth 0 r fnan) 1 J 0 lo hi (BGreedy 20 f03 2 15) 16 1 (fun _ => 0) 0) as (_ & p & HP & _ & P2 & P3).
  - exact FX.
  - exact A.
  - intros r Hr. rewrite (RX r Hr). lia.
  - lia.
  - rewrite LX. cbn. lia.
  - rewrite V0, Rabs_R0. lra.
  - rewrite V1, Rabs_pos_eq; lra.
  - change 16 with (bpow radix2 4). apply bpow_le. lia.
  - rewrite V0, V1. assert (bpow radix2 (-900) <= 1) by (change 1 with (bpow radix2 0); apply bpow_le; lia). lra.
  - lia.
  - cbn [roomy]. rewrite LX. lia.
  - split; [lra|apply bpow_ge_0].
  - rewrite Rabs_R1. change 1 with (bpow radix2 0). apply bpow_le. lia.
  - intros r z Hr Fz _. pose proof (RX r Hr) as L. destruct r as [|v [|]]; try discriminate L. cbn [list_set list_updn nth]. split; [exact Fz|]. rewrite Rmult_1_l, Rplus_0_r, Rminus_diag_eq, Rabs_R0 by reflexivity. lra.
  - exact EJ.
  - assert (E74 : bpow radix2 (-1074) <= bpow radix2 (-53)) by (apply bpow_le; lia). assert (E75 : bpow radix2 (-1075) <= bpow radix2 (-100)) by (apply bpow_le; lia). assert (E99 : bpow radix2 (-999) <= bpow radix2 (-53)) by (apply bpow_le; lia).
    assert (E100 : bpow radix2 (-1000) <= bpow radix2 (-100)) by (apply bpow_le; lia). assert (E1h : bpow radix2 (-100) <= / 1000000000000000000000) by (unfold bpow; cbn; lra). pose proof (bpow_ge_0 radix2 (-1074)). pose proof (bpow_ge_0 radix2 (-1075)).
    set (t := jac_err 16 1 0) in *. assert (TB : 0 <= t <= 43 / 100000000).
    { unfold t, jac_err. rewrite Rabs_R1. pose proof EPS64_approx as EA. assert (E80 : bpow radix2 (-80) <= / 1000000000000000000000) by (unfold bpow; cbn; lra). apply Rabs_def2 in EA. set (h := val EPS64) in *.
      assert (Hh9 : 9 / 1000000000 <= h) by lra. assert (IH : 0 < / h) by (apply Rinv_0_lt_compat; lra). assert (ih : / h <= 1000000000 / 9). { replace (1000000000 / 9) with (/ (9 / 1000000000)) by field. apply Rinv_le; lra. }
      replace (2 * (u53 * 1 * (16 + 1) + 2 * 0) / h) with (34 * u53 * / h) by (unfold Rdiv; ring). assert (0 <= 34 * u53 * / h) by (apply Rmult_le_pos; lra). assert (34 * u53 * / h <= 34 * (1112 / 10000000000000000000) * (1000000000 / 9)).
      { assert (u53 <= 1112 / 10000000000000000000) by (unfold bpow; cbn; lra). apply Rmult_le_compat; lra. }
      split; lra. }
    rewrite LX in P2, P3.
    pose proof (gam_small 36 ltac:(cbn; lia)) as G36. change (IZR (Z.of_nat 36)) with 36 in G36. pose proof (gam_small 35 ltac:(cbn; lia)) as G35. change (IZR (Z.of_nat 35)) with 35 in G35. pose proof (gam_pos 35) as G35p. pose proof (gam_pos 36) as G36p.
    exists p. split; [exact HP|]. split.
    + intros v Hv. apply (near_le _ _ _ _ (P2 v Hv)). unfold heter_err, var_err, mean_err. rewrite Rabs_R1. set (s := t + gam 35 * (1 + t) + bpow radix2 (-1075)).
      assert (gam 35 * (1 + t) <= gam 35 * 2) by (apply Rmult_le_compat_l; lra). assert (0 <= gam 35 * (1 + t)) by (apply Rmult_le_pos; lra).
      assert (S1 : 0 <= t + s <= 9 / 10000000) by (unfold s; lra). assert ((t + s) * (t + s) <= 9 / 10000000 * (9 / 10000000)) by (apply Rmult_le_compat; lra). lra.
    + intros x Fx Rx. destruct (P3 [x]) as (ys & Y1 & Y2 & Y3); [intros z [<-|[]]; split; [exact Fx|lra]|]. destruct ys as [|y [|]]; try discriminate Y2. exists y. split; [exact Y1|].
      specialize (Y3 0%nat ltac:(cbn; lia)). cbn [nth] in Y3. rewrite V0, Rminus_0_r, Rmult_1_l in Y3. apply (near_le _ _ _ _ Y3). cbn [bins_of]. unfold line_err. apply Rplus_le_compat; [|apply Rle_refl].
      apply Rmult_le_compat_r; [lra|]. rewrite Rabs_R1. set (T := slope_err 34 1 t).
      assert (TT : 0 <= T <= 15 / 10000000). { unfold T. split; [apply slope_err_pos; lra|]. unfold slope_err. rewrite Rabs_R1. cbn [Nat.add]. lra. }
      pose proof (gam_small 22 ltac:(cbn; lia)) as G22. change (IZR (Z.of_nat 22)) with 22 in G22. pose proof (gam_pos 22) as G22p. cbn [Nat.add]. fold (gam 22). assert (gam 22 * (1 + T) <= gam 22 * 2) by (apply Rmult_le_compat_l; lra). lra.
Qed.
Example rhale_identity var : exists p, rhale17 var (values17 0) = Ok p /\ (forall v, In v (p64_var p) -> near 0 (1 / 100000000000) v) /\
  forall x, fin x -> 0 <= val x <= 16 -> exists y, eval_unnorm64 p [x] = Ok [y] /\ near (val x) (2 / 1000000 * val x + 20 * bpow radix2 (-1074)) y.
Proof.
  destruct axis17 as (lo & hi & A & V0 & V1). apply (rhale_line var (values17 0) lo hi L34); auto.
  - apply fins_check. vm_compute. reflexivity.
  - apply Nat.ltb_lt. vm_compute. reflexivity.
  - intros r Hr. unfold values17 in Hr. apply in_map_iff in Hr as (i & Ei & _). rewrite <- Ei. clear. generalize (fofZ (0 + Z.of_nat i)). reflexivity.
Qed.
